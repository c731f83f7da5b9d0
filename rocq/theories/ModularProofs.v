From Coq Require Import Znumtheory.
From Verif Require Import Machine NumTheory RatNum RatNumProofs Modular.

(** State of the extended Euclidean algorithm on (p, a): two consecutive rows. *)
Definition est (a p t r t' r' : Z) : Prop :=
  0 <= r' < r /\ r <= p /\ (p | r - t * a) /\ (p | r' - t' * a) /\
  exists sg, (sg = 1 \/ sg = -1) /\ 0 <= - sg * t <= sg * t' /\ 1 <= sg * t' /\
             sg * t' * r + - sg * t * r' = p.

Lemma est_init a p : 0 <= a < p -> est a p 0 p 1 a.
Proof.
  intros H. split; [lia|]. split; [lia|]. split; [exists 1; lia|]. split; [exists 0; lia|].
  exists 1. lia.
Qed.

Lemma est_step a p t r t' r' : est a p t r t' r' -> 0 < r' ->
  est a p t' r' (t - r / r' * t') (r - r / r' * r').
Proof.
  intros (H1 & H2 & D1 & D2 & sg & S1 & S2 & S3 & S4) Hr.
  pose proof (Z.div_mod r r' ltac:(lia)) as DM.
  pose proof (Z.mod_pos_bound r r' ltac:(lia)) as MB.
  assert (Q1 : 1 <= r / r') by (apply Z.div_le_lower_bound; lia).
  set (q := r / r') in *. clearbody q.
  split; [lia|]. split; [lia|]. split; [exact D2|]. split.
  - replace (r - q * r' - (t - q * t') * a) with ((r - t * a) - q * (r' - t' * a)) by ring.
    apply Z.divide_sub_r; [exact D1|]. apply Z.divide_mul_r; exact D2.
  - exists (- sg). assert (sg * t' * 1 <= sg * t' * q) by (apply Z.mul_le_mono_nonneg_l; lia).
    split; [lia|]. split; [lia|]. split; [lia|].
    replace (- sg * (t - q * t') * r' + - - sg * t' * (r - q * r')) with
      (sg * t' * r + - sg * t * r') by ring. exact S4.
Qed.

Lemma est_measure a p t r t' r' n : est a p t r t' r' -> 0 < r' -> r * r' < 2 ^ Z.of_nat (S n) ->
  r' * (r - r / r' * r') < 2 ^ Z.of_nat n.
Proof.
  intros (H1 & H2 & _) Hr HM.
  pose proof (Z.div_mod r r' ltac:(lia)) as DM.
  pose proof (Z.mod_pos_bound r r' ltac:(lia)) as MB.
  assert (Q1 : 1 <= r / r') by (apply Z.div_le_lower_bound; lia).
  rewrite Nat2Z.inj_succ, Z.pow_succ_r in HM by lia.
  replace (r - r / r' * r') with (r mod r') by lia.
  assert (2 * (r mod r') < r) by nia. nia.
Qed.

Lemma fuel_enough p a : 0 <= a < p -> p * a < 2 ^ Z.of_nat (euclid_fuel p).
Proof.
  intros H. unfold euclid_fuel. pose proof (Z.log2_nonneg p) as L.
  rewrite Z2Nat.id by lia.
  pose proof (Z.log2_spec p ltac:(lia)) as [_ U].
  replace (2 * Z.log2 p + 4) with (Z.succ (Z.log2 p) + Z.succ (Z.log2 p) + 2) by lia.
  rewrite !Z.pow_add_r by lia. change (2 ^ 2) with 4.
  assert (p * a <= p * p) by nia. nia.
Qed.

Lemma est_lattice a p t r t' r' x y : est a p t r t' r' -> 0 < p -> (p | x - y * a) ->
  exists al be, x = al * r + be * r' /\ y = al * t + be * t'.
Proof.
  intros (H1 & H2 & [u D1] & [v D2] & sg & S1 & S2 & S3 & S4) Hp [w Hw].
  assert (E1 : x * t' - y * r' = (w * t' - y * v) * p) by nia.
  assert (E2 : y * r - x * t = (y * u - w * t) * p) by nia.
  exists (sg * (w * t' - y * v)), (sg * (y * u - w * t)).
  assert (SS : sg * sg = 1) by (destruct S1; subst; reflexivity).
  split.
  - apply (Z.mul_reg_r _ _ p); [lia|].
    replace ((sg * (w * t' - y * v) * r + sg * (y * u - w * t) * r') * p) with
      (sg * r * ((w * t' - y * v) * p) + sg * r' * ((y * u - w * t) * p)) by ring.
    rewrite <- E1, <- E2.
    replace (sg * r * (x * t' - y * r') + sg * r' * (y * r - x * t)) with
      (x * (sg * t' * r + - sg * t * r')) by ring. rewrite S4. reflexivity.
  - apply (Z.mul_reg_r _ _ p); [lia|].
    replace ((sg * (w * t' - y * v) * t + sg * (y * u - w * t) * t') * p) with
      (sg * t * ((w * t' - y * v) * p) + sg * t' * ((y * u - w * t) * p)) by ring.
    rewrite <- E1, <- E2.
    replace (sg * t * (x * t' - y * r') + sg * t' * (y * r - x * t)) with
      (y * (sg * t' * r + - sg * t * r')) by ring. rewrite S4. reflexivity.
Qed.

(** ** Chinese remainder *)

Lemma egcd_spec a p : 0 < p -> forall fuel t r t' r', est a p t r t' r' -> r * r' < 2 ^ Z.of_nat fuel ->
  exists t0 g, egcd fuel t t' r r' = Some (t0, g) /\ g = Z.gcd r r' /\ (p | g - t0 * a).
Proof.
  intros Hp. induction fuel as [|f IH]; intros t r t' r' HE HM; cbn [egcd].
  - assert (r' = 0).
    { destruct HE as (H1 & H2 & _). change (2 ^ Z.of_nat 0) with 1 in HM. nia. }
    subst r'. rewrite Z.eqb_refl. exists t, r. destruct HE as (H1 & H2 & D1 & _).
    split; [reflexivity|]. split; [rewrite Z.gcd_0_r; lia|exact D1].
  - destruct (r' =? 0) eqn:C.
    + apply Z.eqb_eq in C. subst r'. exists t, r. destruct HE as (H1 & H2 & D1 & _).
      split; [reflexivity|]. split; [rewrite Z.gcd_0_r; lia|exact D1].
    + assert (H0 : 0 < r') by (destruct HE; lia).
      destruct (IH _ _ _ _ (est_step a p t r t' r' HE H0) (est_measure a p t r t' r' f HE H0 HM))
        as (t0 & g & E & G & D).
      exists t0, g. split; [exact E|]. split; [|exact D]. rewrite G.
      pose proof (Z.div_mod r r' ltac:(lia)) as DM.
      replace (r - r / r' * r') with (r mod r') by lia.
      rewrite (Z.gcd_comm r'), Z.gcd_mod by lia. apply Z.gcd_comm.
Qed.

Lemma mpz_invert_spec a m : 0 < m -> Z.gcd a m = 1 ->
  exists i, mpz_invert a m = Some i /\ 0 <= i < m /\ (i * a) mod m = 1 mod m.
Proof.
  intros Hm HG. unfold mpz_invert.
  pose proof (Z.mod_pos_bound a m Hm) as AB.
  destruct (egcd_spec (a mod m) m Hm (euclid_fuel m) 0 m 1 (a mod m) (est_init (a mod m) m AB)
              (fuel_enough m (a mod m) AB)) as (t0 & g & E & G & D).
  rewrite E. assert (G1 : g = 1).
  { rewrite G, Z.gcd_comm, Z.gcd_mod by lia. rewrite Z.gcd_comm. exact HG. }
  rewrite G1 in *. exists (t0 mod m). split; [reflexivity|].
  split; [apply Z.mod_pos_bound; lia|].
  destruct D as [k Hk]. rewrite Zmult_mod, Z.mod_mod by lia.
  replace 1 with (t0 * (a mod m) + k * m) by lia. rewrite Z.mod_add by lia.
  rewrite (Zmult_mod t0 (a mod m)), Z.mod_mod by lia. reflexivity.
Qed.

Lemma mpz_invert_none a m : 0 < m -> Z.gcd a m <> 1 -> mpz_invert a m = None.
Proof.
  intros Hm HG. unfold mpz_invert.
  pose proof (Z.mod_pos_bound a m Hm) as AB.
  destruct (egcd_spec (a mod m) m Hm (euclid_fuel m) 0 m 1 (a mod m) (est_init (a mod m) m AB)
              (fuel_enough m (a mod m) AB)) as (t0 & g & E & G & D).
  rewrite E. assert (G1 : g <> 1).
  { rewrite G, Z.gcd_comm, Z.gcd_mod by lia. rewrite Z.gcd_comm. exact HG. }
  destruct g as [|g|g]; try reflexivity. destruct g; try reflexivity. congruence.
Qed.

Lemma rem_nonneg_mod a n : 0 <= a -> 0 < n -> Z.rem a n = a mod n.
Proof. intros Ha Hn. apply Z.rem_mod_nonneg; lia. Qed.

Lemma crt_spec a1 m1 a2 m2 : 0 < m1 -> 0 < m2 -> Z.gcd m1 m2 = 1 -> 0 <= a1 -> 0 <= a2 ->
  exists a, run_chinese_remainder (a1, m1) (a2, m2) = Some (a, m1 * m2) /\
    0 <= a < m1 * m2 /\ a mod m1 = a1 mod m1 /\ a mod m2 = a2 mod m2.
Proof.
  intros Hm1 Hm2 HG Ha1 Ha2. unfold run_chinese_remainder. cbn [fst snd].
  destruct (mpz_invert_spec m2 m1 Hm1) as (i & E & IB & IM); [rewrite Z.gcd_comm; exact HG|].
  rewrite E. eexists. split; [reflexivity|].
  assert (NP : 0 < m1 * m2) by nia.
  set (n := m1 * m2) in *.
  set (x2 := if Z.rem (1 - i * m2) n <? 0 then Z.rem (1 - i * m2) n + n else Z.rem (1 - i * m2) n).
  assert (X2 : 0 <= x2 /\ exists k, x2 = 1 - i * m2 + k * n).
  { pose proof (Z.quot_rem' (1 - i * m2) n) as QR.
    pose proof (Z.rem_bound_abs (1 - i * m2) n ltac:(lia)) as RB.
    unfold x2. destruct (Z.rem (1 - i * m2) n <? 0) eqn:C; split; try lia.
    - exists (1 - Z.quot (1 - i * m2) n). lia.
    - exists (- Z.quot (1 - i * m2) n). lia. }
  destruct X2 as [X0 [k Hk]].
  assert (S0 : 0 <= i * m2 * a1 + x2 * a2).
  { assert (0 <= i * m2) by nia. nia. }
  rewrite rem_nonneg_mod by lia.
  split; [apply Z.mod_pos_bound; lia|].
  destruct (mod_ex (i * m2 * a1 + x2 * a2) n ltac:(lia)) as [w Hw]. rewrite Hw.
  destruct (mod_ex (i * m2) m1 ltac:(lia)) as [v Hv].
  destruct (mod_ex 1 m1 ltac:(lia)) as [v1 Hv1].
  rewrite IM, Hv1 in Hv.
  split.
  - (* i*m2 = 1 + (v1 - v) m1 *)
    apply mod_eq_ex with ((v1 - v) * a1 + (- (v1 - v) + k * m2) * a2 + w * m2); [lia|].
    rewrite Hk. unfold n. assert (I : i * m2 = 1 + (v1 - v) * m1) by lia. rewrite I. ring.
  - apply mod_eq_ex with (i * a1 + (- i + k * m1) * a2 + w * m1); [lia|].
    rewrite Hk. unfold n. ring.
Qed.

Lemma crt_unique m1 m2 x y : 0 < m1 -> 0 < m2 -> Z.gcd m1 m2 = 1 -> 0 <= x < m1 * m2 -> 0 <= y < m1 * m2 ->
  x mod m1 = y mod m1 -> x mod m2 = y mod m2 -> x = y.
Proof.
  intros H1 H2 HG Hx Hy E1 E2.
  assert (D1 : (m1 | x - y)).
  { apply Z.mod_divide; [lia|]. rewrite Zminus_mod, E1, Z.sub_diag. apply Z.mod_0_l; lia. }
  assert (D2 : (m2 | x - y)).
  { apply Z.mod_divide; [lia|]. rewrite Zminus_mod, E2, Z.sub_diag. apply Z.mod_0_l; lia. }
  destruct D1 as [k Hk].
  assert (D3 : (m2 | k)).
  { apply Z.gauss with m1; [rewrite Z.mul_comm, <- Hk; exact D2|rewrite Z.gcd_comm; exact HG]. }
  destruct D3 as [j Hj]. assert (j = 0) by nia. subst. lia.
Qed.

(** ** Rational reconstruction *)

Lemma ratrec_loop_spec a p : 0 < p -> forall fuel t r t' r', est a p t r t' r' ->
  p < 2 * r * r -> r * r' < 2 ^ Z.of_nat fuel ->
  exists t0 r0 t1 r1, ratrec_loop fuel p t t' r r' = Some (t1, r1) /\ est a p t0 r0 t1 r1 /\
    p < 2 * r0 * r0 /\ 2 * r1 * r1 <= p.
Proof.
  intros Hp. induction fuel as [|f IH]; intros t r t' r' HE HB HM; cbn [ratrec_loop].
  - assert (r' = 0).
    { destruct HE as (H1 & H2 & _). change (2 ^ Z.of_nat 0) with 1 in HM. nia. }
    subst r'. destruct (p <? 2 * 0 * 0) eqn:C; [lia|].
    exists t, r, t', 0. split; [reflexivity|]. split; [exact HE|]. split; [exact HB|lia].
  - destruct (p <? 2 * r' * r') eqn:C.
    + assert (H0 : 0 < r') by (destruct HE; nia).
      rewrite Z.quot_div_nonneg by (destruct HE; lia).
      apply IH; [apply est_step; assumption|lia|eapply est_measure; eassumption].
    + exists t, r, t', r'. split; [reflexivity|]. split; [exact HE|]. split; [exact HB|lia].
Qed.

Lemma abs_sq_le x y : 0 <= y -> x * x <= y * y -> Z.abs x <= y.
Proof. intros Hy H. nia. Qed.

(** the unique fraction is found at the first row below the bound *)
Lemma ratrec_complete_core a p t r t' r' n d : 2 < p -> est a p t r t' r' ->
  p < 2 * r * r -> 2 * r' * r' <= p ->
  0 < d -> Z.gcd n d = 1 -> 2 * n * n <= p -> 2 * d * d <= p -> (p | n - a * d) ->
  (n = r' /\ d = t') \/ (n = - r' /\ d = - t').
Proof.
  intros Hp HE HB HS Hd HG Hn Hd2 HD.
  assert (ST : 2 * (Z.abs n * d) < p).
  { assert (Q : 2 * (Z.abs n * d) <= p).
    { assert (0 <= (Z.abs n - d) * (Z.abs n - d)) by apply Z.square_nonneg.
      assert (n * n = Z.abs n * Z.abs n) by (rewrite <- Z.abs_mul; symmetry; apply Z.abs_eq; apply Z.square_nonneg).
      nia. }
    destruct (Z.eq_dec (2 * (Z.abs n * d)) p) as [E|]; [|lia]. exfalso.
    assert (n * n = Z.abs n * Z.abs n) by (rewrite <- Z.abs_mul; symmetry; apply Z.abs_eq; apply Z.square_nonneg).
    assert (A : Z.abs n = d) by nia.
    assert (G : Z.gcd n d = d).
    { rewrite <- Z.gcd_abs_l, A, Z.gcd_diag. lia. }
    rewrite HG in G. rewrite A, <- G in E. lia. }
  destruct (est_lattice a p t r t' r' n d HE ltac:(lia)) as (al & be & En & Ed).
  { replace (n - d * a) with (n - a * d) by ring. exact HD. }
  destruct HE as (H1 & H2 & _ & _ & sg & S1 & S2 & S3 & S4).
  assert (NR : Z.abs n < r).
  { destruct (Z_lt_le_dec (Z.abs n) r) as [|L]; [assumption|]. exfalso.
    assert (r * r <= Z.abs n * Z.abs n) by (apply Z.mul_le_mono_nonneg; lia).
    assert (n * n = Z.abs n * Z.abs n) by (rewrite <- Z.abs_mul; symmetry; apply Z.abs_eq; apply Z.square_nonneg).
    lia. }
  assert (AL : al = 0).
  { destruct (Z.eq_dec al 0) as [|NA]; [assumption|]. exfalso.
    (* al and be have strictly opposite signs *)
    assert (OS : al * be < 0).
    { destruct (Z_lt_le_dec (al * be) 0) as [|L]; [assumption|]. exfalso.
      assert (Z.abs n = Z.abs al * r + Z.abs be * r').
      { rewrite En. destruct (Z_le_gt_dec 0 al); destruct (Z_le_gt_dec 0 be); nia. }
      assert (0 <= Z.abs be * r') by (apply Z.mul_nonneg_nonneg; lia).
      assert (1 * r <= Z.abs al * r) by (apply Z.mul_le_mono_nonneg_r; lia). lia. }
    assert (X1 : 1 <= Z.abs al) by lia. assert (Y1 : 1 <= Z.abs be) by nia.
    set (T := - sg * t) in *. set (T' := sg * t') in *.
    set (x := Z.abs al) in *. set (y := Z.abs be) in *.
    assert (DD : d = x * T + y * T').
    { assert (DA : Z.abs d = x * T + y * T'); [|lia].
      rewrite Ed. unfold x, y, T, T' in *.
      destruct S1; subst sg; destruct (Z_le_gt_dec 0 al); destruct (Z_le_gt_dec 0 be); nia. }
    assert (NN : x * r <= y * r' + Z.abs n).
    { assert (XR : x * r = Z.abs (al * r)) by (rewrite Z.abs_mul, (Z.abs_eq r) by lia; reflexivity).
      assert (YR : y * r' = Z.abs (be * r')) by (rewrite Z.abs_mul, (Z.abs_eq r') by lia; reflexivity).
      rewrite XR, YR. lia. }
    assert (RD : 2 * (r' * d) <= p).
    { assert (0 <= (r' - d) * (r' - d)) by apply Z.square_nonneg. lia. }
    assert (F1 : T' * r <= T' * (x * r)).
    { apply Z.mul_le_mono_nonneg_l; [lia|]. rewrite <- (Z.mul_1_l r) at 1.
      apply Z.mul_le_mono_nonneg_r; lia. }
    assert (F2 : T' * (x * r) <= T' * (y * r' + Z.abs n)) by (apply Z.mul_le_mono_nonneg_l; lia).
    assert (F3 : T * r' <= x * T * r').
    { apply Z.mul_le_mono_nonneg_r; [lia|]. rewrite <- (Z.mul_1_l T) at 1.
      apply Z.mul_le_mono_nonneg_r; lia. }
    assert (F4 : Z.abs n * T' <= Z.abs n * d).
    { apply Z.mul_le_mono_nonneg_l; [lia|]. rewrite DD.
      assert (1 * T' <= y * T') by (apply Z.mul_le_mono_nonneg_r; lia).
      assert (0 <= x * T) by (apply Z.mul_nonneg_nonneg; lia). lia. }
    assert (F5 : r' * d = r' * (x * T) + r' * (y * T')) by (rewrite DD; ring).
    lia. }
  subst al. rewrite Z.mul_0_l, Z.add_0_l in En, Ed.
  assert (BU : be = 1 \/ be = -1).
  { assert (DV : (be | Z.gcd n d)).
    { apply Z.gcd_greatest; [rewrite En; apply Z.divide_factor_l|rewrite Ed; apply Z.divide_factor_l]. }
    rewrite HG in DV. apply Z.divide_1_r in DV. lia. }
  destruct BU; subst be; [left|right]; lia.
Qed.

Lemma get_rational_coef_total a p : 0 <= a < p -> exists b r, get_rational_coef a p = Some (b, r).
Proof.
  intros Ha. unfold get_rational_coef.
  destruct (ratrec_loop_spec a p ltac:(lia) (euclid_fuel p) 0 p 1 a (est_init a p Ha) ltac:(nia) (fuel_enough p a Ha))
    as (t0 & r0 & t1 & r1 & E & HE & B1 & B2).
  rewrite E.
  set (fl := (p <? 2 * t1 * t1) || negb (Z.gcd r1 t1 =? 1)).
  assert (T1 : t1 <> 0). { destruct HE as (_ & _ & _ & _ & sg & S1 & S2 & S3 & S4). lia. }
  destruct fl.
  - vm_compute. eauto.
  - destruct (t1 <? 0) eqn:C.
    + destruct (rn_make_ok (- r1) (Z.abs t1) ltac:(lia)) as (r & Er & _). rewrite Er. cbn. eauto.
    + destruct (rn_make_ok r1 t1 T1) as (r & Er & _). rewrite Er. cbn. eauto.
Qed.

Lemma get_rational_coef_sound a p r : 0 <= a < p -> get_rational_coef a p = Some (true, r) ->
  0 < den r /\ Z.gcd (num r) (den r) = 1 /\ (num r - a * den r) mod p = 0 /\
  2 * (num r * num r) <= p /\ 2 * (den r * den r) <= p.
Proof.
  intros Ha. unfold get_rational_coef.
  destruct (ratrec_loop_spec a p ltac:(lia) (euclid_fuel p) 0 p 1 a (est_init a p Ha) ltac:(nia) (fuel_enough p a Ha))
    as (t0 & r0 & t1 & r1 & E & HE & B1 & B2).
  rewrite E.
  destruct HE as (H1 & H2 & _ & [k Hk] & sg & S1 & S2 & S3 & S4).
  destruct ((p <? 2 * t1 * t1) || negb (Z.gcd r1 t1 =? 1)) eqn:FL.
  { destruct (rn_make 1 1); cbn; intros X; discriminate X. }
  apply orb_false_iff in FL. destruct FL as [F1 F2]. apply negb_false_iff, Z.eqb_eq in F2.
  destruct (t1 <? 0) eqn:C.
  - replace (Z.abs t1) with (- t1) by lia.
    rewrite rn_make_exact; [|lia|rewrite Z.gcd_opp_l, Z.gcd_opp_r; exact F2].
    cbn [option_map negb]. intros X. inversion X; subst r. cbn [num den].
    split; [lia|]. split; [rewrite Z.gcd_opp_l, Z.gcd_opp_r; exact F2|].
    split; [|split; [lia|lia]].
    replace (- r1 - a * - t1) with ((- k) * p) by lia. apply Z.mod_mul; lia.
  - rewrite rn_make_exact; [|lia|exact F2].
    cbn [option_map negb]. intros X. inversion X; subst r. cbn [num den].
    split; [lia|]. split; [exact F2|]. split; [|split; lia].
    replace (r1 - a * t1) with (k * p) by lia. apply Z.mod_mul; lia.
Qed.

Lemma get_rational_coef_complete a p n d : 2 < p -> 0 <= a < p ->
  0 < d -> Z.gcd n d = 1 -> 2 * (n * n) <= p -> 2 * (d * d) <= p -> (n - a * d) mod p = 0 ->
  get_rational_coef a p = Some (true, mk_rn n d).
Proof.
  intros Hp Ha Hd HG Hn Hd2 HM. apply Z.mod_divide in HM; [|lia].
  unfold get_rational_coef.
  destruct (ratrec_loop_spec a p ltac:(lia) (euclid_fuel p) 0 p 1 a (est_init a p Ha) ltac:(nia) (fuel_enough p a Ha))
    as (t0 & r0 & t1 & r1 & E & HE & B1 & B2).
  rewrite E.
  destruct (ratrec_complete_core a p t0 r0 t1 r1 n d Hp HE B1 B2 Hd HG ltac:(lia) ltac:(lia) HM)
    as [[En Ed]|[En Ed]].
  - subst n d. assert (FL : (p <? 2 * t1 * t1) || negb (Z.gcd r1 t1 =? 1) = false).
    { rewrite HG. apply orb_false_iff. split; [lia|reflexivity]. }
    rewrite FL. destruct (t1 <? 0) eqn:C; [lia|].
    rewrite rn_make_exact by (lia || exact HG). reflexivity.
  - assert (t1 = - d) by lia. assert (r1 = - n) by lia. subst t1 r1.
    assert (HG' : Z.gcd (- n) (- d) = 1) by (rewrite Z.gcd_opp_l, Z.gcd_opp_r; exact HG).
    assert (FL : (p <? 2 * - d * - d) || negb (Z.gcd (- n) (- d) =? 1) = false).
    { rewrite HG'. apply orb_false_iff. split; [lia|reflexivity]. }
    rewrite FL. destruct (- d <? 0) eqn:C; [|lia].
    rewrite Z.opp_involutive. replace (Z.abs (- d)) with d by lia.
    rewrite rn_make_exact by (lia || exact HG). reflexivity.
Qed.

(** ** Several primes *)

(** Combining images one prime after the other, as the reconstruction classes do. *)
Fixpoint crt_fold (acc : Z * Z) (l : list (Z * Z)) : option (Z * Z) :=
  match l with
  | [] => Some acc
  | x :: l' => match run_chinese_remainder acc x with
               | Some acc' => crt_fold acc' l'
               | None => None
               end
  end.

Lemma mod_mod_divide a m n : 0 < m -> (m | n) -> n <> 0 -> (a mod n) mod m = a mod m.
Proof. intros Hm [k ->] Hn. destruct (mod_ex a (k * m) Hn) as [j Hj]. rewrite Hj.
  apply mod_eq_ex with (j * k); [lia|]. ring. Qed.

Lemma crt_fold_spec z : forall l m0, 0 < m0 ->
  Forall (fun m => 0 < m) l ->
  (forall m, In m l -> Z.gcd m0 m = 1) -> ForallOrdPairs (fun m m' => Z.gcd m m' = 1) l ->
  crt_fold (z mod m0, m0) (map (fun m => (z mod m, m)) l) =
    Some (z mod (m0 * zprod l), m0 * zprod l).
Proof.
  induction l as [|m l IH]; intros m0 H0 HP HC HO.
  - unfold zprod; cbn [map crt_fold fold_right]. rewrite Z.mul_1_r. reflexivity.
  - inversion_clear HP as [|? ? Hm HP']. inversion_clear HO as [|? ? HmO HO'].
    cbn [map crt_fold].
    destruct (crt_spec (z mod m0) m0 (z mod m) m H0 Hm (HC m (or_introl eq_refl)))
      as (a & E & B & A1 & A2); [apply Z.mod_pos_bound; lia|apply Z.mod_pos_bound; lia|].
    rewrite E. rewrite Z.mod_mod in A1, A2 by lia.
    assert (EA : a = z mod (m0 * m)).
    { apply (crt_unique m0 m); try assumption.
      - apply HC; left; reflexivity.
      - apply Z.mod_pos_bound; nia.
      - rewrite mod_mod_divide; [exact A1|lia|exists m; ring|nia].
      - rewrite mod_mod_divide; [exact A2|lia|exists m0; ring|nia]. }
    rewrite EA, IH.
    + unfold zprod. cbn [fold_right]. rewrite !Z.mul_assoc. reflexivity.
    + nia.
    + exact HP'.
    + intros m' Hm'. apply Zgcd_1_rel_prime. apply rel_prime_sym, rel_prime_mult.
      * apply rel_prime_sym, Zgcd_1_rel_prime, HC. right; exact Hm'.
      * apply rel_prime_sym, Zgcd_1_rel_prime. rewrite Forall_forall in HmO. apply HmO; exact Hm'.
    + exact HO'.
Qed.

Lemma zprod_gcd d l : (forall m, In m l -> Z.gcd d m = 1) -> Z.gcd d (zprod l) = 1.
Proof.
  induction l as [|m l IH]; intros H.
  - unfold zprod; cbn [fold_right]. apply Z.gcd_1_r.
  - unfold zprod in *. cbn [fold_right]. apply Zgcd_1_rel_prime, rel_prime_mult.
    + apply Zgcd_1_rel_prime, H. left; reflexivity.
    + apply Zgcd_1_rel_prime, IH. intros m' Hm'. apply H. right; exact Hm'.
Qed.

Lemma zprod_divides m l : In m l -> (m | zprod l).
Proof.
  unfold zprod. induction l as [|x l IH]; intros H; [destruct H|]. cbn [fold_right].
  destruct H as [->|H]; [apply Z.divide_factor_l|]. apply Z.divide_mul_r, IH, H.
Qed.

(** End to end: if n/d has the image a_i modulo each of the pairwise coprime
    moduli m_i (none of which shares a factor with d), combining the images and
    reconstructing gives n/d as soon as the product of the moduli is large enough. *)
Lemma multi_prime_reconstruction n d m0 l images :
  0 < d -> Z.gcd n d = 1 ->
  Forall (fun m => 0 < m) (m0 :: l) -> ForallOrdPairs (fun m m' => Z.gcd m m' = 1) (m0 :: l) ->
  (forall m, In m (m0 :: l) -> Z.gcd d m = 1) ->
  2 < zprod (m0 :: l) -> 2 * (n * n) <= zprod (m0 :: l) -> 2 * (d * d) <= zprod (m0 :: l) ->
  (forall m, In m (m0 :: l) -> 0 <= images m < m /\ (images m * d) mod m = n mod m) ->
  exists a, crt_fold (images m0, m0) (map (fun m => (images m, m)) l) = Some (a, zprod (m0 :: l)) /\
    get_rational_coef a (zprod (m0 :: l)) = Some (true, mk_rn n d).
Proof.
  intros Hd HG HP HO HC HB2 HBn HBd HI.
  set (P := zprod (m0 :: l)) in *.
  assert (PP : 0 < P) by lia.
  (* z = n/d modulo P *)
  destruct (mpz_invert_spec d P PP (zprod_gcd d _ HC)) as (i & _ & Bi & Ei).
  set (z := (n * i) mod P).
  assert (ZD : (z * d) mod P = n mod P).
  { unfold z. rewrite Zmult_mod_idemp_l. replace (n * i * d) with (n * (i * d)) by ring.
    rewrite Zmult_mod, Ei, <- Zmult_mod, Z.mul_1_r. reflexivity. }
  assert (IM : forall m, In m (m0 :: l) -> images m = z mod m).
  { intros m Hm. destruct (HI m Hm) as [B E].
    assert (M0 : 0 < m) by (rewrite Forall_forall in HP; apply HP; exact Hm).
    assert (E2 : (z * d) mod m = n mod m).
    { rewrite <- (mod_mod_divide (z * d) m P), <- (mod_mod_divide n m P) by (lia || apply zprod_divides, Hm).
      rewrite ZD. reflexivity. }
    rewrite <- E in E2.
    assert (D : (m | (z - images m) * d)).
    { apply Z.mod_divide; [lia|]. rewrite Z.mul_sub_distr_r, Zminus_mod, E2, Z.sub_diag. apply Z.mod_0_l; lia. }
    rewrite Z.mul_comm in D. apply Z.gauss in D; [|rewrite Z.gcd_comm; apply HC, Hm].
    destruct D as [k Hk]. replace z with (images m + k * m) by lia.
    rewrite Z.mod_add by lia. symmetry. apply Z.mod_small. exact B. }
  assert (CF : crt_fold (images m0, m0) (map (fun m => (images m, m)) l) = Some (z mod P, P)).
  { rewrite (IM m0 (or_introl eq_refl)).
    rewrite (map_ext_in _ (fun m => (z mod m, m))).
    - inversion_clear HP as [|? ? H0 HP']. inversion_clear HO as [|? ? H0O HO'].
      rewrite crt_fold_spec; [reflexivity|exact H0|exact HP'| |exact HO'].
      intros m Hm. rewrite Forall_forall in H0O. apply H0O; exact Hm.
    - intros m Hm. rewrite (IM m (or_intror Hm)). reflexivity. }
  exists (z mod P). split; [exact CF|].
  apply get_rational_coef_complete; try assumption; try (apply Z.mod_pos_bound; exact PP).
  rewrite Zminus_mod, Zmult_mod, Z.mod_mod, <- Zmult_mod, ZD, Z.sub_diag by lia. apply Z.mod_0_l; lia.
Qed.

From Coq Require Import Znumtheory.
From Verif Require Import Machine NumTheory RatNum RatNumProofs Modular ModularProofs.

(** ** Soundness *)

Definition mqrr_good (u p T0 n d : Z) : Prop :=
  d = 0 \/ (0 < n /\ d <> 0 /\ (p | n - d * u) /\ n * Z.abs d * T0 < p).

Lemma mqrr_loop_sound u p T0 : 0 < p -> 0 < T0 -> forall fuel T n d t0 r0 t1 r1,
  est u p t0 r0 t1 r1 -> r0 * r1 < 2 ^ Z.of_nat fuel -> T0 <= T -> mqrr_good u p T0 n d ->
  exists n' d', mqrr_loop fuel T n d t0 r0 t1 r1 = Some (n', d') /\ mqrr_good u p T0 n' d'.
Proof.
  intros Hp HT0. induction fuel as [|f IH]; intros T n d t0 r0 t1 r1 HE HM HT HG; cbn [mqrr_loop].
  - assert (r1 = 0).
    { destruct HE as (H1 & H2 & _). change (2 ^ Z.of_nat 0) with 1 in HM. nia. }
    subst r1. cbn [Z.eqb negb andb]. exists n, d. auto.
  - destruct (negb (r1 =? 0) && (T <? r0)) eqn:C; [|exists n, d; auto].
    apply andb_true_iff in C. destruct C as [C1 C2]. apply negb_true_iff, Z.eqb_neq in C1.
    assert (H0 : 0 < r1) by (destruct HE; lia).
    rewrite Z.quot_div_nonneg by (destruct HE; lia).
    pose proof (est_step u p t0 r0 t1 r1 HE H0) as HE'.
    pose proof (est_measure u p t0 r0 t1 r1 f HE H0 HM) as HM'.
    destruct (T <? r0 / r1) eqn:C3.
    + apply IH; [exact HE'|exact HM'|lia|]. right.
      destruct HE as (H1 & H2 & D1 & D2 & sg & S1 & S2 & S3 & S4).
      split; [exact H0|]. split; [lia|]. split; [exact D2|].
      pose proof (Z.mul_div_le r0 r1 H0) as QL.
      assert (AT : Z.abs t1 = sg * t1) by lia. rewrite AT.
      assert (X1 : sg * t1 * (r1 * (r0 / r1)) <= sg * t1 * r0) by (apply Z.mul_le_mono_nonneg_l; lia).
      assert (X2 : 0 <= - sg * t0 * r1) by (apply Z.mul_nonneg_nonneg; lia).
      assert (X3 : r1 * (sg * t1) * T0 < r1 * (sg * t1) * (r0 / r1)).
      { apply Z.mul_lt_mono_pos_l; [|lia]. apply Z.mul_pos_pos; lia. }
      lia.
    + apply IH; [exact HE'|exact HM'|lia|exact HG].
Qed.

Lemma threshold_pos p : 0 < p -> 0 < mqrr_threshold p.
Proof. intros H. unfold mqrr_threshold, sizeinbase2. pose proof (Z.log2_nonneg p). lia. Qed.

Lemma mqrr_total u p : 0 <= u < p -> exists b r, get_rational_coef_mqrr u p = Some (b, r).
Proof.
  intros Hu. unfold get_rational_coef_mqrr. destruct (u =? 0) eqn:C0; [vm_compute; eauto|].
  destruct (mqrr_loop_sound u p (mqrr_threshold p) ltac:(lia) (threshold_pos p ltac:(lia))
    (euclid_fuel p) (mqrr_threshold p) 0 0 0 p 1 u (est_init u p Hu) (fuel_enough p u Hu) ltac:(lia)
    ltac:(left; reflexivity)) as (n & d & E & G).
  rewrite E. destruct ((d =? 0) || negb (Z.gcd n d =? 1)) eqn:F; [vm_compute; eauto|].
  apply orb_false_iff in F. destruct F as [F1 F2]. apply Z.eqb_neq in F1.
  destruct (d <? 0) eqn:C.
  - destruct (rn_make_ok (- n) (Z.abs d) ltac:(lia)) as (r & Er & _). rewrite Er. cbn [option_map]. eauto.
  - destruct (rn_make_ok n d F1) as (r & Er & _). rewrite Er. cbn [option_map]. eauto.
Qed.

Lemma mqrr_sound u p r : 0 <= u < p -> get_rational_coef_mqrr u p = Some (true, r) ->
  0 < den r /\ Z.gcd (num r) (den r) = 1 /\ (num r - u * den r) mod p = 0 /\
  Z.abs (num r) * den r * mqrr_threshold p < p.
Proof.
  intros Hu. unfold get_rational_coef_mqrr. destruct (u =? 0) eqn:C0.
  { apply Z.eqb_eq in C0. subst u. rewrite rn_make_exact by (lia || reflexivity).
    cbn [option_map]. intros X. inversion X; subst r. cbn [num den].
    split; [lia|]. split; [reflexivity|]. split; [apply Z.mod_0_l; lia|]. lia. }
  destruct (mqrr_loop_sound u p (mqrr_threshold p) ltac:(lia) (threshold_pos p ltac:(lia))
    (euclid_fuel p) (mqrr_threshold p) 0 0 0 p 1 u (est_init u p Hu) (fuel_enough p u Hu) ltac:(lia)
    ltac:(left; reflexivity)) as (n & d & E & G).
  rewrite E. destruct ((d =? 0) || negb (Z.gcd n d =? 1)) eqn:F.
  { destruct (1 <? 0); destruct (rn_make _ _); cbn [option_map negb]; intros X; discriminate X. }
  apply orb_false_iff in F. destruct F as [F1 F2]. apply Z.eqb_neq in F1.
  apply negb_false_iff, Z.eqb_eq in F2.
  destruct G as [G|(G1 & G2 & [k Gk] & G3)]; [lia|].
  destruct (d <? 0) eqn:C.
  - replace (Z.abs d) with (- d) in * by lia.
    rewrite rn_make_exact; [|lia|rewrite Z.gcd_opp_l, Z.gcd_opp_r; exact F2].
    cbn [option_map negb]. intros X. inversion X; subst r. cbn [num den].
    split; [lia|]. split; [rewrite Z.gcd_opp_l, Z.gcd_opp_r; exact F2|]. split.
    + replace (- n - u * - d) with ((- k) * p) by lia. apply Z.mod_mul; lia.
    + replace (Z.abs (- n)) with n by lia. exact G3.
  - replace (Z.abs d) with d in * by lia. rewrite rn_make_exact; [|lia|exact F2].
    cbn [option_map negb]. intros X. inversion X; subst r. cbn [num den].
    split; [lia|]. split; [exact F2|]. split.
    + replace (n - u * d) with (k * p) by lia. apply Z.mod_mul; lia.
    + replace (Z.abs n) with n by lia. exact G3.
Qed.

(** ** Completeness *)

(** Legendre: a lattice vector whose second coordinate lies between two
    consecutive rows and is not a multiple of the first row is long. *)
Lemma legendre a p t r t' r' al be n d : 0 < d -> est a p t r t' r' ->
  n = al * r + be * r' -> d = al * t + be * t' -> be <> 0 ->
  Z.abs t <= d -> d < Z.abs t' -> p <= 2 * (Z.abs n * d).
Proof.
  intros Hd0 (H1 & H2 & _ & _ & sg & S1 & S2 & S3 & S4) En Ed NB L1 L2.
  set (T := - sg * t) in *. set (T' := sg * t') in *.
  assert (AT : Z.abs t = T) by (unfold T in *; lia). assert (AT' : Z.abs t' = T') by (unfold T' in *; lia).
  rewrite AT in *. rewrite AT' in *.
  set (x := Z.abs al). set (y := Z.abs be).
  assert (Y1 : 1 <= y) by (unfold y; lia). assert (X0 : 0 <= x) by (unfold x; lia).
  assert (YT : 1 * T' <= y * T') by (apply Z.mul_le_mono_nonneg_r; lia).
  assert (SS : sg * sg = 1) by (destruct S1; subst; reflexivity).
  assert (Et : t = - sg * T) by (unfold T; lia). assert (Et' : t' = sg * T') by (unfold T'; lia).
  (* signs *)
  assert (D : (d = x * T + y * T') \/ (1 <= x /\ Z.abs n = x * r + y * r' /\ (d = y * T' - x * T \/ d = x * T - y * T'))).
  { assert (E2 : sg * d = - al * T + be * T') by (rewrite Ed, Et, Et'; lia).
    destruct (Z_lt_le_dec 0 al) as [A|A]; destruct (Z_lt_le_dec 0 be) as [B|B].
    - right. assert (EX : x = al) by (unfold x; lia). assert (EY : y = be) by (unfold y; lia). rewrite EX, EY in *.
      split; [lia|]. split; [|destruct S1; subst sg; lia].
      rewrite En. apply Z.abs_eq. assert (0 <= al * r) by (apply Z.mul_nonneg_nonneg; lia).
      assert (0 <= be * r') by (apply Z.mul_nonneg_nonneg; lia). lia.
    - left. assert (EX : x = al) by (unfold x; lia). assert (EY : y = - be) by (unfold y; lia). rewrite EX, EY in *.
      destruct S1; subst sg; [|lia]. exfalso.
      assert (0 <= al * T) by (apply Z.mul_nonneg_nonneg; lia). lia.
    - assert (EX : x = - al) by (unfold x; lia). assert (EY : y = be) by (unfold y; lia). rewrite EX, EY in *.
      left. destruct S1; subst sg; [lia|]. exfalso.
      assert (0 <= - al * T) by (apply Z.mul_nonneg_nonneg; lia). lia.
    - destruct (Z.eq_dec al 0) as [A0|A0].
      + left. assert (EX : x = 0) by (unfold x; lia). assert (EY : y = - be) by (unfold y; lia). rewrite EX, EY in *.
        destruct S1; subst sg; subst al; lia.
      + right. assert (EX : x = - al) by (unfold x; lia). assert (EY : y = - be) by (unfold y; lia). rewrite EX, EY in *.
        split; [lia|]. split; [|destruct S1; subst sg; lia].
        rewrite En. assert (0 <= - al * r) by (apply Z.mul_nonneg_nonneg; lia).
        assert (0 <= - be * r') by (apply Z.mul_nonneg_nonneg; lia). lia. }
  destruct D as [D|(X1 & AN & D)].
  - exfalso. assert (0 <= x * T) by (apply Z.mul_nonneg_nonneg; lia). lia.
  - rewrite AN.
    assert (XD : x * T <= x * d) by (apply Z.mul_le_mono_nonneg_l; lia).
    assert (XD1 : 1 * d <= x * d) by (apply Z.mul_le_mono_nonneg_r; lia).
    assert (K : T' <= 2 * (x * d)) by (destruct D; lia).
    assert (K1 : T' * r <= 2 * (x * d) * r) by (apply Z.mul_le_mono_nonneg_r; lia).
    assert (K2 : T * r' <= d * r') by (apply Z.mul_le_mono_nonneg_r; lia).
    assert (K3 : 1 * (d * r') <= y * (d * r')).
    { apply Z.mul_le_mono_nonneg_r; [|lia]. apply Z.mul_nonneg_nonneg; lia. }
    assert (0 <= d * r') by (apply Z.mul_nonneg_nonneg; lia).
    replace (2 * ((x * r + y * r') * d)) with (2 * (x * d) * r + 2 * (y * (d * r'))) by ring.
    lia.
Qed.

Lemma mqrr_loop_complete u p n d T0 : 0 < p -> n <> 0 -> 0 < d -> Z.gcd n d = 1 -> (p | n - d * u) ->
  0 < T0 -> forall M, T0 <= M -> Z.abs n <= M -> d <= M -> Z.abs n * d * (M + 2) <= p ->
  forall fuel T m e t0 r0 t1 r1, est u p t0 r0 t1 r1 -> r0 * r1 < 2 ^ Z.of_nat fuel ->
  Z.abs t1 <= d -> T <= M ->
  exists n' d', mqrr_loop fuel T m e t0 r0 t1 r1 = Some (n', d') /\
    ((n' = n /\ d' = d) \/ (n' = - n /\ d' = - d)).
Proof.
  intros Hp Hn Hd HG HD HT0 M M1 M2 M3 HB.
  assert (A1 : 1 <= Z.abs n) by lia.
  assert (ND1 : 1 <= Z.abs n * d) by nia.
  assert (B2 : 2 * (Z.abs n * d) < p).
  { assert (Z.abs n * d * 3 <= Z.abs n * d * (M + 2)) by (apply Z.mul_le_mono_nonneg_l; lia). lia. }
  induction fuel as [|f IH]; intros T m e t0 r0 t1 r1 HE HM HT1 HT.
  - exfalso. change (2 ^ Z.of_nat 0) with 1 in HM.
    assert (R1 : r1 = 0) by (destruct HE as (H1 & H2 & _); nia). subst r1.
    destruct (est_lattice u p t0 r0 t1 0 n d HE Hp HD) as (al & be & En & Ed).
    destruct HE as (H1 & H2 & _ & _ & sg & S1 & S2 & S3 & S4).
    assert (AL : 1 <= Z.abs al) by nia.
    assert (AN : Z.abs n = Z.abs al * r0) by (rewrite En, Z.mul_0_r, Z.add_0_r, Z.abs_mul; lia).
    assert (Z.abs t1 = sg * t1) by lia.
    assert (1 * r0 <= Z.abs al * r0) by (apply Z.mul_le_mono_nonneg_r; lia).
    assert (sg * t1 * r0 <= d * Z.abs n) by (apply Z.mul_le_mono_nonneg; lia). lia.
  - destruct (est_lattice u p t0 r0 t1 r1 n d HE Hp HD) as (al & be & En & Ed).
    destruct (Z.eq_dec al 0) as [AL|AL].
    + (* the target is the current row *)
      subst al. rewrite Z.mul_0_l, Z.add_0_l in En, Ed.
      assert (BU : be = 1 \/ be = -1).
      { assert (DV : (be | Z.gcd n d)).
        { apply Z.gcd_greatest; [rewrite En; apply Z.divide_factor_l|rewrite Ed; apply Z.divide_factor_l]. }
        rewrite HG in DV. apply Z.divide_1_r in DV. lia. }
      destruct HE as (H1 & H2 & _ & _ & sg & S1 & S2 & S3 & S4).
      assert (R1 : r1 = Z.abs n) by (destruct BU; subst be; lia).
      assert (T1 : sg * t1 = d) by (destruct BU; subst be; destruct S1; subst sg; lia).
      rewrite T1 in *. rewrite R1 in *.
      assert (F1 : - sg * t0 * Z.abs n <= d * Z.abs n) by (apply Z.mul_le_mono_nonneg_r; lia).
      assert (F2 : Z.abs n * (M + 1) <= r0).
      { apply Z.mul_le_mono_pos_l with d; [lia|]. lia. }
      assert (F3 : M + 1 <= r0 / Z.abs n) by (apply Z.div_le_lower_bound; lia).
      assert (F4 : 1 * (M + 1) <= Z.abs n * (M + 1)) by (apply Z.mul_le_mono_nonneg_r; lia).
      cbn [mqrr_loop]. rewrite Z.quot_div_nonneg by lia.
      assert (C1 : (negb (Z.abs n =? 0) && (T <? r0) = true)) by lia. rewrite C1.
      assert (C2 : (T <? r0 / Z.abs n) = true) by lia. rewrite C2.
      assert (C3 : negb (r0 - r0 / Z.abs n * Z.abs n =? 0) && (r0 / Z.abs n <? Z.abs n) = false).
      { apply andb_false_iff. right. lia. }
      assert (EX : forall g, mqrr_loop g (r0 / Z.abs n) (Z.abs n) t1 t1 (Z.abs n) (t0 - r0 / Z.abs n * t1)
                  (r0 - r0 / Z.abs n * Z.abs n) = Some (Z.abs n, t1)).
      { intros g. destruct g; cbn [mqrr_loop]; rewrite C3; reflexivity. }
      rewrite EX. exists (Z.abs n), t1. split; [reflexivity|]. destruct BU; subst be; lia.
    + (* the target lies further down *)
      assert (H1' : 0 <= r1 < r0 /\ r0 <= p) by (destruct HE as (? & ? & _); lia).
      assert (R1 : 0 < r1).
      { destruct (Z.eq_dec r1 0) as [R1|]; [|lia]. exfalso. subst r1.
        destruct HE as (H1 & H2 & _ & _ & sg & S1 & S2 & S3 & S4).
        assert (AN : Z.abs n = Z.abs al * r0) by (rewrite En, Z.mul_0_r, Z.add_0_r, Z.abs_mul; lia).
        assert (1 * r0 <= Z.abs al * r0) by (apply Z.mul_le_mono_nonneg_r; lia).
        assert (Z.abs t1 = sg * t1) by lia.
        assert (sg * t1 * r0 <= d * Z.abs n) by (apply Z.mul_le_mono_nonneg; lia). lia. }
      pose proof (est_step u p t0 r0 t1 r1 HE R1) as HE'.
      pose proof (est_measure u p t0 r0 t1 r1 f HE R1 HM) as HM'.
      set (q := r0 / r1) in *.
      assert (T2 : Z.abs (t0 - q * t1) <= d).
      { destruct (Z_le_gt_dec (Z.abs (t0 - q * t1)) d) as [|L]; [assumption|]. exfalso.
        assert (p <= 2 * (Z.abs n * d)); [|lia].
        apply (legendre u p t1 r1 (t0 - q * t1) (r0 - q * r1) (be + al * q) al n d); try assumption; try lia. }
      assert (Q1 : 1 <= q) by (apply Z.div_le_lower_bound; lia).
      assert (TT : q * Z.abs t1 <= d /\ Z.abs t0 + Z.abs t1 <= d /\ 1 <= Z.abs t1 /\
                   p = Z.abs t1 * r0 + Z.abs t0 * r1).
      { destruct HE as (H1 & H2 & _ & _ & sg & S1 & S2 & S3 & S4).
        assert (Z.abs t1 = sg * t1) by lia. assert (Z.abs t0 = - sg * t0) by lia.
        assert (E : Z.abs (t0 - q * t1) = - sg * t0 + q * (sg * t1)).
        { assert (0 <= q * (sg * t1)) by (apply Z.mul_nonneg_nonneg; lia).
          destruct S1; subst sg; lia. }
        assert (1 * (sg * t1) <= q * (sg * t1)) by (apply Z.mul_le_mono_nonneg_r; lia).
        lia. }
      destruct TT as (TA & TB & TC & TD).
      assert (QD : q * 1 <= q * Z.abs t1) by (apply Z.mul_le_mono_nonneg_l; lia).
      assert (RB : p <= d * r0).
      { assert (Z.abs t0 * r1 <= Z.abs t0 * r0) by (apply Z.mul_le_mono_nonneg_l; lia).
        assert ((Z.abs t0 + Z.abs t1) * r0 <= d * r0) by (apply Z.mul_le_mono_nonneg_r; lia). lia. }
      assert (RM : M + 2 <= r0).
      { apply Z.mul_le_mono_pos_l with d; [lia|].
        assert (1 * (d * (M + 2)) <= Z.abs n * (d * (M + 2))).
        { apply Z.mul_le_mono_nonneg_r; [|lia]. apply Z.mul_nonneg_nonneg; lia. }
        lia. }
      cbn [mqrr_loop]. rewrite Z.quot_div_nonneg by lia. fold q.
      assert (C1 : (negb (r1 =? 0) && (T <? r0) = true)) by lia. rewrite C1.
      destruct (T <? q) eqn:C2; apply IH; try assumption; lia.
Qed.

Lemma mqrr_complete u p n d : 0 <= u < p -> n <> 0 -> 0 < d -> Z.gcd n d = 1 -> (n - u * d) mod p = 0 ->
  Z.abs n * d * (Z.max (mqrr_threshold p) (Z.max (Z.abs n) d) + 2) <= p ->
  get_rational_coef_mqrr u p = Some (true, mk_rn n d).
Proof.
  intros Hu Hn Hd HG HM HB. apply Z.mod_divide in HM; [|lia].
  assert (HM' : (p | n - d * u)) by (replace (d * u) with (u * d) by ring; exact HM).
  unfold get_rational_coef_mqrr. destruct (u =? 0) eqn:C0.
  { exfalso. apply Z.eqb_eq in C0. subst u. rewrite Z.mul_0_l, Z.sub_0_r in HM.
    assert (p <= Z.abs n).
    { apply Z.divide_pos_le; [lia|]. apply Z.divide_abs_r; exact HM. }
    pose proof (threshold_pos p ltac:(lia)).
    assert (1 <= Z.abs n * d) by nia.
    assert (Z.abs n * d * 3 <= Z.abs n * d * (Z.max (mqrr_threshold p) (Z.max (Z.abs n) d) + 2))
      by (apply Z.mul_le_mono_nonneg_l; lia).
    assert (Z.abs n * 1 <= Z.abs n * d) by (apply Z.mul_le_mono_nonneg_l; lia). lia. }
  destruct (mqrr_loop_complete u p n d (mqrr_threshold p) ltac:(lia) Hn Hd HG HM'
    (threshold_pos p ltac:(lia)) (Z.max (mqrr_threshold p) (Z.max (Z.abs n) d))
    ltac:(lia) ltac:(lia) ltac:(lia) HB (euclid_fuel p) (mqrr_threshold p) 0 0 0 p 1 u
    (est_init u p Hu) (fuel_enough p u Hu) ltac:(lia) ltac:(lia)) as (n' & d' & E & [[-> ->]|[-> ->]]);
  rewrite E.
  - destruct (d =? 0) eqn:C; [lia|]. rewrite HG. cbn [Z.eqb Pos.eqb negb orb].
    destruct (d <? 0) eqn:C2; [lia|]. rewrite rn_make_exact by (lia || exact HG). reflexivity.
  - destruct (- d =? 0) eqn:C; [lia|]. rewrite Z.gcd_opp_l, Z.gcd_opp_r, HG. cbn [Z.eqb Pos.eqb negb orb].
    destruct (- d <? 0) eqn:C2; [|lia]. rewrite Z.opp_involutive. replace (Z.abs (- d)) with d by lia.
    rewrite rn_make_exact by (lia || exact HG). reflexivity.
Qed.

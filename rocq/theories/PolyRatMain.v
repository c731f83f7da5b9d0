(** Proofs for C47: runs over several primes *)
From Coq Require Import Znumtheory Permutation.
From Verif Require Import Machine NumTheory FFInt FFIntProofs FField FSum LinAlg FPoly PolyFF PolySpec PolyFFProofs PolyFFProofs2 RatNum RatNumProofs Modular ModularProofs MqrrProofs PField Newton RatUni RatUniSpec RatUniProofs PolyRec PolyRecSpec PolyRecRunSpec PolyRecMath PolyRecFile PolyRecMain PolyRat PolyRatSpec PolyRatProofs Props_PolyRec.
Open Scope Z_scope.

Lemma drive_ext {K : fops} ord c (y : nat -> K) bb bb' : (forall o, bb o = bb' o) -> forall m s, drive ord c y bb m s = drive ord c y bb' m s.
Proof.
  intros H. induction m as [|m IH]; intros s; [reflexivity|]. cbn [drive]. rewrite H. destruct (pfeed ord c y s (bb' (ps_order s)) (ps_order s)) as [[s'|r]| | | |]; cbn [obind]; try reflexivity. apply IH.
Qed.
Lemma drive_first {K : fops} ord c (y : nat -> K) bb s r m : (1 <= m)%nat -> drive ord c y bb 1 s = Ret (PPoly r) -> drive ord c y bb m s = Ret (PPoly r).
Proof.
  intros Hm. destruct m as [|m]; [lia|]. cbn [drive]. destruct (pfeed ord c y s (bb (ps_order s)) (ps_order s)) as [[s'|r']| | | |]; cbn [obind]; try discriminate; intros E; exact E.
Qed.

(** coefficients that agree with one another and lie within the bound are equal *)
Lemma unit_den M c a : residue M c a -> lowest c -> Z.gcd (snd c) M = 1.
Proof.
  intros [Ha H] [D G]. apply Z.mod_divide in H; [|lia]. destruct H as [q Hq].
  assert (X : (Z.gcd (snd c) M | Z.gcd (fst c) (snd c))).
  { apply Z.gcd_greatest; [|apply Z.gcd_divide_l]. replace (fst c) with (a * snd c - q * M) by lia. apply Z.divide_sub_r; apply Z.divide_mul_r; [apply Z.gcd_divide_l|apply Z.gcd_divide_r]. }
  rewrite G in X. apply Z.divide_1_r_nonneg in X; [exact X|apply Z.gcd_nonneg].
Qed.
Lemma agrees_residue M c c' : 1 < M -> Z.gcd (snd c) M = 1 -> agrees M c c' -> exists a, residue M c a /\ residue M c' a.
Proof.
  intros HM G A. destruct (Z.gcd_bezout (snd c) M 1 G) as [u [w E]]. exists ((fst c * u) mod M).
  pose proof (Z.mod_pos_bound (fst c * u) M ltac:(lia)) as B. unfold agrees in A. apply Z.mod_divide in A; [|lia]. destruct A as [q Hq].
  pose proof (Z.div_mod (fst c * u) M ltac:(lia)) as DM. set (a := (fst c * u) mod M) in *. set (k := fst c * u / M) in *.
  assert (R : a * snd c - fst c = (- (k * snd c) - fst c * w) * M).
  { replace a with (fst c * u - M * k) by lia. transitivity (fst c * (u * snd c + w * M) - fst c - fst c * w * M - k * snd c * M); [ring|]. rewrite E. ring. }
  split; (split; [exact B|]).
  - apply Z.mod_divide; [lia|]. exists (- (k * snd c) - fst c * w). exact R.
  - apply Z.mod_divide; [lia|]. apply (Z.gauss M (snd c)); [|rewrite Z.gcd_comm; exact G].
    exists (snd c' * (- (k * snd c) - fst c * w) - q). transitivity (snd c' * (a * snd c - fst c) - (fst c' * snd c - fst c * snd c')); [ring|]. rewrite R, Hq. ring.
Qed.
Lemma within_unique M c a b : 2 < M -> Z.gcd (snd c) M = 1 -> agrees M c a -> agrees M c b -> within_root M a -> within_root M b -> a = b.
Proof.
  intros HM G A B [[A1 A2] [A3 A4]] [[B1 B2] [B3 B4]].
  destruct (agrees_residue M c a ltac:(lia) G A) as [x [X1 X2]]. destruct (agrees_residue M c b ltac:(lia) G B) as [z [Y1 Y2]].
  assert (E : x = z).
  { destruct X1 as [X1 X], Y1 as [Y1 Y]. apply Z.mod_divide in X; [|lia]. apply Z.mod_divide in Y; [|lia].
    assert (V : (M | x - z)). { apply (Z.gauss M (snd c)); [|rewrite Z.gcd_comm; exact G]. replace (snd c * (x - z)) with ((x * snd c - fst c) - (z * snd c - fst c)) by ring. apply Z.divide_sub_r; assumption. }
    destruct V as [v V]. assert (v = 0) by nia. lia. }
  subst z. destruct X2 as [X2 X], Y2 as [_ Y].
  assert (Q : forall q : Z * Z, (x * snd q - fst q) mod M = 0 -> (fst q - x * snd q) mod M = 0).
  { intros q Hq. apply Z.mod_divide; [lia|]. apply Z.mod_divide in Hq; [|lia]. destruct Hq as [v V]. exists (- v). lia. }
  pose proof (get_rational_coef_complete x M (fst a) (snd a) HM X2 A1 A2 A3 A4 (Q a X)) as Ea.
  pose proof (get_rational_coef_complete x M (fst b) (snd b) HM X2 B1 B2 B3 B4 (Q b Y)) as Eb.
  rewrite Ea in Eb. injection Eb as E1 E2. destruct a, b; cbn [fst snd] in *; congruence.
Qed.
Lemma lookalike_unique M f f1 f2 : 2 < M -> (forall t, In t f -> Z.gcd (snd (snd t)) M = 1) -> lookalike M f f1 -> lookalike M f f2 -> f1 = f2.
Proof.
  intros HM HG H1. revert f2. induction H1 as [|t a l l1 [Ea [Wa Aa]] H1 IH]; intros f2 H2; inversion H2 as [|? b ? l2 [Eb [Wb Ab]] H2']; subst; [reflexivity|].
  f_equal; [|apply IH; [intros u Iu; apply HG; right; exact Iu|exact H2']].
  destruct a as [ka a], b as [kb b]. cbn [fst snd] in *. f_equal; [congruence|]. apply (within_unique M (snd t) a b HM); try assumption. apply HG. left. reflexivity.
Qed.

Lemma guess_all_true M : forall l gi, (forall k a, In (k, a) l -> exists r, get_rational_coef a M = Some (true, r)) -> exists gi', guess_all M l gi = Ret (true, gi').
Proof.
  induction l as [|[k a] l IH]; intros gi H; [eexists; reflexivity|]. destruct (H k a (or_introl eq_refl)) as [r E]. cbn [guess_all]. rewrite E. cbn [oget obind fst snd].
  apply IH. intros k' a' I. apply (H k'). right. exact I.
Qed.

Section Main.
  Variable ord : forall A : Type, list A -> list A.
  Hypothesis Hord : forall A (l : list A), Permutation (ord A l) l.
  Variables (c : pcfg) (D : nat) (f : list qterm).
  Local Notation n := (pc_n c).
  Hypothesis Hf : rational_polynomial n D f.
  Hypothesis Np : (0 < n)%nat.

  Lemma prime_poly s : values_of c f s -> prime_ok c D f s ->
    exists r, drive ord c (se_y s) (se_bb s) (se_m s) (ps_start c) = Ret (PPoly r) /\ Permutation r (image (se_F s) f).
  Proof.
    intros [Hd Hb] Hp. set (F := se_F s) in *. pose proof (HK F) as HKF.
    assert (Hb' : forall o, se_bb s o = black_box n (image F f) (se_y s) o).
    { intros o. rewrite Hb. unfold black_box, image. rewrite (pv_filter_nz HKF). reflexivity. }
    rewrite (drive_ext _ _ _ _ _ Hb'). unfold prime_ok in Hp. fold F in Hp. destruct (image F f) as [|e g] eqn:Ei.
    - destruct Hp as [Hn Hm]. exists []. split; [|constructor]. apply (drive_first _ _ _ _ _ _ _ Hm). apply (C46_zero_polynomial (fld F) HKF ord Hord); [exact Hn|exact Np|reflexivity].
    - rewrite <- Ei in *. destruct Hp as [Hc [Hs Hm]].
      assert (Hpol : polynomial n D (image F f)).
      { split; [rewrite Ei; discriminate|]. split; [apply (image_nodup c D f Hf F)|]. intros k a I. unfold image in I. apply filter_In in I as [I Nz]. unfold over in I. apply in_map_iff in I as [t [E It]]. injection E as <- <-.
        destruct (proj2 Hf t It) as [_ [_ [L [B T]]]]. split; [|split; [exact L|split; [exact B|exact T]]]. cbn [snd] in Nz. intros E. rewrite E, (feqb_refl HKF) in Nz. discriminate. }
      destruct (run_ok HKF ord Hord c D (image F f) (se_y s) Hpol Hc Hs (se_m s)) as [out [E H]]. destruct out as [st|r].
      + exfalso. clear - H Hm. lia.
      + exists r. split; [exact E|exact H].
  Qed.

  Lemma feed_first s : values_of c f s -> prime_ok c D f s ->
    exists g', feed_prime ord c (se_F s) (se_y s) (se_bb s) (se_m s) (pq_start (pf_mod (se_F s))) = Ret (Some g') /\ between f (pf_mod (se_F s)) g'.
  Proof.
    intros Hv Hp. destruct (prime_poly s Hv Hp) as [r [E P]]. unfold feed_prime. cbn [pq_start q_done].
    destruct (se_m s) as [|m] eqn:Em; [discriminate E|]. assert (ES : start_prime ord c (se_F s) (se_y s) (pq_start (pf_mod (se_F s))) (se_bb s (repeat 1%nat n)) = Ret (pq_start (pf_mod (se_F s)))) by reflexivity. rewrite ES. cbn [obind]. change (q_done (pq_start (pf_mod (se_F s)))) with false. cbv iota. rewrite E. cbn [obind].
    destruct (end_first ord Hord c D f Hf Np (se_F s) (proj1 Hv) r P) as [g' [Eg B]]. rewrite Eg. cbn [obind]. exists g'. split; [reflexivity|exact B].
  Qed.
  Lemma feed_later M s g : between f M g -> values_of c f s -> prime_ok c D f s -> not_fooled c f M s -> ~ (pf_mod (se_F s) | M) ->
    exists g', feed_prime ord c (se_F s) (se_y s) (se_bb s) (se_m s) g = Ret (Some g') /\
      ((q_done g' = true /\ is_polynomial (q_gi g') f) \/ between f (M * pf_mod (se_F s)) g').
  Proof.
    intros B Hv Hp Hn Hd. destruct (prime_poly s Hv Hp) as [r [E P]]. unfold feed_prime. rewrite (proj1 (proj2 B)).
    destruct (se_m s) as [|m] eqn:Em; [discriminate E|]. rewrite (proj2 Hv), first_value.
    destruct (start_ok ord Hord c D f Hf Np (se_F s) (se_y s) M g B Hn) as [g1 [E1 H1]]. rewrite E1. cbn [obind].
    destruct H1 as [[Hdn Hr]|[-> Hz]].
    - rewrite Hdn. exists g1. split; [reflexivity|]. left. split; assumption.
    - cbn [q_done]. rewrite E. cbn [obind]. pose proof B as [_ [_ [_ [_ [HM HKo]]]]].
      destruct (end_later ord Hord c D f Hf Np (se_F s) (se_y s) (proj1 Hv) M (q_number g) (q_ci g) r HM Hd HKo P) as [g' [Eg B']].
      + intros E0 E2. apply (Hz E0). subst r. apply Permutation_nil in P. rewrite <- (pv_filter_nz (HK (se_F s))). unfold image in P. rewrite P. reflexivity.
      + rewrite Eg. cbn [obind]. exists g'. split; [reflexivity|right; exact B'].
  Qed.

  Definition outcome_ok (M' : option Z) (g : pq) : Prop :=
    (q_done g = true /\ is_polynomial (q_gi g) f) \/ exists M, M' = Some M /\ between f M g.
  Lemma feed_done l : forall g, q_done g = true -> feed_primes ord c l g = Ret (Some g).
  Proof. induction l as [|s l IH]; intros g H; [reflexivity|]. cbn [feed_primes]. unfold feed_prime. rewrite H. cbn [obind]. apply IH. exact H. Qed.
  Lemma run_later l : forall M M' g, good_primes c D f (Some M) l M' -> between f M g -> exists g', feed_primes ord c l g = Ret (Some g') /\ outcome_ok M' g'.
  Proof.
    induction l as [|s l IH]; intros M M' g H B.
    - inversion H; subst. exists g. split; [reflexivity|]. right. exists M. split; [reflexivity|exact B].
    - inversion H as [| |M0 s0 l0 M0' Hv Hp Hn Hd Hl]; subst. destruct (feed_later M s g B Hv Hp Hn Hd) as [g1 [E [[Hdn Hr]|B1]]]; cbn [feed_primes]; rewrite E; cbn [obind].
      + exists g1. split; [apply feed_done; exact Hdn|]. left. split; assumption.
      + exact (IH _ _ _ Hl B1).
  Qed.
  Lemma run_primes l M' : l <> [] -> good_primes c D f None l M' -> exists g', feed_primes ord c l (pq_start (first_mod l)) = Ret (Some g') /\ outcome_ok M' g'.
  Proof.
    intros Hl H. inversion H as [|s l0 M0 Hv Hp Hr|]; subst; [contradiction|]. cbn [first_mod feed_primes]. destruct (feed_first s Hv Hp) as [g1 [E B]]. rewrite E. cbn [obind]. exact (run_later _ _ _ _ Hr B).
  Qed.

  (** the first probe of a further prime ends the run *)
  Lemma finish M g s : between f M g -> values_of c f s -> (1 <= se_m s)%nat -> 2 < M -> (forall t, In t f -> within_root M (snd t)) ->
    exists g', feed_prime ord c (se_F s) (se_y s) (se_bb s) (se_m s) g = Ret (Some g') /\ q_done g' = true /\ is_polynomial (q_gi g') f.
  Proof.
    intros B Hv Hm HM HS. pose proof B as [B1 [B2 [B3 [B4 [_ [C1 [C2 C3]]]]]]]. unfold feed_prime. rewrite B2. destruct (se_m s) as [|m]; [lia|]. rewrite (proj2 Hv), first_value.
    assert (NF : forall f', lookalike M f f' -> f' = f).
    { intros f' L. apply (lookalike_unique M f); try assumption.
      - intros t It. apply (unit_den M (snd t) _ (C3 t It)). apply HS. exact It.
      - unfold lookalike. clear - HS HM. induction f as [|t l IH]; constructor; [|apply IH; intros u Iu; apply HS; right; exact Iu]. split; [reflexivity|]. split; [apply HS; left; reflexivity|].
        unfold agrees. rewrite Z.sub_diag. apply Z.mod_0_l. lia. }
    destruct (start_ok ord Hord c D f Hf Np (se_F s) (se_y s) M g B (fun f' L _ => NF f' L)) as [g1 [E1 H1]]. rewrite E1. cbn [obind]. destruct H1 as [[Hdn Hr]|[Eg _]].
    - rewrite Hdn. exists g1. split; [reflexivity|]. split; assumption.
    - exfalso. subst g1. unfold start_prime in E1. rewrite B1, B3, B4 in E1.
      assert (HG : forall k a, In (k, a) (ord _ (q_ci g)) -> exists t, In t f /\ fst t = k /\ get_rational_coef a M = Some (true, mk_rn (fst (snd t)) (snd (snd t)))).
      { intros k a I. apply (Permutation_in _ (Hord _ _)) in I. destruct (range_of f M _ _ _ (conj C1 (conj C2 C3)) I) as [t [It [Et [R1 R2]]]]. exists t. split; [exact It|]. split; [exact Et|].
        destruct (HS t It) as [[L1 L2] [L3 L4]]. apply get_rational_coef_complete; try assumption. apply Z.mod_divide; [lia|]. apply Z.mod_divide in R2; [|lia]. destruct R2 as [q Hq]. exists (- q). lia. }
      destruct (guess_all_true M (ord _ (q_ci g)) []) as [L EL]; [intros k a I; destruct (HG k a I) as [t [_ [_ X]]]; eexists; exact X|]. rewrite EL in E1. cbn [obind fst snd andb] in E1.
      destruct (guess_all_ok M (ord _ (q_ci g)) []) as [ok [L' [E2 HL]]].
      { apply (Permutation_NoDup (Permutation_sym (Permutation_map fst (Hord _ (q_ci g))))); exact C1. }
      { intros k _ []. }
      { intros k a I. apply (Permutation_in _ (Hord _ _)) in I. destruct (range_of f M _ _ _ (conj C1 (conj C2 C3)) I) as [t [_ [_ R]]]. exact (proj1 R). }
      rewrite EL in E2. injection E2 as <- EQ. cbn [app] in EQ. subst L'. specialize (HL eq_refl).
      assert (KL : map fst L = map fst (ord _ (q_ci g))) by (clear - HL; induction HL as [|e r l L [X _] _ IH]; [reflexivity|]; cbn [map]; rewrite IH, X; reflexivity).
      assert (NL : NoDup (map fst L)) by (rewrite KL; apply (Permutation_NoDup (Permutation_sym (Permutation_map fst (Hord _ (q_ci g))))); exact C1).
      assert (IL : incl (map fst L) (map fst f)) by (rewrite KL; intros k Hk; apply C2; apply (Permutation_in _ (Permutation_map fst (Hord _ (q_ci g)))); exact Hk).
      destruct (ptest_guess ord c (se_F s) (se_y s) L (poly_value n (over (se_F s) f) (se_y s))) eqn:ET; [discriminate E1|].
      assert (X : ptest_guess ord c (se_F s) (se_y s) L (poly_value n (over (se_F s) f) (se_y s)) = true); [|congruence].
      apply (guess_test ord Hord c D f Hf Np (se_F s) (se_y s) L _ NL IL). f_equal. f_equal. rewrite <- (map_id f) at 2. apply map_ext_in. intros t It. destruct t as [k q] eqn:Et. rewrite <- Et in It. cbn [fst]. f_equal.
      unfold rcoef. destruct (afind L k) as [r|] eqn:EF.
      + apply afind_Some in EF. assert (Y : exists a, In (k, a) (ord _ (q_ci g)) /\ get_rational_coef a M = Some (true, r)).
        { clear - HL EF. induction HL as [|e q l L [X Y] _ IH]; [contradiction|]. destruct EF as [->|EF]; [|destruct (IH EF) as [a [A B]]; exists a; split; [right; exact A|exact B]].
          cbn [fst snd] in X, Y. exists (snd e). split; [left; destruct e; cbn [fst snd] in *; congruence|exact Y]. }
        destruct Y as [a [Ia Ea]]. destruct (HG k a Ia) as [u [Iu [Eu Xu]]]. rewrite Xu in Ea. injection Ea as <-. cbn [num den].
        assert (u = t); [|subst u; rewrite Et; cbn [snd]; destruct q; reflexivity].
        assert (E' : fst u = fst t) by (rewrite Et; exact Eu). clear - It Iu E' Hf. destruct Hf as [N _]. clear Hf. induction f as [|w l IH]; [contradiction|]. cbn [map] in N. inversion N as [|? ? N1 N2]; subst.
        destruct It as [->|It], Iu as [->|Iu]; [reflexivity| | |apply IH; assumption]; exfalso; apply N1; [rewrite <- E'|rewrite E']; apply in_map; assumption.
      + exfalso. assert (R : residue M q 0).
        { pose proof (C3 t It) as R. rewrite Et in R. cbn [fst snd] in R. unfold lookup in R. assert (EN : afind (q_ci g) k = None); [|rewrite EN in R; exact R].
          apply afind_None. intros X. apply afind_None in EF. apply EF. rewrite KL. apply (Permutation_in _ (Permutation_sym (Permutation_map fst (Hord _ (q_ci g))))). exact X. }
        destruct R as [_ R]. destruct (proj2 Hf t It) as [Z0 _]. destruct (HS t It) as [_ [S1 _]]. rewrite Et in Z0, S1. cbn [fst snd] in Z0, S1. apply Z.mod_divide in R; [|lia]. destruct R as [w R].
        assert (fst q = - w * M) by lia. clear - H S1 Z0 HM. assert (w <> 0) by (intros ->; lia). rewrite H in S1. assert (1 <= w * w) by nia. assert (2 * (w * w * (M * M)) <= M) by (transitivity (2 * (- w * M * (- w * M))); [lia|exact S1]).
        assert (M * M <= w * w * (M * M)) by nia. nia.
  Qed.
End Main.

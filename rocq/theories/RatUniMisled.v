(** Proofs for the univariate reconstruction, part 7: when coincidences cannot happen *)
From Coq Require Import Znumtheory Permutation.
From Verif Require Import Machine NumTheory FFInt FFIntProofs FField FSum LinAlg LinSpec LinAlgProofs FPoly Thiele ThieleSpec ThieleProofs RatNum PField RatUniSpec RatUniProofs RatUniThiele RatUniFirst.
Open Scope Z_scope.

Lemma lowest_unique c c' : lowest c -> lowest c' -> fst c' * snd c = fst c * snd c' -> c' = c.
Proof.
  intros [P1 G1] [P2 G2] E.
  assert (D1 : (snd c | snd c')). { apply (Z.gauss _ (fst c)); [rewrite <- E; apply Z.divide_factor_r|rewrite Z.gcd_comm; exact G1]. }
  assert (D2 : (snd c' | snd c)). { apply (Z.gauss _ (fst c')); [rewrite E; apply Z.divide_factor_r|rewrite Z.gcd_comm; exact G2]. }
  assert (S : snd c' = snd c) by (apply Z.divide_antisym_nonneg; lia || assumption).
  destruct c as [a b], c' as [a' b']; cbn [fst snd] in *. subst b'. f_equal. nia.
Qed.
Lemma guessable_bound M c : guessable M c -> Z.abs (fst c) <= M - 1 /\ snd c <= M - 1 \/ c = (0, 1).
Proof.
  intros [[P G] B]. destruct c as [a b]; cbn [fst snd] in *. destruct (Z.eq_dec a 0) as [->|Ha].
  - right. rewrite Z.gcd_0_l in G. f_equal. lia.
  - left. assert (1 <= Z.abs a) by lia. nia.
Qed.
Lemma small_no_impostor M q c : 1 < M -> lowest c -> Z.abs (fst c) + snd c <= q -> no_impostor M (M * q) c.
Proof.
  intros HM HL HB c' HG HA. destruct HL as [P G] eqn:EL. clear EL. apply lowest_unique; [split; assumption|apply HG|].
  assert (B : Z.abs (fst c') <= M - 1 /\ 0 < snd c' <= M - 1).
  { pose proof HG as [[P' _] _]. destruct (guessable_bound M c' HG) as [[X Y]|X]; [lia|]. subst c'. cbn [fst snd] in *. lia. }
  unfold agrees in HA. assert (Hq : 0 < q) by lia. apply Z.mod_divide in HA; [|nia]. destruct HA as [k Hk].
  assert (X : Z.abs (fst c' * snd c - fst c * snd c') < M * q).
  { destruct B as [B1 B2]. assert (Z.abs (fst c' * snd c) <= (M - 1) * snd c) by (rewrite Z.abs_mul, (Z.abs_eq (snd c)) by lia; nia).
    assert (Z.abs (fst c * snd c') <= (M - 1) * Z.abs (fst c)) by (rewrite Z.abs_mul, (Z.abs_eq (snd c')) by lia; nia). nia. }
  rewrite Hk in X. assert (k = 0) by nia. subst k. lia.
Qed.

Section Misled.
  Variable F : pfield.
  Local Notation K := (fld F).
  Local Notation p := (pf_mod F).
  Local Notation KL := (HK F).
  Add Field KF : (fl_field K (HK F)).
  Lemma mul_swap (v a b : K) : fmul (fmul v a) b = fmul (fmul v b) a. Proof. ring. Qed.
  Variables (N D : list rterm) (d0 : nat) (M : Z).
  Hypothesis HR : rational_function N D d0.
  Hypothesis HM : 1 < M.
  Hypothesis HpM : ~ (p | M).
  Hypothesis Hnz : forall t, In t (N ++ D) -> ~ (p | fst (snd t)) /\ ~ (p | snd (snd t)).
  Hypothesis Hp : Z.of_nat (3 * (degree N + degree D) + 3) < p.
  Hypothesis Hco : coprime_polys (K := K) N D.
  Hypothesis Himp : forall t, In t (N ++ D) -> no_impostor M (M * p) (snd t).
  Variables (N' D' : list rterm).
  Hypothesis VN : variant M N N'.
  Hypothesis VD : variant M D D'.
  Hypothesis I0 : In (d0, (1, 1)) D'.

  Lemma variant_fst T T' : variant M T T' -> map fst T' = map fst T.
  Proof. induction 1 as [|a b T T' [E _] _ IH]; [reflexivity|]. cbn [map]. congruence. Qed.
  Lemma variant_degree T T' : variant M T T' -> degree T' = degree T.
  Proof. intros H. unfold degree. rewrite (variant_fst _ _ H). reflexivity. Qed.
  Lemma variant_poly T T' : variant M T T' -> polyfun (S (degree T)) (@fvalue K T').
  Proof. intros H. rewrite <- (variant_degree _ _ H). apply fvalue_polyfun. Qed.
  Let v := @pts F.

  (** equal values give equal images of the coefficients *)
  Lemma same_images T T' : variant M T T' -> NoDup (map fst T) -> (forall x : K, fvalue T' x = fvalue T x) -> (degree T < Z.to_nat p)%nat ->
    Forall2 (fun a b : rterm => fst a = fst b /\ @krat K (snd b) = krat (snd a)) T T'.
  Proof.
    intros HV ND HE Hd. assert (ND' : NoDup (map fst T')) by (rewrite (variant_fst _ _ HV); exact ND).
    assert (TE : forall e, (e <= degree T)%nat -> tcoef (terms F T') e = tcoef (terms F T) e).
    { intros e He. apply (fsub_0 KL). pose proof (roots_zero KL (S (degree T)) (fun i => fsub (tcoef (terms F T') i) (tcoef (terms F T) i)) v) as R. apply R; [|intros i Hi|lia].
      - apply pts_distinct. lia.
      - rewrite (ueval_sub KL). assert (X : fvalue T' (v i) = fvalue T (v i)) by apply HE. rewrite !fvalue_terms in X.
        rewrite (tval_ueval KL _ (degree T)), (tval_ueval KL (terms F T) (degree T)) in X; [rewrite X; ring| |].
        + intros t Ht. unfold terms in Ht. apply in_map_iff in Ht as [u [<- Hu]]. cbn [fst]. apply degree_le. exact Hu.
        + intros t Ht. unfold terms in Ht. apply in_map_iff in Ht as [u [<- Hu]]. cbn [fst]. rewrite <- (variant_degree _ _ HV). apply degree_le. exact Hu. }
    assert (G : forall a b, In a T -> In b T' -> fst a = fst b -> @krat K (snd b) = krat (snd a)).
    { intros a b Ha Hb E. specialize (TE (fst a) (degree_le T a Ha)).
      rewrite (tcoef_in KL (terms F T') (fst a) (krat (snd b))), (tcoef_in KL (terms F T) (fst a) (krat (snd a))) in TE; [exact TE| | | |].
      - rewrite terms_fst; exact ND.
      - apply (in_map (fun t => (fst t, @krat K (snd t)))) in Ha. exact Ha.
      - rewrite terms_fst; exact ND'.
      - rewrite E. apply (in_map (fun t => (fst t, @krat K (snd t)))) in Hb. exact Hb. }
    clear - HV G. induction HV as [|a b T T' [E _] _ IH]; constructor.
    - split; [exact E|]. apply G; [left; reflexivity|left; reflexivity|exact E].
    - apply IH. intros x y Hx Hy. apply G; right; assumption.
  Qed.
  Lemma images_equal T T' : incl T (N ++ D) -> variant M T T' -> Forall2 (fun a b : rterm => fst a = fst b /\ @krat K (snd b) = krat (snd a)) T T' -> T' = T.
  Proof.
    intros HI HV H. induction HV as [|a b T T' [E [G A]] HV IH]; [reflexivity|]. inversion_clear H as [|? ? ? ? [_ X] H']. f_equal; [|apply IH; [intros t Ht; apply HI; right; exact Ht|exact H']].
    assert (Ia : In a (N ++ D)) by (apply HI; left; reflexivity). destruct (Hnz a Ia) as [Z1 Z2].
    assert (Z3 : ~ (p | snd (snd b))).
    { intros Z3. apply kint_0 in Z3. unfold krat in X at 1. rewrite Z3, (fl_div0 K KL) in X. symmetry in X. apply (krat_0 F _ Z2) in X. contradiction. }
    assert (Q : snd b = snd a).
    { apply (Himp a Ia); [exact G|]. unfold agrees. pose proof (p_gt1 F). apply mod_0_mul; try lia.
      - apply Zgcd_1_rel_prime. apply rel_prime_sym. apply prime_rel_prime; [exact (pf_prime F)|exact HpM].
      - exact A.
      - apply Z.mod_divide; [lia|]. apply kint_0. rewrite kint_sub, !kint_mul. unfold krat in X.
        assert (Y1 : @kint K (snd (snd a)) <> f0) by (intros Y; apply kint_0 in Y; contradiction). assert (Y2 : @kint K (snd (snd b)) <> f0) by (intros Y; apply kint_0 in Y; contradiction).
        assert (Y3 : fmul (@kint K (fst (snd b))) (kint (snd (snd a))) = fmul (kint (fst (snd a))) (kint (snd (snd b)))).
        { transitivity (fmul (fdiv (@kint K (fst (snd b))) (kint (snd (snd b)))) (fmul (kint (snd (snd a))) (kint (snd (snd b))))); [field; exact Y2|]. rewrite X. field. exact Y1. }
        rewrite Y3. ring. }
    destruct a as [ea ca], b as [eb cb]. cbn [fst snd] in *. congruence.
  Qed.

  (** at most degree N + degree D arguments do not tell a wrong guess from the function *)
  Lemma few_arguments (l : list K) : N' <> N \/ D' <> D -> NoDup l ->
    (forall t, In t l -> fmul (fvalue N' t) (fvalue D t) = fmul (fvalue N t) (fvalue D' t)) -> (length l <= degree N + degree D)%nat.
  Proof.
    intros Hne ND HE. destruct (Nat.le_gt_cases (length l) (degree N + degree D)) as [Hle|Hgt]; [exact Hle|exfalso].
    pose proof HR as [HNn [NDN [NDD [_ [HD0 _]]]]]. assert (HDn : D <> []) by (intros E; rewrite E in HD0; contradiction).
    set (u := fun i => nth i l (@f0 K)). pose proof (variant_poly _ _ VN) as PN'. pose proof (variant_poly _ _ VD) as PD'.
    pose proof (fvalue_polyfun F N) as PN. pose proof (fvalue_polyfun F D) as PD.
    assert (PC : polyfun (S (degree N + degree D)) (fun x : K => fsub (fmul (fvalue N' x) (fvalue D x)) (fmul (fvalue N x) (fvalue D' x)))).
    { apply (polyfun_sub KL); rewrite <- Nat.add_succ_r; apply (polyfun_mul KL); assumption. }
    assert (Hcross : forall x : K, fmul (fvalue N' x) (fvalue D x) = fmul (fvalue N x) (fvalue D' x)).
    { intros x. apply (fsub_0 KL). revert x. apply (polyfun_zero KL _ _ u PC).
      - intros i j Hi Hj E. apply (proj1 (NoDup_nth l f0) ND); [lia|lia|exact E].
      - intros i Hi. assert (X : In (u i) l) by (apply nth_In; lia). rewrite (HE _ X). ring. }
    destruct Hco as [U [V [PU [PV HB]]]]. set (g := fun x : K => fadd (fmul (U x) (fvalue N' x)) (fmul (V x) (fvalue D' x))).
    assert (ED : forall x, fmul (fvalue D x) (g x) = fvalue D' x).
    { intros x. transitivity (fmul (fvalue D' x) (fadd (fmul (U x) (fvalue N x)) (fmul (V x) (fvalue D x)))); [|rewrite HB; ring].
      unfold g. transitivity (fadd (fmul (U x) (fmul (fvalue N' x) (fvalue D x))) (fmul (V x) (fmul (fvalue D x) (fvalue D' x)))); [ring|]. rewrite Hcross. ring. }
    assert (EN : forall x, fmul (fvalue N x) (g x) = fvalue N' x).
    { intros x. transitivity (fmul (fvalue N' x) (fadd (fmul (U x) (fvalue N x)) (fmul (V x) (fvalue D x)))); [|rewrite HB; ring].
      unfold g. transitivity (fadd (fmul (fmul (fvalue N x) (U x)) (fvalue N' x)) (fmul (V x) (fmul (fvalue N x) (fvalue D' x)))); [ring|]. rewrite <- Hcross. ring. }
    assert (PG : polyfun (S (degree N + degree D)) g).
    { apply (polyfun_add KL); [rewrite Nat.add_comm|]; rewrite <- Nat.add_succ_r; apply (polyfun_mul KL); assumption. }
    destruct (fvalue_lead F D HDn NDD) as [c [h [Hc [Ph EL]]]].
    { intros t Ht E. destruct (Hnz t (in_or_app _ _ _ (or_intror Ht))) as [Z1 Z2]. apply (krat_0 F _ Z2) in E. contradiction. }
    destruct (constant_factor KL (degree D) c h (fvalue D') v (degree N + degree D) g Hc Ph PD' PG) as [k Ek].
    { apply pts_distinct. lia. }
    { intros x. rewrite <- EL. apply ED. }
    assert (Ek1 : k = f1).
    { assert (TE : forall e, (e <= degree D)%nat -> fsub (tcoef (terms F D') e) (fmul k (tcoef (terms F D) e)) = f0).
      { intros e He. apply (roots_zero KL (S (degree D)) (fun i => fsub (tcoef (terms F D') i) (fmul k (tcoef (terms F D) i))) v); [apply pts_distinct; lia| |lia].
        intros i Hi. rewrite (ueval_sub KL), (ueval_scale KL).
        rewrite <- (tval_ueval KL (terms F D') (degree D)), <- (tval_ueval KL (terms F D) (degree D)), <- !fvalue_terms, <- ED, Ek; [ring| |].
        - intros t Ht. unfold terms in Ht. apply in_map_iff in Ht as [w [<- Hw]]. cbn [fst]. apply degree_le. exact Hw.
        - intros t Ht. unfold terms in Ht. apply in_map_iff in Ht as [w [<- Hw]]. cbn [fst]. rewrite <- (variant_degree _ _ VD). apply degree_le. exact Hw. }
      specialize (TE d0 (degree_le D _ HD0)).
      rewrite (tcoef_in KL (terms F D') d0 f1), (tcoef_in KL (terms F D) d0 f1) in TE.
      - transitivity (fsub f1 (fsub f1 (fmul k f1))); [ring|]. rewrite TE. ring.
      - rewrite terms_fst. exact NDD.
      - apply (in_map (fun t => (fst t, @krat K (snd t)))) in HD0. cbn [fst snd] in HD0. rewrite krat_1 in HD0. exact HD0.
      - rewrite terms_fst, (variant_fst _ _ VD). exact NDD.
      - pose proof I0 as I1. apply (in_map (fun t => (fst t, @krat K (snd t)))) in I1. cbn [fst snd] in I1. rewrite krat_1 in I1. exact I1. }
    assert (SN : forall x : K, fvalue N' x = fvalue N x) by (intros x; rewrite <- EN, Ek, Ek1; ring).
    assert (SD : forall x : K, fvalue D' x = fvalue D x) by (intros x; rewrite <- ED, Ek, Ek1; ring).
    destruct Hne as [Hne|Hne]; apply Hne.
    - apply images_equal; [intros t Ht; apply in_or_app; left; exact Ht|exact VN|]. apply same_images; [exact VN|exact NDN|exact SN|lia].
    - apply images_equal; [intros t Ht; apply in_or_app; right; exact Ht|exact VD|]. apply same_images; [exact VD|exact NDD|exact SD|lia].
  Qed.
End Misled.

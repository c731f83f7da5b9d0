(** Proofs for the univariate reconstruction, part 1: images of rational numbers, maps, recognition of coefficients *)
From Coq Require Import Znumtheory Permutation.
From Verif Require Import Machine NumTheory FFInt FFIntProofs FField FSum FPoly ThieleSpec PolyFF PolySpec PolyFFProofs RatNum RatNumProofs Modular ModularProofs MqrrProofs PField RatUni RatUniSpec.
Open Scope Z_scope.

Section Field.
  Variable F : pfield.
  Local Notation K := (fld F).
  Local Notation p := (pf_mod F).

  Lemma p_gt1 : 1 < p. Proof. destruct (pf_prime F). lia. Qed.
  Lemma HK : flaws K. Proof. apply ffint_laws. Qed.
  Add Field KF : (fl_field K HK).

  Lemma kv_range (x : K) : 0 <= kv x < p. Proof. apply v_range. Qed.
  Lemma kv_inj (x y : K) : kv x = kv y -> x = y. Proof. apply v_inj. Qed.
  Lemma kv_0 : kv (@f0 K) = 0. Proof. apply v_0. Qed.
  Lemma kv_1 : kv (@f1 K) = 1. Proof. apply v_1. Qed.
  Lemma kv_add (a b : K) : kv (fadd a b) = (kv a + kv b) mod p. Proof. apply v_add. Qed.
  Lemma kv_sub (a b : K) : kv (fsub a b) = (kv a - kv b) mod p. Proof. apply v_sub. Qed.
  Lemma kv_mul (a b : K) : kv (fmul a b) = (kv a * kv b) mod p. Proof. apply v_mul. Qed.
  Lemma kv_opp (a : K) : kv (fopp a) = (- kv a) mod p. Proof. apply v_opp. Qed.
  Lemma kv_fofZ n : 0 <= n < two64 -> kv (@fofZ K n) = n mod p. Proof. apply v_ofZ. Qed.
  Lemma kv_fofZ_small n : 0 <= n < p -> kv (@fofZ K n) = n.
  Proof. intros H. rewrite kv_fofZ; [apply Z.mod_small; exact H|]. pose proof (pf_small F). unfold two63, two64 in *. lia. Qed.
  Lemma fofZ_kv (x : K) : fofZ (kv x) = x. Proof. apply kv_inj. apply kv_fofZ_small, kv_range. Qed.

  Lemma kv_nsum k : kv (@nsum K k) = Z.of_nat k mod p.
  Proof.
    pose proof p_gt1. induction k as [|k IH]; cbn [nsum]; [rewrite kv_0, Z.mod_0_l by lia; reflexivity|].
    rewrite kv_add, kv_1, IH, Zplus_mod_idemp_r. f_equal. lia.
  Qed.
  Lemma kv_kint z : kv (@kint K z) = z mod p.
  Proof.
    pose proof p_gt1. unfold kint. destruct (Z.ltb_spec z 0) as [L|L].
    - rewrite kv_opp, kv_nsum, Z2Nat.id by lia. rewrite <- (Z.sub_0_l ((- z) mod p)), Zminus_mod_idemp_r. f_equal. lia.
    - rewrite kv_nsum, Z2Nat.id by lia. reflexivity.
  Qed.
  Lemma kint_0 z : @kint K z = f0 <-> (p | z).
  Proof.
    pose proof p_gt1. split.
    - intros E. apply (f_equal kv) in E. rewrite kv_kint, kv_0 in E. apply Z.mod_divide; lia.
    - intros E. apply kv_inj. rewrite kv_kint, kv_0. apply Z.mod_divide; [lia|exact E].
  Qed.
  Lemma kint_1 : @kint K 1 = f1.
  Proof. pose proof p_gt1. apply kv_inj. rewrite kv_kint, kv_1. apply Z.mod_1_l. lia. Qed.
  Lemma kint_mul a b : @kint K (a * b) = fmul (kint a) (kint b).
  Proof. apply kv_inj. rewrite kv_mul, !kv_kint, <- Zmult_mod. reflexivity. Qed.
  Lemma kint_sub a b : @kint K (a - b) = fsub (kint a) (kint b).
  Proof. apply kv_inj. rewrite kv_sub, !kv_kint, <- Zminus_mod. reflexivity. Qed.

  Lemma krat_1 : @krat K (1, 1) = f1.
  Proof. unfold krat. cbn [fst snd]. rewrite kint_1. field. apply (f1_neq_0 HK). Qed.
  Lemma krat_0 c : ~ (p | snd c) -> (@krat K c = f0 <-> (p | fst c)).
  Proof.
    intros H. unfold krat. rewrite <- kint_0. assert (N : @kint K (snd c) <> f0) by (rewrite kint_0; exact H). split.
    - intros E. destruct (K_dec HK (kint (fst c)) f0) as [Z0|Z0]; [exact Z0|]. exfalso. exact (fdiv_neq0 HK _ _ Z0 N E).
    - intros ->. apply (fdiv0_l HK).
  Qed.
  (** the image of n/d is the residue of n/d *)
  Lemma krat_residue c : ~ (p | snd c) -> (kv (@krat K c) * snd c - fst c) mod p = 0.
  Proof.
    intros H. pose proof p_gt1. rewrite <- kint_0 in H.
    assert (E : fmul (@krat K c) (kint (snd c)) = kint (fst c)) by (unfold krat; field; exact H).
    apply (f_equal kv) in E. rewrite kv_mul, !kv_kint, Zmult_mod_idemp_r in E. rewrite Zminus_mod, E, Z.sub_diag. apply Z.mod_0_l. lia.
  Qed.
  (** two fractions with the same residue have the same image *)
  Lemma krat_agrees c c' : ~ (p | snd c) -> ~ (p | snd c') -> agrees p c c' -> @krat K c = krat c'.
  Proof.
    intros H H' A. pose proof p_gt1. unfold agrees in A. apply Z.mod_divide in A; [|lia]. apply kint_0 in A.
    rewrite kint_sub, !kint_mul in A. apply (fsub_0 HK) in A. rewrite <- kint_0 in H, H'. unfold krat. 
    assert (X : fmul (kint (fst c)) (kint (snd c')) = fmul (kint (fst c')) (@kint K (snd c))) by (rewrite A; ring).
    apply (fmul_cancel HK (fmul (kint (snd c)) (kint (snd c')))).
    - apply (fmul_neq0 HK); assumption.
    - transitivity (fmul (kint (fst c)) (@kint K (snd c'))); [field; assumption|]. rewrite X. field; assumption.
  Qed.

  Lemma to_ff_krat r : to_ff F r = krat (num r, den r).
  Proof.
    pose proof p_gt1. unfold to_ff. rewrite !ff_ctor_mpz_correct by lia.
    assert (E : ff_div p (num r mod p) (den r mod p) = kv (@krat K (num r, den r))).
    { unfold krat. cbn [fst snd]. change (kv (fdiv (@kint K (num r)) (kint (den r)))) with (ff_div p (kv (@kint K (num r))) (kv (@kint K (den r)))).
      rewrite !kv_kint. reflexivity. }
    rewrite E. apply fofZ_kv.
  Qed.
End Field.

(** ---- association lists ---- *)
Lemma mon_eqb_refl k : mon_eqb k k = true.
Proof. unfold mon_eqb. destruct (list_eq_dec Z.eq_dec k k); congruence. Qed.
Lemma mon_eqb_neq k k' : k <> k' -> mon_eqb k k' = false.
Proof. intros H. unfold mon_eqb. destruct (list_eq_dec Z.eq_dec k k'); congruence. Qed.
Lemma mon_eqb_eq k k' : mon_eqb k k' = true -> k = k'.
Proof. unfold mon_eqb. destruct (list_eq_dec Z.eq_dec k k'); congruence. Qed.

Section AMapProofs.
  Context {A : Type}.
  Implicit Types (m : list (list Z * A)).
  Lemma afind_None m k : afind m k = None <-> ~ In k (map fst m).
  Proof.
    induction m as [|[k' a] m IH]; cbn [afind map fst In]; [tauto|].
    destruct (list_eq_dec Z.eq_dec k k') as [->|N]; [rewrite mon_eqb_refl; split; [discriminate|tauto]|].
    rewrite mon_eqb_neq by exact N. rewrite IH. split; intros H; intuition congruence.
  Qed.
  Lemma afind_In m k a : NoDup (map fst m) -> In (k, a) m -> afind m k = Some a.
  Proof.
    induction m as [|[k' a'] m IH]; cbn [afind map fst In]; intros ND H; [contradiction|]. inversion ND as [|x l N1 N2]; subst.
    destruct H as [E|H]; [injection E as -> ->; rewrite mon_eqb_refl; reflexivity|].
    rewrite mon_eqb_neq; [apply IH; assumption|]. intros ->. apply N1. apply (in_map fst) in H. exact H.
  Qed.
  Lemma afind_Some m k a : afind m k = Some a -> In (k, a) m.
  Proof.
    induction m as [|[k' a'] m IH]; cbn [afind In]; [discriminate|].
    destruct (mon_eqb k k') eqn:E; [apply mon_eqb_eq in E; intros H; injection H as ->; left; congruence|intros H; right; apply IH; exact H].
  Qed.
  Lemma aset_new m k a : ~ In k (map fst m) -> aset m k a = m ++ [(k, a)].
  Proof. intros H. unfold aset. apply afind_None in H. rewrite H. reflexivity. Qed.
  Lemma aerase_absent m k : ~ In k (map fst m) -> aerase m k = m.
  Proof.
    unfold aerase. induction m as [|[k' a] m IH]; cbn [filter map fst In]; intros H; [reflexivity|].
    rewrite mon_eqb_neq by (intros E; apply H; left; congruence). cbn [negb]. rewrite IH by tauto. reflexivity.
  Qed.
  Lemma aerase_app m1 m2 k : aerase (m1 ++ m2) k = aerase m1 k ++ aerase m2 k.
  Proof. unfold aerase. apply filter_app. Qed.
  Lemma aerase_one k (a : A) : aerase [(k, a)] k = [].
  Proof. unfold aerase. cbn [filter fst]. rewrite mon_eqb_refl. reflexivity. Qed.
End AMapProofs.

(** ---- recognising one coefficient ---- *)
Definition residue (M : Z) (c : Z * Z) (a : Z) : Prop := 0 <= a < M /\ (a * snd c - fst c) mod M = 0.
Lemma residue_agrees M c a n d : residue M c a -> (n - a * d) mod M = 0 -> agrees M c (n, d).
Proof.
  intros [Ha H] H'. unfold agrees. cbn [fst snd]. apply Z.mod_divide in H; [|lia]. apply Z.mod_divide in H'; [|lia].
  destruct H as [x Hx], H' as [y Hy]. apply Z.mod_divide; [lia|]. exists (y * snd c + x * d).
  replace (n * snd c - fst c * d) with ((n - a * d) * snd c + (a * snd c - fst c) * d) by ring. rewrite Hx, Hy. ring.
Qed.
Lemma wang_guess M c a r : residue M c a -> get_rational_coef a M = Some (true, r) ->
  guessable M (num r, den r) /\ agrees M c (num r, den r).
Proof.
  intros HR H. pose proof (proj1 HR) as Ha. destruct (get_rational_coef_sound a M r Ha H) as [D [G [E [B1 B2]]]].
  split; [|exact (residue_agrees M c a _ _ HR E)]. split; [split; assumption|]. cbn [fst snd].
  set (x := Z.abs (num r)) in *. assert (X : 2 * (x * x) <= M) by (unfold x; rewrite Z.abs_square; exact B1). clearbody x. clear - X B2 D Ha. pose proof (Z.square_nonneg (x - den r)). nia.
Qed.
Lemma mqrr_guess M c a r : residue M c a -> get_rational_coef_mqrr a M = Some (true, r) ->
  guessable M (num r, den r) /\ agrees M c (num r, den r).
Proof.
  intros HR H. pose proof (proj1 HR) as Ha. destruct (mqrr_sound a M r Ha H) as [D [G [E B]]].
  split; [|exact (residue_agrees M c a _ _ HR E)]. split; [split; assumption|]. cbn [fst snd].
  pose proof (threshold_pos M ltac:(lia)) as T. assert (0 <= Z.abs (num r) * den r) by (apply Z.mul_nonneg_nonneg; lia).
  set (x := Z.abs (num r) * den r) in *. clearbody x. clear - T B H0. nia.
Qed.
Lemma rn_eqb_eq a b : rn_eqb a b = true -> a = b.
Proof. unfold rn_eqb. intros H. apply andb_prop in H as [A B]. apply Z.eqb_eq in A, B. destruct a, b; cbn in *; congruence. Qed.

(** if no impostor exists a coefficient is only fixed to its true value *)
Lemma decide_ok M M' c a a' : residue M c a -> residue M' c a' -> lowest c -> no_impostor M M' c ->
  exists o, decide a M a' M' = Ret o /\ (forall q, o = Some q -> q = mk_rn (fst c) (snd c) /\ guessable M c).
Proof.
  intros HR HR' Hc HI. unfold decide.
  destruct (get_rational_coef_total a M (proj1 HR)) as [b1 [r1 E1]]. destruct (get_rational_coef_total a' M' (proj1 HR')) as [b2 [r2 E2]].
  destruct (mqrr_total a M (proj1 HR)) as [b3 [r3 E3]]. destruct (mqrr_total a' M' (proj1 HR')) as [b4 [r4 E4]].
  rewrite E1, E2, E3, E4. cbn [oget obind fst snd].
  assert (G : forall r, guessable M (num r, den r) -> agrees M' c (num r, den r) -> r = mk_rn (fst c) (snd c) /\ guessable M c).
  { intros r G A. pose proof (HI _ G A) as E. split; [destruct r as [u w]; cbn [num den] in E; rewrite <- E; reflexivity|rewrite <- E; exact G]. }
  destruct (b1 && b2 && rn_eqb r1 r2) eqn:C1.
  { apply andb_prop in C1 as [C1 Q]. apply andb_prop in C1 as [-> ->]. apply rn_eqb_eq in Q. subst r2. eexists. split; [reflexivity|].
    intros q E. injection E as <-. apply G; [exact (proj1 (wang_guess M c a r1 HR E1))|exact (proj2 (wang_guess M' c a' r1 HR' E2))]. }
  destruct (b3 && b4 && rn_eqb r3 r4) eqn:C2.
  { apply andb_prop in C2 as [C2 Q]. apply andb_prop in C2 as [-> ->]. apply rn_eqb_eq in Q. subst r4. eexists. split; [reflexivity|].
    intros q E. injection E as <-. apply G; [exact (proj1 (mqrr_guess M c a r3 HR E3))|exact (proj2 (mqrr_guess M' c a' r3 HR' E4))]. }
  destruct (Z.eqb_spec a a') as [Q|Q]; [|eexists; split; [reflexivity|discriminate]].
  assert (E : rn_make a 1 = Some (mk_rn a 1)).
  { unfold rn_make, rn_reduce, zdiv. rewrite Z.gcd_1_r. cbn. rewrite !Z.quot_1_r. reflexivity. }
  rewrite E. cbn [oget obind]. eexists. split; [reflexivity|]. intros q Eq. injection Eq as <-. subst a'. apply G; cbn [num den].
  - destruct HR as [HR _]. split; [split; cbn [fst snd]; [lia|apply Z.gcd_1_r]|]. cbn [fst snd]. lia.
  - apply (residue_agrees M' c a); [exact HR'|]. rewrite Z.mul_1_r, Z.sub_diag. apply Z.mod_0_l. destruct HR'. lia.
Qed.

(** ---- Chinese remaindering of a residue ---- *)
Lemma mod_0_mul m n x : 0 < m -> 0 < n -> Z.gcd m n = 1 -> x mod m = 0 -> x mod n = 0 -> x mod (m * n) = 0.
Proof.
  intros Hm Hn G A B. apply Z.mod_divide in A; [|lia]. apply Z.mod_divide in B; [|lia]. apply Z.mod_divide; [lia|].
  destruct A as [u Hu]. assert (D : (n | u)). { apply (Z.gauss n m u); [rewrite Z.mul_comm, <- Hu; exact B|rewrite Z.gcd_comm; exact G]. }
  destruct D as [w Hw]. exists w. rewrite Hu, Hw. ring.
Qed.
Lemma crt_residue M q c a i : 0 < M -> 0 < q -> Z.gcd M q = 1 -> residue M c a -> residue q c i ->
  exists a', run_chinese_remainder (a, M) (i, q) = Some (a', M * q) /\ residue (M * q) c a'.
Proof.
  intros HM Hq G [Ha A] [Hi B]. destruct (crt_spec a M i q HM Hq G ltac:(lia) ltac:(lia)) as [a' [E [R [E1 E2]]]].
  exists a'. split; [exact E|]. split; [exact R|]. apply mod_0_mul; try assumption.
  - rewrite Zminus_mod, Zmult_mod, E1, <- Zmult_mod, <- Zminus_mod. exact A.
  - rewrite Zminus_mod, Zmult_mod, E2, <- Zmult_mod, <- Zminus_mod. exact B.
Qed.

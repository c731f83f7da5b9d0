(** Property theorems C58: what get_result returns does not depend on the order in which hash maps are iterated (PolyReconst), and what does (RatReconst). *)
From Coq Require Import Ascii String.
From Verif Require Import Machine RatNum Combi CombiProofs CombiProofs2 Printers PolySort.
From Coq Require Import List Permutation Sorted.
Import ListNotations.
Open Scope Z_scope.

(** Specification: the monomials of a result in ascending order, where the last exponent counts most, without repetition. *)
Definition below (a b : list Z) : Prop := exists i, (i < length a)%nat /\ nth i a 0 < nth i b 0 /\ forall j, (i < j < length a)%nat -> nth j a 0 = nth j b 0.
Definition ascending (l : pmap rn) : Prop := forall i j d, (i < j < length l)%nat -> below (fst (nth i l d)) (fst (nth j l d)).
(** a map: the keys are different and have the same length *)
Definition term_map (n : nat) (m : pmap rn) : Prop := NoDup (map fst m) /\ forall e c, In (e, c) m -> length e = n.

Lemma below_colex n a b : length a = n -> length b = n -> (below a b <-> colex_gt b a).
Proof. intros Ha Hb. unfold below, colex_gt. rewrite Ha, Hb. split; intros [i [A [B C]]]; exists i; (split; [exact A|]); (split; [exact B|]); intros j Hj; symmetry; apply C; exact Hj. Qed.
Lemma mono_less_ok n a b : length (fst a) = n -> length (fst b) = n -> (mono_less a b = true <-> colex_gt (fst b) (fst a)).
Proof.
  intros Ha Hb. unfold mono_less. destruct (a_grt_b_spec (fst b) (fst a) ltac:(congruence)) as [r [E H]]. rewrite E. rewrite <- H. destruct r; split; congruence.
Qed.
Definition bef (a b : list Z * rn) : Prop := colex_gt (fst b) (fst a).
Lemma insert_perm x l : Permutation (insert_mono x l) (x :: l).
Proof. induction l as [|y l IH]; [reflexivity|]. cbn [insert_mono]. destruct (mono_less y x); [|reflexivity]. rewrite IH. apply perm_swap. Qed.
Lemma sort_perm l : Permutation (fold_right insert_mono [] l) l.
Proof. induction l as [|x l IH]; [reflexivity|]. cbn [fold_right]. rewrite insert_perm. constructor. exact IH. Qed.
Lemma insert_ok n x l : length (fst x) = n -> (forall y, In y l -> length (fst y) = n) -> ~ In (fst x) (map fst l) -> StronglySorted bef l -> StronglySorted bef (insert_mono x l).
Proof.
  intros Hx. induction l as [|y l IH]; intros Hl Hn SS; [repeat constructor|]. cbn [insert_mono]. inversion SS as [|? ? S1 F1]; subst. rewrite Forall_forall in F1.
  assert (Hy : length (fst y) = length (fst x)) by (apply Hl; left; reflexivity).
  destruct (mono_less y x) eqn:E.
  - constructor; [apply IH; [intros z I; apply Hl; right; exact I|intros I; apply Hn; right; exact I|exact S1]|]. apply Forall_forall. intros z I. apply (Permutation_in _ (insert_perm x l)) in I as [<-|I]; [|apply F1; exact I].
    apply (mono_less_ok (length (fst x))) in E; [exact E|exact Hy|reflexivity].
  - assert (X : bef x y).
    { destruct (colex_total (fst y) (fst x) Hy) as [C|[C|C]]; [exact C| |exfalso; apply Hn; left; exact C]. exfalso. apply (mono_less_ok (length (fst x)) y x Hy eq_refl) in C. congruence. }
    constructor; [constructor; [exact S1|apply Forall_forall; exact F1]|]. constructor; [exact X|]. apply Forall_forall. intros z I. unfold bef. apply (colex_trans _ (fst y)).
    + rewrite Hy. apply Hl. right. exact I.
    + exact Hy.
    + apply F1. exact I.
    + exact X.
Qed.
Lemma sort_ok n l : term_map n l -> StronglySorted bef (fold_right insert_mono [] l).
Proof.
  intros [ND HL]. induction l as [|x l IH]; [constructor|]. cbn [fold_right]. inversion ND as [|? ? N1 N2]; subst. apply (insert_ok n).
  - destruct x as [e c]. apply (HL e c). left. reflexivity.
  - intros [e c] I. apply (Permutation_in _ (sort_perm l)) in I. apply (HL e c). right. exact I.
  - intros I. apply N1. apply (Permutation_in _ (Permutation_map fst (sort_perm l))). exact I.
  - apply IH; [exact N2|]. intros e c I. apply (HL e c). right. exact I.
Qed.
Lemma bef_unique : forall l l', StronglySorted bef l -> StronglySorted bef l' -> (forall x y, In x l -> In y l -> length (fst x) = length (fst y)) -> Permutation l l' -> l = l'.
Proof.
  induction l as [|x l IH]; intros l' S1 S2 HL P; [apply Permutation_nil in P; subst; reflexivity|]. destruct l' as [|y l']; [apply Permutation_sym, Permutation_nil in P; discriminate P|].
  inversion S1 as [|? ? A1 B1]; subst. inversion S2 as [|? ? A2 B2]; subst. rewrite Forall_forall in B1, B2.
  assert (x = y) as <-.
  { assert (I1 : In x (y :: l')) by (apply (Permutation_in _ P); left; reflexivity). assert (I2 : In y (x :: l)) by (apply (Permutation_in _ (Permutation_sym P)); left; reflexivity).
    destruct I1 as [I1|I1]; [symmetry; exact I1|]. destruct I2 as [I2|I2]; [exact I2|]. exfalso. apply (colex_irrefl (fst x)). apply (colex_trans _ (fst y)); [apply HL; [left; reflexivity|right; exact I2]|apply HL; [right; exact I2|left; reflexivity]| |].
    - exact (B2 x I1).
    - exact (B1 y I2). }
  f_equal. apply IH; [exact A1|exact A2|intros a b I J; apply HL; right; assumption|]. apply (Permutation_cons_inv P).
Qed.
Lemma sorted_ascending n l : (forall x, In x l -> length (fst x) = n) -> (StronglySorted bef l <-> ascending l).
Proof.
  intros HL. split.
  - intros SS. induction SS as [|x l SS IH F]; intros i j d Hij; [cbn in Hij; lia|]. rewrite Forall_forall in F. cbn [length] in Hij. destruct j as [|j]; [lia|]. destruct i as [|i]; cbn [nth].
    + assert (I : In (nth j l d) l) by (apply nth_In; lia). apply (below_colex n); [apply HL; left; reflexivity|apply HL; right; exact I|]. apply F. exact I.
    + apply IH; [intros y I; apply HL; right; exact I|lia].
  - induction l as [|x l IH]; intros A; [constructor|]. constructor.
    + apply IH; [intros y I; apply HL; right; exact I|]. intros i j d Hij. apply (A (S i) (S j) d). cbn [length]. lia.
    + apply Forall_forall. intros y I. apply (In_nth _ _ x) in I as [j [Hj <-]]. pose proof (A 0%nat (S j) x ltac:(cbn [length]; lia)) as B. cbn [nth] in B.
      apply (below_colex n) in B; [exact B|apply HL; left; reflexivity|apply HL; right; apply nth_In; exact Hj].
Qed.

(** std::sort with the comparator of Polynomial::sort: there is exactly one ascending arrangement of the terms, so every correct algorithm returns what the model's does. *)
Theorem C58_sorted_list_is_unique : forall n (m : pmap rn), term_map n m ->
  Permutation (coefs (poly_sort (poly_of m))) m /\ ascending (coefs (poly_sort (poly_of m))) /\
  forall l, Permutation l m -> ascending l -> l = coefs (poly_sort (poly_of m)).
Proof.
  intros n m H. cbn [poly_sort poly_of coefs]. pose proof (sort_perm m) as P. pose proof (sort_ok n m H) as SO. destruct H as [ND HL].
  assert (HM : forall l, Permutation l m -> forall x, In x l -> length (fst x) = n). { intros l Q [e c] I. apply (Permutation_in _ Q) in I. exact (HL e c I). }
  split; [exact P|]. split; [apply (sorted_ascending n); [apply HM; exact P|exact SO]|].
  intros l Q A. apply bef_unique; [apply (sorted_ascending n); [apply HM; exact Q|exact A]|exact SO| |rewrite Q; symmetry; exact P].
  intros x y I J. rewrite (HM l Q x I), (HM l Q y J). reflexivity.
Qed.
Print Assumptions C58_sorted_list_is_unique.

(** PolyReconst::get_result of a finished object: the terms of gi, ascending; every later call returns the same; two objects that iterate their hash maps in different orders
    return the same polynomial and print the same text. *)
Theorem C58_polynomial_result_is_canonical : forall n (m m' : pmap rn) (ord ord' : pmap rn -> pmap rn), (forall l, Permutation (ord l) l) -> (forall l, Permutation (ord' l) l) ->
  term_map n m -> Permutation m m' ->
  let (p, s) := polyreconst_result ord (mk_presult (mk_poly [] 0 (-1)) true m) in
  Permutation (coefs p) m /\ ascending (coefs p) /\
  fst (polyreconst_result ord s) = p /\
  fst (polyreconst_result ord' (mk_presult (mk_poly [] 0 (-1)) true m')) = p /\
  forall vars, poly_to_string (fst (polyreconst_result ord' (mk_presult (mk_poly [] 0 (-1)) true m'))) vars = poly_to_string p vars.
Proof.
  intros n m m' ord ord' Ho Ho' H P. unfold polyreconst_result at 1. cbn [coefs pr_result pr_done pr_gi].
  assert (TM : forall l, Permutation l m -> term_map n l).
  { intros l Q. destruct H as [ND HL]. split; [apply (Permutation_NoDup (Permutation_map fst (Permutation_sym Q))); exact ND|]. intros e c I. apply (HL e c). apply (Permutation_in _ Q). exact I. }
  assert (Q1 : Permutation (ord m) m) by apply Ho. assert (Q2 : Permutation (ord' m') m) by (rewrite Ho'; symmetry; exact P).
  destruct (C58_sorted_list_is_unique n (ord m) (TM _ Q1)) as [A1 [A2 A3]]. destruct (C58_sorted_list_is_unique n (ord' m') (TM _ Q2)) as [B1 [B2 _]].
  assert (E : poly_sort (poly_of (ord' m')) = poly_sort (poly_of (ord m))).
  { assert (C : coefs (poly_sort (poly_of (ord' m'))) = coefs (poly_sort (poly_of (ord m)))) by (apply A3; [rewrite B1, Q2; symmetry; exact Q1|exact B2]).
    assert (L : pn (poly_sort (poly_of (ord' m'))) = pn (poly_sort (poly_of (ord m)))).
    { cbn [poly_sort poly_of pn]. destruct (TM _ Q1) as [_ L1]. destruct (TM _ Q2) as [_ L2]. pose proof (Permutation_length Q1) as K1. pose proof (Permutation_length Q2) as K2. destruct (ord m) as [|[e c] r], (ord' m') as [|[e' c'] r']; cbn [length] in *; try lia. cbn [fst]. rewrite (L1 e c), (L2 e' c') by (left; reflexivity). reflexivity. }
    unfold poly_sort in *. cbn [coefs pn var_pos poly_of] in *. congruence. }
  split; [rewrite A1; exact Q1|]. split; [exact A2|]. split.
  - unfold polyreconst_result. cbn [pr_result pr_done pr_gi]. destruct (coefs (poly_sort (poly_of (ord m)))) as [|t r] eqn:Z; [|reflexivity]. cbn [fst].
    assert (ord m = []) as ->. { apply Permutation_nil. rewrite <- (sort_perm (ord m)). cbn [poly_sort poly_of coefs] in Z. rewrite Z. reflexivity. } assert (X : ord [] = []) by (apply Permutation_nil; symmetry; apply Ho). rewrite X. reflexivity.
  - unfold polyreconst_result. cbn [coefs pr_result pr_done pr_gi fst]. rewrite E. split; reflexivity.
Qed.
Print Assumptions C58_polynomial_result_is_canonical.

(** An object that is not finished returns the zero polynomial (printed "0"), without any sign of it; RatReconst ends the process. *)
Theorem C58_unfinished : forall ord m vars gn gd f,
  fst (polyreconst_result ord (mk_presult (mk_poly [] 0 (-1)) false m)) = mk_poly [] 0 (-1) /\
  poly_to_string (mk_poly [] 0 (-1)) vars = Ret (list_ascii_of_string "0") /\
  ratreconst_result ord (mk_rresult f false gn gd) = Exit.
Proof. intros. split; [reflexivity|]. split; reflexivity. Qed.
Print Assumptions C58_unfinished.

(** RatReconst::get_result of a finished object: the terms of g_ni and g_di; every later call returns the same. *)
Theorem C58_rational_result : forall ord, (forall l : pmap rn, Permutation (ord l) l) -> forall gn gd, gn <> [] ->
  exists f s, ratreconst_result ord (mk_rresult (mk_ratfun (mk_poly [] 0 (-1)) (mk_poly [] 0 (-1)) [] []) true gn gd) = Ret (f, s) /\
    Permutation (coefs (rnum f)) gn /\ Permutation (coefs (rden f)) gd /\ factors f = [] /\ ratreconst_result ord s = Ret (f, s).
Proof.
  intros ord Ho gn gd Hn. unfold ratreconst_result at 1. cbn [rr_done rr_result rr_gni rr_gdi rnum coefs]. eexists. eexists. split; [reflexivity|]. cbn [rnum rden coefs poly_of factors]. split; [apply Ho|]. split; [apply Ho|]. split; [reflexivity|].
  unfold ratreconst_result. cbn [rr_done rr_result rnum coefs poly_of]. destruct (ord gn) as [|t r] eqn:E; [|reflexivity]. exfalso. apply Hn. apply Permutation_nil. rewrite <- E. apply Ho.
Qed.
Print Assumptions C58_rational_result.

(** Refuted for RatReconst: two orders of iteration of the same maps give two texts (the calls of sort are comments). *)
Theorem C58_rational_text_depends_on_the_order_refuted : exists (ord ord' : pmap rn -> pmap rn) gn gd f f' s s' vars t t',
  (forall l, Permutation (ord l) l) /\ (forall l, Permutation (ord' l) l) /\ term_map 2 gn /\ term_map 2 gd /\
  ratreconst_result ord (mk_rresult (mk_ratfun (mk_poly [] 0 (-1)) (mk_poly [] 0 (-1)) [] []) true gn gd) = Ret (f, s) /\
  ratreconst_result ord' (mk_rresult (mk_ratfun (mk_poly [] 0 (-1)) (mk_poly [] 0 (-1)) [] []) true gn gd) = Ret (f', s') /\
  ratfun_string poly_to_string f vars = Ret t /\ ratfun_string poly_to_string f' vars = Ret t' /\ t <> t'.
Proof.
  exists (fun l => l), (fun l => rev l), [([1; 0], mk_rn 1 1); ([0; 1], mk_rn 1 1)], [([0; 0], mk_rn 1 1)]. do 4 eexists. exists [list_ascii_of_string "x"; list_ascii_of_string "y"]. do 2 eexists.
  split; [intros l; apply Permutation_refl|]. split; [intros l; apply Permutation_sym, Permutation_rev|].
  split; [split; [repeat constructor; cbn; intuition discriminate|intros e c [I|[I|[]]]; injection I as <- <-; reflexivity]|].
  split; [split; [repeat constructor; cbn; intuition discriminate|intros e c [I|[]]; injection I as <- <-; reflexivity]|].
  split; [reflexivity|]. split; [reflexivity|]. split; [vm_compute; reflexivity|]. split; [vm_compute; reflexivity|]. discriminate.
Qed.
Print Assumptions C58_rational_text_depends_on_the_order_refuted.

(** The hypotheses are met: x y + 2 x^2 + y in another order. *)
Example C58_hypotheses_met : let m := [([1; 1], mk_rn 1 1); ([0; 1], mk_rn 3 1); ([2; 0], mk_rn 2 1)] in term_map 2 m /\
  map fst (coefs (fst (polyreconst_result (fun l => rev l) (mk_presult (mk_poly [] 0 (-1)) true m)))) = [[2; 0]; [0; 1]; [1; 1]].
Proof. split; [|reflexivity]. split; [repeat constructor; cbn; intuition discriminate|]. intros e c [I|[I|[I|[]]]]; injection I as <- <-; reflexivity. Qed.

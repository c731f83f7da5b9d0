(** Property theorems C16-C20: PolynomialFF over every field satisfying the FFInt laws, for every iteration order
    of the underlying unordered_map. [calc] is PolynomialFF::calc. *)
From Coq Require Import Permutation Znumtheory.
From Verif Require Import Machine FField FSum LinAlg LinAlgProofs FPoly Vandermonde VandermondeProofs PolyFF PolySpec Binom PolyFFProofs PolyFFProofs2 PolyFFProofs3 Props_LinAlg.
Open Scope nat_scope.

Notation well_formed a := (poly_ok (pf_n a) (pf_coefs a)) (only parsing).

(** evaluation is the sum over the terms, independent of the iteration order *)
Theorem C16_calc_is_the_polynomial_value : forall (K : fops), flaws K -> forall ord, any_order ord ->
  forall (a : polyff K) x, well_formed a -> calc ord a x = poly_value (pf_n a) (pf_coefs a) x.
Proof. intros K HK ord Ho a x Ha. exact (calc_value HK ord a x Ho Ha). Qed.
Print Assumptions C16_calc_is_the_polynomial_value.

(** calc_n_m_1 (without the Horner shortcut) is calc with the first variable set to one *)
Theorem C16_calc_n_m_1 : forall (K : fops), flaws K -> forall ord, any_order ord ->
  forall (a : polyff K) x, well_formed a -> 0 < pf_n a ->
  calc_n_m_1 ord a x = calc ord a (fun i => match i with O => f1 | S j => x j end).
Proof.
  intros K HK ord Ho a x Ha Hn. rewrite (calc_value HK) by assumption. unfold calc_n_m_1.
  rewrite (calc_fold HK (fun e => mon_val (pf_n a - 1) e 1 x)).
  transitivity (poly_value (pf_n a) (ord (pf_coefs a)) (fun i => match i with O => f1 | S j => x j end)); [|apply (pv_perm HK); apply Ho].
  assert (F : Forall (fun kc => exponents_ok (pf_n a) (fst kc)) (ord (pf_coefs a))) by (apply (ord_ok ord Ho); exact Ha).
  assert (L : forall y : K, fadd f0 y = y) by (intros y; apply (Ring_theory.Radd_0_l (Field_theory.F_R (fl_field K HK)))).
  rewrite L. induction F as [|kc m Hk F IH]; [reflexivity|]. cbn [fold_right poly_value]. fold (poly_value (pf_n a) m). f_equal; [|exact IH].
  f_equal. rewrite (mon_val_spec HK) by (intros i; pose proof (expo_range _ _ i Hk); unfold two64; lia).
  destruct (pf_n a) as [|n]; [lia|]. destruct Hk as [Hl Hf]. destruct (fst kc) as [|z e] eqn:E; [discriminate|].
  rewrite (mv_cons HK), (pw_1 HK). replace (S n - 1) with n by lia.
  rewrite (mv_ext n _ e). 2:{ intros i Hi. rewrite nth_map_seq by exact Hi. rewrite Nat.add_1_r. reflexivity. }
  rewrite (mv_ext_x n e x (fun i => x i)) by reflexivity.
  symmetry. apply (Ring_theory.Rmul_1_l (Field_theory.F_R (fl_field K HK))).
Qed.
Print Assumptions C16_calc_n_m_1.

Theorem C16_addition : forall (K : fops), flaws K -> forall ord, any_order ord ->
  forall (a b : polyff K), pf_n b = pf_n a -> well_formed a -> well_formed b ->
  (well_formed (padd ord a b) /\ pf_n (padd ord a b) = pf_n a) /\ (well_formed (padd_assign ord a b) /\ pf_n (padd_assign ord a b) = pf_n a) /\
  forall x, calc ord (padd ord a b) x = fadd (calc ord a x) (calc ord b x) /\
            calc ord (padd_assign ord a b) x = fadd (calc ord a x) (calc ord b x).
Proof.
  intros K HK ord Ho a b En Ha Hb. rewrite En in Hb.
  destruct (padd_ok HK ord Ho a b En Ha Hb) as [H1 H2]. destruct (padd_assign_ok HK ord Ho a b Ha Hb) as [H3 H4].
  split; [split; [exact H1|reflexivity]|]. split; [split; [exact H3|reflexivity]|]. intros x.
  rewrite (calc_value HK ord (padd ord a b) x Ho H1), (calc_value HK ord (padd_assign ord a b) x Ho H3), (calc_value HK ord a x Ho Ha), (calc_value HK ord b x Ho) by (rewrite En; exact Hb).
  rewrite En. split; [apply H2|apply H4].
Qed.
Print Assumptions C16_addition.

Theorem C16_subtraction : forall (K : fops), flaws K -> forall ord, any_order ord ->
  forall (a b : polyff K), pf_n b = pf_n a -> well_formed a -> well_formed b ->
  (well_formed (psub ord a b) /\ pf_n (psub ord a b) = pf_n a) /\ (well_formed (psub_assign ord a b) /\ pf_n (psub_assign ord a b) = pf_n a) /\
  forall x, calc ord (psub ord a b) x = fsub (calc ord a x) (calc ord b x) /\
            calc ord (psub_assign ord a b) x = fsub (calc ord a x) (calc ord b x).
Proof.
  intros K HK ord Ho a b En Ha Hb. rewrite En in Hb.
  destruct (psub_ok HK ord Ho a b Ha Hb) as [H1 H2]. destruct (psub_assign_ok HK ord Ho a b Ha Hb) as [H3 H4].
  split; [split; [exact H1|reflexivity]|]. split; [split; [exact H3|reflexivity]|]. intros x.
  rewrite (calc_value HK ord (psub ord a b) x Ho H1), (calc_value HK ord (psub_assign ord a b) x Ho H3), (calc_value HK ord a x Ho Ha), (calc_value HK ord b x Ho) by (rewrite En; exact Hb).
  rewrite En. split; [apply H2|apply H4].
Qed.
Print Assumptions C16_subtraction.

Theorem C16_scalars : forall (K : fops), flaws K -> forall ord, any_order ord ->
  forall (a : polyff K) c, well_formed a ->
  well_formed (pscale a c) /\ well_formed (pdivide a c) /\
  forall x, calc ord (pscale a c) x = fmul (calc ord a x) c /\
            calc ord (pdivide a c) x = fdiv (calc ord a x) c.
Proof.
  intros K HK ord Ho a c Ha.
  destruct (pscale_ok HK a c Ha) as [H1 H2]. destruct (pscale_ok HK a (fdiv f1 c) Ha) as [H3 H4].
  split; [exact H1|]. split; [exact H3|]. intros x.
  rewrite (calc_value HK ord (pscale a c) x Ho H1), (calc_value HK ord (pdivide a c) x Ho H3), (calc_value HK ord a x Ho Ha).
  split; [apply H2|]. unfold pdivide. cbn [pf_n pscale]. change (pf_coefs {| pf_n := _; pf_coefs := ?m |}) with m.
  etransitivity; [apply (H4 (pf_n a))|]. symmetry. apply (Field_theory.Fdiv_def (fl_field K HK)).
Qed.
Print Assumptions C16_scalars.

(** cancelled coefficients are erased *)
Theorem C16_no_zero_coefficients : forall (K : fops), flaws K -> forall ord, any_order ord ->
  forall (a b : polyff K), pf_n b = pf_n a -> well_formed a -> well_formed b ->
  no_zero_coefficient (pf_coefs a) ->
  no_zero_coefficient (pf_coefs (padd_assign ord a b)) /\ no_zero_coefficient (pf_coefs (psub_assign ord a b)) /\
  (no_zero_coefficient (pf_coefs b) ->
   no_zero_coefficient (pf_coefs (padd ord a b)) /\ no_zero_coefficient (pf_coefs (psub ord a b))).
Proof.
  intros K HK ord Ho a b En Ha Hb Hz. rewrite En in Hb. pose proof (ord_ok ord Ho _ _ Ha) as Ha'. pose proof (ord_ok ord Ho _ _ Hb) as Hb'.
  split; [exact (assign_fold_nz HK (pf_n a) true _ _ Ha Hz (proj2 Hb'))|]. split; [exact (assign_fold_nz HK (pf_n a) false _ _ Ha Hz (proj2 Hb'))|].
  intros Hz'. split; [|exact (term_fold_nz HK (pf_n a) false _ _ Ha Hz (proj2 Hb') (ord_nz ord Ho _ Hz'))].
  unfold padd. cbn [pf_coefs]. destruct (_ <? _).
  - exact (term_fold_nz HK (pf_n a) true _ _ Hb Hz' (proj2 Ha') (ord_nz ord Ho _ Hz)).
  - exact (term_fold_nz HK (pf_n a) true _ _ Ha Hz (proj2 Hb') (ord_nz ord Ho _ Hz')).
Qed.
Print Assumptions C16_no_zero_coefficients.

Theorem C16_remove_zero_coefs : forall (K : fops), flaws K -> forall ord, any_order ord ->
  forall (a : polyff K), well_formed a ->
  well_formed (remove_zero_coefs ord a) /\ no_zero_coefficient (pf_coefs (remove_zero_coefs ord a)) /\
  forall x, calc ord (remove_zero_coefs ord a) x = calc ord a x.
Proof.
  intros K HK ord Ho a Ha. destruct (remove_ok HK ord Ho a Ha) as [H1 [H2 H3]]. split; [exact H1|]. split; [exact H2|].
  intros x. rewrite (calc_value HK ord _ x Ho H1), (calc_value HK ord _ x Ho Ha). apply H3.
Qed.
Print Assumptions C16_remove_zero_coefs.

(** examples in F7: a = 3 x^2 y + 5, b = 4 x^2 y + y *)
Definition ex_a : polyff F7 := mk_polyff 2 [([2; 1]%Z, z7 3); ([0; 0]%Z, z7 5)].
Definition ex_b : polyff F7 := mk_polyff 2 [([2; 1]%Z, z7 4); ([0; 1]%Z, z7 1)].
Lemma two_keys_ok n (k1 k2 : list Z) (c1 c2 : F7) : k1 <> k2 -> length k1 = n -> length k2 = n ->
  Forall (fun z => (0 <= z < 2 ^ 32)%Z) k1 -> Forall (fun z => (0 <= z < 2 ^ 32)%Z) k2 -> poly_ok n [(k1, c1); (k2, c2)].
Proof.
  intros Hne H1 H2 H3 H4. split; cbn [map fst].
  - constructor; [intros [E|[]]; congruence|]. constructor; [intros []|constructor].
  - repeat (constructor; [split; assumption|]). constructor.
Qed.
Lemma identity_order {K : fops} : any_order (fun m : list (list Z * K) => m). Proof. intros m. apply Permutation_refl. Qed.
Lemma reverse_order {K : fops} : any_order (@rev (list Z * K)). Proof. intros m. apply Permutation_sym, Permutation_rev. Qed.

Lemma ex_a_ok : well_formed ex_a.
Proof. apply two_keys_ok; try reflexivity; try discriminate; repeat constructor; lia. Qed.
Lemma ex_b_ok : well_formed ex_b.
Proof. apply two_keys_ok; try reflexivity; try discriminate; repeat constructor; lia. Qed.
Example C16_hypotheses_met : any_order (@rev (list Z * F7)) /\ well_formed ex_a /\ well_formed ex_b /\ pf_n ex_b = pf_n ex_a /\
  no_zero_coefficient (pf_coefs ex_a) /\ map fst (pf_coefs (padd (@rev _) ex_a ex_b)) = [[0; 0]; [0; 1]]%Z /\
  v7 (calc (@rev _) (padd (@rev _) ex_a ex_b) (fun _ => z7 2)) = 0%Z.
Proof.
  split; [exact reverse_order|]. split; [exact ex_a_ok|]. split; [exact ex_b_ok|]. split; [reflexivity|]. split; [|split; vm_compute; reflexivity].
  repeat constructor; cbn [snd]; intros E; apply (f_equal v7) in E; vm_compute in E; discriminate.
Qed.

(** ---- C17: product ---- *)
Theorem C17_product_without_collisions : forall (K : fops), flaws K -> forall ord, any_order ord ->
  forall (a b : polyff K), pf_n b = pf_n a -> well_formed a -> well_formed b ->
  (forall k1 k2, In k1 (map fst (pf_coefs a)) -> In k2 (map fst (pf_coefs b)) -> forall i, (nth i k1 0 + nth i k2 0 < 2 ^ 32)%Z) ->
  (forall k1 k2 k1' k2', In k1 (map fst (pf_coefs a)) -> In k2 (map fst (pf_coefs b)) -> In k1' (map fst (pf_coefs a)) -> In k2' (map fst (pf_coefs b)) ->
     (forall i, i < pf_n a -> (nth i k1 0 + nth i k2 0 = nth i k1' 0 + nth i k2' 0)%Z) -> k1 = k1' /\ k2 = k2') ->
  well_formed (pmul ord a b) /\ forall x, calc ord (pmul ord a b) x = fmul (calc ord a x) (calc ord b x).
Proof.
  intros K HK ord Ho a b En Ha Hb Hw Hc. rewrite En in Hb. destruct (pmul_value HK ord Ho a b En Ha Hb Hw Hc) as [H1 H2].
  split; [exact H1|]. intros x. rewrite (calc_value HK ord _ x Ho H1), (calc_value HK ord a x Ho Ha), (calc_value HK ord b x Ho) by (rewrite En; exact Hb).
  rewrite En. apply H2.
Qed.
Print Assumptions C17_product_without_collisions.

(** a monomial times anything is always right: there are no collisions *)
Theorem C17_product_with_a_single_term : forall (K : fops), flaws K -> forall ord, any_order ord ->
  forall (a b : polyff K) k c, pf_n b = pf_n a -> well_formed a -> well_formed b -> pf_coefs a = [(k, c)] ->
  (forall k2, In k2 (map fst (pf_coefs b)) -> forall i, (nth i k 0 + nth i k2 0 < 2 ^ 32)%Z) ->
  forall x, calc ord (pmul ord a b) x = fmul (calc ord a x) (calc ord b x).
Proof.
  intros K HK ord Ho a b k c En Ha Hb Ea Hw. apply C17_product_without_collisions; try assumption.
  - rewrite Ea. intros k1 k2 [<-|[]] I2 i. apply Hw; exact I2.
  - rewrite Ea. intros k1 k2 k1' k2' [<-|[]] I2 [<-|[]] I4 E. cbn [fst] in *. split; [reflexivity|].
    destruct Hb as [_ Hf]. rewrite Forall_forall in Hf. rewrite En in Hf.
    apply in_map_iff in I2 as [[k2a c2] [<- I2]]. apply in_map_iff in I4 as [[k4a c4] [<- I4]].
    pose proof (Hf _ I2) as [L2 _]. pose proof (Hf _ I4) as [L4 _]. cbn [fst] in *.
    apply list_ext_nth; [congruence|]. intros i Hi. specialize (E i ltac:(lia)). lia.
Qed.
Print Assumptions C17_product_with_a_single_term.

Section Small.
  Context {K : fops} (HK : flaws K).
  Add Field KFs : (fl_field K HK).
  Lemma three_is_not_four :
    (f1 * f1 * f1 + (f1 * f1 * f1 + (f1 * f1 * f1 + f0)))%K <> ((f1 * f1 + (f1 * f1 + f0)) * (f1 * f1 + (f1 * f1 + f0)) : K)%K.
  Proof.
    intros E. apply (Field_theory.F_1_neq_0 (fl_field K HK)).
    transitivity ((f1 * f1 + (f1 * f1 + f0)) * (f1 * f1 + (f1 * f1 + f0)) - (f1 * f1 * f1 + (f1 * f1 * f1 + (f1 * f1 * f1 + f0))) : K)%K; [ring|].
    rewrite E. ring.
  Qed.
End Small.

(** (x+1)*(x+1): the code returns x^2 + x + 1, in every field and for every iteration order *)
Theorem C17_product_refuted : forall (K : fops), flaws K -> forall ord, any_order ord ->
  let a := mk_polyff 1 [([1]%Z, f1); ([0]%Z, f1)] in
  well_formed a /\
  calc ord (pmul ord a a) (fun _ : nat => @f1 K) <> fmul (calc ord a (fun _ => f1)) (calc ord a (fun _ => f1)).
Proof.
  intros K HK ord Ho a. assert (Ha : well_formed a).
  { split; cbn [map fst pf_coefs a].
    - constructor; [intros [E|[]]; discriminate|]. constructor; [intros []|constructor].
    - repeat (constructor; [split; [reflexivity|repeat constructor; lia]|]). constructor. }
  split; [exact Ha|]. pose proof (fl_field K HK) as KF.
  rewrite (calc_value HK ord a _ Ho Ha).
  assert (N1 : feqb (fmul (@f1 K) f1) f0 = false).
  { destruct (feqb (fmul f1 f1) f0) eqn:E; [|reflexivity]. exfalso. apply (fl_eqb K HK) in E. apply (Field_theory.F_1_neq_0 KF).
    rewrite <- E. symmetry. apply (Ring_theory.Rmul_1_l (Field_theory.F_R KF)). }
  assert (P : exists k1 k2 k3, pf_coefs (pmul ord a a) = [(k1, fmul f1 f1); (k2, fmul f1 f1); (k3, fmul f1 f1)] /\
     exponents_ok 1 k1 /\ exponents_ok 1 k2 /\ exponents_ok 1 k3 /\ k1 <> k2 /\ k1 <> k3 /\ k2 <> k3).
  { unfold pmul. cbn [pf_coefs]. pose proof (Ho (pf_coefs a)) as P. cbn [a pf_coefs] in *. apply Permutation_sym in P.
    apply Permutation_length_2_inv in P. unfold a at 1. cbn [pf_n].
    assert (X : forall z, (0 <= z < 2 ^ 32)%Z -> exponents_ok 1 [z]) by (intros z Hz; split; [reflexivity|repeat constructor; lia]).
    destruct P as [-> | ->]; cbn [fold_left snd fst]; rewrite N1; cbn; [exists [2]%Z, [1]%Z, [0]%Z|exists [0]%Z, [1]%Z, [2]%Z];
    (split; [reflexivity|]); repeat split; try (repeat constructor; lia); discriminate. }
  destruct P as [k1 [k2 [k3 [E [X1 [X2 [X3 [D1 [D2 D3]]]]]]]]].
  assert (Hm : well_formed (pmul ord a a)).
  { rewrite E. change (pf_n (pmul ord a a)) with 1. split; cbn [map fst].
    - constructor; [intros [H|[H|[]]]; congruence|]. constructor; [intros [H|[]]; congruence|]. constructor; [intros []|constructor].
    - repeat (constructor; [assumption|]). constructor. }
  rewrite (calc_value HK ord _ _ Ho Hm), E. change (pf_n (pmul ord a a)) with 1. 
  assert (M : forall k, monomial_value 1 k (fun _ : nat => @f1 K) = f1) by (intros k; cbn [monomial_value]; rewrite (pw_1 HK); apply (Ring_theory.Rmul_1_l (Field_theory.F_R KF))).
  unfold poly_value. cbn [fold_right fst snd a pf_coefs pf_n]. rewrite !M. clear -HK KF.
  apply (three_is_not_four HK).
Qed.
Print Assumptions C17_product_refuted.

Example C17_hypotheses_met : any_order (@rev (list Z * F7)) /\
  forall k1 k2 k1' k2', In k1 (map fst (pf_coefs ex_a)) -> In k2 (map fst (pf_coefs ex_b)) -> In k1' (map fst (pf_coefs ex_a)) -> In k2' (map fst (pf_coefs ex_b)) ->
     (forall i, i < pf_n ex_a -> (nth i k1 0 + nth i k2 0 = nth i k1' 0 + nth i k2' 0)%Z) -> k1 = k1' /\ k2 = k2'.
Proof.
  split; [exact reverse_order|]. intros k1 k2 k1' k2' H1 H2 H3 H4 E. cbn in *. pose proof (E 0 ltac:(lia)) as E0. pose proof (E 1 ltac:(lia)) as E1.
  destruct H1 as [<-|[<-|[]]], H2 as [<-|[<-|[]]], H3 as [<-|[<-|[]]], H4 as [<-|[<-|[]]]; cbn in *; try lia; split; reflexivity.
Qed.

(** ---- C18: shift ---- *)
Section C18.
  Context {K : fops} (HK : flaws K).
  Add Field KF : (fl_field K HK).
  Lemma const_sum_none n (m : list (list Z * K)) : Forall (fun kc : list Z * K => exponents_ok n (fst kc)) m -> ~ In (repeat 0%Z n) (map fst m) -> const_sum n m = f0.
  Proof.
    induction m as [|[k c] m IH]; intros Hf Hn; [reflexivity|]. inversion_clear Hf as [|? ? F1 F2]. cbn [map fst In] in *. cbn [const_sum fold_right fst snd].
    fold (const_sum n m). destruct (is_const_mon n k) eqn:C; [|apply IH; tauto]. exfalso. apply Hn. left. rewrite is_const_true in C.
    destruct F1 as [L _]. apply list_ext_nth; [rewrite repeat_length; exact L|]. intros i Hi. rewrite nth_repeat. apply C. lia.
  Qed.
  Lemma const_sum_some n (m : list (list Z * K)) c : poly_ok n m -> In (repeat 0%Z n, c) m -> const_sum n m = c.
  Proof.
    induction m as [|[k c'] m IH]; intros [Hd Hf] Hin; [destruct Hin|]. inversion_clear Hf as [|? ? F1 F2]. cbn [map fst] in Hd. inversion_clear Hd as [|? ? D1 D2].
    cbn [const_sum fold_right fst snd]. fold (const_sum n m).
    assert (Z : is_const_mon n (repeat 0%Z n) = true) by (apply is_const_true; intros; apply nth_repeat).
    destruct Hin as [E|Hin].
    - injection E as -> ->. rewrite Z. rewrite const_sum_none by assumption. ring.
    - destruct (is_const_mon n k) eqn:C.
      + exfalso. apply D1. rewrite is_const_true in C. destruct F1 as [L _].
        replace k with (repeat 0%Z n); [apply (in_map fst) in Hin; exact Hin|]. symmetry. apply list_ext_nth; [rewrite repeat_length; exact L|]. intros i Hi. rewrite nth_repeat. apply C. cbn [fst] in L. lia.
      + apply IH; [split; assumption|exact Hin].
  Qed.
End C18.

(** substitution x -> x + s for polynomials without constant term; with one, exactly the constant is lost *)
Theorem C18_add_shift : forall (K : fops), flaws K -> forall ord, any_order ord ->
  forall (a : polyff K) (s : nat -> K), well_formed a ->
  (forall k i, In k (map fst (pf_coefs a)) -> characteristic_above K (Z.to_nat (nth i k 0%Z))) ->
  exists r, add_shift ord a (pf_n a) s = Ret r /\ pf_n r = pf_n a /\ well_formed r /\
    (~ In (repeat 0%Z (pf_n a)) (map fst (pf_coefs a)) -> forall x, calc ord r x = calc ord a (fun i => fadd (x i) (s i))) /\
    (forall c, In (repeat 0%Z (pf_n a), c) (pf_coefs a) -> forall x, fadd (calc ord r x) c = calc ord a (fun i => fadd (x i) (s i))).
Proof.
  intros K HK ord Ho a s Ha Hc. destruct (add_shift_ok HK ord Ho a s Ha Hc) as [r [H1 [H2 [H3 H4]]]].
  exists r. split; [exact H1|]. split; [exact H2|]. assert (Hr : well_formed r) by (rewrite H2; exact H3). split; [exact Hr|]. split.
  - intros Hn x. rewrite (calc_value HK ord r x Ho Hr), (calc_value HK ord a _ Ho Ha), <- H4, const_sum_none, H2 by (exact Hn || apply Ha).
    rewrite (Ring_theory.Radd_comm (Field_theory.F_R (fl_field K HK))). symmetry. apply (Ring_theory.Radd_0_l (Field_theory.F_R (fl_field K HK))).
  - intros c Hin x. rewrite (calc_value HK ord r x Ho Hr), (calc_value HK ord a _ Ho Ha), <- H4, (const_sum_some HK _ _ c Ha Hin), H2. reflexivity.
Qed.
Print Assumptions C18_add_shift.

(** in FFInt the condition on the exponents is: every exponent is below the prime *)
Theorem C18_add_shift_ffint : forall p (Hp : prime p) (Hlt : (p < 2 ^ 63)%Z) ord, any_order ord ->
  forall (a : polyff (FFint_ops p Hp Hlt)) s, well_formed a ->
  (forall k i, In k (map fst (pf_coefs a)) -> (nth i k 0 < p)%Z) -> ~ In (repeat 0%Z (pf_n a)) (map fst (pf_coefs a)) ->
  exists r, add_shift ord a (pf_n a) s = Ret r /\ forall x, calc ord r x = calc ord a (fun i => fadd (x i) (s i)).
Proof.
  intros p Hp Hlt ord Ho a s Ha Hk Hn. destruct (C18_add_shift _ (ffint_laws p Hp Hlt) ord Ho a s Ha) as [r [H1 [_ [_ [H2 _]]]]].
  - intros k i Hin. apply ffint_characteristic. specialize (Hk k i Hin). destruct Hp. lia.
  - exists r. split; [exact H1|]. apply H2. exact Hn.
Qed.
Print Assumptions C18_add_shift_ffint.

Theorem C18_add_shift_wrong_size : forall (K : fops) ord (a : polyff K) ls s, ls <> pf_n a -> add_shift ord a ls s = Throw.
Proof. intros K ord a ls s H. unfold add_shift. destruct (Nat.eqb_spec ls (pf_n a)); [contradiction|reflexivity]. Qed.
Print Assumptions C18_add_shift_wrong_size.

(** with a non-zero constant term the result is never the shifted polynomial *)
Theorem C18_constant_term_refuted : forall (K : fops), flaws K -> forall ord, any_order ord ->
  forall (a : polyff K) (s : nat -> K) c, well_formed a ->
  (forall k i, In k (map fst (pf_coefs a)) -> characteristic_above K (Z.to_nat (nth i k 0%Z))) ->
  In (repeat 0%Z (pf_n a), c) (pf_coefs a) -> c <> f0 ->
  exists r, add_shift ord a (pf_n a) s = Ret r /\ forall x, calc ord r x <> calc ord a (fun i => fadd (x i) (s i)).
Proof.
  intros K HK ord Ho a s c Ha Hc Hin Hnz. destruct (C18_add_shift K HK ord Ho a s Ha Hc) as [r [H1 [_ [_ [_ H2]]]]].
  exists r. split; [exact H1|]. intros x E. specialize (H2 c Hin x). rewrite <- E in H2. apply Hnz.
  pose proof (Field_theory.F_R (fl_field K HK)) as R.
  transitivity (fadd (fadd (calc ord r x) c) (fopp (calc ord r x))).
  - rewrite (Ring_theory.Radd_comm R (calc ord r x) c), <- (Ring_theory.Radd_assoc R), (Ring_theory.Ropp_def R), (Ring_theory.Radd_comm R), (Ring_theory.Radd_0_l R). reflexivity.
  - rewrite H2. apply (Ring_theory.Ropp_def R).
Qed.
Print Assumptions C18_constant_term_refuted.

Lemma F7_characteristic b : b < 7 -> characteristic_above F7 b.
Proof. intros H. apply ffint_characteristic. lia. Qed.
Example C18_hypotheses_met :
  (forall k i, In k (map fst (pf_coefs ex_b)) -> characteristic_above F7 (Z.to_nat (nth i k 0%Z))) /\
  ~ In (repeat 0%Z (pf_n ex_b)) (map fst (pf_coefs ex_b)) /\
  In (repeat 0%Z (pf_n ex_a), z7 5) (pf_coefs ex_a) /\ z7 5 <> f0 /\
  exists r, add_shift (@rev _) ex_b 2 (fun _ => z7 3) = Ret r /\ length (pf_coefs r) = 6.
Proof.
  split; [|split; [|split; [|split]]].
  - intros k i [<-|[<-|[]]]; apply F7_characteristic; destruct i as [|[|[|i]]]; cbn; lia.
  - cbn. intros [E|[E|[]]]; discriminate.
  - right; left; reflexivity.
  - intros E. apply (f_equal v7) in E. vm_compute in E. discriminate.
  - eexists. split; [unfold add_shift; cbn [Nat.eqb negb ex_b pf_n]; reflexivity|]. vm_compute. reflexivity.
Qed.

(** ---- C19 ---- *)
Theorem C19_mul_by_variable : forall (K : fops), flaws K -> forall ord, any_order ord ->
  forall (a : polyff K) zi, well_formed a -> 1 <= zi <= pf_n a ->
  (forall k, In k (map fst (pf_coefs a)) -> (nth (zi - 1) k 0 + 1 < 2 ^ 32)%Z) ->
  well_formed (pmul_var ord a zi) /\
  forall x, calc ord (pmul_var ord a zi) x = fmul (x (zi - 1)) (calc ord a x).
Proof.
  intros K HK ord Ho a zi Ha Hz Hw. destruct (pmul_var_value HK ord Ho a zi Ha Hz Hw) as [H1 H2]. split; [exact H1|].
  intros x. rewrite (calc_value HK ord _ x Ho H1), (calc_value HK ord a x Ho Ha). apply H2.
Qed.
Print Assumptions C19_mul_by_variable.

(** homogenize: every term gets total degree d in n+1 variables, and the terms, read as a polynomial in n+1
    variables, take the value t^d P(x/t) *)
Theorem C19_homogenize_terms : forall (K : fops), flaws K -> forall ord, any_order ord ->
  forall (a : polyff K) d, well_formed a -> (0 <= d < 2 ^ 32)%Z ->
  (forall k, In k (map fst (pf_coefs a)) -> (fold_right Z.add 0 k <= d)%Z) ->
  let h := mk_polyff (S (pf_n a)) (pf_coefs (phomogenize ord a d)) in
  (forall k, In k (map fst (pf_coefs h)) -> fold_right Z.add 0%Z k = d) /\
  well_formed h /\
  forall t x, t <> f0 ->
    calc ord h (fun i => match i with O => t | S j => x j end) = fmul (pw t (Z.to_nat d)) (calc ord a (fun i => fdiv (x i) t)).
Proof.
  intros K HK ord Ho a d Ha Hd Hdeg h. destruct (homogenize_value HK ord Ho a d Ha Hd Hdeg) as [H1 [H2 H3]].
  assert (Hh : well_formed h).
  { cbn [h pf_n pf_coefs]. split; [exact H2|]. rewrite (homogenize_terms HK ord Ho a d (proj1 Ha)) || rewrite (homogenize_terms ord Ho a d (proj1 Ha)).
    apply Forall_forall. intros kc Hin. apply in_map_iff in Hin as [[k c] [<- Hin]]. cbn [fst].
    assert (X : exponents_ok (pf_n a) k).
    { pose proof (ord_ok ord Ho _ _ Ha) as [_ F]. rewrite Forall_forall in F. apply (F _ Hin). }
    destruct X as [L F]. split; [cbn; lia|]. constructor; [pose proof (wrap32_range (d - degree32 k)); unfold two32 in *; lia|exact F]. }
  split; [|split; [exact Hh|]].
  - intros k Hin. apply in_map_iff in Hin as [kc [<- Hin]]. apply (H1 kc Hin).
  - intros t x Ht. rewrite (calc_value HK ord h _ Ho Hh), (calc_value HK ord a _ Ho Ha). apply H3. exact Ht.
Qed.
Print Assumptions C19_homogenize_terms.

(** but the returned object still says n variables, so evaluating it ignores the last one *)
Theorem C19_homogenize_evaluation_refuted : exists (K : fops) (a : polyff K) d t x, flaws K /\ well_formed a /\ t <> f0 /\
  (forall k, In k (map fst (pf_coefs a)) -> (fold_right Z.add 0 k <= d)%Z) /\
  forall ord, any_order ord ->
  calc ord (phomogenize ord a d) (fun i => match i with O => t | S j => x j end) <> fmul (pw t (Z.to_nat d)) (calc ord a (fun i => fdiv (x i) t)).
Proof.
  exists F7, (mk_polyff 1 [([1]%Z, z7 1)]), 2%Z, (z7 1), (fun _ => z7 3). split; [exact F7_laws|]. split.
  { split; cbn [map fst pf_coefs]; [constructor; [intros []|constructor]|]. constructor; [|constructor]. split; [reflexivity|repeat constructor; lia]. }
  split; [intros E; apply (f_equal v7) in E; vm_compute in E; discriminate|]. split; [intros k [<-|[]]; cbn; lia|].
  intros ord Ho. set (a := mk_polyff 1 _). unfold phomogenize, calc at 2. cbn [pf_coefs a pf_n].
  assert (P1 : forall kc, ord [kc] = [kc]) by (intros kc; apply Permutation_length_1_inv, Permutation_sym, Ho).
  rewrite P1. unfold calc. cbn [fold_left pf_coefs pf_n passign pfind app]. rewrite P1.
  intros E. apply (f_equal v7) in E. vm_compute in E. discriminate.
Qed.
Print Assumptions C19_homogenize_evaluation_refuted.

Example C19_hypotheses_met : (forall k, In k (map fst (pf_coefs ex_b)) -> (fold_right Z.add 0 k <= 4)%Z) /\
  (forall k, In k (map fst (pf_coefs ex_b)) -> (nth (2 - 1) k 0 + 1 < 2 ^ 32)%Z) /\ z7 3 <> f0 /\
  map fst (pf_coefs (phomogenize (@rev _) ex_b 4)) = [[3; 0; 1]; [1; 2; 1]]%Z.
Proof.
  split; [intros k [<-|[<-|[]]]; cbn; lia|]. split; [intros k [<-|[<-|[]]]; cbn; lia|].
  split; [intros E; apply (f_equal v7) in E; vm_compute in E; discriminate|vm_compute; reflexivity].
Qed.

(** ---- C20: Vandermonde ---- *)
(** The monomials are evaluated at (1, val^k), k = 1..N; the returned polynomial takes the given values there and
    no other polynomial in the same monomials does. *)
Theorem C20_solve_vandermonde_system : forall (K : fops), flaws K -> forall n (degs : list (list Z)) (nums val : nat -> K),
  degs <> [] -> NoDup degs -> Forall (exponents_ok (S n)) degs ->
  (forall i, i < length degs -> monomial_value n (tl (nth i degs [])) val <> f0) ->
  (forall i j, i < length degs -> j < length degs ->
     monomial_value n (tl (nth i degs [])) val = monomial_value n (tl (nth j degs [])) val -> i = j) ->
  exists r, solve_vandermonde_system n degs nums val = Ret r /\ pf_n r = S n /\ map fst (pf_coefs r) = degs /\
    (forall ord, any_order ord -> forall k, 0 < k <= length degs ->
       calc ord r (fun i => match i with O => f1 | S j => pw (val j) k end) = nums (k - 1)).
Proof.
  intros K HK n degs nums val Hne Hd Hx Hnz Hinj. destruct (solve_vandermonde_ok HK n degs nums val Hne Hd Hx Hnz Hinj) as [r [H1 [H2 [H3 H4]]]].
  exists r. split; [exact H1|]. split; [exact H2|]. split; [exact H3|]. intros ord Ho k Hk.
  assert (Hr : well_formed r).
  { rewrite H2. split; [rewrite H3; exact Hd|]. rewrite Forall_forall in *. intros kc Hin. apply Hx. rewrite <- H3. apply in_map. exact Hin. }
  rewrite (calc_value HK ord r _ Ho Hr), H2. apply H4. exact Hk.
Qed.
Print Assumptions C20_solve_vandermonde_system.

(** the numerical core, shared by solve_vandermonde_system and PolyReconst::solve_transposed_vandermonde *)
Theorem C20_unique_solution : forall (K : fops), flaws K -> forall N (v nums : nat -> K), 0 < N ->
  (forall i j, i < N -> j < N -> v i = v j -> i = j) -> (forall i, i < N -> v i <> f0) ->
  (forall k, 0 < k <= N -> fsum N (fun i => fmul (vdm_solve N v nums i) (pw (v i) k)) = nums (k - 1)) /\
  forall c, (forall k, 0 < k <= N -> fsum N (fun i => fmul (c i) (pw (v i) k)) = nums (k - 1)) ->
    forall i, i < N -> c i = vdm_solve N v nums i.
Proof.
  intros K HK N v nums HN Hd Hnz. split.
  - exact (vdm_solve_ok HK N v nums HN Hd Hnz).
  - exact (vdm_unique HK N v nums HN Hd Hnz).
Qed.
Print Assumptions C20_unique_solution.

Theorem C20_no_equation_refuted : forall (K : fops) n (nums val : nat -> K), solve_vandermonde_system n [] nums val = UB.
Proof. reflexivity. Qed.
Print Assumptions C20_no_equation_refuted.

Example C20_hypotheses_met : let degs := [[0; 1]; [1; 0]; [0; 2]]%Z in
  NoDup degs /\ Forall (exponents_ok 2) degs /\
  (forall i, i < length degs -> monomial_value 1 (tl (nth i degs [])) (fun _ => z7 3) <> f0) /\
  (forall i j, i < length degs -> j < length degs ->
     monomial_value 1 (tl (nth i degs [])) (fun _ => z7 3) = monomial_value 1 (tl (nth j degs [])) (fun _ => z7 3) -> i = j).
Proof.
  cbn zeta. split; [repeat constructor; cbn; intuition discriminate|]. split; [repeat constructor; lia|]. split.
  - intros i Hi E. apply (f_equal v7) in E. cbn in Hi. destruct i as [|[|[|i]]]; try lia; vm_compute in E; discriminate.
  - intros i j Hi Hj E. apply (f_equal v7) in E. cbn in Hi, Hj.
    destruct i as [|[|[|i]]]; try lia; destruct j as [|[|[|j]]]; try lia; vm_compute in E; try discriminate; reflexivity.
Qed.

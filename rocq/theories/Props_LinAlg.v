(** Property theorems C21, C22: dense linear algebra (DenseSolver.hpp) over every field satisfying the FFInt laws. *)
From Coq Require Import Znumtheory.
From Verif Require Import Machine FField FSum LinAlg LinSpec Det LinAlgProofs LinAlgProofs2.
Open Scope nat_scope.

(** FFInt is such a field for every prime below 2^63. *)
Theorem C21_ffint_is_a_field : forall p (Hp : prime p) (Hlt : (p < 2 ^ 63)%Z), flaws (FFint_ops p Hp Hlt).
Proof. exact ffint_laws. Qed.
Print Assumptions C21_ffint_is_a_field.

(** On a non-singular augmented system [A | b] the solver returns the solution, and it is the only one. *)
Theorem C21_gauss_returns_the_solution : forall (K : fops), flaws K -> forall n (A : mat K) force,
  0 < n -> nonsingular n A ->
  exists x, solve_gauss_system n A force = Ret x /\ solves n A (fun r => A r n) x /\
    forall x', solves n A (fun r => A r n) x' -> forall c, c < n -> x' c = x c.
Proof. intros K HK. exact (solve_gauss_ok HK). Qed.
Print Assumptions C21_gauss_returns_the_solution.

(** The error exit is only taken for singular systems. *)
Theorem C21_gauss_exit_means_singular : forall (K : fops), flaws K -> forall n (A : mat K),
  0 < n -> solve_gauss_system n A false = Exit -> ~ nonsingular n A.
Proof. intros K HK. exact (solve_gauss_exit HK). Qed.
Print Assumptions C21_gauss_exit_means_singular.

Definition m7 (l : list (list Z)) : mat F7 := fun r c => z7 (nth c (nth r l []) 0%Z).
Definition ex_A : mat F7 := m7 [[2; 1; 5]; [4; 3; 6]]%Z.
Definition ex_X : mat F7 := m7 [[5; 3]; [5; 1]]%Z.
Lemma v7_inj (a b : F7) : v7 a = v7 b -> a = b. Proof. apply ffint_eq. Qed.

Example C21_hypotheses_met : nonsingular 2 ex_A /\
  exists x, solve_gauss_system 2 ex_A false = Ret x /\ map v7 [x 0; x 1] = [1; 3]%Z.
Proof.
  split.
  - apply (nonsingular_of_left_inverse F7_laws 2 ex_A ex_X).
    intros [|[|r]] [|[|c]] Hr Hc; try lia; apply v7_inj; vm_compute; reflexivity.
  - exists (back_substitute 2 (triangularise 2 3 ex_A)). split; [|vm_compute; reflexivity].
    unfold solve_gauss_system. assert (E : feqb (triangularise 2 3 ex_A 1 1) f0 = false) by (vm_compute; reflexivity).
    rewrite E. reflexivity.
Qed.

(** For a singular system the solver may return a vector that is not a solution, without any error. *)
Theorem C21_singular_system_refuted : exists (K : fops) n (A : mat K) x, flaws K /\
  solve_gauss_system n A false = Ret x /\ ~ solves n A (fun r => A r n) x /\
  ~ exists x', solves n A (fun r => A r n) x'.
Proof.
  exists F7, 2, (m7 [[0; 1; 1]; [0; 1; 2]]%Z), (back_substitute 2 (triangularise 2 3 (m7 [[0; 1; 1]; [0; 1; 2]]%Z))). split; [exact F7_laws|]. split; [|split].
  - unfold solve_gauss_system.
    assert (E : feqb (triangularise 2 3 (m7 [[0; 1; 1]; [0; 1; 2]]%Z) 1 1) f0 = false) by (vm_compute; reflexivity).
    rewrite E. reflexivity.
  - intros H. specialize (H 0 ltac:(lia)). apply (f_equal v7) in H. vm_compute in H. discriminate.
  - intros [x' H]. pose proof (H 0 ltac:(lia)) as H0. pose proof (H 1 ltac:(lia)) as H1.
    assert (E : z7 1 = z7 2).
    { change (z7 1) with (m7 [[0; 1; 1]; [0; 1; 2]]%Z 0 2). change (z7 2) with (m7 [[0; 1; 1]; [0; 1; 2]]%Z 1 2).
      rewrite <- H0, <- H1. reflexivity. }
    apply (f_equal v7) in E. vm_compute in E. discriminate.
Qed.
Print Assumptions C21_singular_system_refuted.

(** P A = L U for every square matrix (singular ones included). *)
Theorem C22_lu_decomposition : forall (K : fops), flaws K -> forall n (A : mat K),
  let s := calc_lu_decomposition n A in
  perm_on n (lu_p s) /\
  forall r c, r < n -> c < n -> A (lu_p s r) c = fsum n (fun k => lu_L (lu_a s) r k * lu_U (lu_a s) k c)%K.
Proof. intros K HK. exact (lu_decomposition_ok HK). Qed.
Print Assumptions C22_lu_decomposition.

Theorem C22_solve_lu : forall (K : fops), flaws K -> forall n (A : mat K) b, nonsingular n A ->
  let s := calc_lu_decomposition n A in
  solves n A b (solve_lu n (lu_a s) (lu_p s) b) /\
  forall x', solves n A b x' -> forall c, c < n -> x' c = solve_lu n (lu_a s) (lu_p s) b c.
Proof.
  intros K HK n A b Hs s. pose proof (solve_lu_ok HK n A b Hs) as H. split; [exact H|].
  intros x' Hx' c Hc. exact (solves_unique HK n A b _ _ Hs Hx' H c Hc).
Qed.
Print Assumptions C22_solve_lu.

Theorem C22_calc_inverse_lu : forall (K : fops), flaws K -> forall n (A : mat K), nonsingular n A ->
  let s := calc_lu_decomposition n A in is_inverse n A (calc_inverse_lu n (lu_a s) (lu_p s)).
Proof. intros K HK. exact (calc_inverse_lu_ok HK). Qed.
Print Assumptions C22_calc_inverse_lu.

Theorem C22_calc_inverse : forall (K : fops), flaws K -> forall n (A : mat K), nonsingular n A ->
  is_inverse n A (calc_inverse n A).
Proof. intros K HK. exact (calc_inverse_ok HK). Qed.
Print Assumptions C22_calc_inverse.

(** The determinant is the Laplace determinant, for every matrix (0 for singular ones). *)
Theorem C22_determinant : forall (K : fops), flaws K -> forall n (A : mat K), 0 < n -> (Z.of_nat n < 2 ^ 31)%Z ->
  let s := calc_lu_decomposition n A in calc_determinant_lu n (lu_a s) (lu_cnt s) = Some (det n A).
Proof. intros K HK. exact (calc_determinant_lu_ok HK). Qed.
Print Assumptions C22_determinant.

Definition ex_B : mat F7 := m7 [[0; 1; 2]; [3; 4; 5]; [1; 1; 6]]%Z.
Example C22_hypotheses_met :
  let s := calc_lu_decomposition 3 ex_B in
  (exists r, r < 3 /\ lu_p s r <> r) /\
  option_map v7 (calc_determinant_lu 3 (lu_a s) (lu_cnt s)) = Some 6%Z /\ v7 (det 3 ex_B) = 6%Z /\
  nonsingular 2 ex_A /\ map v7 [calc_inverse 2 ex_A 0 0; calc_inverse 2 ex_A 0 1; calc_inverse 2 ex_A 1 0; calc_inverse 2 ex_A 1 1] = [5; 3; 5; 1]%Z.
Proof.
  cbv zeta. split; [exists 0; split; [lia|vm_compute; lia]|]. split; [vm_compute; reflexivity|]. split; [vm_compute; reflexivity|].
  split; [apply C21_hypotheses_met|]. vm_compute. reflexivity.
Qed.

(** Property theorems C07: FFIntVec. *)
From Coq Require Import Znumtheory.
From Verif Require Import Machine FFInt FFIntProofs FFVec FFVecProofs.
Open Scope Z_scope.

(** Every vector operator acts on each component with the FFInt operator, and keeps the size. *)
Theorem C07_vector_operators_componentwise : forall N p a b, length a = N -> length b = N ->
  componentwise (ff_add_assign p) N (vadd N p a b) a b /\
  componentwise (ff_sub_assign p) N (vsub N p a b) a b /\
  componentwise (ff_mul_assign p) N (vmul N p a b) a b /\
  componentwise (ff_div_assign p) N (vdiv N p a b) a b /\
  componentwise (ff_pow p) N (vpow N p a b) a b /\
  componentwise (fun x _ => ff_opp p x) N (vneg N p a) a a /\
  componentwise (fun x _ => ff_uplus p x) N (vpos N p a) a a.
Proof.
  intros N p a b Ha Hb. repeat (split; [apply vec_op_ok; exact Ha|]).
  split; (split; [unfold vneg, vpos; rewrite vloop_length; apply repeat_length|]; intros j Hj;
    unfold vneg, vpos; rewrite vloop_full by (try apply repeat_length; exact Hj); reflexivity).
Qed.
Print Assumptions C07_vector_operators_componentwise.

Theorem C07_integral_powers_componentwise : forall N p a ks k, length a = N ->
  (forall j, (j < N)%nat -> nth j (vpow_int N p a k) 0 = ff_pow_int p (nth j a 0) k) /\
  (forall j, (j < N)%nat -> nth j (vpow_ff N p a k) 0 = ff_pow p (nth j a 0) k) /\
  (length ks = N -> exists r, vpow_vec N p a ks = Ret r /\ componentwise (ff_pow_int p) N r a ks) /\
  (length ks <> N -> vpow_vec N p a ks = Throw).
Proof.
  intros N p a ks k Ha. split; [intros j Hj; apply vec_scal_ok; assumption|].
  split; [intros j Hj; apply vec_scal_ok; assumption|]. unfold vpow_vec. split.
  - intros Hk. rewrite Hk, Nat.eqb_refl. eexists. split; [reflexivity|]. apply vec_op_ok; exact Ha.
  - intros Hk. destruct (Nat.eqb_spec (length ks) N); [contradiction|reflexivity].
Qed.
Print Assumptions C07_integral_powers_componentwise.

(** Evaluating a bunch of N points with FFIntVec<N> gives, in component j, exactly what evaluating the j-th
    point with FFInt gives, for every straight-line arithmetic expression (without scalar-on-the-left - and /). *)
Theorem C07_bunch_evaluation_equals_single_evaluation : forall p N, prime p -> p < 2 ^ 63 ->
  forall env : nat -> list Z,
  (forall i, length (env i) = N) -> (forall i j, (j < N)%nat -> 0 <= nth j (env i) 0 < p) ->
  forall e, aexpr_ok p e ->
  length (evalN N p e env) = N /\
  forall j, (j < N)%nat -> nth j (evalN N p e env) 0 = eval1 p e (fun i => nth j (env i) 0).
Proof. exact evalN_eval1. Qed.
Print Assumptions C07_bunch_evaluation_equals_single_evaluation.

Example C07_hypotheses_met :
  evalN 2 7 (ADiv (ASub (AVar 0) (AConst 3)) (APow (AVar 1) 2)) (fun i => match i with O => [1; 2] | _ => [3; 5] end)
   = [6; 5] /\
  eval1 7 (ADiv (ASub (AVar 0) (AConst 3)) (APow (AVar 1) 2)) (fun i => match i with O => 1 | _ => 3 end) = 6 /\
  eval1 7 (ADiv (ASub (AVar 0) (AConst 3)) (APow (AVar 1) 2)) (fun i => match i with O => 2 | _ => 5 end) = 5.
Proof. vm_compute. repeat split. Qed.

(** FFInt - FFIntVec and FFInt / FFIntVec compute vec - scalar and vec / scalar. *)
Theorem C07_scalar_minus_vector_refuted : exists N p b a,
  (forall j, (j < N)%nat -> 0 <= nth j a 0 < p) /\ length a = N /\ 0 <= b < p /\
  exists j, (j < N)%nat /\ nth j (ssub_v N p b a) 0 <> ff_sub p b (nth j a 0) /\
            nth j (ssub_v N p b a) 0 = ff_sub p (nth j a 0) b.
Proof.
  exists 2%nat, 7, 5, [1; 1]. split; [intros [|[|j]] Hj; cbn; lia|]. split; [reflexivity|]. split; [lia|].
  exists 0%nat. vm_compute. repeat split; discriminate || lia.
Qed.
Print Assumptions C07_scalar_minus_vector_refuted.

Theorem C07_scalar_over_vector_refuted : exists N p b a,
  (forall j, (j < N)%nat -> 0 <= nth j a 0 < p) /\ length a = N /\ 0 <= b < p /\
  exists j, (j < N)%nat /\ nth j (sdiv_v N p b a) 0 <> ff_div p b (nth j a 0).
Proof.
  exists 2%nat, 7, 1, [3; 3]. split; [intros [|[|j]] Hj; cbn; lia|]. split; [reflexivity|]. split; [lia|].
  exists 0%nat. vm_compute. repeat split; discriminate || lia.
Qed.
Print Assumptions C07_scalar_over_vector_refuted.

Theorem C07_commuting_scalar_operators : forall N p a b, length a = N -> forall j, (j < N)%nat ->
  nth j (sadd_v N p b a) 0 = ff_add_assign p (nth j a 0) b /\ nth j (smul_v N p b a) 0 = ff_mul_assign p (nth j a 0) b.
Proof. intros N p a b Ha j Hj. split; apply vec_scal_ok; assumption. Qed.
Print Assumptions C07_commuting_scalar_operators.

(** at(i) throws for the valid last index. *)
Theorem C07_at_rejects_last_component_refuted : forall N v, (0 < N)%nat -> length v = N ->
  vat N v (Z.of_nat N - 1) = Throw /\
  forall i, 0 <= i < Z.of_nat N - 1 -> vat N v i = Ret (nth (Z.to_nat i) v 0).
Proof.
  intros N v HN Hv. unfold vat. split.
  - destruct (Z.of_nat N - 1 <? Z.of_nat N - 1) eqn:C; [lia|reflexivity].
  - intros i Hi. destruct (i <? Z.of_nat N - 1) eqn:C; [|lia]. destruct (i <? 0) eqn:C0; [lia|reflexivity].
Qed.
Print Assumptions C07_at_rejects_last_component_refuted.

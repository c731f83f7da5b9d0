(** Proofs about FFVec.v *)
From Coq Require Import Znumtheory.
From Verif Require Import Machine NumTheory FFInt FFIntProofs FFVec.
Open Scope Z_scope.

Lemma upd_length {A} (l : list A) i x : length (upd l i x) = length l.
Proof. revert i; induction l as [|y l IH]; intros [|i]; cbn; auto. Qed.

Lemma upd_nth {A} (l : list A) i j x d : (i < length l)%nat ->
  nth j (upd l i x) d = if (j =? i)%nat then x else nth j l d.
Proof.
  revert i j; induction l as [|y l IH]; intros [|i] [|j] H; cbn in *; try lia; try reflexivity.
  apply IH; lia.
Qed.

Lemma vloop_length n : forall i f v, length (vloop i n f v) = length v.
Proof. induction n as [|n IH]; intros i f v; [reflexivity|]. cbn [vloop]. rewrite IH. apply upd_length. Qed.

Lemma vloop_nth n : forall i f v j, (i + n <= length v)%nat ->
  nth j (vloop i n f v) 0 = if ((i <=? j) && (j <? i + n))%nat then f j (nth j v 0) else nth j v 0.
Proof.
  induction n as [|n IH]; intros i f v j H.
  - cbn [vloop]. destruct ((i <=? j) && (j <? i + 0))%nat eqn:C; [lia|reflexivity].
  - cbn [vloop]. rewrite IH by (rewrite upd_length; lia). rewrite upd_nth by lia.
    destruct (Nat.eqb_spec j i) as [->|Hne].
    + destruct ((S i <=? i) && (i <? S i + n))%nat eqn:C1; [lia|].
      destruct ((i <=? i) && (i <? i + S n))%nat eqn:C2; [reflexivity|lia].
    + destruct ((S i <=? j) && (j <? S i + n))%nat eqn:C1, ((i <=? j) && (j <? i + S n))%nat eqn:C2; try reflexivity; lia.
Qed.

Lemma vloop_full N f v j : length v = N -> (j < N)%nat -> nth j (vloop 0 N f v) 0 = f j (nth j v 0).
Proof. intros H Hj. rewrite vloop_nth by lia. destruct ((0 <=? j) && (j <? 0 + N))%nat eqn:C; [reflexivity|lia]. Qed.

Definition componentwise (op : Z -> Z -> Z) (N : nat) (r a b : list Z) : Prop :=
  length r = N /\ forall j, (j < N)%nat -> nth j r 0 = op (nth j a 0) (nth j b 0).

Lemma vec_op_ok N op a b : length a = N -> componentwise op N (vec_op N op a b) a b.
Proof. intros H. split; [unfold vec_op; rewrite vloop_length; exact H|]. intros j Hj. apply vloop_full; assumption. Qed.

Lemma vec_scal_ok N op a c : length a = N ->
  length (vec_scal N op a c) = N /\ forall j, (j < N)%nat -> nth j (vec_scal N op a c) 0 = op (nth j a 0) c.
Proof. intros H. split; [unfold vec_scal; rewrite vloop_length; exact H|]. intros j Hj. apply vloop_full; assumption. Qed.

Lemma nth_repeat_lt (x : Z) n j : (j < n)%nat -> nth j (repeat x n) 0 = x.
Proof. revert j; induction n as [|n IH]; intros [|j] H; cbn; try lia; apply IH; lia. Qed.

(** evaluation of a bunch *)
Section Bunch.
  Variables (p : Z) (N : nat).
  Hypothesis Hp : prime p.
  Hypothesis Hlt : p < two63.
  Variable env : nat -> list Z.
  Hypothesis env_len : forall i, length (env i) = N.
  Hypothesis env_canon : forall i j, (j < N)%nat -> 0 <= nth j (env i) 0 < p.

  Lemma P1 : 1 < p. Proof. destruct Hp; lia. Qed.

  Lemma ff_div_range a b : 0 <= a < p -> 0 <= b < p -> 0 <= ff_div p a b < p.
  Proof.
    pose proof P1. intros Ha Hb. destruct (Z.eq_dec b 0) as [->|E]; [rewrite ff_div_zero by lia; lia|].
    apply ff_div_correct; try assumption; lia.
  Qed.

  Lemma mod_p z : 0 <= z mod p < p. Proof. apply Z.mod_pos_bound. pose proof P1; lia. Qed.

  Lemma pow_range x k : 0 <= x < p -> - two63 < k < two64 -> 0 <= ff_pow_int p x k < p.
  Proof.
    intros Hx Hk. pose proof P1. destruct (Z_lt_le_dec k 0) as [C|C].
    - rewrite ff_pow_int_neg by (try assumption; lia). apply mod_p.
    - rewrite ff_pow_int_nonneg by (try assumption; lia). apply mod_p.
  Qed.

  Lemma eval1_canon e j : (j < N)%nat -> aexpr_ok p e -> 0 <= eval1 p e (fun i => nth j (env i) 0) < p.
  Proof.
    pose proof P1. intros Hj. induction e; cbn [aexpr_ok eval1]; intros Hok; try (specialize (IHe1 (proj1 Hok)); specialize (IHe2 (proj2 Hok))).
    - apply env_canon; exact Hj.
    - exact Hok.
    - rewrite ff_add_correct by (try assumption; lia). apply mod_p.
    - rewrite ff_sub_correct by (try assumption; lia). apply mod_p.
    - rewrite ff_mul_correct by (try assumption; lia). apply mod_p.
    - apply ff_div_range; assumption.
    - rewrite ff_opp_correct by (try apply IHe; try assumption; lia). apply mod_p.
    - apply pow_range; [apply IHe; apply Hok|apply Hok].
    - specialize (IHe (proj1 Hok)). rewrite ff_add_correct by (try apply IHe; try apply Hok; lia). apply mod_p.
    - specialize (IHe (proj1 Hok)). rewrite ff_sub_correct by (try apply IHe; try apply Hok; lia). apply mod_p.
    - specialize (IHe (proj1 Hok)). rewrite ff_mul_correct by (try apply IHe; try apply Hok; lia). apply mod_p.
    - specialize (IHe (proj1 Hok)). apply ff_div_range; [exact IHe|apply Hok].
  Qed.

  Theorem evalN_eval1 e : aexpr_ok p e -> length (evalN N p e env) = N /\
    forall j, (j < N)%nat -> nth j (evalN N p e env) 0 = eval1 p e (fun i => nth j (env i) 0).
  Proof.
    pose proof P1 as PP. assert (P63 : 0 < p < two63) by lia.
    induction e; cbn [aexpr_ok evalN eval1]; intros Hok;
      try (destruct Hok as [Hok1 Hok2]; try specialize (IHe1 Hok1); try specialize (IHe2 Hok2); try specialize (IHe Hok1)).
    - split; [apply env_len|reflexivity].
    - split; [apply repeat_length|]. intros j Hj. apply nth_repeat_lt; exact Hj.
    - destruct IHe1 as [L1 E1], IHe2 as [L2 E2]. destruct (vec_op_ok N (ff_add_assign p) _ (evalN N p e2 env) L1) as [L E].
      split; [exact L|]. intros j Hj. unfold vadd, vsub, vmul, vdiv. rewrite (E j Hj), (E1 j Hj), (E2 j Hj).
      pose proof (eval1_canon e1 j Hj Hok1). pose proof (eval1_canon e2 j Hj Hok2).
      rewrite ff_add_assign_correct, ff_add_correct by assumption. reflexivity.
    - destruct IHe1 as [L1 E1], IHe2 as [L2 E2]. destruct (vec_op_ok N (ff_sub_assign p) _ (evalN N p e2 env) L1) as [L E].
      split; [exact L|]. intros j Hj. unfold vadd, vsub, vmul, vdiv. rewrite (E j Hj), (E1 j Hj), (E2 j Hj).
      pose proof (eval1_canon e1 j Hj Hok1). pose proof (eval1_canon e2 j Hj Hok2).
      rewrite ff_sub_assign_correct, ff_sub_correct by assumption. reflexivity.
    - destruct IHe1 as [L1 E1], IHe2 as [L2 E2]. destruct (vec_op_ok N (ff_mul_assign p) _ (evalN N p e2 env) L1) as [L E].
      split; [exact L|]. intros j Hj. unfold vadd, vsub, vmul, vdiv. rewrite (E j Hj), (E1 j Hj), (E2 j Hj).
      pose proof (eval1_canon e1 j Hj Hok1). pose proof (eval1_canon e2 j Hj Hok2).
      rewrite ff_mul_assign_correct, ff_mul_correct by assumption. reflexivity.
    - destruct IHe1 as [L1 E1], IHe2 as [L2 E2]. destruct (vec_op_ok N (ff_div_assign p) _ (evalN N p e2 env) L1) as [L E].
      split; [exact L|]. intros j Hj. unfold vadd, vsub, vmul, vdiv. rewrite (E j Hj), (E1 j Hj), (E2 j Hj).
      pose proof (eval1_canon e1 j Hj Hok1). pose proof (eval1_canon e2 j Hj Hok2).
      apply ff_div_assign_eq; assumption.
    - destruct (IHe Hok) as [L E]. unfold vneg. split; [rewrite vloop_length; apply repeat_length|].
      intros j Hj. rewrite vloop_full by (try apply repeat_length; exact Hj). rewrite (E j Hj). reflexivity.
    - destruct IHe as [L1 E1]. destruct (vec_scal_ok N (ff_pow_int p) _ k L1) as [L E]. split; [exact L|].
      intros j Hj. rewrite <- (E1 j Hj). apply E; exact Hj.
    - destruct IHe as [L1 E1]. destruct (vec_scal_ok N (ff_add_assign p) _ c L1) as [L E]. split; [exact L|].
      intros j Hj. unfold vadd_s. rewrite (E j Hj), (E1 j Hj). pose proof (eval1_canon e j Hj Hok1).
      rewrite ff_add_assign_correct, ff_add_correct by assumption. reflexivity.
    - destruct IHe as [L1 E1]. destruct (vec_scal_ok N (ff_sub_assign p) _ c L1) as [L E]. split; [exact L|].
      intros j Hj. unfold vsub_s. rewrite (E j Hj), (E1 j Hj). pose proof (eval1_canon e j Hj Hok1).
      rewrite ff_sub_assign_correct, ff_sub_correct by assumption. reflexivity.
    - destruct IHe as [L1 E1]. destruct (vec_scal_ok N (ff_mul_assign p) _ c L1) as [L E]. split; [exact L|].
      intros j Hj. unfold vmul_s. rewrite (E j Hj), (E1 j Hj). pose proof (eval1_canon e j Hj Hok1).
      rewrite ff_mul_assign_correct, ff_mul_correct by assumption. reflexivity.
    - destruct IHe as [L1 E1]. destruct (vec_scal_ok N (ff_div_assign p) _ c L1) as [L E]. split; [exact L|].
      intros j Hj. unfold vdiv_s. rewrite (E j Hj), (E1 j Hj). pose proof (eval1_canon e j Hj Hok1).
      apply ff_div_assign_eq; assumption.
  Qed.
End Bunch.

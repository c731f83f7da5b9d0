(** Univariate polynomials given by coefficient functions: evaluation, synthetic division, number of roots
    (no modelling here). *)
From Verif Require Import Machine FField FSum LinSpec LinAlgProofs LinAlgProofs2.
Open Scope nat_scope.

Section FPoly.
  Context {K : fops} (HK : flaws K).
  Add Field KF : (fl_field K HK).
  Implicit Types (c v : nat -> K) (x z : K).

  (** value of c_0 + c_1 z + ... + c_{n-1} z^(n-1) *)
  Definition ueval (n : nat) (c : nat -> K) (z : K) : K := fsum n (fun i => c i * pw z i)%K.
  (** product of (z - v_j), j < n *)
  Fixpoint nodal (n : nat) (v : nat -> K) (z : K) : K := match n with O => f1 | S m => (nodal m v z * (z - v m))%K end.

  Lemma ueval_S n c z : ueval (S n) c z = (ueval n c z + c n * pw z n)%K.
  Proof. reflexivity. Qed.
  Lemma ueval_S_l n c z : ueval (S n) c z = (c 0%nat + z * ueval n (fun i => c (S i)) z)%K.
  Proof.
    unfold ueval. rewrite fsum_S_l by exact HK. cbn [pw]. rewrite <- fsum_mul_l by exact HK.
    replace (c 0%nat * 1)%K with (c 0%nat) by ring. f_equal. apply fsum_ext. intros i Hi. cbn [pw]. ring.
  Qed.
  Lemma ueval_ext n c d z : (forall i, i < n -> c i = d i) -> ueval n c z = ueval n d z.
  Proof. intros H. apply fsum_ext. intros i Hi. rewrite H by exact Hi. reflexivity. Qed.
  Lemma ueval_add n c d z : ueval n (fun i => c i + d i)%K z = (ueval n c z + ueval n d z)%K.
  Proof. unfold ueval. rewrite <- fsum_add by exact HK. apply fsum_ext. intros; ring. Qed.
  Lemma ueval_sub n c d z : ueval n (fun i => c i - d i)%K z = (ueval n c z - ueval n d z)%K.
  Proof. unfold ueval. rewrite <- fsum_sub by exact HK. apply fsum_ext. intros; ring. Qed.
  Lemma ueval_scale n a c z : ueval n (fun i => a * c i)%K z = (a * ueval n c z)%K.
  Proof. unfold ueval. rewrite <- fsum_mul_l by exact HK. apply fsum_ext. intros; ring. Qed.
  Lemma ueval_0 n c z : (forall i, i < n -> c i = f0) -> ueval n c z = f0.
  Proof. intros H. apply fsum_0; [exact HK|]. intros i Hi. rewrite H by exact Hi. ring. Qed.
  Lemma ueval_trunc n m c z : m <= n -> (forall i, m <= i < n -> c i = f0) -> ueval n c z = ueval m c z.
  Proof. intros Hm H. apply (fsum_trunc HK); [exact Hm|]. intros j Hj. rewrite H by exact Hj. ring. Qed.
  Lemma ueval_at_0 n c : ueval (S n) c f0 = c 0%nat.
  Proof. rewrite ueval_S_l. ring. Qed.

  (** synthetic division by (z - a): quotient coefficients *)
  Fixpoint synth (n : nat) (c : nat -> K) (a : K) (i : nat) : K :=
    (* b_i = c_{i+1} + a b_{i+1}, 0 above n *)
    match n with
    | O => f0
    | S m => (c (S i) + a * synth m c a (S i))%K
    end.

  (** b is the quotient of c (degree <= n) by (z - a) *)
  Lemma synth_div n c b a : b n = f0 -> (forall i, i < n -> b i = (c (S i) + a * b (S i))%K) ->
    forall z, ueval (S n) c z = ((z - a) * ueval n b z + (c 0%nat + a * b 0%nat))%K.
  Proof.
    revert c b. induction n as [|n IH]; intros c b Hn Hb z.
    - rewrite Hn. cbn. unfold ueval. cbn. ring.
    - rewrite ueval_S_l. rewrite (IH (fun i => c (S i)) (fun i => b (S i)) Hn) by (intros i Hi; apply Hb; lia).
      rewrite (ueval_S_l n b). rewrite (Hb 0%nat) by lia. ring.
  Qed.

  (** the quotient exists *)
  Definition quot (n : nat) (c : nat -> K) (a : K) (i : nat) : K := synth (n - i) c a i.
  Lemma quot_spec n c a : quot n c a n = f0 /\ forall i, i < n -> quot n c a i = (c (S i) + a * quot n c a (S i))%K.
  Proof.
    unfold quot. split; [rewrite Nat.sub_diag; reflexivity|]. intros i Hi.
    replace (n - i) with (S (n - S i)) by lia. reflexivity.
  Qed.

  Definition distinct (n : nat) (v : nat -> K) : Prop := forall i j, i < n -> j < n -> v i = v j -> i = j.

  (** a polynomial of degree < n with n different roots is zero *)
  Theorem roots_zero n : forall c v, distinct n v -> (forall i, i < n -> ueval n c (v i) = f0) -> forall i, i < n -> c i = f0.
  Proof.
    induction n as [|n IH]; intros c v Hd Hr i Hi; [lia|].
    destruct (quot_spec n c (v n)) as [Q1 Q2]. set (b := quot n c (v n)) in *.
    pose proof (synth_div n c b (v n) Q1 Q2) as D.
    assert (R0 : (c 0%nat + v n * b 0%nat)%K = f0).
    { pose proof (D (v n)) as E. rewrite (Hr n) in E by lia. rewrite E. ring. }
    assert (Hb : forall i, i < n -> b i = f0).
    { apply (IH b v).
      - intros x y Hx Hy. apply Hd; lia.
      - intros k Hk. pose proof (D (v k)) as E. rewrite (Hr k), R0 in E by lia.
        assert (X : ((v k - v n) * ueval n b (v k))%K = f0) by (rewrite E; ring).
        apply (fmul_0 HK) in X as [X|X]; [|exact X]. apply (fsub_0 HK) in X. apply Hd in X; lia. }
    destruct i as [|i].
    - destruct n as [|n]; [rewrite Q1 in R0|rewrite (Hb 0%nat) in R0 by lia]; rewrite <- R0; ring.
    - specialize (Q2 i ltac:(lia)). rewrite (Hb i) in Q2 by lia.
      assert (B : b (S i) = f0) by (destruct (Nat.eq_dec (S i) n) as [->|]; [exact Q1|apply Hb; lia]).
      rewrite B in Q2. rewrite Q2. ring.
  Qed.

  (** interpolation is unique *)
  Theorem interp_unique n c d v : distinct n v -> (forall i, i < n -> ueval n c (v i) = ueval n d (v i)) ->
    forall i, i < n -> c i = d i.
  Proof.
    intros Hd H i Hi. apply (fsub_0 HK). apply (roots_zero n (fun i => c i - d i)%K v Hd); [|exact Hi].
    intros k Hk. rewrite ueval_sub, H by exact Hk. ring.
  Qed.

  Lemma nodal_0 n v z : nodal n v z = f0 <-> exists i, i < n /\ z = v i.
  Proof.
    induction n as [|n IH]; cbn [nodal].
    - split; [intros E; exfalso; exact (f1_neq_0 HK E)|intros [i [Hi _]]; lia].
    - split.
      + intros E. apply (fmul_0 HK) in E as [E|E].
        * apply IH in E as [i [Hi E]]. exists i. split; [lia|exact E].
        * apply (fsub_0 HK) in E. exists n. split; [lia|exact E].
      + intros [i [Hi E]]. destruct (Nat.eq_dec i n) as [->|N].
        * subst z. ring.
        * assert (X : nodal n v z = f0) by (apply IH; exists i; split; [lia|exact E]). rewrite X. ring.
  Qed.

  (** square matrices: a right inverse is a left inverse *)
  Lemma inverse_comm n (L V : nat -> nat -> K) : right_inverse n L V -> right_inverse n V L.
  Proof.
    intros H. pose proof (nonsingular_of_left_inverse HK n V L H) as NV.
    destruct (calc_inverse_ok HK n V NV) as [R1 R2]. set (W := LinAlg.calc_inverse n V) in *.
    assert (E : forall r c : nat, r < n -> c < n -> L r c = W r c).
    { intros r c Hr Hc.
      transitivity (fsum n (fun j => L r j * fsum n (fun k => V j k * W k c)))%K.
      - rewrite (fsum_single HK n c); [|exact Hc|].
        + rewrite R1, Nat.eqb_refl by assumption. ring.
        + intros j Hj Hne. rewrite R1 by assumption. destruct (Nat.eqb_spec j c); [congruence|]. ring.
      - rewrite (fsum_ext n _ (fun j => fsum n (fun k => L r j * V j k * W k c))%K).
        2:{ intros j Hj. rewrite <- fsum_mul_l by exact HK. apply fsum_ext. intros; ring. }
        rewrite fsum_swap by exact HK.
        rewrite (fsum_ext n _ (fun k => (if r =? k then f1 else f0) * W k c)%K).
        2:{ intros k Hk. rewrite fsum_mul_r by exact HK. rewrite H by assumption. reflexivity. }
        rewrite (fsum_single HK n r); [|exact Hr|].
        + rewrite Nat.eqb_refl. ring.
        + intros j Hj Hne. destruct (Nat.eqb_spec r j); [congruence|]. ring. }
    intros r c Hr Hc. rewrite (fsum_ext n _ (fun k => V r k * W k c)%K); [apply R1; assumption|].
    intros k Hk. rewrite E by assumption. reflexivity.
  Qed.
End FPoly.

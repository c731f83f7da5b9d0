(** Finite sums over a field and elementary field facts (no modelling here). *)
From Coq Require Export Field.
From Verif Require Export Machine FField.
Open Scope nat_scope.

Declare Scope K_scope.
Delimit Scope K_scope with K.
Infix "+" := fadd : K_scope.
Infix "-" := fsub : K_scope.
Infix "*" := fmul : K_scope.
Infix "/" := fdiv : K_scope.
Notation "- x" := (fopp x) : K_scope.
Notation "0" := f0 : K_scope.
Notation "1" := f1 : K_scope.

Fixpoint fsum {K : fops} (n : nat) (f : nat -> K) : K :=
  match n with O => f0 | S m => (fsum m f + f m)%K end.

Section Sums.
  Context {K : fops} (HK : flaws K).
  Add Field KF : (fl_field K HK).
  Local Notation K0 := (@f0 K).
  Implicit Types (f g : nat -> K) (n m i : nat).

  Lemma f1_neq_0 : (@f1 K) <> f0.
  Proof. exact (F_1_neq_0 (fl_field K HK)). Qed.

  Lemma feqb_refl (x : K) : feqb x x = true. Proof. apply (fl_eqb K HK). reflexivity. Qed.
  Lemma feqb_neq (x y : K) : feqb x y = false <-> x <> y.
  Proof. rewrite <- (fl_eqb K HK x y). destruct (feqb x y); split; congruence. Qed.
  Lemma K_dec (x y : K) : {x = y} + {x <> y}.
  Proof. destruct (feqb x y) eqn:E; [left; apply (fl_eqb K HK); exact E|right; apply feqb_neq; exact E]. Qed.

  Lemma fdiv0_l (x : K) : (0 / x)%K = f0.
  Proof. destruct (K_dec x f0) as [->|N]; [apply (fl_div0 K HK)|]. field; exact N. Qed.

  Lemma fmul_0 (x y : K) : (x * y)%K = f0 -> x = f0 \/ y = f0.
  Proof.
    intros H. destruct (K_dec x f0) as [E|N]; [left; exact E|right].
    assert (y = (1 / x) * (x * y))%K as -> by (field; exact N). rewrite H. ring.
  Qed.
  Lemma fmul_zero_r (x : K) : (x * 0)%K = f0. Proof. ring. Qed.
  Lemma fmul_neq0 (x y : K) : x <> f0 -> y <> f0 -> (x * y)%K <> f0.
  Proof. intros A B C. apply fmul_0 in C. tauto. Qed.
  Lemma fsub_0 (x y : K) : (x - y)%K = f0 -> x = y.
  Proof. intros H. assert (x = (x - y) + y)%K as -> by ring. rewrite H. ring. Qed.
  Lemma fsub_neq0 (x y : K) : x <> y -> (x - y)%K <> f0.
  Proof. intros H E. apply H. apply fsub_0; exact E. Qed.
  Lemma fmul_cancel (a x y : K) : a <> f0 -> (a * x)%K = (a * y)%K -> x = y.
  Proof.
    intros Ha H. apply fsub_0. assert (E : (a * (x - y))%K = f0) by (replace (a * (x - y))%K with (a * x - a * y)%K by ring; rewrite H; ring).
    apply fmul_0 in E. tauto.
  Qed.
  Lemma fdiv_neq0 (x y : K) : x <> f0 -> y <> f0 -> (x / y)%K <> f0.
  Proof.
    intros Hx Hy E. apply Hx. assert (x = (x / y) * y)%K as -> by (field; exact Hy). rewrite E. ring.
  Qed.
  Lemma fopp_neq0 (x : K) : x <> f0 -> (- x)%K <> f0.
  Proof. intros H E. apply H. assert (x = - - x)%K as -> by ring. rewrite E. ring. Qed.

  Lemma fsum_ext n f g : (forall i, i < n -> f i = g i) -> fsum n f = fsum n g.
  Proof. induction n as [|n IH]; intros H; [reflexivity|]. cbn [fsum]. rewrite IH, H; auto. Qed.
  Lemma fsum_0 n f : (forall i, i < n -> f i = f0) -> fsum n f = f0.
  Proof. induction n as [|n IH]; intros H; [reflexivity|]. cbn [fsum]. rewrite IH, H; auto. ring. Qed.
  Lemma fsum_add n f g : fsum n (fun i => f i + g i)%K = (fsum n f + fsum n g)%K.
  Proof. induction n as [|n IH]; cbn [fsum]; [ring|]. rewrite IH. ring. Qed.
  Lemma fsum_sub n f g : fsum n (fun i => f i - g i)%K = (fsum n f - fsum n g)%K.
  Proof. induction n as [|n IH]; cbn [fsum]; [ring|]. rewrite IH. ring. Qed.
  Lemma fsum_opp n f : fsum n (fun i => - f i)%K = (- fsum n f)%K.
  Proof. induction n as [|n IH]; cbn [fsum]; [ring|]. rewrite IH. ring. Qed.
  Lemma fsum_mul_l n a f : fsum n (fun i => a * f i)%K = (a * fsum n f)%K.
  Proof. induction n as [|n IH]; cbn [fsum]; [ring|]. rewrite IH. ring. Qed.
  Lemma fsum_mul_r n a f : fsum n (fun i => f i * a)%K = (fsum n f * a)%K.
  Proof. induction n as [|n IH]; cbn [fsum]; [ring|]. rewrite IH. ring. Qed.
  Lemma fsum_split n m f : fsum (n + m) f = (fsum n f + fsum m (fun i => f (n + i)%nat))%K.
  Proof.
    induction m as [|m IH]; cbn [fsum]; [rewrite Nat.add_0_r; ring|].
    rewrite Nat.add_succ_r. cbn [fsum]. rewrite IH. ring.
  Qed.
  Lemma fsum_S_l n f : fsum (S n) f = (f 0%nat + fsum n (fun i => f (S i)))%K.
  Proof. change (S n) with (1 + n)%nat. rewrite fsum_split. cbn [fsum Nat.add]. ring. Qed.
  (** a sum whose terms vanish except at i *)
  Lemma fsum_single n i f : i < n -> (forall j, j < n -> j <> i -> f j = f0) -> fsum n f = f i.
  Proof.
    intros Hi H. replace n with (i + S (n - S i))%nat by lia. rewrite fsum_split, fsum_S_l, Nat.add_0_r.
    rewrite (fsum_0 i f) by (intros j Hj; apply H; lia).
    rewrite fsum_0 by (intros j Hj; apply H; lia). ring.
  Qed.
  (** terms vanish from m on *)
  Lemma fsum_trunc n m f : m <= n -> (forall j, m <= j < n -> f j = f0) -> fsum n f = fsum m f.
  Proof.
    intros Hm H. replace n with (m + (n - m))%nat by lia. rewrite fsum_split.
    rewrite (fsum_0 (n - m)) by (intros j Hj; apply H; lia). ring.
  Qed.
  Lemma fsum_swap n m (f : nat -> nat -> K) : fsum n (fun i => fsum m (fun j => f i j)) = fsum m (fun j => fsum n (fun i => f i j)).
  Proof.
    induction n as [|n IH]; cbn [fsum].
    - symmetry. apply fsum_0. reflexivity.
    - rewrite IH, <- fsum_add. apply fsum_ext. reflexivity.
  Qed.
  (** change one entry *)
  Lemma fsum_upd n i f g : i < n -> (forall j, j < n -> j <> i -> f j = g j) ->
    fsum n f = (fsum n g + (f i - g i))%K.
  Proof.
    intros Hi H. replace n with (i + S (n - S i))%nat by lia. rewrite !fsum_split, !fsum_S_l, !Nat.add_0_r.
    rewrite (fsum_ext i f g) by (intros j Hj; apply H; lia).
    rewrite (fsum_ext (n - S i) (fun j => f (i + S j)%nat) (fun j => g (i + S j)%nat)) by (intros j Hj; apply H; lia).
    ring.
  Qed.

  Lemma pw_add (x : K) n m : pw x (n + m) = (pw x n * pw x m)%K.
  Proof. induction n as [|n IH]; cbn [pw Nat.add]; [ring|]. rewrite IH. ring. Qed.
  Lemma pw_1 n : pw (@f1 K) n = f1.
  Proof. induction n as [|n IH]; cbn [pw]; [reflexivity|]. rewrite IH. ring. Qed.
  Lemma pw_mul (x y : K) n : pw (x * y)%K n = (pw x n * pw y n)%K.
  Proof. induction n as [|n IH]; cbn [pw]; [ring|]. rewrite IH. ring. Qed.
  Lemma pw_pw (x : K) n m : pw (pw x n) m = pw x (n * m).
  Proof. induction m as [|m IH]; cbn [pw]; [rewrite Nat.mul_0_r; reflexivity|]. rewrite IH, Nat.mul_succ_r, Nat.add_comm, pw_add. reflexivity. Qed.
  Lemma pw_0 n : 0 < n -> pw (@f0 K) n = f0.
  Proof. destruct n; [lia|]. intros _. cbn [pw]. ring. Qed.
  Lemma pw_neq0 (x : K) n : x <> f0 -> pw x n <> f0.
  Proof. intros H. induction n as [|n IH]; cbn [pw]; [apply f1_neq_0|]. apply fmul_neq0; assumption. Qed.
End Sums.

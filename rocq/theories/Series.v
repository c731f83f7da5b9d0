(** Formal power series over a field: the ring used to state and prove facts about coefficient vectors (no modelling here). *)
From Coq Require Import Setoid Morphisms.
From Verif Require Import Machine FField FSum.
Open Scope nat_scope.

(** equality of all coefficients *)
Definition seq_eq {K : fops} (f g : nat -> K) : Prop := forall i, f i = g i.
Infix "==" := seq_eq (at level 70).
Definition s0 {K : fops} : nat -> K := fun _ => f0.
Definition s1 {K : fops} : nat -> K := fun i => match i with O => f1 | _ => f0 end.
Definition sadd {K : fops} (f g : nat -> K) : nat -> K := fun i => fadd (f i) (g i).
Definition ssub {K : fops} (f g : nat -> K) : nat -> K := fun i => fsub (f i) (g i).
Definition sopp {K : fops} (f : nat -> K) : nat -> K := fun i => fopp (f i).
(** Cauchy product: coefficient i is the sum over j <= i of f_j g_(i-j) *)
Definition smul {K : fops} (f g : nat -> K) : nat -> K := fun i => fsum (S i) (fun j => fmul (f j) (g (i - j))).
Definition sconst {K : fops} (c : K) : nat -> K := fun i => match i with O => c | _ => f0 end.
(** agreement below x^n *)
Definition smod {K : fops} (n : nat) (f g : nat -> K) : Prop := forall i, i < n -> f i = g i.
(** no term of exponent n or larger *)
Definition dlt {K : fops} (f : nat -> K) (n : nat) : Prop := forall i, n <= i -> f i = f0.

#[global] Instance seq_equiv {K : fops} : Equivalence (@seq_eq K).
Proof. split; [intros f i; reflexivity|intros f g H i; symmetry; apply H|intros f g h A B i; rewrite A; apply B]. Qed.
#[global] Instance sadd_proper {K : fops} : Proper (seq_eq ==> seq_eq ==> seq_eq) (@sadd K).
Proof. intros f f' A g g' B i. unfold sadd. rewrite A, B. reflexivity. Qed.
#[global] Instance ssub_proper {K : fops} : Proper (seq_eq ==> seq_eq ==> seq_eq) (@ssub K).
Proof. intros f f' A g g' B i. unfold ssub. rewrite A, B. reflexivity. Qed.
#[global] Instance sopp_proper {K : fops} : Proper (seq_eq ==> seq_eq) (@sopp K).
Proof. intros f f' A i. unfold sopp. rewrite A. reflexivity. Qed.
#[global] Instance smul_proper {K : fops} : Proper (seq_eq ==> seq_eq ==> seq_eq) (@smul K).
Proof. intros f f' A g g' B i. unfold smul. apply fsum_ext. intros j _. rewrite A, B. reflexivity. Qed.
#[global] Instance dlt_proper {K : fops} : Proper (seq_eq ==> eq ==> iff) (@dlt K).
Proof. intros f f' A n ? <-. unfold dlt. split; intros H i Hi; [rewrite <- A|rewrite A]; apply H; exact Hi. Qed.

Section Ring.
  Context {K : fops} (HK : flaws K).
  Add Field KF : (fl_field K HK).
  Implicit Types (f g h : nat -> K) (n m i j : nat).

  Lemma fsum_rev n f : fsum n f = fsum n (fun i => f (n - 1 - i)).
  Proof.
    induction n as [|n IH]; [reflexivity|]. rewrite (fsum_S_l HK (n) (fun i => f (S n - 1 - i))). cbn [fsum].
    rewrite IH. replace (S n - 1 - 0) with n by lia.
    rewrite (fsum_ext n (fun i => f (S n - 1 - S i)) (fun i => f (n - 1 - i))) by (intros i Hi; f_equal; lia). ring.
  Qed.

  Lemma smul_comm f g : smul f g == smul g f.
  Proof.
    intros i. unfold smul. rewrite fsum_rev. apply fsum_ext. intros j Hj.
    replace (S i - 1 - j) with (i - j) by lia. replace (i - (i - j)) with j by lia. ring.
  Qed.

  Lemma triangle (F : nat -> nat -> K) n :
    fsum n (fun i => fsum (S i) (fun j => F j (i - j))) = fsum n (fun j => fsum (n - j) (fun k => F j k)).
  Proof.
    induction n as [|n IH]; [reflexivity|].
    change (fsum (S n) (fun i => fsum (S i) (fun j => F j (i - j)))) with
      (fsum n (fun i => fsum (S i) (fun j => F j (i - j)%nat)) + (fsum n (fun j => F j (n - j)%nat) + F n (n - n)%nat))%K.
    change (fsum (S n) (fun j => fsum (S n - j) (fun k => F j k))) with
      (fsum n (fun j => fsum (S n - j)%nat (fun k => F j k)) + fsum (S n - n)%nat (fun k => F n k))%K.
    rewrite IH. replace (n - n) with 0 by lia. replace (S n - n) with 1 by lia. cbn [fsum].
    rewrite (fsum_ext n (fun j => fsum (S n - j) (fun k => F j k)) (fun j => (fsum (n - j) (fun k => F j k) + F j (n - j)%nat)%K)).
    2:{ intros j Hj. replace (S n - j) with (S (n - j)) by lia. reflexivity. }
    rewrite (fsum_add HK). ring.
  Qed.

  Lemma smul_assoc f g h : smul f (smul g h) == smul (smul f g) h.
  Proof.
    intros n. unfold smul.
    rewrite (fsum_ext (S n) (fun j => f j * fsum (S (n - j)) (fun k => g k * h (n - j - k)%nat))%K
      (fun j => fsum (S n - j) (fun k => f j * (g k * h (n - j - k)%nat)))%K).
    2:{ intros j Hj. rewrite (fsum_mul_l HK). replace (S n - j) with (S (n - j)) by lia. reflexivity. }
    rewrite <- triangle. apply fsum_ext. intros i Hi. rewrite <- (fsum_mul_r HK). apply fsum_ext.
    intros j Hj. replace (n - j - (i - j)) with (n - i) by lia. ring.
  Qed.

  Lemma smul_1_l f : smul s1 f == f.
  Proof.
    intros i. unfold smul. rewrite (fsum_single HK (S i) 0); [|lia|intros j Hj Hn; unfold s1; destruct j; [lia|ring]].
    cbn [s1]. rewrite Nat.sub_0_r. ring.
  Qed.
  Lemma smul_add_l f g h : smul (sadd f g) h == sadd (smul f h) (smul g h).
  Proof. intros i. unfold smul, sadd. rewrite <- (fsum_add HK). apply fsum_ext. intros; ring. Qed.
  Lemma smul_const c f i : smul (sconst c) f i = fmul c (f i).
  Proof.
    unfold smul. rewrite (fsum_single HK (S i) 0); [|lia|intros j Hj Hn; unfold sconst; destruct j; [lia|ring]].
    cbn [sconst]. rewrite Nat.sub_0_r. reflexivity.
  Qed.

  Lemma series_ring : ring_theory (@s0 K) s1 sadd smul ssub sopp seq_eq.
  Proof.
    constructor.
    - intros f i. unfold sadd, s0. ring.
    - intros f g i. unfold sadd. ring.
    - intros f g h i. unfold sadd. ring.
    - apply smul_1_l.
    - apply smul_comm.
    - apply smul_assoc.
    - apply smul_add_l.
    - intros f g i. unfold ssub, sadd, sopp. ring.
    - intros f i. unfold sadd, sopp, s0. ring.
  Qed.

  Lemma series_ext : ring_eq_ext (@sadd K) smul sopp seq_eq.
  Proof. constructor; [apply sadd_proper|apply smul_proper|apply sopp_proper]. Qed.

  (** ---- degrees ---- *)
  Lemma dlt_mono f n m : n <= m -> dlt f n -> dlt f m.
  Proof. intros H D i Hi. apply D. lia. Qed.
  Lemma dlt_s0 n : dlt (@s0 K) n. Proof. intros i _. reflexivity. Qed.
  Lemma dlt_sub f g n : dlt f n -> dlt g n -> dlt (ssub f g) n.
  Proof. intros A B i Hi. unfold ssub. rewrite A, B by lia. ring. Qed.
  Lemma dlt_add f g n : dlt f n -> dlt g n -> dlt (sadd f g) n.
  Proof. intros A B i Hi. unfold sadd. rewrite A, B by lia. ring. Qed.
  Lemma dlt_mul f g n m : dlt f (S n) -> dlt g (S m) -> dlt (smul f g) (S (n + m)).
  Proof.
    intros A B i Hi. unfold smul. apply (fsum_0 HK). intros j Hj.
    destruct (le_lt_dec (S n) j) as [L|L]; [rewrite A by lia; ring|rewrite B by lia; ring].
  Qed.
  Lemma smul_top f g n m : dlt f (S n) -> dlt g (S m) -> smul f g (n + m) = (f n * g m)%K.
  Proof.
    intros A B. unfold smul. rewrite (fsum_single HK _ n); [f_equal; f_equal; lia|lia|].
    intros j Hj Hn. destruct (le_lt_dec (S n) j) as [L|L]; [rewrite A by lia; ring|rewrite B by lia; ring].
  Qed.

  (** ---- agreement below x^n ---- *)
  Lemma smod_mul n f f' g g' : smod n f f' -> smod n g g' -> smod n (smul f g) (smul f' g').
  Proof. intros A B i Hi. unfold smul. apply fsum_ext. intros j Hj. rewrite A, B by lia. reflexivity. Qed.
  Lemma smod_sq n f : smod n f s0 -> smod (n + n) (smul f f) s0.
  Proof.
    intros A i Hi. unfold smul. unfold s0. apply (fsum_0 HK). intros j Hj.
    destruct (le_lt_dec n j) as [L|L]; [rewrite (A (i - j)%nat) by lia|rewrite (A j) by lia]; unfold s0; ring.
  Qed.
End Ring.

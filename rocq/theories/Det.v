(** The determinant (specification): Laplace expansion along the first column, with its basic laws. *)
From Verif Require Import Machine FField FSum.
Open Scope nat_scope.

Definition skip (i r : nat) : nat := if r <? i then r else S r.

Section Det.
  Context {K : fops} (HK : flaws K).
  Add Field KF : (fl_field K HK).

  Definition sgn (i : nat) : K := if Nat.even i then f1 else fopp f1.
  Fixpoint det (n : nat) (A : nat -> nat -> K) : K :=
    match n with
    | O => f1
    | S m => fsum (S m) (fun i => sgn i * A i 0%nat * det m (fun r c => A (skip i r) (S c)))%K
    end.

  Lemma sgn_S i : sgn (S i) = (- sgn i)%K.
  Proof. unfold sgn. rewrite Nat.even_succ, <- Nat.negb_even. destruct (Nat.even i); cbn [negb]; ring. Qed.

  Lemma skip_lt i r n : i <= n -> r < n -> skip i r < S n.
  Proof. unfold skip. intros. destruct (Nat.ltb_spec r i); lia. Qed.

  Lemma det_ext n : forall A B, (forall r c, r < n -> c < n -> A r c = B r c) -> det n A = det n B.
  Proof.
    induction n as [|n IH]; intros A B H; [reflexivity|]. cbn [det]. apply fsum_ext. intros i Hi.
    rewrite (H i 0) by lia. f_equal. apply IH. intros r c Hr Hc. apply H; [apply skip_lt; lia|lia].
  Qed.

  (** linearity in row k *)
  Lemma det_row_linear n : forall A B C k a, k < n ->
    (forall r c, r < n -> c < n -> r <> k -> A r c = B r c /\ A r c = C r c) ->
    (forall c, c < n -> A k c = (B k c + a * C k c)%K) ->
    det n A = (det n B + a * det n C)%K.
  Proof.
    induction n as [|n IH]; intros A B C k a Hk H1 H2; [lia|]. cbn [det].
    rewrite <- fsum_mul_l, <- fsum_add by exact HK. apply fsum_ext. intros i Hi.
    destruct (Nat.eq_dec i k) as [->|Hne].
    - rewrite (H2 0) by lia.
      rewrite (det_ext n (fun r c => A (skip k r) (S c)) (fun r c => B (skip k r) (S c))).
      2:{ intros r c Hr Hc. apply H1; [apply skip_lt; lia|lia|]. unfold skip. destruct (Nat.ltb_spec r k); lia. }
      rewrite (det_ext n (fun r c => C (skip k r) (S c)) (fun r c => B (skip k r) (S c))).
      2:{ intros r c Hr Hc. assert (N : skip k r <> k) by (unfold skip; destruct (Nat.ltb_spec r k); lia).
          destruct (H1 (skip k r) (S c)) as [E1 E2]; [apply skip_lt; lia|lia|exact N|]. congruence. }
      ring.
    - destruct (H1 i 0) as [E1 E2]; [lia|lia|exact Hne|]. 
      set (k' := if k <? i then k else k - 1).
      assert (Hk' : skip i k' = k) by (unfold k', skip; destruct (Nat.ltb_spec k i); [destruct (Nat.ltb_spec k i); lia|destruct (Nat.ltb_spec (k-1) i); lia]).
      assert (Hk'n : k' < n) by (unfold k'; destruct (Nat.ltb_spec k i); lia).
      rewrite (IH (fun r c => A (skip i r) (S c)) (fun r c => B (skip i r) (S c)) (fun r c => C (skip i r) (S c)) k' a).
      + rewrite <- E2, E1. rewrite <- E1. ring.
      + exact Hk'n.
      + intros r c Hr Hc Hrk. apply H1; [apply skip_lt; lia|lia|].
        intros E. apply Hrk. rewrite <- Hk' in E. revert E. unfold skip.
        destruct (Nat.ltb_spec r i), (Nat.ltb_spec k' i); lia.
      + intros c Hc. rewrite Hk'. apply H2. lia.
  Qed.

  Lemma det_adjacent_equal n : forall A k, S k < n -> (forall c, c < n -> A k c = A (S k) c) -> det n A = f0.
  Proof.
    induction n as [|n IH]; intros A k Hk H; [lia|]. cbn [det].
    rewrite (fsum_upd HK (S n) k _ (fun i => if i =? k then f0 else if i =? S k then (sgn i * A i 0%nat * det n (fun r c => A (skip i r) (S c)))%K else f0)); [|lia|].
    2:{ intros j Hj Hn. destruct (Nat.eqb_spec j k); [lia|]. destruct (Nat.eqb_spec j (S k)); [reflexivity|].
        rewrite (IH _ (if k <? j then k else k - 1)); [ring| |].
        - destruct (Nat.ltb_spec k j); lia.
        - intros c Hc. assert (E : forall d, skip j (d + (if k <? j then k else k - 1)) = d + k \/ 1 < d).
          { intros d. unfold skip. destruct (Nat.ltb_spec k j); destruct (Nat.ltb_spec (d + k) j), (Nat.ltb_spec (d + (k - 1)) j); lia. }
          destruct (E 0) as [E0|]; [|lia]. destruct (E 1) as [E1|]; [|lia]. cbn [Nat.add] in E0, E1.
          rewrite E0, E1. apply H. lia. }
    rewrite (fsum_single HK (S n) (S k)); [|lia|].
    2:{ intros j Hj Hn. destruct (Nat.eqb_spec j k); [reflexivity|]. destruct (Nat.eqb_spec j (S k)); [lia|reflexivity]. }
    rewrite !Nat.eqb_refl. destruct (Nat.eqb_spec (S k) k); [lia|]. rewrite sgn_S, (H 0) by lia.
    rewrite (det_ext n (fun r c => A (skip k r) (S c)) (fun r c => A (skip (S k) r) (S c))); [ring|].
    intros r c Hr Hc. unfold skip. destruct (Nat.ltb_spec r k), (Nat.ltb_spec r (S k)); try reflexivity; [lia|].
    assert (r = k) by lia. subst r. symmetry. apply H. lia.
  Qed.

  (** replace row k by the vector v *)
  Definition put_row (A : nat -> nat -> K) (k : nat) (v : nat -> K) : nat -> nat -> K :=
    fun r c => if r =? k then v c else A r c.

  Lemma put_same A k v c : put_row A k v k c = v c.
  Proof. unfold put_row. rewrite Nat.eqb_refl. reflexivity. Qed.
  Lemma put_other A k v r c : r <> k -> put_row A k v r c = A r c.
  Proof. unfold put_row. intros. destruct (Nat.eqb_spec r k); [contradiction|reflexivity]. Qed.

  (** row k := u + a v *)
  Lemma det_put_linear n A k u v a : k < n ->
    det n (put_row A k (fun c => u c + a * v c)%K) = (det n (put_row A k u) + a * det n (put_row A k v))%K.
  Proof.
    intros Hk. apply (det_row_linear n _ _ _ k); [exact Hk| |].
    - intros r c Hr Hc Hn. rewrite !put_other by exact Hn. split; reflexivity.
    - intros c Hc. rewrite !put_same. reflexivity.
  Qed.

  (** adding a multiple of row i to row k, once "equal rows i,k give 0" is known *)
  Lemma det_add_row_gen n i k : i <> k -> i < n -> k < n ->
    (forall A, (forall c, c < n -> A i c = A k c) -> det n A = f0) ->
    forall A B a, (forall r c, r < n -> c < n -> r <> k -> B r c = A r c) ->
      (forall c, c < n -> B k c = (A k c + a * A i c)%K) -> det n B = det n A.
  Proof.
    intros Hne Hi Hk H0 A B a H1 H2.
    rewrite (det_row_linear n B A (put_row A k (fun c => A i c)) k a).
    - rewrite (H0 (put_row A k (fun c => A i c))); [ring|]. intros c Hc. rewrite put_same, put_other by exact Hne. reflexivity.
    - exact Hk.
    - intros r c Hr Hc Hn. rewrite put_other by exact Hn. split; apply H1; assumption.
    - intros c Hc. rewrite put_same. apply H2; exact Hc.
  Qed.

  Lemma det_scale_row n A B k a : k < n -> (forall r c, r < n -> c < n -> r <> k -> B r c = A r c) ->
    (forall c, c < n -> B k c = (a * A k c)%K) -> det n B = (a * det n A)%K.
  Proof.
    intros Hk H1 H2.
    rewrite (det_row_linear n B (put_row A k (fun _ => f0)) A k a).
    - rewrite (det_row_linear n (put_row A k (fun _ => f0)) (put_row A k (fun _ => f0)) (put_row A k (fun _ => f0)) k (- (1))%K).
      + ring.
      + exact Hk.
      + intros; split; reflexivity.
      + intros c Hc. rewrite !put_same. ring.
    - exact Hk.
    - intros r c Hr Hc Hn. rewrite put_other by exact Hn. split; apply H1; assumption.
    - intros c Hc. rewrite put_same, H2 by exact Hc. ring.
  Qed.

  (** exchanging rows i and k *)
  Lemma det_swap_gen n i k : i <> k -> i < n -> k < n ->
    (forall A, (forall c, c < n -> A i c = A k c) -> det n A = f0) ->
    forall A B, (forall r c, r < n -> c < n -> r <> i -> r <> k -> B r c = A r c) ->
      (forall c, c < n -> B i c = A k c) -> (forall c, c < n -> B k c = A i c) -> det n B = (- det n A)%K.
  Proof.
    intros Hne Hi Hk H0 A B H1 H2 H3.
    assert (H0' : forall A, (forall c, c < n -> A k c = A i c) -> det n A = f0)
      by (intros A' H'; apply H0; intros c Hc; symmetry; apply H'; exact Hc).
    set (A1 := put_row A i (fun c => A i c + A k c)%K).
    set (A2 := put_row A1 k (fun c => A k c - (A i c + A k c))%K).
    set (A3 := put_row A2 i (fun c => A k c)).
    assert (E1 : det n A1 = det n A).
    { apply (det_add_row_gen n k i (not_eq_sym Hne) Hk Hi H0' A A1 f1).
      - intros r c Hr Hc Hn. apply put_other; exact Hn.
      - intros c Hc. unfold A1. rewrite put_same. ring. }
    assert (E2 : det n A2 = det n A1).
    { apply (det_add_row_gen n i k Hne Hi Hk H0 A1 A2 (- (1))%K).
      - intros r c Hr Hc Hn. apply put_other; exact Hn.
      - intros c Hc. unfold A2, A1. rewrite !put_same, put_other by (apply not_eq_sym; exact Hne). ring. }
    assert (E3 : det n A3 = det n A2).
    { apply (det_add_row_gen n k i (not_eq_sym Hne) Hk Hi H0' A2 A3 f1).
      - intros r c Hr Hc Hn. apply put_other; exact Hn.
      - intros c Hc. unfold A3, A2, A1. rewrite !put_same, put_other, put_same by exact Hne. ring. }
    rewrite (det_scale_row n A3 B k (- (1))%K).
    - rewrite E3, E2, E1. ring.
    - exact Hk.
    - intros r c Hr Hc Hn. unfold A3. destruct (Nat.eq_dec r i) as [->|Hri].
      + rewrite put_same. apply H2; exact Hc.
      + rewrite put_other by exact Hri. unfold A2, A1. rewrite !put_other by assumption. apply H1; assumption.
    - intros c Hc. rewrite H3 by exact Hc. unfold A3. rewrite put_other by (apply not_eq_sym; exact Hne).
      unfold A2. rewrite put_same. ring.
  Qed.

  Lemma det_equal_rows_lt n d : forall A i, i + S d < n -> (forall c, c < n -> A i c = A (i + S d) c) -> det n A = f0.
  Proof.
    induction d as [|d IH]; intros A i Hk H.
    - apply (det_adjacent_equal n A i); [lia|]. intros c Hc. rewrite H by exact Hc. f_equal. lia.
    - set (k := i + S d). set (B := fun r c => if r =? k then A (S k) c else if r =? S k then A k c else A r c).
      assert (E : det n B = (- det n A)%K).
      { apply (det_swap_gen n k (S k)); unfold k in *; try lia.
        - intros A' H'. apply (det_adjacent_equal n A' (i + S d)); [lia|exact H'].
        - intros r c Hr Hc Hn1 Hn2. unfold B, k. destruct (Nat.eqb_spec r (i + S d)); [lia|].
          destruct (Nat.eqb_spec r (S (i + S d))); [lia|reflexivity].
        - intros c Hc. unfold B, k. rewrite Nat.eqb_refl. reflexivity.
        - intros c Hc. unfold B, k. destruct (Nat.eqb_spec (S (i + S d)) (i + S d)); [lia|]. rewrite Nat.eqb_refl. reflexivity. }
      assert (Z : det n B = f0).
      { apply (IH B i); [lia|]. intros c Hc. unfold B, k. rewrite Nat.eqb_refl.
        destruct (Nat.eqb_spec i (i + S d)); [lia|]. destruct (Nat.eqb_spec i (S (i + S d))); [lia|].
        rewrite H by exact Hc. f_equal. lia. }
      replace (det n A) with (- - det n A)%K by ring. rewrite <- E, Z. ring.
  Qed.

  Lemma det_equal_rows n A i k : i <> k -> i < n -> k < n -> (forall c, c < n -> A i c = A k c) -> det n A = f0.
  Proof.
    intros Hne Hi Hk H. destruct (Nat.lt_ge_cases i k) as [C|C].
    - apply (det_equal_rows_lt n (k - i - 1) A i); [lia|]. intros c Hc. rewrite H by exact Hc. f_equal. lia.
    - apply (det_equal_rows_lt n (i - k - 1) A k); [lia|]. intros c Hc. rewrite <- H by exact Hc. f_equal. lia.
  Qed.

  Theorem det_add_row n i k A B a : i <> k -> i < n -> k < n ->
    (forall r c, r < n -> c < n -> r <> k -> B r c = A r c) ->
    (forall c, c < n -> B k c = (A k c + a * A i c)%K) -> det n B = det n A.
  Proof.
    intros Hne Hi Hk. apply (det_add_row_gen n i k Hne Hi Hk). intros A'. apply det_equal_rows; assumption.
  Qed.

  Theorem det_swap n i k A B : i <> k -> i < n -> k < n ->
    (forall r c, r < n -> c < n -> r <> i -> r <> k -> B r c = A r c) ->
    (forall c, c < n -> B i c = A k c) -> (forall c, c < n -> B k c = A i c) -> det n B = (- det n A)%K.
  Proof.
    intros Hne Hi Hk. apply (det_swap_gen n i k Hne Hi Hk). intros A'. apply det_equal_rows; assumption.
  Qed.

  Fixpoint fprod (n : nat) (f : nat -> K) : K := match n with O => f1 | S m => (fprod m f * f m)%K end.
  Lemma fprod_S_l n f : fprod (S n) f = (f 0%nat * fprod n (fun i => f (S i)))%K.
  Proof.
    induction n as [|n IH]; [cbn [fprod]; ring|].
    change (fprod (S (S n)) f) with (fprod (S n) f * f (S n))%K. rewrite IH. cbn [fprod]. ring.
  Qed.

  Theorem det_upper n : forall A, (forall r c, c < r < n -> A r c = f0) -> det n A = fprod n (fun i => A i i).
  Proof.
    induction n as [|n IH]; intros A H; [reflexivity|]. cbn [det].
    rewrite (fsum_single HK (S n) 0); [|lia|intros j Hj Hn; rewrite (H j 0) by lia; ring].
    rewrite fprod_S_l. rewrite (IH (fun r c => A (skip 0 r) (S c))).
    - cbn [skip sgn Nat.even Nat.ltb Nat.leb]. unfold sgn. cbn [Nat.even]. change (fun i => A (skip 0 i) (S i)) with (fun i => A (S i) (S i)). ring.
    - intros r c Hc. unfold skip. cbn [Nat.ltb Nat.leb]. apply H. lia.
  Qed.

  Lemma det_identity n : det n (fun r c => if r =? c then f1 else f0) = f1.
  Proof.
    rewrite det_upper.
    - induction n as [|n IH]; [reflexivity|]. cbn [fprod]. rewrite IH, Nat.eqb_refl. ring.
    - intros r c Hc. destruct (Nat.eqb_spec r c); [lia|reflexivity].
  Qed.
End Det.

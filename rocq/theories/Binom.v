(** Binomial coefficients and the binomial theorem over a field *)
From Verif Require Import Machine FField FSum.
Open Scope nat_scope.

Fixpoint binom (n k : nat) : nat :=
  match n, k with
  | _, O => 1
  | O, S _ => 0
  | S n', S k' => binom n' k' + binom n' k
  end.

Lemma binom_0_r n : binom n 0 = 1. Proof. destruct n; reflexivity. Qed.
Lemma binom_gt n : forall k, n < k -> binom n k = 0.
Proof. induction n as [|n IH]; intros [|k] H; try lia; [reflexivity|]. cbn [binom]. rewrite !IH by lia. reflexivity. Qed.
Lemma binom_nn n : binom n n = 1.
Proof. induction n as [|n IH]; [reflexivity|]. cbn [binom]. rewrite IH, binom_gt by lia. reflexivity. Qed.
Lemma binom_absorb n : forall k, binom n (S k) * S k = binom n k * (n - k).
Proof.
  induction n as [|n IH]; intros k; [cbn; destruct k; reflexivity|].
  destruct k as [|k].
  - cbn [binom]. rewrite !binom_0_r. specialize (IH 0). rewrite binom_0_r in IH. lia.
  - pose proof (IH k) as I1. pose proof (IH (S k)) as I2.
    change (binom (S n) (S (S k))) with (binom n (S k) + binom n (S (S k))).
    change (binom (S n) (S k)) with (binom n k + binom n (S k)).
    destruct (Nat.lt_ge_cases k n) as [C|C].
    + replace (S n - S k) with (n - k) by lia. replace (n - S k) with (n - k - 1) in I2 by lia.
      rewrite Nat.mul_add_distr_r. rewrite I2. rewrite Nat.mul_add_distr_r.
      replace (binom n (S k) * S (S k)) with (binom n (S k) * S k + binom n (S k)) by lia. rewrite I1.
      destruct (n - k) as [|t]; [lia|]. replace (S t - 1) with t by lia. lia.
    + rewrite (binom_gt n (S k)), (binom_gt n (S (S k))) by lia. replace (S n - S k) with 0 by lia. lia.
Qed.
Lemma binom_sym n : forall k, k <= n -> binom n k = binom n (n - k).
Proof.
  induction n as [|n IH]; intros k H; [replace k with 0 by lia; reflexivity|].
  destruct k as [|k]; [rewrite binom_nn, binom_0_r; reflexivity|].
  destruct (Nat.eq_dec k n) as [->|N]; [replace (S n - S n) with 0 by lia; rewrite binom_nn, binom_0_r; reflexivity|].
  replace (S n - S k) with (S (n - S k)) by lia. cbn [binom]. rewrite (IH k), (IH (S k)) by lia.
  replace (S (n - S k)) with (n - k) by lia. lia.
Qed.

Section B.
  Context {K : fops} (HK : flaws K).
  Add Field KF : (fl_field K HK).
  Lemma nsum_add a b : @nsum K (a + b) = (nsum a + nsum b)%K.
  Proof. induction a as [|a IH]; cbn [nsum Nat.add]; [ring|]. rewrite IH. ring. Qed.
  Lemma nsum_mul a b : @nsum K (a * b) = (nsum a * nsum b)%K.
  Proof. induction a as [|a IH]; cbn [nsum Nat.mul]; [ring|]. rewrite nsum_add, IH. ring. Qed.
  Lemma nsum_sub a b : b <= a -> @nsum K (a - b) = (nsum a - nsum b)%K.
  Proof. intros H. replace (@nsum K a) with (@nsum K ((a - b) + b)) by (f_equal; lia). rewrite nsum_add. ring. Qed.

  Theorem binomial (x s : K) n : pw (x + s)%K n = fsum (S n) (fun k => nsum (binom n k) * pw x (n - k) * pw s k)%K.
  Proof.
    induction n as [|n IH]; [cbn; ring|].
    assert (E : pw (x + s)%K (S n) = (x * pw (x + s) n + s * pw (x + s) n)%K) by (cbn [pw]; ring).
    rewrite E, IH. rewrite (fsum_S_l HK (S n)).
    rewrite (fsum_ext (S n) (fun i => nsum (binom (S n) (S i)) * pw x (S n - S i) * pw s (S i))%K
      (fun k => s * (nsum (binom n k) * pw x (n - k) * pw s k) + nsum (binom n (S k)) * pw x (n - k) * pw s (S k))%K).
    2:{ intros k Hk. cbn [binom]. rewrite nsum_add. replace (S n - S k) with (n - k) by lia. cbn [pw]. ring. }
    rewrite fsum_add, fsum_mul_l by exact HK.
    assert (X : (x * fsum (S n) (fun k => nsum (binom n k) * pw x (n - k) * pw s k) =
      pw x (S n) + fsum (S n) (fun k => nsum (binom n (S k)) * pw x (n - k) * pw s (S k)))%K).
    { rewrite (fsum_S_l HK n). cbn [fsum]. rewrite (binom_gt n (S n)) by lia. rewrite binom_0_r.
      rewrite (fsum_ext n (fun k => nsum (binom n (S k)) * pw x (n - k) * pw s (S k))%K (fun i => x * (nsum (binom n (S i)) * pw x (n - S i) * pw s (S i)))%K).
      2:{ intros k Hk. replace (n - k) with (S (n - S k)) by lia. cbn [pw]. ring. }
      rewrite fsum_mul_l by exact HK. rewrite Nat.sub_0_r. cbn [nsum pw]. ring. }
    rewrite X. rewrite binom_0_r, Nat.sub_0_r. cbn [nsum]. change (pw s 0) with (@f1 K). ring.
  Qed.
End B.

(** Finite checks that establish the hypotheses of C46 about anchor points *)
From Verif Require Import Machine FField FSum LinAlg LinAlgProofs FPoly Vandermonde VandermondeProofs PolySpec Thiele ThieleSpec ThieleProofs Newton NewtonProofs BMSpec BTProofs PolyRecSpec.
Open Scope nat_scope.

Section Checks.
  Context {K : fops} (HK : flaws K).
  Add Field KC : (fl_field K HK).

  Lemma prediction_check D z (g : K -> K) : distinct (D + 2) (pw z) ->
    (forall k, k <= D -> of_degree_below k g \/ dd z (fun i => g (pw z (S i))) k k <> f0) -> prediction_is_right D z g.
  Proof.
    intros Hd H k h Hk Hh Hv. assert (Dy : distinct (S k) (ypt z)) by (intros i j Hi Hj E; unfold ypt in E; apply Hd in E; lia).
    destruct (H k Hk) as [G|G].
    - intros x. apply (fsub_0 HK). apply (polyfun_zero HK k (fun x => h x - g x)%K (ypt z)).
      + apply (polyfun_sub HK); assumption.
      + intros i j Hi Hj. apply Dy; lia.
      + intros i Hi. unfold ypt. rewrite Hv by lia. ring.
    - exfalso. apply G. destruct k as [|k].
      + cbn [dd]. rewrite <- Hv by lia. destruct Hh as [a Ha]. rewrite Ha. reflexivity.
      + apply (dd_zero HK z (fun i => g (pw z (S i))) (S k)); [exact Dy|lia|]. rewrite (tail_of_poly HK z _ (S k) h); [| |lia|exact Hh|].
        * apply Hv. lia.
        * intros i j Hi Hj. apply Dy; lia.
        * intros i Hi. symmetry. apply Hv. lia.
  Qed.

  Lemma recurrence_check T (c v : nat -> K) s : 0 < T -> distinct T v -> (forall j, j < T -> v j <> f0) -> (forall j, j < T -> c j <> f0) ->
    (forall k, s k = exponential_sum T c v k) -> (forall L a, L < T -> ~ recurrence a L s (2 * L + 1)) -> forall z, recurrence_is_right z s.
  Proof.
    intros HT Hd Hv Hc Es H z L a es R _ _ m. destruct (Nat.lt_ge_cases L T) as [G|G]; [exfalso; exact (H L a G R)|].
    assert (X : forall k, L <= k -> fsum (S L) (fun i => fmul (a i) (s (k - i))) = fsum (S L) (fun i => fmul (a i) (exponential_sum T c v (k - i))))
      by (intros k Hk; apply fsum_ext; intros i Hi; rewrite Es; reflexivity).
    assert (R' : recurrence a L (exponential_sum T c v) (2 * L + 1)).
    { destruct R as [R1 [R2 R3]]. split; [exact R1|]. split; [exact R2|]. intros k H1 H2. rewrite <- X by exact H1. apply R3; assumption. }
    pose proof (rec_roots HK T c v HT Hd Hv Hc a L _ R' ltac:(lia)) as Z. destruct R as [R1 [R2 R3]]. split; [exact R1|]. split; [exact R2|].
    intros k H1 H2. rewrite X by exact H1. rewrite (conv_sum HK) by assumption. apply (fsum_0 HK). intros j Hj. rewrite Z by exact Hj. ring.
  Qed.
  Lemma no_rec_0 (s : nat -> K) : s 0%nat <> f0 -> forall a, ~ recurrence a 0 s 1.
  Proof. intros N a [R1 [_ R3]]. specialize (R3 0 ltac:(lia) ltac:(lia)). cbn [fsum Nat.sub] in R3. rewrite R1 in R3. apply N. transitivity (f0 + f1 * s 0%nat)%K; [ring|exact R3]. Qed.
  Lemma no_rec_1 (s : nat -> K) : (s 1%nat * s 1%nat)%K <> (s 0%nat * s 2%nat)%K -> forall a, ~ recurrence a 1 s 3.
  Proof.
    intros N a [R1 [_ R3]]. pose proof (R3 1 ltac:(lia) ltac:(lia)) as A. pose proof (R3 2 ltac:(lia) ltac:(lia)) as B. cbn [fsum Nat.sub] in A, B. rewrite R1 in A, B.
    apply N. apply (fsub_0 HK). transitivity (s 1%nat * (f0 + f1 * s 1%nat + a 1%nat * s 0%nat) - s 0%nat * (f0 + f1 * s 2%nat + a 1%nat * s 1%nat))%K; [ring|]. rewrite A, B. ring.
  Qed.
End Checks.

(** Invariants of the scheduler model: counters, values *)
From Coq Require Import ZArith List Bool Arith Lia.
From Verif Require Import Machine FeedQueue Combi CombiProofs2 Reconst ReconstProofs ReconstProofs2.
Import ListNotations.
Local Open Scope nat_scope.
Section Step.
Variable bb : nat -> point -> list Z.
Variables thr bs : Z.
Variable scan : bool.
Notation step := (sstep bb thr bs scan).
Notation B := (B scan).
Lemma credit_cnt P rs js i k pr r : EE scan P rs js -> nth_error js i = Some (IPost k true false pr) -> (P <? pr) = true -> nth_error rs k = Some r -> r_cnt r = false.
Proof.
  intros [E _] N L R. specialize (E _ _ R). pose proof (sum_ge (fun j => if job_rec j =? k then pC P j else 0) js i _ N) as G. cbn [job_rec pC] in G. rewrite Nat.eqb_refl, L in G. change (sumf (fun j => if job_rec j =? k then pC P j else 0) js) with (w k (pC P) js) in G.
  destruct (done (r_obj r)) eqn:D0; [destruct (k_done _ _ _ _ _ _ E D0); assumption|]. destruct (k_prime _ _ _ _ _ _ E D0) as [[_ [_ [_ [X _]]]]|[_ [_ [_ X]]]]; [exact X|]. destruct (r_cnt r); [|reflexivity]. cbn [bn] in X. clear - X G. lia.
Qed.
Lemma C_step e s s' : D bb s -> B s -> C_cnt s -> step e s = Some s' -> C_cnt s'.
Proof.
  intros Ds E C H. pose proof (B_step bb thr bs scan _ _ _ Ds E C H) as E'. pose proof (proj1 (sum2_le _ (excl scan _ _ _ E))) as L. pose proof (proj1 (sum2_le _ (excl scan _ _ _ E'))) as L'. destruct C as [C1 [C2 C3]]. unfold C_cnt. clear E' Ds.
  inv_step H; unfold items in *; ss; ssin L'; fix_goal; rewrite ?set_length in *.
  all: try match goal with Em : main _ = _ |- _ => rewrite Em in C3 end.
  all: try (split; [assumption|split; [assumption|first [exact I|assumption]]]).
  all: try (apply Nat.eqb_eq in Heqb; split; [assumption|split; [assumption|congruence]]).
  all: try (apply Nat.eqb_eq in Heqb0; split; [assumption|split; [assumption|congruence]]).
  - clear L'. split; [rewrite C1; clear; induction (recs s) as [|r l IH]; cbn; [reflexivity|lia]|split; [|exact I]]. clear. induction (recs s) as [|r l IH]; cbn; [reflexivity|exact IH].
  - clear E. revert L'. sums. oo. intros. split; [lia|]. split; [lia|exact C3].
  - clear E. revert L'. sums. oo. intros. split; [lia|]. split; [lia|exact C3].
  - clear E. revert L'. sums. oo. intros. rewrite Heqb in *. oo. split; [lia|]. split; [lia|exact C3].
  - clear E. revert L'. sums. oo. intros. rewrite Heqb in *. oo. split; [lia|]. split; [lia|exact C3].
  - clear E. revert L'. sums. oo. intros. split; [lia|]. split; [lia|exact C3].
  - clear E. revert L'. sums. oo. intros. split; [lia|]. split; [lia|exact C3].
  - clear E. revert L'. sums. oo. intros. split; [lia|]. split; [lia|exact C3].
  - clear E. revert L'. sums. oo. intros. split; [lia|]. split; [lia|exact C3].
  - destruct r; [|discriminate]. destruct d; [discriminate|]. pose proof (credit_cnt _ _ _ _ _ _ _ E Heqo Heqb1 Heqo0) as X. clear E. revert L'. sums. oo. intros. rewrite X in *. oo. split; [lia|]. split; [lia|]. destruct (main s); try exact I; lia.
  - clear E. revert L'. sums. oo. intros. rewrite Heqb1 in *. oo. split; [lia|]. split; [lia|]. destruct (main s); try exact I; lia.
Qed.

(** the queues hold values of the black box *)
Definition probe_ok (k : nat) (x : probe) : Prop := p_num x = nth k (bb (p_prime x) (p_t x, p_ord x)) 0%Z.
Definition rec_q (k : nat) (r : rec) : Prop := Forall (probe_ok k) (queue (r_obj r)) /\ (done (r_obj r) = false -> Forall (fun x => p_prime x = prime_number (r_obj r)) (queue (r_obj r))).
Definition Q (s : st) : Prop := forall k r, nth_error (recs s) k = Some r -> rec_q k r.
Lemma Q_set s k r r' : Q s -> nth_error (recs s) k = Some r -> (rec_q k r -> rec_q k r') -> forall k0 x, nth_error (set_nth k r' (recs s)) k0 = Some x -> rec_q k0 x.
Proof. intros H N I k0 x X. destruct (nth_set_cases _ _ _ _ _ _ N X) as [[-> ->]|[_ X']]; [apply I; apply H; exact N|apply H; exact X']. Qed.
Lemma bunch_ok P k pts : Forall (probe_ok k) (map (fun y => mk_probe (fst (fst y)) (snd (fst y)) (snd y) P) (bunch_for k pts (map (bb P) pts))).
Proof.
  induction pts as [|p pts IH]; [constructor|]. cbn [map]. unfold bunch_for. cbn [combine map]. constructor; [unfold probe_ok; cbn; rewrite <- surjective_pairing; reflexivity|exact IH].
Qed.
Lemma start_q k o o' x f c f' c' : start_obj o = (o', x) -> rec_q k (mk_rec o f c) -> rec_q k (mk_rec o' f' c').
Proof.
  unfold start_obj, rec_q. oo. destruct (fed_zero o); [intros [= <- _]; oo; tauto|]. destruct (is_interpolating o); [intros [= <- _]; oo; tauto|]. destruct (queue o) as [|y q] eqn:QE; intros [= <- _]; oo; rewrite ?QE.
  - tauto.
  - intros [A1 A2]. inversion A1; subst. split; [assumption|]. intros D0. specialize (A2 D0). inversion A2; assumption.
Qed.
Lemma return_q k o o' x f c f' c' : return_obj o = (o', x) -> rec_q k (mk_rec o f c) -> rec_q k (mk_rec o' f' c').
Proof.
  unfold return_obj, rec_q. oo. destruct (queue o) as [|y q]; intros [= <- _]; oo.
  - intros. split; constructor.
  - intros [A1 A2]. inversion A1; subst. split; [assumption|]. intros D0. specialize (A2 D0). inversion A2; assumption.
Qed.
Lemma feed_q k P o o' x pts f c f' c' : feed_vec scan (bunch_for k pts (map (bb P) pts)) P o = Fed o' x -> pts <> [] -> done o = false -> prime_number o = P -> (scan = false -> first_feed o = true -> queue o = []) ->
  rec_q k (mk_rec o f c) -> rec_q k (mk_rec o' f' c').
Proof.
  intros H N Dn Pn FQ. assert (Ne : bunch_for k pts (map (bb P) pts) <> []) by (apply bunch_nonempty; [exact N|apply map_length]). unfold rec_q. oo. intros [A1 A2].
  destruct (feed_vec_cases _ _ _ _ _ _ H Ne Dn Pn) as [[S1 [F1 [_ [Q1 _]]]]|[_ [Q1 [_ [_ [_ [_ [P2 _]]]]]]]].
  - rewrite Q1, (FQ S1 F1). split; [constructor|intros _; constructor].
  - rewrite Q1, P2. split; [apply Forall_app; split; [exact A1|apply bunch_ok]|]. intros _. apply Forall_app. split; [rewrite <- Pn; apply A2; exact Dn|]. apply Forall_map. apply Forall_forall. intros y _. reflexivity.
Qed.
Lemma Q_step e s s' : D bb s -> B s -> Q s -> step e s = Some s' -> Q s'.
Proof.
  intros Ds E A H. unfold Q. inv_step H; ss; try exact A.
  - intros k r X. rewrite nth_error_map in X. destruct (nth_error (recs s) k) as [r0|] eqn:N; [|discriminate]. injection X as <-. apply (A k r0 N).
  - ssin Heqb. ssin Heqf1. destruct (r_fin r) eqn:F1; [discriminate|]. destruct (done (r_obj r)) eqn:F2; [discriminate|]. cbn [orb] in Heqb. apply negb_false_iff, Nat.eqb_eq in Heqb.
    pose proof (forall_nth _ _ _ _ (d_feeds _ _ Ds) Heqo) as [N1 [N2 N3]]. assert (L : pts <> []) by (intros ->; destruct ix; [elim (N1 eq_refl)|discriminate]). subst res.
    apply (Q_set s k r); [exact A|exact Heqo0|]. destruct r as [ob0 f0 c0]. oo. apply (feed_q _ _ _ _ _ _ _ _ _ _ Heqf1); auto. apply (k_first _ _ _ _ _ _ (proj1 E _ _ Heqo0)).
  - ssin Heqb. ssin Heqf1. destruct (r_fin r) eqn:F1; [discriminate|]. destruct (done (r_obj r)) eqn:F2; [discriminate|]. cbn [orb] in Heqb. apply negb_false_iff, Nat.eqb_eq in Heqb.
    pose proof (forall_nth _ _ _ _ (d_feeds _ _ Ds) Heqo) as [N1 [N2 N3]]. assert (L : pts <> []) by (intros ->; destruct ix; [elim (N1 eq_refl)|discriminate]). subst res.
    apply (Q_set s k r); [exact A|exact Heqo0|]. destruct r as [ob0 f0 c0]. oo. apply (feed_q _ _ _ _ _ _ _ _ _ _ Heqf1); auto. apply (k_first _ _ _ _ _ _ (proj1 E _ _ Heqo0)).
  - apply (Q_set s k r _ A Heqo0). destruct r. apply (start_q _ _ _ _ _ _ _ _ Heqp).
  - apply (Q_set s k r _ A Heqo0). destruct r. apply (start_q _ _ _ _ _ _ _ _ Heqp).
  - apply (Q_set s k r _ A Heqo0). unfold rec_q. oo. intros [A1 A2]. split; [exact A1|discriminate].
  - apply (Q_set s k r _ A Heqo0). unfold rec_q. oo. split; constructor.
  - apply (Q_set s k r _ A Heqo0). destruct r. apply (return_q _ _ _ _ _ _ _ _ Heqp).
  - apply (Q_set s k r _ A Heqo0). destruct r. apply (return_q _ _ _ _ _ _ _ _ Heqp).
  - apply (Q_set s k r0 _ A Heqo0). auto.
  - apply (Q_set s k r0 _ A Heqo0). auto.
Qed.

End Step.

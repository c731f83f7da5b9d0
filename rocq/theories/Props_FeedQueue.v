(** C34: fed probes are processed exactly once, in order, by one thread at a time. C39: zero functions. *)
From Coq Require Import ZArith List Bool Arith Lia.
From Verif Require Import FeedQueue FeedQueueProofs.
Import ListNotations.

(** C34. In every reachable state the probes taken out of the queue (in the order in which they were taken), followed by those still queued, are exactly
    the accepted probes in the order in which they were fed: nothing is lost, duplicated or reordered. *)
Theorem C34_exactly_once_in_order : forall scan tag s, reachable_ne scan tag s -> map fst (out s) ++ queue (ob s) = accepted s.
Proof. intros scan tag s R. apply (i_order _ _ _ (reachable_inv _ _ _ R)). Qed.

(** a probe is accepted by a feed exactly when the object is not done, the prime is the current one and the bunch does not start a new prime with a zero *)
Theorem C34_accepted_when_fed : forall scan items fp o o' b, feed_vec scan items fp o = Fed o' b ->
  queue o' = queue o ++ (if negb (done o) && (fp =? prime_number o) && negb (first_feed o && negb scan && match items with (_, n, _) :: _ => (n =? 0)%Z | [] => false end)
                         then map (fun x => mk_probe (fst (fst x)) (snd (fst x)) (snd x) fp) items else []).
Proof.
  intros scan items fp o o' b H. unfold feed_vec in H. destruct (negb (done o) && (fp =? prime_number o)); cbn [andb]; [|injection H as <- <-; rewrite app_nil_r; reflexivity].
  destruct (first_feed o && negb scan); cbn [andb negb]; [|injection H as <- <-; reflexivity].
  destruct items as [|[[t0 n0] o0] items]; [discriminate|]. destruct (n0 =? 0)%Z; cbn [negb].
  - destruct ((S (zero_counter o) =? S (prime_number o)) && (300 <=? S (prime_number o))); [discriminate|]. destruct (S (prime_number o) =? 300); [discriminate|]. injection H as <- <-. cbn. rewrite app_nil_r. reflexivity.
  - injection H as <- <-. reflexivity.
Qed.

(** the two overloads of feed() agree *)
Theorem C34_feed_one_is_bunch_of_one : forall scan x fp o, feed_one scan x fp o = feed_vec scan [x] fp o.
Proof. intros scan [[t n] w] fp o. reflexivity. Qed.

(** at most one thread is inside the interpolation of an object *)
Theorem C34_one_thread_at_a_time : forall scan tag s i j x y, reachable_ne scan tag s ->
  nth_error (jobs s) i = Some x -> nth_error (jobs s) j = Some y -> active x = true -> active y = true -> i = j.
Proof.
  intros scan tag s i j x y R Hi Hj Ax Ay. pose proof (i_active _ _ _ (reachable_inv _ _ _ R)) as C.
  assert (C1 : count active (jobs s) <= 1) by (rewrite C; destruct (is_interpolating (ob s)); cbn; lia). clear C R.
  revert i j Hi Hj C1. generalize (jobs s) as js. induction js as [|z js IH]; intros i j Hi Hj C1; [destruct i; discriminate|].
  unfold count in C1. cbn [filter] in C1.
  destruct i as [|i], j as [|j]; cbn [nth_error] in *; try reflexivity.
  - injection Hi as ->. rewrite Ax in C1. cbn [length] in C1. pose proof (count_pos active js j y Hj Ay) as P. unfold count in P. lia.
  - injection Hj as ->. rewrite Ay in C1. cbn [length] in C1. pose proof (count_pos active js i x Hi Ax) as P. unfold count in P. lia.
  - f_equal. apply IH; try assumption. unfold count. destruct (active z); cbn [length] in C1; lia.
Qed.

(** when all issued calls of interpolate() have returned, no accepted probe is left in the queue *)
Theorem C34_nothing_left : forall scan tag s, reachable_ne scan tag s -> Forall finished (jobs s) -> queue (ob s) = [] /\ map fst (out s) = accepted s.
Proof.
  intros scan tag s R F. pose proof (reachable_inv _ _ _ R) as Iv. destruct (finished_counts _ F) as [A B].
  assert (Q : queue (ob s) = []).
  { pose proof (i_active _ _ _ Iv) as C. rewrite A in C. destruct (queue (ob s)) as [|x q] eqn:Q; [reflexivity|exfalso]. destruct (is_interpolating (ob s)) eqn:II; [discriminate|].
    pose proof (i_work _ _ _ Iv) as W. rewrite Q in W. specialize (W ltac:(discriminate) II). lia. }
  split; [exact Q|]. pose proof (i_order _ _ _ Iv) as O. rewrite Q, app_nil_r in O. exact O.
Qed.

(** and the issued calls can always return: there is no deadlock *)
Theorem C34_no_deadlock : forall scan s, reachable_ne scan false s -> exists s', drains scan false s s' /\ Forall finished (jobs s') /\ map fst (out s') = accepted s.
Proof.
  intros scan s R. destruct (drains_all scan false (S (work s)) s) as [s' [D F]]; [lia|exact (proj1 (i_prime _ _ _ (reachable_inv _ _ _ R) eq_refl))|].
  exists s'. split; [exact D|split; [exact F|]]. rewrite <- (drains_accepted _ _ _ _ D). apply (C34_nothing_left scan false); [apply (drains_reach _ _ s); assumption|exact F].
Qed.

(** without a tag, a probe handed to the interpolation belongs to the current prime and discarded probes belong to earlier primes *)
Theorem C34_handed_probe_is_current : forall scan s i x s', reachable_ne scan false s -> step scan false (Start i) s = Some s' \/ step scan false (Return i) s = Some s' ->
  nth_error (jobs s') i = Some (Body x) -> p_prime x = prime_number (ob s').
Proof.
  intros scan s i x s' R H N. destruct (i_prime _ _ _ (reachable_inv _ _ _ R) eq_refl) as [_ [J _]].
  assert (SN : forall (js : list job) y z, nth_error js i = Some z -> nth_error (set_nth i y js) i = Some y). { clear. induction i as [|i IH]; intros [|j js] y z H; try discriminate; cbn in *; [reflexivity|]. apply (IH js y z H). }
  destruct H as [H|H]; cbn [step] in H; destruct (nth_error (jobs s) i) as [[]|] eqn:NI; try discriminate.
  - destruct (fed_zero (ob s)); [|destruct (is_interpolating (ob s)); [|destruct (queue (ob s)) as [|y q] eqn:Q]]; injection H as <-; cbn [jobs] in N; rewrite (SN _ _ _ NI) in N; try discriminate N; injection N as <-.
    cbn. apply J. left. reflexivity.
  - destruct (queue (ob s)) as [|y q] eqn:Q; injection H as <-; cbn [jobs] in N; rewrite (SN _ _ _ NI) in N; try discriminate N; injection N as <-. cbn. apply J. left. reflexivity.
Qed.
Theorem C34_discarded_probe_is_stale : forall scan s x, reachable_ne scan false s -> In (x, false) (out s) -> p_prime x < prime_number (ob s).
Proof. intros scan s x R H. destruct (i_prime _ _ _ (reachable_inv _ _ _ R) eq_refl) as [_ [_ J]]. apply J. exact H. Qed.

Definition b1 : list (Z * Z * list nat) := [(2, 7, []); (3, 8, [])]%Z.
Definition b2 : list (Z * Z * list nat) := [(5, 9, [])]%Z.
(** two bunches fed by two threads, the second while the first is interpolated *)
Definition ex_events : list event := [Feed b1 0; Start 0; Feed b2 0; Return 0; Return 0; Return 0].
Example C34_example : exists s, run false false ex_events sys_start = Some s /\ reachable_ne false false s /\ Forall finished (jobs s) /\ map (fun x => p_num (fst x)) (out s) = [7; 8; 9]%Z /\ map p_num (accepted s) = [7; 8; 9]%Z.
Proof.
  eexists. split; [vm_compute; reflexivity|]. split; [|repeat constructor].
  apply (run_reach false false ex_events sys_start); [constructor|repeat constructor|vm_compute; reflexivity].
Qed.
(** the other thread's call returns at once while one thread interpolates *)
Example C34_example_two_threads : exists s, run false false [Feed b1 0; ExtraCall; Start 1; Start 0; Return 1] sys_start = Some s /\ jobs s = [Returned false; Body (mk_probe 3 8 [] 0)].
Proof. eexists. split; vm_compute; reflexivity. Qed.

(** refuted for an empty bunch: feeding nothing consumes the wake-up, so the next probe stays in the queue although every call has returned *)
Theorem C34_empty_bunch_refuted : exists s, reachable false false s /\ Forall finished (jobs s) /\ map p_num (queue (ob s)) = [9]%Z.
Proof.
  assert (Run : forall es s s', reachable false false s -> run false false es s = Some s' -> reachable false false s').
  { induction es as [|e es IH]; intros s s' R H; cbn [run] in H; [injection H as <-; exact R|]. destruct (step false false e s) as [s1|] eqn:S1; [|discriminate]. apply (IH s1); [apply (reach_step _ _ s e); assumption|exact H]. }
  assert (exists s, run false false [Feed b1 0; Start 0; Return 0; Return 0; Feed [] 0; Start 1; Feed b2 0] sys_start = Some s /\ Forall finished (jobs s) /\ map p_num (queue (ob s)) = [9]%Z) as [s [E H]].
  { eexists. split; [vm_compute; reflexivity|]. split; [repeat constructor|reflexivity]. }
  exists s. split; [exact (Run _ sys_start s (reach_start _ _) E)|exact H].
Qed.
(** refuted with a tag: prime_number is incremented before the lock is released and the queue is cleared after it is taken again, so a probe of the new
    prime that is accepted in between is discarded *)
Theorem C34_tag_window_refuted : exists s x, reachable_ne false true s /\ In (x, false) (out s) /\ p_prime x = prime_number (ob s).
Proof.
  assert (exists s, run false true [Feed b1 0; Start 0; Return 0; NewPrimeFirst 0; Feed b2 1; NewPrimeSecond 0] sys_start = Some s /\ In (mk_probe 5 9 [] 1, false) (out s) /\ prime_number (ob s) = 1) as [s [E [H P]]].
  { eexists. split; [vm_compute; reflexivity|]. split; [right; right; left; reflexivity|reflexivity]. }
  exists s, (mk_probe 5 9 [] 1). split; [apply (run_reach false true _ sys_start s) in E; [exact E|constructor|repeat constructor]|split; [exact H|rewrite P; reflexivity]].
Qed.

(** PolyReconst *)
Theorem C34_poly_exactly_once_in_order : forall s, preachable s -> map fst (pout s) ++ pqueue (pob s) = paccepted s.
Proof. intros s R. apply (q_order _ (preachable_inv _ R)). Qed.
Theorem C34_poly_one_thread_at_a_time : forall s, preachable s -> length (filter active (pjobs s)) <= 1.
Proof. intros s R. pose proof (q_active _ (preachable_inv _ R)) as C. unfold count in C. rewrite C. destruct (pinterp (pob s)); cbn; lia. Qed.
Theorem C34_poly_nothing_left : forall s, preachable s -> Forall finished (pjobs s) -> pqueue (pob s) = [] /\ map fst (pout s) = paccepted s.
Proof.
  intros s R F. pose proof (preachable_inv _ R) as Iv. destruct (finished_counts _ F) as [A B].
  assert (Q : pqueue (pob s) = []).
  { pose proof (q_active _ Iv) as C. rewrite A in C. destruct (pqueue (pob s)) as [|x q] eqn:Q; [reflexivity|exfalso]. destruct (pinterp (pob s)) eqn:II; [discriminate|].
    pose proof (q_work _ Iv) as W. rewrite Q in W. specialize (W ltac:(discriminate) II). lia. }
  split; [exact Q|]. pose proof (q_order _ Iv) as O. rewrite Q, app_nil_r in O. exact O.
Qed.
Fixpoint prun (es : list pevent) (s : psys) : option psys := match es with [] => Some s | e :: r => match pstep e s with Some s' => prun r s' | None => None end end.
Lemma prun_reach es : forall s s', preachable s -> prun es s = Some s' -> preachable s'.
Proof. induction es as [|e es IH]; intros s s' R H; cbn [prun] in H; [injection H as <-; exact R|]. destruct (pstep e s) as [s1|] eqn:S1; [|discriminate]. apply (IH s1); [apply (preach_step s e); assumption|exact H]. Qed.
Example C34_poly_example : exists s, preachable s /\ Forall finished (pjobs s) /\ map (fun x => p_num (fst x)) (pout s) = [4; 5]%Z.
Proof.
  assert (exists s, prun [PFeed 4 [] 0; PFeed 5 [] 0; PStart 1; PStart 0; PReturn 1; PReturn 1] psys_start = Some s /\ Forall finished (pjobs s) /\ map (fun x => p_num (fst x)) (pout s) = [4; 5]%Z) as [s [E H]].
  { eexists. split; [vm_compute; reflexivity|]. split; [repeat constructor|reflexivity]. }
  exists s. split; [apply (prun_reach _ psys_start s preach_start E)|exact H].
Qed.
(** refuted: the change of the prime does not clear the queue of a PolyReconst object, so a probe of the old prime is interpolated in the new one *)
Theorem C34_poly_stale_probe_refuted : exists s x k, preachable s /\ In (x, k) (pout s) /\ p_prime x < k.
Proof.
  assert (exists s, prun [PFeed 4 [] 0; PStart 0; PFeed 5 [] 0; PNewPrime 0; PReturn 0] psys_start = Some s /\ In (mk_probe 0 5 [] 0, 1) (pout s)) as [s [E H]].
  { eexists. split; [vm_compute; reflexivity|]. right. left. reflexivity. }
  exists s, (mk_probe 0 5 [] 0), 1. split; [apply (prun_reach _ psys_start s preach_start E)|split; [exact H|cbn; lia]].
Qed.

(** C39. For every history of events (with non-empty bunches): the object reports the zero function exactly when no probe was ever accepted and the first
    current feed was zero in each of the first three primes. *)
Theorem C39_zero_function_iff : forall tag es s, Forall nonempty_feed es -> run false tag es sys_start = Some s ->
  (zero_result (ob s) = true <-> accepted s = [] /\ zero_primes 0 es = 3).
Proof.
  intros tag es s F H. assert (R : reachable_ne false tag s) by (apply (run_reach false tag es sys_start); [constructor|assumption..]). pose proof (reachable_zinv _ _ R) as Z. split.
  - intros E. destruct (z_res _ Z E) as [_ [P [_ A]]]. split; [exact A|]. destruct (run_zero tag es sys_start s (reach_ne_start _ _) F H A) as [_ Q]. rewrite P in Q. symmetry. exact Q.
  - intros [A P]. destruct (run_zero tag es sys_start s (reach_ne_start _ _) F H A) as [_ Q]. cbn in Q. rewrite P in Q. apply (z_done _ Z A). exact Q.
Qed.
(** a function that is zero at every first probe: after zero feeds in the first three primes it is done, never earlier and it never asks for a fourth *)
Theorem C39_zero_function_done_after_three : forall tag es s, Forall nonempty_feed es -> Forall zero_first es -> run false tag es sys_start = Some s ->
  prime_number (ob s) = zero_primes 0 es /\ prime_number (ob s) <= 3 /\ (done (ob s) = true <-> zero_primes 0 es = 3) /\ (zero_result (ob s) = true <-> zero_primes 0 es = 3).
Proof.
  intros tag es s F FZ H. assert (R : reachable_ne false tag s) by (apply (run_reach false tag es sys_start); [constructor|assumption..]). pose proof (reachable_zinv _ _ R) as Z.
  assert (A : accepted s = []) by (apply (run_all_zero tag es sys_start s (reach_ne_start _ _) F FZ H eq_refl)).
  destruct (run_zero tag es sys_start s (reach_ne_start _ _) F H A) as [_ Q]. cbn in Q. destruct (z_done _ Z A) as [D1 [D2 D3]]. rewrite Q in *. tauto.
Qed.
(** once a value was accepted the rule never applies *)
Theorem C39_never_otherwise : forall tag s, reachable_ne false tag s -> accepted s <> [] -> zero_result (ob s) = false.
Proof. intros tag s R A. destruct (zero_result (ob s)) eqn:E; [|reflexivity]. destruct (z_res _ (reachable_zinv _ _ R) E) as [_ [_ [_ A']]]. elim (A A'). Qed.
(** feeding never reads past the end of primes() *)
Theorem C39_no_read_past_primes : forall tag s items fp, reachable_ne false tag s -> items <> [] -> feed_vec false items fp (ob s) <> FedUB.
Proof. exact feed_never_ub. Qed.
Definition z1 : list (Z * Z * list nat) := [(2, 0, []); (3, 4, [])]%Z.
Example C39_example : exists s, run false false [Feed z1 0; Start 0; Feed z1 1; Feed z1 1; Start 1; Feed z1 2; Start 2] sys_start = Some s /\ done (ob s) = true /\ zero_result (ob s) = true.
Proof. eexists. split; vm_compute; [reflexivity|split; reflexivity]. Qed.
Example C39_example_not : exists s, run false false [Feed z1 0; Start 0; Feed z1 1; Start 1; Feed b1 2; Start 2] sys_start = Some s /\ done (ob s) = false /\ zero_result (ob s) = false /\ accepted s <> [].
Proof. eexists. split; vm_compute; [reflexivity|split; [reflexivity|split; [reflexivity|discriminate]]]. Qed.

(** C38: every requested probe is evaluated and fed exactly once, with the right point, to every function that still needs it.
    C41: the run changes the prime and ends exactly when the functions allow it. C42: the run never deadlocks. *)
From Coq Require Import ZArith List Bool Arith Lia.
From Verif Require Import Machine FeedQueue Combi CombiProofs2 Reconst ReconstSpec ReconstProofs ReconstProofs2 ReconstProofs3 ReconstProofs4 ReconstProofs5 ReconstProofs6.
Import ListNotations.
Local Open Scope nat_scope.

(** the start and the return of interpolate() in the scheduler model are those of the feed/interpolate protocol of C34 *)
Theorem C38_same_protocol_as_C34 : forall sc tag o js ou ac i x,
  (nth_error js i = Some Pending -> step sc tag (Start i) (mk_sys o js ou ac) =
    Some (mk_sys (fst (start_obj o)) (set_nth i (match snd (start_obj o) with Some b => Returned b | None => Body (hd x (queue o)) end) js)
      (ou ++ match snd (start_obj o) with None => [(hd x (queue o), true)] | _ => [] end) ac)) /\
  (nth_error js i = Some (Body x) -> step sc tag (Return i) (mk_sys o js ou ac) =
    Some (mk_sys (fst (return_obj o)) (set_nth i (match snd (return_obj o) with Some b => Returned b | None => Body (hd x (queue o)) end) js)
      (ou ++ match snd (return_obj o) with None => [(hd x (queue o), true)] | _ => [] end) ac)).
Proof.
  intros sc tag o js ou ac i x. split; intros N; cbn [step ob jobs out accepted]; rewrite N.
  - unfold start_obj. destruct (fed_zero o); [cbn [fst snd]; rewrite app_nil_r; reflexivity|]. destruct (is_interpolating o); [cbn [fst snd]; rewrite app_nil_r; reflexivity|]. destruct (queue o); cbn [fst snd hd]; rewrite ?app_nil_r; reflexivity.
  - unfold return_obj. destruct (queue o); cbn [fst snd hd]; rewrite ?app_nil_r; reflexivity.
Qed.

Section Props.
(** for every black box, number of threads, bunch size, number of functions, shift scan or not *)
Variable bb : nat -> point -> list Z.
Variables thr bs : Z.
Variable scan : bool.
Variable n : nat.
Notation reach := (sreach bb thr bs scan n).

(** in every reachable state every probe requested in this prime is in exactly one place: nothing is lost or duplicated *)
Theorem C38_each_probe_in_one_place : forall s, reach s -> NoDup (everywhere s) /\ (forall i, In i (everywhere s) <-> i < ind s).
Proof.
  intros s R. pose proof (reach_inv _ _ _ _ _ _ R) as V. assert (C : forall i, cnt i (everywhere s) = if i <? ind s then 1 else 0) by (intros i; rewrite everywhere_cnt by apply (v_look _ _ _ V); apply (v_idx _ _ _ V)). split.
  - apply cnt_nodup. intros i. rewrite C. destruct (i <? ind s); lia.
  - intros i. rewrite <- cnt_in, C. destruct (Nat.ltb_spec i (ind s)); lia.
Qed.
(** the point of a fed probe is always found: the error exit of feed_job is never taken *)
Theorem C38_index_always_found : forall s j b, reach s -> nth_error (feeds s) j = Some (FLook b) -> sstep bb thr bs scan (FLookup j) s <> None.
Proof.
  intros s j b R N. pose proof (reach_inv _ _ _ _ _ _ R) as V. cbn [sstep]. rewrite N. destruct (look_all (map fst b) (imap s)) as [[pts m]|] eqn:L; [discriminate|]. exfalso. revert L.
  destruct (held_nodup s j b (v_idx _ _ _ V) N) as [ND LK]. apply look_all_ok; [exact ND|]. intros i Hi. rewrite (d_imap _ _ (v_D _ _ _ V)), (LK i Hi). cbn.
  pose proof (forall_nth _ _ _ _ (d_feeds _ _ (v_D _ _ _ V)) N) as [_ Fb]. apply in_map_iff in Hi as [x [<- Hx]]. rewrite Forall_forall in Fb. destruct (Fb x Hx) as [p [E _]]. rewrite E. discriminate.
Qed.
(** what is fed: the points are those the probes were requested for and the results are the values of the black box at these points in the current prime *)
Theorem C38_results_belong_to_points : forall s j ix pts res k c, reach s -> nth_error (feeds s) j = Some (FLoop ix pts res k c) ->
  res = map (bb (prime_it s)) pts /\ length pts = length ix /\ forall m i p, nth_error ix m = Some i -> nth_error pts m = Some p -> In (i, p) (hist s).
Proof.
  intros s j ix pts res k c R N. pose proof (reach_inv _ _ _ _ _ _ R) as V. pose proof (forall_nth _ _ _ _ (d_feeds _ _ (v_D _ _ _ V)) N) as [_ [F1 F2]]. split; [exact F2|]. split; [apply (f_equal (@length _)) in F1; rewrite !map_length in F1; congruence|].
  assert (L : forall i p h, lookup i h = Some p -> In (i, p) h). { clear. intros i p. induction h as [|[a q] h IH]; cbn; [discriminate|]. destruct (Nat.eqb_spec i a) as [->|D]; [intros [= ->]; left; reflexivity|intros H; right; apply IH; exact H]. }
  intros m i p Hi Hp. apply L. apply (f_equal (fun l => nth_error l m)) in F1. rewrite !nth_error_map, Hi, Hp in F1. injection F1 as F1. exact F1.
Qed.
(** every value waiting in the queue of a function is the value of that function at the point it is labelled with, in the prime it is labelled with;
    as long as the function is not done that is the prime it is working on *)
Theorem C38_fed_values_are_black_box_values : forall s k r x, reach s -> nth_error (recs s) k = Some r -> In x (queue (r_obj r)) ->
  p_num x = nth k (bb (p_prime x) (p_t x, p_ord x)) 0%Z /\ (done (r_obj r) = false -> p_prime x = prime_number (r_obj r) /\ p_prime x = prime_it s).
Proof.
  intros s k r x R N H. pose proof (reach_inv _ _ _ _ _ _ R) as V. destruct (v_Q _ _ _ V k r N) as [Q1 Q2]. rewrite Forall_forall in Q1. split; [apply Q1; exact H|]. intros D0. specialize (Q2 D0). rewrite Forall_forall in Q2. specialize (Q2 x H). split; [exact Q2|].
  destruct (k_prime _ _ _ _ _ _ (proj1 (v_B _ _ _ V) k r N) D0) as [[E _]|[_ [E _]]]; [congruence|]. rewrite E in H. elim H.
Qed.
(** every function sees every finished probe exactly once, and no probe twice *)
Theorem C38_every_function_sees_every_probe_once : forall s k i, reach s -> k < n -> (In i (finished_ix s) -> times_visited k i s = 1) /\ times_visited k i s <= 1.
Proof.
  intros s k i R Hk. pose proof (reach_inv _ _ _ _ _ _ R) as V. rewrite visited_cv, (v_visit _ _ _ V k i). pose proof (v_idx _ _ _ V i) as I0. unfold places in I0. rewrite (v_look _ _ _ V i) in I0. rewrite (reach_items _ _ _ _ _ _ R).
  destruct (Nat.ltb_spec k n); [|lia]. assert (S1 : sumf (seen k i) (feeds s) <= sumf (fun j => cnt i (loop_ix j)) (feeds s)).
  { clear. induction (feeds s) as [|j l IH]; cbn [sumf]; [lia|]. destruct j as [b|b|l' pts res pos c]; cbn [seen loop_ix]; [lia|lia|]. destruct (k <? pos); lia. }
  assert (L : (if i <? ind s then 1 else 0) <= 1) by (destruct (i <? ind s); lia). split; [|lia]. intros H1. apply cnt_in in H1. lia.
Qed.
(** no point is evaluated twice in a prime *)
Theorem C38_no_point_requested_twice : forall s, reach s -> NoDup (map snd (hist s)).
Proof.
  intros s R. pose proof (reach_inv _ _ _ _ _ _ R) as V. apply (NoDup_count_occ pdec). intros p. destruct (v_ch _ _ _ V p) as [E L]. unfold cp in *. lia.
Qed.
(** the counters: exact, so never negative *)
Theorem C38_counters_exact : forall s, reach s ->
  probes_queued s = Z.of_nat (in_flight s) /\
  feed_jobs s = Z.of_nat (length (feeds s) + match main s with MFeed2 _ => 1 | _ => 0 end) /\
  (0 <= interpolate_jobs s)%Z /\ (interpolate_jobs s = 0%Z -> ijobs s = []) /\ (feeds s = [] -> interpolate_jobs s = Z.of_nat (length (ijobs s))).
Proof.
  intros s R. pose proof (reach_inv _ _ _ _ _ _ R) as V. split; [|split; [|split; [|split]]].
  - rewrite (v_queued _ _ _ V). unfold in_flight. rewrite !len_concat. reflexivity.
  - apply (v_feed _ _ _ V).
  - rewrite (v_int _ _ _ V). lia.
  - rewrite (v_int _ _ _ V). intros E. destruct (ijobs s); [reflexivity|cbn [length] in E; lia].
  - intros E. rewrite (v_int _ _ _ V), E. cbn [sumf]. lia.
Qed.
(** with a bunch size the constructor accepts, every requested probe has a get_job task that will evaluate it *)
Theorem C38_requested_probes_have_tasks : forall s, In bs bunch_sizes -> (1 <= thr < two32)%Z -> sreach_small bb thr bs scan n s -> length (requested s) <= pool_get s + owed_main s + owed_jobs (ijobs s).
Proof. intros s G T R. rewrite owed_sum. apply (small_get bb thr bs scan n s); [split; assumption|exact R]. Qed.
(** the wait for the next probe always ends: the other threads can finish a bunch *)
Theorem C38_waiting_for_a_probe_is_served : forall s, In bs bunch_sizes -> (1 <= thr < two32)%Z -> sreach_small bb thr bs scan n s -> main s = MGet ->
  exists es s1 s2, forallb worker es = true /\ run bb thr bs scan es s = Some s1 /\ sstep bb thr bs scan MPop s1 = Some s2.
Proof. intros s G T R M. apply (get_served bb thr bs scan n s); [split; assumption|exact R|exact M]. Qed.
(** when the main thread concludes that nothing is under way, that is true: every requested probe has been fed to every function, and every function
    that is not DONE has worked off everything it was fed *)
Theorem C38_idle_means_everything_processed : forall s, reach s -> main s = MIdle \/ main s = MStuck ->
  (forall i, i < ind s -> In i (finished_ix s) /\ forall k, k < n -> times_visited k i s = 1) /\ ijobs s = [] /\
  (forall r, In r (recs s) -> r_fin r = false -> queue (r_obj r) = [] /\ is_interpolating (r_obj r) = false /\ fed_zero (r_obj r) = false).
Proof.
  intros s R M. pose proof (reach_inv _ _ _ _ _ _ R) as V. pose proof (reach_idle _ _ _ _ _ _ R) as A. assert (A' : feeds s = [] /\ ijobs s = [] /\ probes_queued s = 0%Z) by (unfold A_idle in A; destruct M as [M|M]; rewrite M in A; exact A). destruct A' as [F [J Z0]].
  split; [|split; [exact J|]].
  - intros i Hi. assert (In i (finished_ix s)) as Fi.
    { destruct (C38_each_probe_in_one_place s R) as [_ E]. apply E in Hi. unfold everywhere in Hi. rewrite F in Hi. pose proof (v_queued _ _ _ V) as Q0. unfold A_queued in Q0. rewrite Z0 in Q0.
      assert (E1 : requested s = []) by (destruct (requested s); [reflexivity|cbn [length] in Q0; lia]).
      assert (E2 : concat (computing s) = []) by (apply length_zero_iff_nil; rewrite len_concat; lia). assert (E3 : concat (computed s) = []) by (apply length_zero_iff_nil; rewrite len_concat; lia).
      rewrite <- !concat_map, E1, E2, E3 in Hi. destruct M as [M|M]; rewrite M in Hi; cbn in Hi; exact Hi. }
    split; [exact Fi|]. intros k Hk. apply (C38_every_function_sees_every_probe_once s k i R Hk). exact Fi.
  - intros r Hr Hf. apply In_nth_error in Hr as [k N]. pose proof (proj1 (v_B _ _ _ V) k r N) as K. rewrite J in K. destruct K as [K1 K2 K2' K3 K4 K5 K6 K7 K8]. cbn in K1, K4, K5. 
    assert (II : is_interpolating (r_obj r) = false) by (destruct (is_interpolating (r_obj r)); [discriminate|reflexivity]). specialize (K4 Hf). 
    split; [|split; [exact II|destruct (fed_zero (r_obj r)); [cbn in K4; lia|reflexivity]]]. destruct (queue (r_obj r)); [reflexivity|]. specialize (K5 Hf ltac:(discriminate) II). lia.
Qed.

(** C41. items_done is the number of functions marked DONE, all of them are done; items_new_prime is the number of functions that asked for the next
    prime; no function is counted twice, so the two never exceed the number of functions *)
Theorem C41_functions_counted_once : forall s, reach s ->
  items_done s = number r_fin s /\ items_new_prime s = number r_cnt s /\ items_done s + items_new_prime s <= n /\
  (forall r, In r (recs s) -> (r_fin r = true -> done (r_obj r) = true) /\ (r_cnt r = true -> r_fin r = false /\ done (r_obj r) = false /\ prime_number (r_obj r) = S (prime_it s))).
Proof.
  intros s R. pose proof (reach_inv _ _ _ _ _ _ R) as V. destruct (v_C _ _ _ V) as [C1 [C2 _]]. rewrite !number_sum. split; [exact C1|]. split; [exact C2|]. split.
  - rewrite C1, C2, <- (reach_items _ _ _ _ _ _ R). apply sum2_le. apply (excl scan _ _ _ (v_B _ _ _ V)).
  - intros r Hr. pose proof Hr as N. apply In_nth_error in N as [k N]. pose proof (proj1 (v_B _ _ _ V) k r N) as K. split; [apply (k_fin _ _ _ _ _ _ K)|]. intros Ct. destruct (done (r_obj r)) eqn:D0; [destruct (k_done _ _ _ _ _ _ K D0); congruence|].
    split; [destruct (r_fin r) eqn:F; [|reflexivity]; rewrite (k_fin _ _ _ _ _ _ K F) in D0; discriminate|]. split; [reflexivity|]. destruct (k_prime _ _ _ _ _ _ K D0) as [[_ [_ [_ [X _]]]]|[X _]]; [congruence|exact X].
Qed.
(** the prime is changed only if every function is DONE or asked for the next prime *)
Theorem C41_new_prime_only_if_all_agree : forall s s' r, reach s -> sstep bb thr bs scan MNext s = Some s' -> In r (recs s) ->
  r_fin r = true \/ (r_fin r = false /\ done (r_obj r) = false /\ prime_number (r_obj r) = S (prime_it s)).
Proof.
  intros s s' r R H Hr. pose proof (reach_inv _ _ _ _ _ _ R) as V. destruct (v_C _ _ _ V) as [C1 [C2 C3]]. cbn [sstep] in H. destruct (main s); try discriminate. clear H.
  assert (A : r_fin r = true \/ r_cnt r = true) by (revert r Hr; apply sum2_le; [apply (excl scan _ _ _ (v_B _ _ _ V))|rewrite <- C1, <- C2; exact C3]).
  destruct A as [F|Ct]; [left; exact F|right]. apply (C41_functions_counted_once s R); assumption.
Qed.
(** after it every function that is not DONE works in the new prime, with an empty queue and fresh start *)
Theorem C41_new_prime_is_clean : forall s s' r, reach s -> sstep bb thr bs scan MNext s = Some s' -> In r (recs s') -> r_fin r = false ->
  prime_number (r_obj r) = prime_it s' /\ prime_it s' = S (prime_it s) /\ queue (r_obj r) = [] /\ first_feed (r_obj r) = true /\ is_interpolating (r_obj r) = false /\ done (r_obj r) = false.
Proof.
  intros s s' r R H Hr Hf. pose proof (reach_inv _ _ _ _ _ _ R) as V. destruct (v_C _ _ _ V) as [C1 [C2 C3]]. pose proof H as H'. cbn [sstep] in H. destruct (main s); try discriminate. destruct (forallb quiet_f (feeds s) && forallb quiet_i (ijobs s)) eqn:Qt; [|discriminate]. destruct (computing s); [|discriminate]. injection H as <-.
  apply andb_prop in Qt as [_ Qi]. rewrite forallb_forall in Qi. unfold next_prime in *. cbn [recs prime_it] in *. apply in_map_iff in Hr as [x [<- Hx]]. oo.
  assert (A : r_fin x = true \/ r_cnt x = true) by (revert x Hx Hf; intros x Hx _; revert x Hx; apply sum2_le; [apply (excl scan _ _ _ (v_B _ _ _ V))|rewrite <- C1, <- C2; exact C3]).
  destruct A as [A|Ct]; [congruence|]. destruct (C41_functions_counted_once s R) as [_ [_ [_ X]]]. destruct (X x Hx) as [_ X2]. destruct (X2 Ct) as [_ [D0 P0]]. apply In_nth_error in Hx as [k N]. pose proof (proj1 (v_B _ _ _ V) k x N) as K.
  assert (W : w k pB (ijobs s) = 0). { unfold w. revert Qi. generalize (ijobs s) as js. induction js as [|j js IH]; intros Qi; [reflexivity|]. cbn [sumf]. rewrite IH by (intros; apply Qi; right; assumption). specialize (Qi j (or_introl eq_refl)). destruct j; try discriminate. cbn. destruct (_ =? _); reflexivity. }
  pose proof (k_act _ _ _ _ _ _ K) as K1. rewrite W in K1. destruct (k_prime _ _ _ _ _ _ K D0) as [[Y _]|[Y1 [Y2 [Y3 _]]]]; [exfalso; clear - P0 Y; lia|]. repeat split; auto. destruct (is_interpolating (r_obj x)); [discriminate|reflexivity].
Qed.
(** the run ends only if every function is done *)
Theorem C41_ends_only_if_all_done : forall s, reach s -> main s = MDone -> forall r, In r (recs s) -> r_fin r = true /\ done (r_obj r) = true.
Proof.
  intros s R M r Hr. pose proof (reach_inv _ _ _ _ _ _ R) as V. destruct (v_C _ _ _ V) as [C1 [_ C3]]. rewrite M in C3. rewrite C1 in C3. pose proof (sum_all (recs s) C3 r Hr) as F. split; [exact F|]. apply (C41_functions_counted_once s R); assumption.
Qed.

(** C42. The main thread is never blocked for good: unless the run has ended, the other threads can always proceed to a point where the main thread
    makes a step (below the limit of 300 primes) *)
Theorem C42_no_deadlock : forall s, In bs bunch_sizes -> (1 <= thr < two32)%Z -> sreach_small bb thr bs scan n s -> prime_it s < 299 -> main s <> MDone -> main s <> MStuck ->
  exists es s1 e s2, forallb worker es = true /\ run bb thr bs scan es s = Some s1 /\ worker e = false /\ sstep bb thr bs scan e s1 = Some s2 /\ main s2 <> main s.
Proof. intros s G T. apply main_moves. split; assumption. Qed.
(** all submitted jobs can finish, whatever state they are in *)
Theorem C42_jobs_can_finish : forall s, reach s -> prime_it s < 299 ->
  exists es s', forallb worker es = true /\ run bb thr bs scan es s = Some s' /\ feeds s' = [] /\ ijobs s' = [] /\ main s' = main s /\ prime_it s' = prime_it s.
Proof. intros s R P. apply (drain bb thr bs scan (S (meas s))); [lia|apply (reach_inv _ _ _ _ _ _ R)|exact P]. Qed.
End Props.

(** a run with two functions, one thread and bunches of two: three probes; the second function needs a second prime *)
Definition ex_bb (p : nat) (x : point) : list Z := [fst x + 1; fst x * 2 + Z.of_nat p]%Z.
Definition ex_run : list sevent :=
  [MChoose (5, [])%Z; MChoose (6, [])%Z; MInsert false; MInsert false; MSubmit; MSubmit; MReady; GetJob; Finish 0; MPop; MDecr; MIncr; MRun; MStat; MLookQ;
   FCount 0; FLookup 0; FVisit 0; IStart 0; FVisit 0; MWake; FFinish 0; IRet 0; IRet 0; ICount 0; IChoose 0 (7, [])%Z; IInsert 0 false; ISubmit 0; IEnd 0;
   GetJob; MWake; GetJob; Finish 0; MPop; MDecr; MIncr; MRun; FCount 0; FLookup 0; FVisit 0; FVisit 0; FFinish 0; IStart 1; IDone 1; IRet 1; ICount 1;
   IStart 0; IRet 0; IRet 0; INew 0; IRet 0; ICount 0; IEnd 0; IEnd 0; MStat; MNext; MChoose (5, [])%Z; MInsert false; MSubmit; MReady; GetJob; Finish 0; MPop; MDecr; MIncr; MRun;
   FCount 0; FLookup 0; FVisit 0; FVisit 0; FFinish 0; IStart 0; IDone 0; IRet 0; ICount 0; IEnd 0; MStat].
Lemma run_small bb thr bs scan n es : forall s s', sreach_small bb thr bs scan n s -> run bb thr bs scan es s = Some s' -> length (requested s) + length es < Z.to_nat two31 -> sreach_small bb thr bs scan n s'.
Proof.
  induction es as [|e es IH]; intros s s' R H L; cbn [run] in H; [injection H as <-; exact R|]. destruct (sstep bb thr bs scan e s) as [s1|] eqn:E; [|discriminate].
  assert (L1 : length (requested s1) <= S (length (requested s))).
  { clear - E. inv_step E; ss; fix_goal; rewrite ?app_length; cbn [length] in *; try lia. rewrite skipn_length. cbn [length]. lia. }
  cbn [length] in L. apply (IH s1); [apply (small_step _ _ _ _ _ s e); [exact R|exact E|lia]|exact H|lia].
Qed.
Lemma ex_small es s : run ex_bb 1 2 false es (start_st 2) = Some s -> length es <= 100 -> sreach_small ex_bb 1 2 false 2 s.
Proof. intros H L. apply (run_small _ _ _ _ _ es (start_st 2)); [constructor|exact H|]. change (length (requested (start_st 2))) with 0. assert (100 < Z.to_nat two31) by (change 100 with (Z.to_nat 100); apply Z2Nat.inj_lt; unfold two31; lia). lia. Qed.
(** the whole run is possible and ends with both functions done *)
Example C41_example : exists s, run ex_bb 1 2 false ex_run (start_st 2) = Some s /\ sreach_small ex_bb 1 2 false 2 s /\ main s = MDone /\ prime_it s = 1 /\ items_done s = 2 /\ finished_ix s = [0].
Proof. eexists. split; [vm_compute; reflexivity|]. split; [apply (ex_small ex_run); [vm_compute; reflexivity|cbn; lia]|repeat split; reflexivity]. Qed.
(** in the middle of it: at the change of the prime *)
Example C41_example_new_prime : exists s s', run ex_bb 1 2 false (firstn 55 ex_run) (start_st 2) = Some s /\ sreach_small ex_bb 1 2 false 2 s /\ sstep ex_bb 1 2 false MNext s = Some s' /\ finished_ix s = [2; 0; 1] /\
  map r_fin (recs s) = [true; false] /\ map r_cnt (recs s) = [false; true].
Proof. eexists. eexists. split; [vm_compute; reflexivity|]. split; [apply (ex_small (firstn 55 ex_run)); [vm_compute; reflexivity|cbn; lia]|repeat split; reflexivity]. Qed.
(** a bunch being fed, while another probe is requested by interpolate_job *)
Example C38_example : exists s, run ex_bb 1 2 false (firstn 40 ex_run) (start_st 2) = Some s /\ sreach_small ex_bb 1 2 false 2 s /\ feeds s = [FLoop [2] [(7, [])%Z] [[8; 14]%Z] 1 1] /\ everywhere s = [2; 0; 1] /\
  map (fun r => map p_num (queue (r_obj r))) (recs s) = [[8]; [12; 10]]%Z.
Proof. eexists. split; [vm_compute; reflexivity|]. split; [apply (ex_small (firstn 40 ex_run)); [vm_compute; reflexivity|cbn; lia]|repeat split; reflexivity]. Qed.
(** the main thread waiting for a probe that is not even taken from the queue yet, and an idle state *)
Example C42_example : exists s, run ex_bb 1 2 false (firstn 7 ex_run) (start_st 2) = Some s /\ sreach_small ex_bb 1 2 false 2 s /\ main s = MGet /\ length (requested s) = 2 /\ In 2%Z bunch_sizes.
Proof. eexists. split; [vm_compute; reflexivity|]. split; [apply (ex_small (firstn 7 ex_run)); [vm_compute; reflexivity|cbn; lia]|]. repeat split. right; left; reflexivity. Qed.
Example C38_example_idle : exists s, run ex_bb 1 2 false (firstn 22 ex_run ++ [IRet 0; IRet 0; ICount 0; IEnd 0; IStart 0; IRet 0; IRet 0; ICount 0; IEnd 0; MWake; MFinal]) (start_st 2) = Some s /\ main s = MIdle /\ finished_ix s = [0; 1] /\ map r_fin (recs s) = [false; false].
Proof. eexists. split; [vm_compute; reflexivity|repeat split; reflexivity]. Qed.

(** Property theorems C55: when nothing is left to feed. *)
From Coq Require Import List Bool Arith Lia.
From Verif Require Import Machine Results Continue ContinueSpec ContinueProofs.
Import ListNotations.
Open Scope nat_scope.

Lemma find_in zo copy : In zo (map fst copy) -> exists k, ofind zo copy = Some k.
Proof.
  induction copy as [|[z k] copy IH]; intros H; [destruct H|]. cbn [ofind]. destruct (same_order z zo) eqn:E; [exists k; reflexivity|]. apply IH. destruct H as [H|H]; [|exact H]. cbn [fst] in H. apply (proj2 (same_order_spec z zo)) in H. congruence.
Qed.
Lemma find_app zo a b : ofind zo (a ++ b) = match ofind zo a with Some k => Some k | None => ofind zo b end.
Proof. induction a as [|[z k] a IH]; [reflexivity|]. cbn [app ofind]. destruct (same_order z zo); [reflexivity|exact IH]. Qed.
Lemma tally_sum {A} (f g : A -> bool) l : (forall x, f x = true -> g x = true -> False) -> tally f l + tally g l = length l <-> forall x, In x l -> f x = true \/ g x = true.
Proof.
  intros H. rewrite tally_two by exact H. rewrite tally_all. split; intros K x J; specialize (K x J); [apply orb_true_iff in K|apply orb_true_iff]; exact K.
Qed.

(** After the call the counters are those of the functions, whatever they were before (calls that came too late have been missed): a function is marked iff it is
    ready. The run ends iff all are ready; the prime changes iff none needs probes in this field (and not all are ready); the call fails iff some function needs
    probes and none asks for any; otherwise at least as many probes are started as each of these functions asks for, for no other powers, and
    the table of started probes says so. *)
Theorem C55_counters_and_verdict : forall n thr prime_it safe_mode factor_scan items_done items_new next copy l,
  0 < thr -> Forall (fun e => fst e <> Delete /\ sensible factor_scan (snd e)) l -> In (if factor_scan then [] else repeat 1 (n - 1)) (map fst copy) ->
  let ready := ready prime_it in let waiting := waiting prime_it in let unfinished := unfinished prime_it in let wants := wants n prime_it safe_mode factor_scan in
  exists r, attempt n thr prime_it safe_mode factor_scan (length l) items_done items_new next copy l = Ret r /\
    Forall2 (fun e st => (ready e -> st = Done) /\ (~ ready e -> st = Reconstructing)) l (r_status r) /\
    (exists f, (forall e, f e = true <-> ready e) /\ r_items_done r = length (filter f l)) /\ (exists f, (forall e, f e = true <-> waiting e) /\ r_items_new r = length (filter f l)) /\
    (r_verdict r = AllDone <-> Forall ready l) /\
    (r_verdict r = NextPrime <-> Forall (fun e => ready e \/ waiting e) l /\ ~ Forall ready l) /\
    (r_verdict r = CannotContinue <-> (exists e, In e l /\ unfinished e) /\ (forall e, In e l -> unfinished e -> forall zo c, ~ wants (snd e) zo c)) /\
    (forall table, r_verdict r = Continues table ->
       (exists e zo c, In e l /\ unfinished e /\ wants (snd e) zo c) /\
       (forall zo, 0 < started_for zo (r_queued r) -> ofind zo table = Some (started_for zo (r_queued r)))) /\
    (forall e zo c, In e l -> unfinished e -> wants (snd e) zo c -> c <= started_for zo (r_queued r)) /\
    (forall zo, 0 < started_for zo (r_queued r) -> exists e c, In e l /\ unfinished e /\ wants (snd e) zo c).
Proof.
  intros n thr p safe fs d w next copy l Ht F Hc ready waiting unfinished wants.
  destruct (all_ok n thr p safe fs l Ht F (mk_att 0 0 0 0 [] [] next)) as [sts [t [E [I [D [W [S [_ [N M]]]]]]]]]; [intros z; reflexivity|]. cbn [t_done t_done2 t_new t_new2 Nat.add t_queued] in D, W. cbn [t_queued] in M.
  destruct (find_in _ _ Hc) as [kc Kc].
  assert (Wp : forall e zo c, In e l -> wants (snd e) zo c -> 0 < c).
  { intros e zo c J H. rewrite Forall_forall in F. destruct (F e J) as [_ [Sa _]]. rewrite Forall_forall in Sa. unfold wants, ContinueSpec.wants in H. destruct (later_mode p safe); [destruct H as [z [_ [H _]]]; exact H|]. destruct fs; [destruct H as [k [r [_ ->]]]; lia|].
    destruct H as [[k [_ [_ ->]]]|[_ H]]; [lia|]. apply (Sa (zo, c)) in H. cbn [snd] in H. lia. }
  assert (Em : t_started t = [] <-> forall zo, started_for zo (t_queued t) = 0).
  { split; [intros Q zo; specialize (I zo); rewrite Q in I; exact I|]. intros Q. destruct (t_started t) as [|[z k] st] eqn:Z; [reflexivity|]. specialize (I z). rewrite Z in I. cbn [ofind] in I. rewrite (proj2 (same_order_spec z z) eq_refl) in I. specialize (Q z). lia. }
  assert (Ex : exists r, attempt n thr p safe fs (length l) d w next copy l = Ret r /\ (forall table, r_verdict r = Continues table -> t_started t <> [] /\ forall zo, 0 < started_for zo (t_queued t) -> ofind zo table = Some (started_for zo (t_queued t)))).
  { unfold attempt. rewrite E. cbn [obind fst snd]. match goal with |- context [if ?dd =? length l then _ else _] => destruct (dd =? length l) end; [eexists; split; [reflexivity|discriminate]|]. destruct (_ =? _); [eexists; split; [reflexivity|discriminate]|].
    destruct (t_started t) as [|x st] eqn:Z; [eexists; split; [reflexivity|discriminate]|]. rewrite <- Z. clear Em.
    assert (Tb : forall zo, 0 < started_for zo (t_queued t) -> ofind zo (t_started t) = Some (started_for zo (t_queued t))) by (intros zo H; specialize (I zo); destruct (ofind zo (t_started t)) as [k|]; [destruct I as [I _]; rewrite I; reflexivity|lia]).
    destruct (ofind (equal_order n fs 1) (t_started t)) as [k|] eqn:O.
    - destruct (Nat.eqb_spec (length (t_started t)) 1) as [L|L]; [|eexists; split; [reflexivity|]; intros table Q; cbn [r_verdict] in Q; injection Q as <-; split; [rewrite Z; discriminate|exact Tb]].
      unfold equal_order at 1. rewrite Kc. eexists. split; [reflexivity|]. intros table Q. cbn [r_verdict] in Q. injection Q as <-. split; [rewrite Z; discriminate|]. intros zo H. pose proof (Tb zo H) as T. rewrite Z in T, O, L. destruct st; [|discriminate L]. destruct x as [z c]. cbn [ofind] in T, O.
      destruct (same_order z zo) eqn:A; [|discriminate T]. destruct (same_order z (equal_order n fs 1)) eqn:B; [|discriminate O]. apply same_order_spec in A, B. rewrite <- A, B, ofind_put_same, <- B, A. congruence.
    - eexists. split; [reflexivity|]. intros table Q. cbn [r_verdict] in Q. injection Q as <-. split; [rewrite Z; discriminate|]. intros zo H. rewrite find_app, (Tb zo H). reflexivity. }
  destruct Ex as [r [Er Tr]]. exists r. split; [exact Er|]. destruct (attempt_counts n thr safe fs next copy p _ d w l r Er) as [t' [E' [D' [W' [Q' [V1 [V2 V3]]]]]]]. rewrite E in E'. injection E' as Es <-. rewrite Q'. rewrite D in D'. rewrite W in W'.
  assert (Rb : forall e, readyb p e = true <-> ready e) by (intros e; apply readyb_spec).
  assert (Wb : forall e, waits p e = true <-> waiting e) by (intros e; apply waits_spec).
  assert (A1 : r_items_done r = length l <-> Forall ready l). { rewrite D', tally_all, Forall_forall. split; intros K x J; [apply Rb|apply Rb]; apply K; exact J. }
  assert (A2 : r_items_done r + r_items_new r = length l <-> Forall (fun e => ready e \/ waiting e) l).
  { rewrite D', W', tally_sum by (intros x; apply ready_not_waiting). rewrite Forall_forall. split; intros K x J; specialize (K x J); rewrite Rb, Wb in *; exact K. }
  assert (A3 : ~ Forall (fun e => ready e \/ waiting e) l <-> exists e, In e l /\ unfinished e).
  { split.
    - intros K. destruct (forallb (fun e => readyb p e || waits p e) l) eqn:B.
      + exfalso. apply K. apply Forall_forall. intros e J. rewrite forallb_forall in B. specialize (B e J). apply orb_true_iff in B. rewrite Rb, Wb in B. exact B.
      + assert (X : exists e, In e l /\ readyb p e || waits p e = false). { clear - B. induction l as [|e l IH]; [discriminate B|]. cbn [forallb] in B. apply andb_false_iff in B as [B|B]; [exists e; split; [left; reflexivity|exact B]|]. destruct (IH B) as [e' [J1 J2]]. exists e'. split; [right; exact J1|exact J2]. }
        destruct X as [e [J X]]. exists e. split; [exact J|]. apply orb_false_iff in X as [X1 X2]. rewrite Forall_forall in F. destruct (cases3 p e (proj1 (F e J))) as [C|[C|C]]; [apply Rb in C; congruence|apply Wb in C; congruence|exact C].
    - intros [e [J U]] K. rewrite Forall_forall in K. destruct (not_both p e U) as [N1 N2]. destruct (K e J); contradiction. }
  split; [rewrite <- Es, S; clear - Rb; induction l as [|e l IH]; constructor; [|exact IH]; destruct (readyb p e) eqn:B; split; try reflexivity; intros H; [exfalso; apply H; apply Rb; exact B|apply Rb in H; congruence]|].
  split; [exists (readyb p); split; [exact Rb|exact D']|]. split; [exists (waits p); split; [exact Wb|exact W']|].
  split; [rewrite V1; exact A1|]. split; [rewrite V2, A1, A2; tauto|]. split.
  { rewrite V3, A1, A2, Em. split.
    - intros [_ [B C]]. apply A3 in B. split; [exact B|]. intros e J U zo c H. pose proof (Wp e zo c J H). pose proof (N e J U zo c H). specialize (C zo). lia.
    - intros [[e [J U]] C]. split; [intros K; rewrite Forall_forall in K; destruct (not_both p e U) as [N1 _]; apply N1; apply K; exact J|]. split; [apply A3; exists e; split; assumption|]. intros zo. destruct (Nat.eq_dec (started_for zo (t_queued t)) 0) as [Z|Z]; [exact Z|].
      destruct (M zo) as [e' [c [J' [U' H]]]]; [cbn [started_for fold_right]; lia|]. exfalso. apply (C e' J' U' zo c H). }
  split.
  { intros table H. destruct (Tr table H) as [T1 T2]. split; [|exact T2]. destruct (t_started t) as [|[z k] st] eqn:Z; [congruence|]. pose proof (I z) as Iz. rewrite Z in Iz. cbn [ofind] in Iz. rewrite (proj2 (same_order_spec z z) eq_refl) in Iz. destruct (M z) as [e [c [J [U X]]]]; [cbn [started_for fold_right]; lia|]. exists e, z, c. repeat split; try assumption; apply U. }
  split; [intros e zo c J U H; apply (N e J U zo c H)|]. intros zo H. apply M. cbn [started_for fold_right]. lia.
Qed.
Print Assumptions C55_counters_and_verdict.

(** ---- the counters over a run ---- *)
(** All histories of jobs, early results, changes of the prime and calls of attempt_to_continue in which none of these calls comes after a call of
    get_early_results: the counters stay exact. The run ends (items_done = items) iff no function is being reconstructed; the prime changes iff all
    the remaining ones wait. *)
Theorem C55_counters_exact : forall n thr safe_mode factor_scan next copy m es s, crun n thr safe_mode factor_scan next copy es (start_counts m) = Some s ->
  (forall a l b, es = a ++ CAttempt l :: b -> ~ In CEarly a) ->
  k_items s = m /\ k_done s + count_status Reconstructing (k_entries s) = m /\
  (k_done s = m <-> forall e, In e (k_entries s) -> fst e <> Reconstructing) /\
  (k_done s + k_new s = m <-> forall e, In e (k_entries s) -> fst e = Reconstructing -> snd e = true).
Proof.
  intros n thr safe fs next copy m es s H Ne.
  assert (Tr : tally rec_ (repeat (Reconstructing, false) m) = m /\ tally (fun x => rec_ x && snd x) (repeat (Reconstructing, false) m) = 0 /\ tally live_ (repeat (Reconstructing, false) m) = m).
  { clear. induction m as [|m [A [B C]]]; [repeat split|]. cbn [repeat]. rewrite !tally_cons, A, B, C. repeat split. }
  destruct Tr as [T1 [T2 T3]]. destruct (run_inv n thr safe fs next copy es (start_counts m) s false H) as [[I1 I2] [I3 _]].
  - split; cbn [start_counts k_done k_entries k_items k_new]; [rewrite T1; reflexivity|rewrite T2; reflexivity].
  - intros _. split; cbn [start_counts k_entries k_items]; rewrite repeat_length; [reflexivity|exact T3].
  - intros a l b Q. split; [reflexivity|exact (Ne a l b Q)].
  - cbn [start_counts k_items] in I3. rewrite I3 in I1. split; [exact I3|].
    assert (Cr : count_status Reconstructing (k_entries s) = tally rec_ (k_entries s)) by (unfold count_status, tally; f_equal; apply filter_ext; intros [[] ?]; reflexivity). rewrite Cr. split; [exact I1|].
    assert (Z : forall f : status * bool -> bool, tally f (k_entries s) = 0 <-> forall e, In e (k_entries s) -> f e = false).
    { intros f. clear. induction (k_entries s) as [|x l IH]; [split; [intros _ ? []|reflexivity]|]. rewrite tally_cons. split.
      - intros Q. destruct (f x) eqn:X; [lia|]. intros e [<-|J]; [exact X|]. apply IH; [lia|exact J].
      - intros Q. rewrite (Q x (or_introl eq_refl)). apply IH. intros e J. apply Q. right. exact J. }
    split.
    + transitivity (tally rec_ (k_entries s) = 0); [lia|]. rewrite Z. split; intros K e J; specialize (K e J); unfold rec_ in *; destruct (fst e); congruence.
    + transitivity (tally (fun x => rec_ x && negb (snd x)) (k_entries s) = 0).
      * assert (Sp : tally rec_ (k_entries s) = tally (fun x => rec_ x && snd x) (k_entries s) + tally (fun x => rec_ x && negb (snd x)) (k_entries s)) by (clear; induction (k_entries s) as [|x l IH]; [reflexivity|]; rewrite !tally_cons; destruct (rec_ x), (snd x); cbn [andb negb]; lia). lia.
      * rewrite Z. split; intros K e J; specialize (K e J); unfold rec_ in *; destruct e as [[] []]; cbn in *; try reflexivity; try congruence; try (specialize (K eq_refl); congruence).
Qed.
Print Assumptions C55_counters_exact.

(** That restriction is needed: once get_early_results has handed out a function and attempt_to_continue has been called (not every entry is left), the run can
    never end by all functions being ready or change the prime, whatever comes later. *)
Theorem C55_after_early_results_refuted : forall n thr safe_mode factor_scan next copy s l s1 es s2,
  count_status Reconstructing (k_entries s) + count_status Done (k_entries s) < k_items s ->
  cstep n thr safe_mode factor_scan next copy (CAttempt l) s = Some s1 -> crun n thr safe_mode factor_scan next copy es s1 = Some s2 ->
  k_items s2 = k_items s /\ k_done s2 + k_new s2 < k_items s.
Proof.
  intros n thr safe fs next copy s l s1 es s2 L E R.
  assert (Lv : tally live_ (k_entries s) < k_items s).
  { enough (X : tally live_ (k_entries s) = count_status Reconstructing (k_entries s) + count_status Done (k_entries s)) by lia. unfold count_status. clear. induction (k_entries s) as [|[[] w] k IH]; [reflexivity|..]; rewrite tally_cons; cbn [live_ fst filter length]; lia. }
  destruct (dead_start n thr safe fs next copy l s s1 E Lv) as [D1 K1]. destruct (dead_run n thr safe fs next copy es s1 s2 R D1) as [[D2 _] K2]. rewrite K1 in K2. split; [exact K2|]. rewrite K2 in D2. lia.
Qed.
Print Assumptions C55_after_early_results_refuted.
(** It even fails when every function is ready: an exception "Cannot continue" instead of the results. *)
Theorem C55_all_ready_but_fails_refuted : forall n thr prime_it safe_mode factor_scan items_done items_new next copy items l,
  length l <= items -> (exists e, In e l /\ fst e = Delete) -> (forall e, In e l -> fst e = Delete \/ ready prime_it e) ->
  exists r, attempt n thr prime_it safe_mode factor_scan items items_done items_new next copy l = Ret r /\ r_verdict r = CannotContinue /\ (forall st, In st (r_status r) -> st <> Reconstructing).
Proof.
  intros n thr p safe fs d w next copy items l L [e0 [J0 E0]] A.
  assert (G : forall s, exists sts t, att_all n thr p safe fs l s = Ret (sts, t) /\ t_done t + t_done2 t = t_done s + t_done2 s + tally (readyb p) l /\ t_new t = t_new s /\ t_new2 t = t_new2 s /\ t_started t = t_started s /\ (forall st, In st sts -> st <> Reconstructing)).
  { clear - A. induction l as [|e l IH]; intros s; [exists [], s; split; [reflexivity|]; unfold tally; cbn [filter length]; repeat split; try lia; intros ? []|].
    assert (O : exists st s', att_one n thr p safe fs e s = Ret (st, s') /\ t_done s' + t_done2 s' = t_done s + t_done2 s + (if readyb p e then 1 else 0) /\ t_new s' = t_new s /\ t_new2 s' = t_new2 s /\ t_started s' = t_started s /\ st <> Reconstructing).
    { unfold att_one, readyb. destruct (A e (or_introl eq_refl)) as [D|[D|[D R]]]; rewrite D.
      - eexists _, _. split; [reflexivity|]. repeat split; try lia. discriminate.
      - eexists _, _. split; [reflexivity|]. cbn. repeat split; try lia. discriminate.
      - destruct (a_done (snd e)) eqn:B; [eexists _, _; split; [reflexivity|]; cbn; repeat split; try lia; discriminate|]. destruct R as [R|[R1 R2]]; [congruence|]. rewrite R1, R2, Nat.eqb_refl. cbn [negb andb orb]. eexists _, _; split; [reflexivity|]; cbn; repeat split; try lia; discriminate. }
    destruct O as [st [s' [O1 [O2 [O3 [O4 [O5 O6]]]]]]]. destruct (IH ltac:(intros e' J; apply A; right; exact J) s') as [sts [t [B1 [B2 [B3 [B4 [B5 B6]]]]]]]. exists (st :: sts), t. cbn [att_all]. rewrite O1. cbn [obind fst snd]. rewrite B1. cbn [obind fst snd]. rewrite tally_cons.
    split; [reflexivity|]. repeat split; try congruence; try lia. intros x [<-|J]; [exact O6|apply B6; exact J]. }
  destruct (G (mk_att 0 0 0 0 [] [] next)) as [sts [t [B1 [B2 [B3 [B4 [B5 B6]]]]]]]. cbn [t_done t_done2 t_new t_new2 t_started Nat.add] in *.
  assert (Lt : tally (readyb p) l < length l).
  { pose proof (tally_le (readyb p) l). destruct (Nat.eq_dec (tally (readyb p) l) (length l)) as [Q|Q]; [|lia]. rewrite tally_all in Q. specialize (Q e0 J0). unfold readyb in Q. rewrite E0 in Q. discriminate Q. }
  unfold attempt. rewrite B1. cbn [obind fst snd]. rewrite B3, B4, B5.
  assert (Ed : (if negb (d =? t_done t) || negb (t_done2 t =? 0) then t_done t + t_done2 t else d) = tally (readyb p) l) by (destruct (Nat.eqb_spec d (t_done t)), (Nat.eqb_spec (t_done2 t) 0); cbn [negb orb]; lia).
  assert (Ew : (if negb (w =? 0) || negb (0 =? 0) then 0 + 0 else w) = 0) by (destruct (Nat.eqb_spec w 0); cbn; lia). rewrite Ed, Ew.
  destruct (Nat.eqb_spec (tally (readyb p) l) items) as [|_]; [lia|]. destruct (Nat.eqb_spec (tally (readyb p) l + 0) items) as [|_]; [lia|]. eexists. split; [reflexivity|]. split; [reflexivity|exact B6].
Qed.
Print Assumptions C55_all_ready_but_fails_refuted.

(** ---- the hypotheses are met ---- *)
Definition ans_done : answers := mk_ans true 0 true 0 0 [] [] 0.
Definition ans_wait : answers := mk_ans false 0 false 1 4 [] [] 0.
Definition ans_wait' : answers := mk_ans false 1 false 1 4 [] [] 0.
Definition ans_open : answers := mk_ans false 0 false 0 0 [] [([2; 1], 3); ([1; 2], 5)] 6.
Definition ans_ones : answers := mk_ans false 0 false 0 0 [] [([1; 1], 1)] 1.
Definition ans_later : answers := mk_ans false 1 false 1 0 [(1, 2); (3, 4); (2, 0)] [] 0.
Definition verdict_of (o : outcome result) : option (nat * nat * verdict * list (list nat * nat)) := match o with Ret r => Some (r_items_done r, r_items_new r, r_verdict r, r_queued r) | _ => None end.
(** all ready; all ready or waiting (the counters were wrong before); powers, then ones only, in the first field; a later field; stuck *)
Example C55_examples : verdict_of (attempt 3 10 0 false false 2 1 0 0 [([1; 1], 3)] [(Done, ans_done); (Reconstructing, ans_done)]) = Some (2, 0, AllDone, []) /\
  verdict_of (attempt 3 10 0 false false 3 0 1 0 [([1; 1], 3)] [(Reconstructing, ans_wait); (Done, ans_done); (Reconstructing, ans_wait')]) = Some (1, 2, NextPrime, []) /\
  verdict_of (attempt 3 10 0 false false 2 0 0 0 [([1; 1], 3)] [(Reconstructing, ans_wait); (Reconstructing, ans_open)]) = Some (0, 1, Continues [([2; 1], 3); ([1; 2], 5); ([1; 1], 0)], [([2; 1], 3); ([1; 2], 5)]) /\
  verdict_of (attempt 3 10 0 false false 2 0 0 0 [([1; 1], 3); ([2; 2], 7)] [(Done, ans_done); (Reconstructing, ans_ones)]) = Some (1, 0, Continues [([1; 1], 10); ([2; 2], 7)], [([1; 1], 10)]) /\
  verdict_of (attempt 3 10 1 false false 2 0 0 0 [([1; 1], 3)] [(Done, ans_done); (Reconstructing, ans_later)]) = Some (1, 0, Continues [([1; 1], 2); ([3; 3], 4)], [([1; 1], 2); ([3; 3], 4)]) /\
  verdict_of (attempt 3 10 1 false false 2 0 0 0 [([1; 1], 3)] [(Done, ans_done); (Reconstructing, mk_ans false 1 false 1 0 [(2, 0)] [] 0)]) = Some (1, 0, CannotContinue, []).
Proof. repeat split; vm_compute; reflexivity. Qed.
Example C55_sensible : Forall (fun e => fst e <> Delete /\ sensible false (snd e)) [(Reconstructing, ans_wait); (Reconstructing, ans_open); (Done, ans_ones)] /\ unfinished 0 (Reconstructing, ans_open) /\ wants 3 0 false false ans_open [1; 2] 5 /\ waiting 0 (Reconstructing, ans_wait).
Proof.
  split; [repeat constructor; cbn; try lia; discriminate|]. split; [repeat split; cbn; lia|]. split; [unfold wants; cbn; right; split; [intros [k K]; discriminate K|right; left; reflexivity]|]. split; [reflexivity|]. split; [reflexivity|]. right. split; [reflexivity|cbn; lia].
Qed.
(** a run: one function waits, the other one is found to wait by the call (items_new_prime had missed it), the prime changes, one is ready, the other one too *)
Example C55_run : crun 3 10 false false 0 [([1; 1], 3)] [CWait 0; CAttempt [ans_wait; ans_wait]; CNext; CDone 1; CAttempt [ans_done; ans_done]] (start_counts 2) = Some (mk_counts [(Done, false); (Done, false)] 2 2 0 1).
Proof. vm_compute. reflexivity. Qed.
(** the defect: one of two functions is ready and handed out, the other one is found ready by the call *)
Example C55_early_run : exists s r, crun 3 10 false false 0 [([1; 1], 3)] [CDone 0; CEarly] (start_counts 2) = Some s /\ count_status Reconstructing (k_entries s) + count_status Done (k_entries s) < k_items s /\
  attempt 3 10 0 false false 2 (k_done s) (k_new s) 0 [([1; 1], 3)] (combine (map fst (k_entries s)) [ans_done; ans_done]) = Ret r /\ r_verdict r = CannotContinue.
Proof. eexists _, _. split; [vm_compute; reflexivity|]. split; [vm_compute; lia|]. split; [vm_compute; reflexivity|reflexivity]. Qed.

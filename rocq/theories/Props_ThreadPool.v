(** Property theorems C32, C33: ThreadPool, for every number of threads and every schedule. *)
From Coq Require Import List Arith Lia Bool Permutation Sorted.
From Verif Require Import ThreadPool ThreadPoolSpec ThreadPoolProofs.
Import ListNotations.
Open Scope nat_scope.

Definition is_kill (e : event) : bool := match e with KillSleep _ _ | KillDone _ _ => true | _ => false end.
(** tasks being executed *)
Definition in_progress (n : nat) (s : pool) (ts : list task) : Prop :=
  NoDup ts /\ forall t, In t ts <-> exists i, i < n /\ workers s i = Running t.

Lemma running_in n w t : In t (running n w) <-> exists i, i < n /\ w i = Running t.
Proof.
  unfold running. rewrite in_flat_map. split.
  - intros [i [Hi H]]. apply in_seq in Hi. exists i. split; [lia|]. destruct (w i); cbn in H; try tauto. destruct H as [->|[]]. reflexivity.
  - intros [i [Hi H]]. exists i. rewrite in_seq, H. split; [lia|left; reflexivity].
Qed.
Lemma nodup_app_l {A} (a b : list A) : NoDup (a ++ b) -> NoDup a.
Proof. induction a as [|x a IH]; cbn; [constructor|]. intros H. inversion_clear H. constructor; [intros G; apply H0; apply in_or_app; auto|auto]. Qed.
Lemma nodup_app_r {A} (a b : list A) : NoDup (a ++ b) -> NoDup b.
Proof. induction a as [|x a IH]; cbn; [auto|]. intros H. inversion_clear H. auto. Qed.

(** Every submitted task is started at most once, and at any time each one has been started, is queued, or has been removed by
    kill_all - exactly one of the three; started tasks are being executed or have finished. *)
Theorem C32_exactly_once : forall n tr s, 0 < n -> execution n tr s ->
  NoDup (submits tr) /\ Permutation (submits tr) (starts tr ++ tasks s ++ killed s) /\
  (exists ts, in_progress n s ts /\ Permutation (starts tr) (ts ++ finishes tr)) /\
  (forallb (fun e => negb (is_kill e)) tr = true -> killed s = []).
Proof.
  intros n tr s Hn H. pose proof (execution_inv n tr s H) as I. pose proof (nodup_submitted n s I) as ND. pose proof (starts_ok n tr s Hn H) as SO.
  rewrite (submits_ok n tr s H), (finishes_ok n tr s Hn H). split; [exact ND|]. split; [|split].
  - rewrite (i_account n s I). rewrite SO. rewrite <- !app_assoc. etransitivity; [apply Permutation_app_comm|]. rewrite <- !app_assoc.
    apply Permutation_app_head, Permutation_app_head, Permutation_app_comm.
  - exists (running n (workers s)). split; [|exact SO]. split; [|apply running_in].
    assert (N : NoDup (tasks s ++ running n (workers s) ++ finished s ++ killed s)) by (eapply Permutation_NoDup; [apply (i_account n s I)|exact ND]).
    apply nodup_app_r in N. apply nodup_app_l in N. exact N.
  - clear I ND SO. induction H as [|tr s e s' H IH S]; [reflexivity|]. rewrite forallb_app. intros E. apply andb_prop in E as [E1 E2].
    specialize (IH E1). inversion S; subst; csimp; try assumption; discriminate E2.
Qed.
Print Assumptions C32_exactly_once.

(** When a worker starts a task, no other task that was submitted and is still waiting had to go first: priority tasks before
    the others, the newest priority task first, the others in the order of submission. *)
Theorem C32_start_order : forall n tr s i t c s', execution n tr s -> step n s (Take i t c) s' ->
  forall u, In u (submits tr) -> ~ In u (starts tr) -> ~ In u (killed s) -> u = t \/ goes_first t u.
Proof.
  intros n tr s i t c s' H S u Hu Ns Nk. pose proof (execution_inv n tr s H) as I. inversion S; subst.
  assert (Hn : 0 < n) by lia. rewrite (submits_ok n tr s H) in Hu.
  assert (Hq : In u (tasks s)).
  { apply (Permutation_in u (i_account n s I)) in Hu. rewrite !in_app_iff in Hu.
    assert (G : In u (running n (workers s) ++ finished s) -> False).
    { intros G. apply Ns. eapply Permutation_in; [symmetry; apply (starts_ok n tr s Hn H)|exact G]. }
    rewrite in_app_iff in G. tauto. }
  pose proof (i_order n s I) as O. match goal with HT : tasks s = _ :: _ |- _ => rewrite HT in O, Hq end. inversion O; subst. destruct Hq as [->|Hq]; [left; reflexivity|right].
  match goal with HF : Forall _ _ |- _ => rewrite Forall_forall in HF; apply HF; exact Hq end.
Qed.
Print Assumptions C32_start_order.

(** When the destructor returns, every submitted task has finished (or had been removed by kill_all). *)
Theorem C32_destructor_finishes_everything : forall n tr s, 0 < n -> execution n tr s -> destructor_returned n s ->
  Permutation (submits tr) (finishes tr ++ killed s).
Proof.
  intros n tr s Hn H [_ [_ E]]. pose proof (execution_inv n tr s H) as I. rewrite (submits_ok n tr s H), (finishes_ok n tr s Hn H).
  rewrite (i_account n s I). rewrite (running_none n (workers s)) by (intros i Hi; rewrite (E i Hi); reflexivity).
  destruct (tasks s) eqn:T; [reflexivity|exfalso]. destruct (i_wakeup n s I) as [[i [Hi Ha]]|[_ [i [Hi Hb]]]]; [rewrite T; discriminate|rewrite (E i Hi) in Ha; exact Ha|].
  rewrite (E i Hi) in Hb. discriminate.
Qed.
Print Assumptions C32_destructor_finishes_everything.

(** No wake-up is lost: left alone, the pool makes only finitely many further steps, and when it comes to rest every submitted
    task has finished (or was killed) and, if the destructor has been called, it returns. *)
Theorem C32_left_alone_everything_finishes : forall n tr s, 0 < n -> execution n tr s ->
  (exists N, forall tr' s', run_steps n s tr' s' -> Forall (fun e => internal e = true) tr' -> length tr' <= N) /\
  (quiescent n s -> Permutation (submits tr) (finishes tr ++ killed s) /\ (stopped s = true -> destructor_returned n s)).
Proof.
  intros n tr s Hn H. pose proof (execution_inv n tr s H) as I. split; [apply internal_bounded; exact I|]. intros Q.
  destruct (quiescent_state n s I Hn Q) as [Q1 [Q2 [Q3 [Q4 Q5]]]]. split.
  - rewrite (submits_ok n tr s H), (finishes_ok n tr s Hn H), (i_account n s I), Q1.
    rewrite (running_none n (workers s)) by (intros i Hi; destruct (Q5 i Hi) as [-> | ->]; reflexivity). reflexivity.
  - intros St. split; [exact St|]. split; [exact Q3|]. intros i Hi. destruct (Q5 i Hi) as [E|E]; [|exact E]. exfalso. apply (i_stop n s I St Q3 i Hi E).
Qed.
Print Assumptions C32_left_alone_everything_finishes.

(** A pool without threads executes every task during the call that submits it, in order. *)
Theorem C32_no_threads : forall tr s, execution 0 tr s -> finished s = submits tr /\ tasks s = [] /\ killed s = [].
Proof.
  intros tr s H. pose proof (execution_inv 0 tr s H) as I. split; [|split; [apply (i_empty 0 s I eq_refl)|]].
  - rewrite (submits_ok 0 tr s H). clear I. induction H as [|tr s e s' H IH S]; [reflexivity|]. inversion S; subst; csimp; try assumption; try lia. rewrite IH. reflexivity.
  - clear I. induction H as [|tr s e s' H IH S]; [reflexivity|]. pose proof (i_empty 0 s (execution_inv 0 tr s H) eq_refl) as E.
    inversion S; subst; csimp; try assumption; try lia; rewrite IH, E; reflexivity.
Qed.
Print Assumptions C32_no_threads.

(** When kill_all returns, no task is queued and none is being executed. *)
Theorem C33_kill_all : forall n tr s c again s', execution n tr s -> step n s (KillDone c again) s' ->
  tasks s' = [] /\ forall i t, i < n -> workers s' i <> Running t.
Proof.
  intros n tr s c again s' H S. pose proof (execution_inv n tr s H) as I. inversion S; subst; csimp. split; [reflexivity|]. intros i t Hi E.
  match goal with HA : all_threads_idle _ _ = true |- _ => rewrite idle_upd in HA by lia; pose proof (proj1 (all_idle_spec n s ltac:(lia)) HA i Hi) as G end. pose proof (i_flag n s I i Hi) as F. rewrite E in F. congruence.
Qed.
Print Assumptions C33_kill_all.

(** wait() returns false only if no task is being executed *)
Theorem C33_wait_false : forall n tr s c s', execution n tr s -> step n s (WaitFalse c) s' ->
  s' = s /\ forall i t, i < n -> workers s i <> Running t.
Proof.
  intros n tr s c s' H S. pose proof (execution_inv n tr s H) as I. inversion S; subst. split; [reflexivity|]. intros i t Hi E.
  match goal with HA : all_threads_idle _ _ = true |- _ => pose proof (proj1 (all_idle_spec n s' ltac:(lia)) HA i Hi) as G end. pose proof (i_flag n s' I i Hi) as F. rewrite E in F. congruence.
Qed.
Print Assumptions C33_wait_false.

(** As long as one client thread at a time uses wait() and kill_all() and the destructor has not been called, neither call blocks
    forever: when the pool has come to rest, the client is outside. *)
Theorem C33_one_client_never_stuck : forall n tr s, 0 < n -> execution n tr s -> one_client tr -> stopped s = false ->
  quiescent n s -> clients s 0 = Outside.
Proof.
  intros n tr s Hn H O St Q. pose proof (execution_inv n tr s H) as I. pose proof (execution_cinv n tr s Hn H O) as [_ C].
  destruct (quiescent_state n s I Hn Q) as [_ [_ [_ [Q4 Q5]]]]. specialize (Q4 0). specialize (C St).
  assert (G : blocked_client (clients s 0) = false).
  { destruct (blocked_client (clients s 0)) eqn:B; [|reflexivity]. exfalso. destruct (C eq_refl) as [i [Hi [_ W]]]. destruct (Q5 i Hi) as [E|E]; rewrite E in W; exact W. }
  destruct (clients s 0); cbn in *; congruence.
Qed.
Print Assumptions C33_one_client_never_stuck.

(** one thread, one task, submitted and executed while a client waits, then the destructor *)
Ltac fwd X e s' tac :=
  match type of X with execution ?n ?tr ?s =>
    assert (step n s e s') by (tac s);
    match goal with S : step n s e s' |- _ => pose proof (exec_step n tr s e s' X S); clear S end;
    clear X; match goal with Y : execution n _ _ |- _ => rename Y into X end; cbn [app] in X
  end.
Lemma ex_execution : execution 1 [Submit (0, false); Notify None; Take 0 (0, false) None]
  (mk_pool [] false (set (fun _ => true) 0 false) (set (fun _ => Starting) 0 (Running (0, false))) (fun _ => Outside) 0 false [(0, false)] [] []).
Proof.
  pose proof (exec_nil 1) as X. unfold init_pool in X.
  fwd X (Submit (0, false)) (mk_pool [(0, false)] false (fun _ => true) (fun _ => Starting) (fun _ => Outside) 1 false [(0, false)] [] [])
    ltac:(fun s => apply (step_submit 1 s false); [lia|exists 0; split; [lia|discriminate]]).
  fwd X (Notify None) (mk_pool [(0, false)] false (fun _ => true) (fun _ => Starting) (fun _ => Outside) 0 false [(0, false)] [] [])
    ltac:(fun s => apply (step_notify_none 1 s ); [cbn; lia|intros i Hi; cbn; discriminate]).
  fwd X (Take 0 (0, false) None)
    (mk_pool [] false (set (fun _ => true) 0 false) (set (fun _ => Starting) 0 (Running (0, false))) (fun _ => Outside) 0 false [(0, false)] [] [])
    ltac:(fun s => apply (step_take 1 s 0 (0, false) [] None (fun _ => Outside)); [lia|apply lock_start; [reflexivity|apply notify_client_none; reflexivity]|reflexivity]).
  exact X.
Qed.
Definition fl1 := set (fun _ => true) 0 false.
Definition wk1 := set (set (fun _ => Starting) 0 (Running (0, false))) 0 Starting.
Example C32_hypotheses_met : exists tr s, execution 1 tr s /\ one_client tr /\ destructor_returned 1 s /\ submits tr = [(0, false)] /\
  finishes tr = [(0, false)] /\ In (WaitTrue 0) tr.
Proof.
  pose proof ex_execution as X.
  fwd X (WaitSleep 0) (mk_pool [] false fl1 (set (fun _ => Starting) 0 (Running (0, false))) (set (fun _ => Outside) 0 WaitBlocked) 0 false [(0, false)] [] [])
    ltac:(fun s => apply (step_wait_sleep 1 s 0); reflexivity).
  fwd X (Finish 0 (0, false)) (mk_pool [] false fl1 wk1 (set (fun _ => Outside) 0 WaitBlocked) 0 false [(0, false)] [(0, false)] [])
    ltac:(fun s => apply (step_finish 1 s 0 (0, false)); [lia|reflexivity]).
  fwd X (Block 0 (Some 0)) (mk_pool [] false (set fl1 0 true) (set wk1 0 Blocked) (set (set (fun _ => Outside) 0 WaitBlocked) 0 WaitWoken) 0 false [(0, false)] [(0, false)] [])
    ltac:(fun s => apply (step_block 1 s 0 (Some 0) (set (set (fun _ => Outside) 0 WaitBlocked) 0 WaitWoken)); [lia|apply lock_start; [reflexivity|apply (notify_client_some (set (fun _ => Outside) 0 WaitBlocked) 0); reflexivity]|reflexivity|reflexivity]).
  fwd X (WaitTrue 0) (mk_pool [] false (set fl1 0 true) (set wk1 0 Blocked) (set (set (set (fun _ => Outside) 0 WaitBlocked) 0 WaitWoken) 0 Outside) 0 false [(0, false)] [(0, false)] [])
    ltac:(fun s => apply (step_wait_true 1 s 0); reflexivity).
  fwd X Stop (mk_pool [] true (set fl1 0 true) (set wk1 0 Blocked) (set (set (set (fun _ => Outside) 0 WaitBlocked) 0 WaitWoken) 0 Outside) 0 true [(0, false)] [(0, false)] [])
    ltac:(fun s => apply (step_stop 1 s ); reflexivity).
  fwd X NotifyAll (mk_pool [] true (set fl1 0 true) (wake_all (set wk1 0 Blocked)) (set (set (set (fun _ => Outside) 0 WaitBlocked) 0 WaitWoken) 0 Outside) 0 false [(0, false)] [(0, false)] [])
    ltac:(fun s => apply (step_notify_all 1 s ); reflexivity).
  fwd X (Exit 0 None) (mk_pool [] true (set (set fl1 0 true) 0 false) (set (wake_all (set wk1 0 Blocked)) 0 Exited) (set (set (set (fun _ => Outside) 0 WaitBlocked) 0 WaitWoken) 0 Outside) 0 false [(0, false)] [(0, false)] [])
    ltac:(fun s => apply (step_exit 1 s 0 None (clients s)); [lia|apply lock_woken; reflexivity|reflexivity|reflexivity]).
  eexists _, _. split; [exact X|]. split; [repeat constructor|]. split; [|split; [reflexivity|split; [reflexivity|cbn; tauto]]].
  split; [reflexivity|]. split; [reflexivity|]. intros i Hi. assert (i = 0) as -> by lia. reflexivity.
Qed.

(** wait() is not a completion test: it can return false although a submitted task has not even been started. *)
Theorem C33_wait_false_with_queued_task_refuted : exists n tr s c s', 0 < n /\ execution n tr s /\ step n s (WaitFalse c) s' /\ tasks s' <> [] /\ starts tr = [].
Proof.
  exists 1, ([] ++ [Submit (0, false)]). eexists _, 0, _. split; [lia|]. split; [|split; [|split]].
  - eapply exec_step; [apply exec_nil|]. apply step_submit; [lia|]. exists 0. split; [lia|discriminate].
  - apply step_wait_false; reflexivity.
  - cbn. discriminate.
  - reflexivity.
Qed.
Print Assumptions C33_wait_false_with_queued_task_refuted.

(** With two client threads a call can block forever: the only notification goes to the thread in wait(), while kill_all sleeps
    although every worker is idle. *)
Definition cl2 := set (set (fun _ => Outside) 0 WaitBlocked) 1 KillBlocked.
Theorem C33_two_clients_refuted : exists n tr s, 0 < n /\ execution n tr s /\ stopped s = false /\ quiescent n s /\ clients s 1 = KillBlocked /\
  (forall i, i < n -> idle s i = true).
Proof.
  pose proof ex_execution as X.
  fwd X (WaitSleep 0) (mk_pool [] false fl1 (set (fun _ => Starting) 0 (Running (0, false))) (set (fun _ => Outside) 0 WaitBlocked) 0 false [(0, false)] [] [])
    ltac:(fun s => apply (step_wait_sleep 1 s 0); reflexivity).
  fwd X (KillSleep 1 false) (mk_pool [] false fl1 (set (fun _ => Starting) 0 (Running (0, false))) cl2 0 false [(0, false)] [] [])
    ltac:(fun s => apply (step_kill_sleep 1 s 1 false); reflexivity).
  fwd X (Finish 0 (0, false)) (mk_pool [] false fl1 wk1 cl2 0 false [(0, false)] [(0, false)] [])
    ltac:(fun s => apply (step_finish 1 s 0 (0, false)); [lia|reflexivity]).
  fwd X (Block 0 (Some 0)) (mk_pool [] false (set fl1 0 true) (set wk1 0 Blocked) (set cl2 0 WaitWoken) 0 false [(0, false)] [(0, false)] [])
    ltac:(fun s => apply (step_block 1 s 0 (Some 0) (set cl2 0 WaitWoken)); [lia|apply lock_start; [reflexivity|apply (notify_client_some cl2 0); reflexivity]|reflexivity|reflexivity]).
  fwd X (WaitTrue 0) (mk_pool [] false (set fl1 0 true) (set wk1 0 Blocked) (set (set cl2 0 WaitWoken) 0 Outside) 0 false [(0, false)] [(0, false)] [])
    ltac:(fun s => apply (step_wait_true 1 s 0); reflexivity).
  eexists 1, _, _. split; [lia|]. split; [exact X|]. split; [reflexivity|]. split; [|split; [reflexivity|]].
  - clear X. intros e s' S. inversion S; subst; try reflexivity; cbn [tasks stopped idle workers clients pending stop_pending submitted finished killed] in *;
      try lia; try discriminate;
      repeat match goal with H : ?i < 1 |- _ => assert (i = 0) by lia; subst i; clear H end; try discriminate;
      try match goal with H : lock_worker _ _ _ _ |- _ => exfalso; inversion H; subst; discriminate end.
    all: try (destruct again; [|reflexivity]); destruct c as [|[|c]]; discriminate.
  - intros i Hi. assert (i = 0) as -> by lia. reflexivity.
Qed.
Print Assumptions C33_two_clients_refuted.

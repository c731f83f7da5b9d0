(** ThreadPool: /repo/source/include/firefly/ThreadPool.hpp:45-231 as a transition system.
    Every access to the shared members happens under [mutex], so that each critical section is one atomic step; the schedule is
    an arbitrary interleaving of steps. A thread blocked in condition_variable::wait leaves it when it is notified or
    spuriously; it then needs the mutex again, which is the following step. notify_one picks an arbitrary waiter.
    Not modelled: tasks that throw (std::terminate), failure to create a thread, and use of the pool after its destructor
    has returned. *)
From Coq Require Import List Arith Lia Bool.
Import ListNotations.
Open Scope nat_scope.

(** a submitted callable: its submission number and whether it was submitted with run_priority_task *)
Notation task := (nat * bool)%type.

(** what worker i (ThreadPool.hpp:58-78) is doing: about to lock (63); blocked in condition.wait (66); notified and about to
    lock again (66); executing task() (76); returned (70) *)
Inductive worker := Starting | Blocked | Woken | Running (t : task) | Exited.
(** a client thread calling wait() or kill_all() (179-202): outside; blocked in condition_wait.wait (183 resp. 198); notified *)
Inductive client := Outside | WaitBlocked | WaitWoken | KillBlocked | KillWoken.

(** ThreadPool.hpp:205-211; [submitted], [finished], [killed] are history; [pending]: run_task calls between the unlock (156)
    and notify_one (157); [stop_pending]: the destructor between 92 and 94 *)
Record pool := mk_pool {
  tasks : list task; stopped : bool; idle : nat -> bool; workers : nat -> worker; clients : nat -> client;
  pending : nat; stop_pending : bool;
  submitted : list task; finished : list task; killed : list task }.

(** ThreadPool.hpp:52-80: n threads, all flags true *)
Definition init_pool : pool := mk_pool [] false (fun _ => true) (fun _ => Starting) (fun _ => Outside) 0 false [] [] [].

Definition set {A} (f : nat -> A) (i : nat) (x : A) (j : nat) : A := if j =? i then x else f j.

(** ThreadPool.hpp:214-230 all_threads_idle *)
Definition all_threads_idle (n : nat) (s : pool) : bool :=
  if n =? 0 then match tasks s with [] => true | _ => false end else forallb (idle s) (seq 0 n).

(** what one thread did in one step *)
Inductive event :=
| Submit (t : task)                       (* run_task / run_priority_task, critical section *)
| Notify (w : option nat)                 (* condition.notify_one after it *)
| Take (i : nat) (t : task) (c : option nat) (* worker i starts task t; c: client woken by condition_wait.notify_one *)
| Block (i : nat) (c : option nat)
| Exit (i : nat) (c : option nat)
| Finish (i : nat) (t : task)
| Spurious (i : nat) | SpuriousClient (c : nat)
| WaitFalse (c : nat) | WaitSleep (c : nat) | WaitTrue (c : nat)
| KillSleep (c : nat) (again : bool) | KillDone (c : nat) (again : bool)  (* again: not the first pass of the loop *)
| Stop | NotifyAll.

(** condition_wait.notify_one (65): at most one blocked client is woken; none only if no client is blocked *)
Definition blocked_client (x : client) : bool := match x with WaitBlocked | KillBlocked => true | _ => false end.
Definition wake_client (x : client) : client := match x with WaitBlocked => WaitWoken | KillBlocked => KillWoken | y => y end.
Inductive notify_client (cs : nat -> client) : option nat -> (nat -> client) -> Prop :=
| notify_client_none : (forall c, blocked_client (cs c) = false) -> notify_client cs None cs
| notify_client_some c : blocked_client (cs c) = true -> notify_client cs (Some c) (set cs c (wake_client (cs c))).

(** ThreadPool.hpp:63-66: a worker at the top of its loop sets its flag and notifies a client; one that was blocked only locks *)
Inductive lock_worker (s : pool) (i : nat) : option nat -> (nat -> client) -> Prop :=
| lock_start c cs : workers s i = Starting -> notify_client (clients s) c cs -> lock_worker s i c cs
| lock_woken : workers s i = Woken -> lock_worker s i None (clients s).

(** ThreadPool.hpp:94 notify_all *)
Definition wake_all (w : nat -> worker) (i : nat) : worker := match w i with Blocked => Woken | x => x end.

Definition upd_tasks (s : pool) (q : list task) : pool :=
  mk_pool q (stopped s) (idle s) (workers s) (clients s) (pending s) (stop_pending s) (submitted s) (finished s) (killed s).

Inductive step (n : nat) (s : pool) : event -> pool -> Prop :=
(** ThreadPool.hpp:149-172 (and 106-145): emplace_back or emplace_front; without threads the task runs in the caller.
    No calls after the last worker has exited (then the destructor is about to return). *)
| step_submit p : 0 < n -> (exists i, i < n /\ workers s i <> Exited) ->
    let t := (length (submitted s), p) in
    step n s (Submit t) (mk_pool (if p then t :: tasks s else tasks s ++ [t]) (stopped s) (idle s) (workers s) (clients s)
                                 (S (pending s)) (stop_pending s) (submitted s ++ [t]) (finished s) (killed s))
| step_submit_inline p : n = 0 ->
    let t := (length (submitted s), p) in
    step n s (Submit t) (mk_pool (tasks s) (stopped s) (idle s) (workers s) (clients s) (pending s) (stop_pending s)
                                 (submitted s ++ [t]) (finished s ++ [t]) (killed s))
(** ThreadPool.hpp:157, 170: notify_one wakes some blocked worker if there is one *)
| step_notify_none : 0 < pending s -> (forall i, i < n -> workers s i <> Blocked) ->
    step n s (Notify None) (mk_pool (tasks s) (stopped s) (idle s) (workers s) (clients s) (pred (pending s)) (stop_pending s)
                                    (submitted s) (finished s) (killed s))
| step_notify_some i : 0 < pending s -> i < n -> workers s i = Blocked ->
    step n s (Notify (Some i)) (mk_pool (tasks s) (stopped s) (idle s) (set (workers s) i Woken) (clients s) (pred (pending s))
                                        (stop_pending s) (submitted s) (finished s) (killed s))
(** ThreadPool.hpp:63-73: the predicate holds and there is a task *)
| step_take i t q c cs : i < n -> lock_worker s i c cs -> tasks s = t :: q ->
    step n s (Take i t c) (mk_pool q (stopped s) (set (idle s) i false) (set (workers s) i (Running t)) cs (pending s)
                                   (stop_pending s) (submitted s) (finished s) (killed s))
(** ThreadPool.hpp:63-66: the predicate does not hold *)
| step_block i c cs : i < n -> lock_worker s i c cs -> tasks s = [] -> stopped s = false ->
    step n s (Block i c) (mk_pool (tasks s) (stopped s) (set (idle s) i true) (set (workers s) i Blocked) cs (pending s)
                                  (stop_pending s) (submitted s) (finished s) (killed s))
(** ThreadPool.hpp:67-70 *)
| step_exit i c cs : i < n -> lock_worker s i c cs -> tasks s = [] -> stopped s = true ->
    step n s (Exit i c) (mk_pool (tasks s) (stopped s) (set (idle s) i false) (set (workers s) i Exited) cs (pending s)
                                 (stop_pending s) (submitted s) (finished s) (killed s))
(** ThreadPool.hpp:76: task() returns *)
| step_finish i t : i < n -> workers s i = Running t ->
    step n s (Finish i t) (mk_pool (tasks s) (stopped s) (idle s) (set (workers s) i Starting) (clients s) (pending s)
                                   (stop_pending s) (submitted s) (finished s ++ [t]) (killed s))
(** spurious wake-ups *)
| step_spurious i : i < n -> workers s i = Blocked ->
    step n s (Spurious i) (mk_pool (tasks s) (stopped s) (idle s) (set (workers s) i Woken) (clients s) (pending s)
                                   (stop_pending s) (submitted s) (finished s) (killed s))
| step_spurious_client c : blocked_client (clients s c) = true ->
    step n s (SpuriousClient c) (mk_pool (tasks s) (stopped s) (idle s) (workers s) (set (clients s) c (wake_client (clients s c)))
                                         (pending s) (stop_pending s) (submitted s) (finished s) (killed s))
(** ThreadPool.hpp:179-188 wait *)
| step_wait_false c : clients s c = Outside -> all_threads_idle n s = true -> step n s (WaitFalse c) s
| step_wait_sleep c : clients s c = Outside -> all_threads_idle n s = false ->
    step n s (WaitSleep c) (mk_pool (tasks s) (stopped s) (idle s) (workers s) (set (clients s) c WaitBlocked) (pending s)
                                    (stop_pending s) (submitted s) (finished s) (killed s))
| step_wait_true c : clients s c = WaitWoken ->
    step n s (WaitTrue c) (mk_pool (tasks s) (stopped s) (idle s) (workers s) (set (clients s) c Outside) (pending s)
                                   (stop_pending s) (submitted s) (finished s) (killed s))
(** ThreadPool.hpp:190-202 kill_all: the queue is emptied, then either the call returns or it waits; for a positive number of
    threads the test (195) does not depend on the queue, for none the queue was just emptied *)
| step_kill_sleep c (again : bool) : clients s c = (if again then KillWoken else Outside) -> all_threads_idle n (upd_tasks s []) = false ->
    step n s (KillSleep c again) (mk_pool [] (stopped s) (idle s) (workers s) (set (clients s) c KillBlocked) (pending s)
                                          (stop_pending s) (submitted s) (finished s) (killed s ++ tasks s))
| step_kill_done c (again : bool) : clients s c = (if again then KillWoken else Outside) -> all_threads_idle n (upd_tasks s []) = true ->
    step n s (KillDone c again) (mk_pool [] (stopped s) (idle s) (workers s) (set (clients s) c Outside) (pending s)
                                         (stop_pending s) (submitted s) (finished s) (killed s ++ tasks s))
(** ThreadPool.hpp:89-94: the destructor; it returns when every worker has exited (96-98) *)
| step_stop : stopped s = false ->
    step n s Stop (mk_pool (tasks s) true (idle s) (workers s) (clients s) (pending s) true (submitted s) (finished s) (killed s))
| step_notify_all : stop_pending s = true ->
    step n s NotifyAll (mk_pool (tasks s) (stopped s) (idle s) (wake_all (workers s)) (clients s) (pending s) false
                                (submitted s) (finished s) (killed s)).

(** all states reachable by some schedule, with the events in order *)
Inductive execution (n : nat) : list event -> pool -> Prop :=
| exec_nil : execution n [] init_pool
| exec_step tr s e s' : execution n tr s -> step n s e s' -> execution n (tr ++ [e]) s'.

(** the condition on which the destructor returns (96-98): all threads joined *)
Definition destructor_returned (n : nat) (s : pool) : Prop := stopped s = true /\ stop_pending s = false /\ forall i, i < n -> workers s i = Exited.

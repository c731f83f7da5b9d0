(** Vocabulary of the thread pool properties *)
From Coq Require Import List Arith Bool.
From Verif Require Import ThreadPool.
Import ListNotations.
Open Scope nat_scope.

(** tasks submitted / started / finished by the events of a schedule, in order *)
Definition submits (tr : list event) : list task := flat_map (fun e => match e with Submit t => [t] | _ => [] end) tr.
Definition starts (tr : list event) : list task := flat_map (fun e => match e with Take _ t _ => [t] | _ => [] end) tr.
Definition finishes (tr : list event) : list task := flat_map (fun e => match e with Finish _ t => [t] | _ => [] end) tr.

(** which of two waiting tasks must be started first: priority tasks before others; among priority tasks the newest, among others
    the oldest *)
Definition goes_first (a b : task) : Prop :=
  match snd a, snd b with
  | true, false => True
  | false, true => False
  | true, true => fst b < fst a
  | false, false => fst a < fst b
  end.

(** steps the pool makes on its own: no new calls from outside, no spurious wake-ups *)
Definition internal (e : event) : bool :=
  match e with Notify _ | Take _ _ _ | Block _ _ | Exit _ _ | Finish _ _ | NotifyAll | WaitTrue _ => true
  | KillSleep _ again | KillDone _ again => again
  | _ => false end.
Definition quiescent (n : nat) (s : pool) : Prop := forall e s', step n s e s' -> internal e = false.

(** only one client thread (number 0) calls wait() or kill_all() *)
Definition one_client (tr : list event) : Prop :=
  Forall (fun e => match e with
                   | SpuriousClient c | WaitFalse c | WaitSleep c | WaitTrue c | KillSleep c _ | KillDone c _ => c = 0
                   | _ => True end) tr.

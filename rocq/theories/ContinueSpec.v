(** Specification vocabulary for C55 *)
From Coq Require Import List Bool Arith.
From Verif Require Import Results Continue.
Import ListNotations.

Section Spec.
  Variables (n prime_it : nat) (safe_mode factor_scan : bool).
  (** The function is ready: it was, or its object says so, before or after it has used its stored probes. *)
  Definition ready (e : status * answers) : Prop :=
    fst e = Done \/ (fst e = Reconstructing /\ (a_done (snd e) = true \/ (a_prime (snd e) = prime_it /\ c_done (snd e) = true))).
  (** It is not, but needs no more probes in this prime field. *)
  Definition waiting (e : status * answers) : Prop :=
    fst e = Reconstructing /\ a_done (snd e) = false /\ (a_prime (snd e) <> prime_it \/ (c_done (snd e) = false /\ prime_it < c_prime (snd e))).
  (** It needs more probes in this prime field. *)
  Definition unfinished (e : status * answers) : Prop :=
    fst e = Reconstructing /\ a_done (snd e) = false /\ a_prime (snd e) = prime_it /\ c_done (snd e) = false /\ c_prime (snd e) <= prime_it.
  (** The probes it asks for: (powers, number). In the first prime field an object that only asks for powers one gets some of them. *)
  Definition later_mode : bool := negb safe_mode && negb (prime_it =? 0).
  Definition wants (a : answers) (zo : list nat) (c : nat) : Prop :=
    if later_mode then exists z, In (z, c) (c_needed a) /\ 0 < c /\ zo = (if factor_scan then [] else repeat z (n - 1))
    else if factor_scan then exists k r, c_orders a = (zo, k) :: r /\ c = 1
    else (exists k, c_orders a = [(zo, k)] /\ zo = repeat 1 (n - 1) /\ c = 1) \/ (~ (exists k, c_orders a = [(repeat 1 (n - 1), k)]) /\ In (zo, c) (c_orders a)).
  (** What get_zi_orders returns: positive numbers, at most the size of the system; with factor_scan at least one entry *)
  Definition sensible (a : answers) : Prop := Forall (fun zc => 0 < snd zc <= c_system a) (c_orders a) /\ (factor_scan = true -> c_orders a <> []).
End Spec.
(** number of probes started for the powers zo *)
Definition started_for (zo : list nat) (q : list (list nat * nat)) : nat := fold_right (fun e acc => if list_eq_dec Nat.eq_dec (fst e) zo then snd e + acc else acc) 0 q.
Definition count_status (st : status) (l : list (status * bool)) : nat := length (filter (fun x => match fst x, st with Done, Done => true | Delete, Delete => true | Reconstructing, Reconstructing => true | _, _ => false end) l).

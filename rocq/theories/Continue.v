(** What run_until_done does when nothing is left to feed: /repo/source/include/firefly/Reconstructor.hpp: 3480-3715 (attempt_to_continue), with the counters
    items_done and items_new_prime as they are changed elsewhere (3120-3136 and 3284-3296 interpolate_job, 1162-1195 get_early_results, 2409, 3307-3323
    clean_reconst, 2724-2733 and 2788-2797 the checks of run_until_done, 3721-3747 reset_new_prime).
    Simplifications: what a RatReconst object answers (get_done_and_prime, interpolate, get_num_eqn, get_needed_feed_vec, get_zi_orders) is an input of the
    model; messages, one_done, one_new_prime and balance_of_ones (used for printing and for later jobs) are left out; no MPI. *)
From Coq Require Import ZArith List Bool Arith Lia.
From Verif Require Import Machine Results.
Import ListNotations.
Open Scope nat_scope.

(** the answers of an object; [c_...] belong to the call of interpolate() and to the state after it *)
Record answers := mk_ans { a_done : bool; a_prime : nat; c_done : bool; c_prime : nat; c_eqn : nat; c_needed : list (nat * nat); c_orders : list (list nat * nat); c_system : nat }.
(** the counters of the call, started_probes, the calls of queue_probes (zi_order, to_start) in their order, probes_for_next_prime *)
Record att := mk_att { t_done : nat; t_done2 : nat; t_new : nat; t_new2 : nat; t_started : list (list nat * nat); t_queued : list (list nat * nat); t_next : nat }.
Fixpoint ofind (zo : list nat) (l : list (list nat * nat)) : option nat := match l with [] => None | (z, c) :: r => if same_order z zo then Some c else ofind zo r end.
(** started_probes[zo] = c *)
Fixpoint oput (zo : list nat) (c : nat) (l : list (list nat * nat)) : list (list nat * nat) := match l with [] => [(zo, c)] | (z, k) :: r => if same_order z zo then (z, c) :: r else (z, k) :: oput zo c r end.
Definition queue_more (zo : list nat) (total count : nat) (s : att) : att := mk_att (t_done s) (t_done2 s) (t_new s) (t_new2 s) (oput zo total (t_started s)) (t_queued s ++ [(zo, count)]) (t_next s).

Section Attempt.
  Variables (n thr prime_it : nat) (safe_mode factor_scan : bool).
  (** 3533-3536, 3684-3690: a zi_order with equal entries *)
  Definition equal_order (z : nat) : list nat := if factor_scan then [] else repeat z (n - 1).
  (** 3526-3577: the probes of get_needed_feed_vec *)
  Fixpoint start_needed (l : list (nat * nat)) (s : att) : att :=
    match l with
    | [] => s
    | (z, c) :: r =>
        if c =? 0 then start_needed r s
        else let zo := equal_order z in
             match ofind zo (t_started s) with
             | Some k => start_needed r (if k <? c then queue_more zo c (c - k) s else s)
             | None => start_needed r (queue_more zo c c s)
             end
    end.
  (** 3602-3641: the probes of get_zi_orders *)
  Fixpoint start_orders (system : nat) (l : list (list nat * nat)) (s : att) : att :=
    match l with
    | [] => s
    | (zo, c) :: r =>
        match ofind zo (t_started s) with
        | Some k => start_orders system r (if k <? system then queue_more zo (k + Nat.min (system - k) c) (Nat.min (system - k) c) s else s)
        | None => start_orders system r (queue_more zo c c s)
        end
    end.
  (** 3583: only probes with all powers one are asked for *)
  Definition only_ones (l : list (list nat * nat)) : bool := match l with [(zo, _)] => same_order zo (repeat 1 (n - 1)) | _ => false end.
  (** 3578-3641 *)
  Definition start_first (a : answers) (s : att) : outcome att :=
    if ((prime_it =? 0) || safe_mode) && (factor_scan || only_ones (c_orders a)) then
      match c_orders a with
      | [] => UB
      | (zo, _) :: _ => Ret (match ofind zo (t_started s) with None => queue_more zo thr thr s | Some _ => s end)
      end
    else Ret (start_orders (c_system a) (c_orders a) s).
  (** 3490-3651: one entry of reconst *)
  Definition att_one (e : status * answers) (s : att) : outcome (status * att) :=
    let a := snd e in
    match fst e with
    | Done => Ret (Done, mk_att (S (t_done s)) (t_done2 s) (t_new s) (t_new2 s) (t_started s) (t_queued s) (t_next s))
    | Delete => Ret (Delete, s)
    | Reconstructing =>
        if a_done a then Ret (Done, mk_att (t_done s) (S (t_done2 s)) (t_new s) (t_new2 s) (t_started s) (t_queued s) (t_next s))
        else if negb (a_prime a =? prime_it) then Ret (Reconstructing, mk_att (t_done s) (t_done2 s) (S (t_new s)) (t_new2 s) (t_started s) (t_queued s) (t_next s))
        else if c_done a then Ret (Done, mk_att (t_done s) (S (t_done2 s)) (t_new s) (t_new2 s) (t_started s) (t_queued s) (t_next s))
        else if prime_it <? c_prime a then Ret (Reconstructing, mk_att (t_done s) (t_done2 s) (t_new s) (S (t_new2 s)) (t_started s) (t_queued s) (if t_next s <? c_eqn a then c_eqn a else t_next s))
        else if negb safe_mode && negb (prime_it =? 0) then Ret (Reconstructing, start_needed (c_needed a) s)
        else obind (start_first a s) (fun s' => Ret (Reconstructing, s'))
    end.
  Fixpoint att_all (l : list (status * answers)) (s : att) : outcome (list status * att) :=
    match l with
    | [] => Ret ([], s)
    | e :: r => obind (att_one e s) (fun x => obind (att_all r (snd x)) (fun y => Ret (fst x :: fst y, snd y)))
    end.
  (** how the call ends: done = true; new_prime = true; std::runtime_error("Cannot continue"); otherwise started_probes *)
  Inductive verdict := AllDone | NextPrime | CannotContinue | Continues (started : list (list nat * nat)).
  Record result := mk_result { r_status : list status; r_items_done : nat; r_items_new : nat; r_verdict : verdict; r_queued : list (list nat * nat); r_next : nat }.
  (** 3480-3715; [copy]: started_probes before the call; started_probes_copy.at() of a missing entry throws *)
  Definition attempt (items items_done items_new_prime next : nat) (copy : list (list nat * nat)) (l : list (status * answers)) : outcome result :=
    obind (att_all l (mk_att 0 0 0 0 [] [] next)) (fun x =>
    let t := snd x in
    let d := if negb (items_done =? t_done t) || negb (t_done2 t =? 0) then t_done t + t_done2 t else items_done in
    let w := if negb (items_new_prime =? t_new t) || negb (t_new2 t =? 0) then t_new t + t_new2 t else items_new_prime in
    let ones := equal_order 1 in
    let out v := Ret (mk_result (fst x) d w v (t_queued t) (t_next t)) in
    if d =? items then out AllDone
    else if d + w =? items then out NextPrime
    else match t_started t with
         | [] => out CannotContinue
         | st => match ofind ones st with
                 | Some k => if length st =? 1 then match ofind ones copy with Some _ => out (Continues (oput ones k copy)) | None => Throw end else out (Continues st)
                 | None => out (Continues (st ++ [(ones, 0)]))
                 end
         end).
End Attempt.

(** ---- the counters over a whole run ---- *)
(** an entry of reconst: its status and whether it is counted in items_new_prime; items, items_done, items_new_prime, prime_it *)
Record counts := mk_counts { k_entries : list (status * bool); k_items : nat; k_done : nat; k_new : nat; k_prime : nat }.
Fixpoint upd_entry (i : nat) (e : status * bool) (l : list (status * bool)) : list (status * bool) :=
  match l, i with [], _ => [] | _ :: r, O => e :: r | x :: r, S j => x :: upd_entry j e r end.
Inductive cevent :=
| CDone (i : nat)                   (* interpolate_job, 3284-3296 *)
| CWait (i : nat)                   (* interpolate_job, 3120-3136 *)
| CEarly                            (* get_early_results, 1172-1190 *)
| CNext                             (* a change of the prime, 2409 and 3736 *)
| CAttempt (l : list answers).      (* attempt_to_continue, with the answers of the objects *)
(** 3128, 3500-3520: the object waits for another prime after attempt_to_continue *)
Definition waits (prime_it : nat) (e : status * answers) : bool :=
  match fst e with
  | Reconstructing => let a := snd e in negb (a_done a) && (negb (a_prime a =? prime_it) || (negb (c_done a) && (prime_it <? c_prime a)))
  | _ => false
  end.
Section Counts.
  Variables (n thr : nat) (safe_mode factor_scan : bool) (next : nat) (copy : list (list nat * nat)).
  Definition cstep (e : cevent) (s : counts) : option counts :=
    match e with
    | CDone i => match nth_error (k_entries s) i with
                 | Some (Reconstructing, false) => Some (mk_counts (upd_entry i (Done, false) (k_entries s)) (k_items s) (S (k_done s)) (k_new s) (k_prime s))
                 | _ => None end
    | CWait i => match nth_error (k_entries s) i with
                 | Some (Reconstructing, false) => Some (mk_counts (upd_entry i (Reconstructing, true) (k_entries s)) (k_items s) (k_done s) (S (k_new s)) (k_prime s))
                 | _ => None end
    | CEarly => Some (mk_counts (map (fun x => match fst x with Done => (Delete, snd x) | _ => x end) (k_entries s)) (k_items s) (k_done s) (k_new s) (k_prime s))
    | CNext => if negb (k_done s =? k_items s) && (k_done s + k_new s =? k_items s)
               then Some (mk_counts (map (fun x => (fst x, false)) (filter (fun x => match fst x with Delete => false | _ => true end) (k_entries s))) (k_items s) (k_done s) 0 (S (k_prime s))) else None
    | CAttempt l => if length l =? length (k_entries s) then
        let es := combine (map fst (k_entries s)) l in
        match attempt n thr (k_prime s) safe_mode factor_scan (k_items s) (k_done s) (k_new s) next copy es with
        | Ret r => Some (mk_counts (combine (r_status r) (map (waits (k_prime s)) es)) (k_items s) (r_items_done r) (r_items_new r) (k_prime s))
        | _ => None end
        else None
    end.
  Fixpoint crun (es : list cevent) (s : counts) : option counts := match es with [] => Some s | e :: r => match cstep e s with Some s' => crun r s' | None => None end end.
End Counts.
(** Reconstructor.hpp:2106, 2178-2260: [m] functions at the start *)
Definition start_counts (m : nat) : counts := mk_counts (repeat (Reconstructing, false) m) m 0 0 0.

(** The feed/interpolate protocol of reconstruction objects, for every interleaving of threads:
    /repo/source/RatReconst.cpp:131-334, 1725-1761, 3340-3400 and /repo/source/PolyReconst.cpp:70-99 *)
From Coq Require Import ZArith List Bool Arith Lia.
Import ListNotations.

(** one probe of a bunch (RatReconst.hpp:375: t, value, zi_order) with the prime counter it was fed for *)
Record probe := mk_probe { p_t : Z; p_num : Z; p_ord : list nat; p_prime : nat }.

(** the members of RatReconst guarded by mutex_status that take part in the protocol (RatReconst.hpp:375-453, BaseReconst.hpp:117);
    [combined_at] is the index into primes() last assigned to combined_prime by feed *)
Record obj := mk_obj { queue : list probe; first_feed : bool; start_interpolation : bool; is_interpolating : bool; fed_zero : bool;
  done : bool; prime_number : nat; zero_counter : nat; combined_at : option nat; zero_result : bool }.
(** the initial values: RatReconst.hpp:440-453, BaseReconst.hpp:110-120 *)
Definition obj_start : obj := mk_obj [] true true false false false 0 0 None false.

Inductive feed_result := FedExit | FedUB | Fed (o : obj) (interpolate : bool).
(** RatReconst.cpp:212-295 feed for a bunch; files (tag) are not modelled here. [num = 0]: the first value of the bunch. Line 233: the index into
    primes() must be below 300. *)
Definition feed_vec (scan : bool) (items : list (Z * Z * list nat)) (fed_prime : nat) (o : obj) : feed_result :=
  if negb (done o) && (fed_prime =? prime_number o) then
    let start := if first_feed o then true else start_interpolation o in
    let q := map (fun x => mk_probe (fst (fst x)) (snd (fst x)) (snd x) fed_prime) items in
    if first_feed o && negb scan then
      match items with
      | [] => FedUB (* num[0] *)
      | (_, num0, _) :: _ =>
        if (num0 =? 0)%Z then
          let zc := S (zero_counter o) in let pn := S (prime_number o) in
          let ca := if zc =? pn then Some pn else combined_at o in
          if (zc =? pn) && (300 <=? pn) then FedUB (* primes()[300] *)
          else if pn =? 300 then FedExit
          else let z := (zc =? 3) && (pn =? 3) in
            Fed (mk_obj (queue o) (first_feed o) (if start then false else start) (is_interpolating o) true (if z then true else done o) pn zc ca (if z then true else zero_result o)) start
        else Fed (mk_obj (queue o ++ q) false (if start then false else start) (is_interpolating o) (fed_zero o) (done o) (prime_number o) (zero_counter o) (combined_at o) (zero_result o)) start
      end
    else Fed (mk_obj (queue o ++ q) (first_feed o) (if start then false else start) (is_interpolating o) (fed_zero o) (done o) (prime_number o) (zero_counter o) (combined_at o) (zero_result o)) start
  else Fed o false.
(** RatReconst.cpp:131-210 feed for one probe *)
Definition feed_one (scan : bool) (x : Z * Z * list nat) (fed_prime : nat) (o : obj) : feed_result :=
  if negb (done o) && (fed_prime =? prime_number o) then
    let start := if first_feed o then true else start_interpolation o in
    let q := mk_probe (fst (fst x)) (snd (fst x)) (snd x) fed_prime in
    if first_feed o && negb scan then
      if (snd (fst x) =? 0)%Z then
        let zc := S (zero_counter o) in let pn := S (prime_number o) in
        let ca := if zc =? pn then Some pn else combined_at o in
        if (zc =? pn) && (300 <=? pn) then FedUB
        else if pn =? 300 then FedExit
        else let z := (zc =? 3) && (pn =? 3) in
          Fed (mk_obj (queue o) (first_feed o) (if start then false else start) (is_interpolating o) true (if z then true else done o) pn zc ca (if z then true else zero_result o)) start
      else Fed (mk_obj (queue o ++ [q]) false (if start then false else start) (is_interpolating o) (fed_zero o) (done o) (prime_number o) (zero_counter o) (combined_at o) (zero_result o)) start
    else Fed (mk_obj (queue o ++ [q]) (first_feed o) (if start then false else start) (is_interpolating o) (fed_zero o) (done o) (prime_number o) (zero_counter o) (combined_at o) (zero_result o)) start
  else Fed o false.

(** a call of interpolate() (RatReconst.cpp:298-334). [Pending]: called (or scheduled), before the lock is taken. [Body x]: between lines 312 and 326,
    working on the probe x without the lock. [Clearing x]: inside combine_primes between ++prime_number (1728) and the reset of the queue (1751) when
    the lock is released in the loop 1732-1736 (only with a tag). [Returned r]: returned with first component r. *)
Inductive job := Pending | Body (x : probe) | Clearing (x : probe) | Returned (r : bool).
(** an object, all calls of interpolate() so far, and ghost history: the probes put into the queue ([accepted]) and taken out of it ([out]; true: handed
    to the interpolation, false: thrown away) *)
Record sys := mk_sys { ob : obj; jobs : list job; out : list (probe * bool); accepted : list probe }.
Definition sys_start : sys := mk_sys obj_start [] [] [].

Inductive event :=
| Feed (items : list (Z * Z * list nat)) (fed_prime : nat) (* feed(); the caller starts interpolate() iff the first component of the result is true: Reconstructor.hpp:3068-3077 *)
| ExtraCall                    (* interpolate() called without being asked to *)
| Start (i : nat)              (* job i takes the lock: 299-313 *)
| SetDone (i : nat) (b : bool) (* the body sets done under the lock: e.g. 3359-3362 *)
| NewPrime (i : nat)           (* the body changes to the next prime: 1725-1761, lock held throughout *)
| NewPrimeFirst (i : nat)      (* the same with a tag: ++prime_number, then the lock is released *)
| NewPrimeSecond (i : nat)     (* the lock is taken again and the queue is reset *)
| Return (i : nat).            (* the body returns: 326-331; takes the next probe or ends *)

Fixpoint set_nth {A} (i : nat) (x : A) (l : list A) : list A :=
  match l, i with [], _ => [] | _ :: r, O => x :: r | y :: r, S j => y :: set_nth j x r end.
Definition upd_queue (q : list probe) (o : obj) : obj :=
  mk_obj q (first_feed o) (start_interpolation o) (is_interpolating o) (fed_zero o) (done o) (prime_number o) (zero_counter o) (combined_at o) (zero_result o).
Definition set_interp (b : bool) (q : list probe) (o : obj) : obj :=
  mk_obj q (first_feed o) (start_interpolation o) b (fed_zero o) (done o) (prime_number o) (zero_counter o) (combined_at o) (zero_result o).
(** new elements of the queue *)
Definition pushed (o o' : obj) : list probe := skipn (length (queue o)) (queue o').

Definition step (scan tag : bool) (e : event) (s : sys) : option sys :=
  let o := ob s in
  match e with
  | Feed items fp =>
    match feed_vec scan items fp o with
    | Fed o' b => Some (mk_sys o' (if b then jobs s ++ [Pending] else jobs s) (out s) (accepted s ++ pushed o o'))
    | _ => None
    end
  | ExtraCall => Some (mk_sys o (jobs s ++ [Pending]) (out s) (accepted s))
  | Start i =>
    match nth_error (jobs s) i with
    | Some Pending =>
      if fed_zero o then
        Some (mk_sys (mk_obj (queue o) (first_feed o) (start_interpolation o) (is_interpolating o) false (done o) (prime_number o) (zero_counter o) (combined_at o) (zero_result o))
          (set_nth i (Returned true) (jobs s)) (out s) (accepted s))
      else if is_interpolating o then Some (mk_sys o (set_nth i (Returned false) (jobs s)) (out s) (accepted s))
      else match queue o with
           | [] => Some (mk_sys o (set_nth i (Returned false) (jobs s)) (out s) (accepted s))
           | x :: q => Some (mk_sys (set_interp true q o) (set_nth i (Body x) (jobs s)) (out s ++ [(x, true)]) (accepted s))
           end
    | _ => None
    end
  | SetDone i b =>
    match nth_error (jobs s) i with
    | Some (Body x) => Some (mk_sys (mk_obj (queue o) (first_feed o) (start_interpolation o) (is_interpolating o) (fed_zero o) b (prime_number o) (zero_counter o) (combined_at o) (zero_result o)) (jobs s) (out s) (accepted s))
    | _ => None
    end
  | NewPrime i =>
    match nth_error (jobs s) i with
    | Some (Body x) =>
      if S (prime_number o) =? 300 then None (* std::exit *)
      else Some (mk_sys (mk_obj [] true (start_interpolation o) (is_interpolating o) (fed_zero o) (done o) (S (prime_number o)) (zero_counter o) (combined_at o) (zero_result o))
        (jobs s) (out s ++ map (fun x => (x, false)) (queue o)) (accepted s))
    | _ => None
    end
  | NewPrimeFirst i =>
    match nth_error (jobs s) i with
    | Some (Body x) => if tag then
        Some (mk_sys (mk_obj (queue o) (first_feed o) (start_interpolation o) (is_interpolating o) (fed_zero o) (done o) (S (prime_number o)) (zero_counter o) (combined_at o) (zero_result o))
          (set_nth i (Clearing x) (jobs s)) (out s) (accepted s)) else None
    | _ => None
    end
  | NewPrimeSecond i =>
    match nth_error (jobs s) i with
    | Some (Clearing x) =>
      if prime_number o =? 300 then None
      else Some (mk_sys (mk_obj [] true (start_interpolation o) (is_interpolating o) (fed_zero o) (done o) (prime_number o) (zero_counter o) (combined_at o) (zero_result o))
        (set_nth i (Body x) (jobs s)) (out s ++ map (fun x => (x, false)) (queue o)) (accepted s))
    | _ => None
    end
  | Return i =>
    match nth_error (jobs s) i with
    | Some (Body x) =>
      match queue o with
      | y :: q => Some (mk_sys (upd_queue q o) (set_nth i (Body y) (jobs s)) (out s ++ [(y, true)]) (accepted s))
      | [] => Some (mk_sys (mk_obj [] (first_feed o) true false (fed_zero o) (done o) (prime_number o) (zero_counter o) (combined_at o) (zero_result o))
                (set_nth i (Returned true) (jobs s)) (out s) (accepted s))
      end
    | _ => None
    end
  end.
Inductive reachable (scan tag : bool) : sys -> Prop :=
| reach_start : reachable scan tag sys_start
| reach_step s e s' : reachable scan tag s -> step scan tag e s = Some s' -> reachable scan tag s'.
(** feeds are never empty: Reconstructor.hpp:3034 (one entry per index of a non-empty bunch) *)
Definition nonempty_feed (e : event) : Prop := match e with Feed [] _ => False | _ => True end.
Inductive reachable_ne (scan tag : bool) : sys -> Prop :=
| reach_ne_start : reachable_ne scan tag sys_start
| reach_ne_step s e s' : reachable_ne scan tag s -> nonempty_feed e -> step scan tag e s = Some s' -> reachable_ne scan tag s'.
Definition active (j : job) : bool := match j with Body _ | Clearing _ => true | _ => false end.
Definition finished (j : job) : Prop := match j with Returned _ => True | _ => False end.

(** every call of interpolate() that was issued returns: only [Start] and [Return] steps *)
Inductive drains (scan tag : bool) : sys -> sys -> Prop :=
| drain_refl s : drains scan tag s s
| drain_start s i s1 s2 : step scan tag (Start i) s = Some s1 -> drains scan tag s1 s2 -> drains scan tag s s2
| drain_return s i s1 s2 : step scan tag (Return i) s = Some s1 -> drains scan tag s1 s2 -> drains scan tag s s2.
(** ** event lists *)
Fixpoint run (scan tag : bool) (es : list event) (s : sys) : option sys :=
  match es with [] => Some s | e :: r => match step scan tag e s with Some s' => run scan tag r s' | None => None end end.
(** the first value of a fed bunch is zero *)
Definition zero_first (e : event) : Prop := match e with Feed ((_, num, _) :: _) _ => num = 0%Z | _ => True end.
(** the number of primes, at most three and starting with prime k, in which the first current feed had a zero first value *)
Fixpoint zero_primes (k : nat) (es : list event) : nat :=
  match es with
  | [] => k
  | Feed ((_, num, _) :: _) fp :: r => zero_primes (if (num =? 0)%Z && (fp =? k) && (k <? 3) then S k else k) r
  | _ :: r => zero_primes k r
  end.
(** ** PolyReconst: PolyReconst.cpp:70-99 *)
Record pobj := mk_pobj { pqueue : list probe; pinterp : bool; pprime : nat }.
Record psys := mk_psys { pob : pobj; pjobs : list job; pout : list (probe * nat); paccepted : list probe }.
Definition psys_start : psys := mk_psys (mk_pobj [] false 0) [] [] [].
Inductive pevent :=
| PFeed (num : Z) (ord : list nat) (fed_prime : nat) (* feed() followed by interpolate() *)
| PExtraCall
| PStart (i : nat)     (* 83-92 *)
| PNewPrime (i : nat)  (* the body increments prime_number under the lock: 525-527 *)
| PReturn (i : nat).   (* 93-98 *)
(** [pout] records with each probe handed to the interpolation the value of prime_number at that moment *)
Definition pstep (e : pevent) (s : psys) : option psys :=
  let o := pob s in
  match e with
  | PFeed num ord fp =>
    let x := mk_probe 0 num ord fp in
    if fp =? pprime o then Some (mk_psys (mk_pobj (pqueue o ++ [x]) (pinterp o) (pprime o)) (pjobs s ++ [Pending]) (pout s) (paccepted s ++ [x]))
    else Some (mk_psys o (pjobs s ++ [Pending]) (pout s) (paccepted s))
  | PExtraCall => Some (mk_psys o (pjobs s ++ [Pending]) (pout s) (paccepted s))
  | PStart i =>
    match nth_error (pjobs s) i with
    | Some Pending =>
      if pinterp o then Some (mk_psys o (set_nth i (Returned true) (pjobs s)) (pout s) (paccepted s))
      else match pqueue o with
           | [] => Some (mk_psys o (set_nth i (Returned true) (pjobs s)) (pout s) (paccepted s))
           | x :: q => Some (mk_psys (mk_pobj q true (pprime o)) (set_nth i (Body x) (pjobs s)) (pout s ++ [(x, pprime o)]) (paccepted s))
           end
    | _ => None
    end
  | PNewPrime i =>
    match nth_error (pjobs s) i with
    | Some (Body x) => Some (mk_psys (mk_pobj (pqueue o) (pinterp o) (S (pprime o))) (pjobs s) (pout s) (paccepted s))
    | _ => None
    end
  | PReturn i =>
    match nth_error (pjobs s) i with
    | Some (Body x) =>
      match pqueue o with
      | y :: q => Some (mk_psys (mk_pobj q (pinterp o) (pprime o)) (set_nth i (Body y) (pjobs s)) (pout s ++ [(y, pprime o)]) (paccepted s))
      | [] => Some (mk_psys (mk_pobj [] false (pprime o)) (set_nth i (Returned true) (pjobs s)) (pout s) (paccepted s))
      end
    | _ => None
    end
  end.
Inductive preachable : psys -> Prop :=
| preach_start : preachable psys_start
| preach_step s e s' : preachable s -> pstep e s = Some s' -> preachable s'.

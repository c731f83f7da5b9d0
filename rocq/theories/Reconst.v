(** The scheduler of the Reconstructor (thread-pool version, no MPI, no saved states): which probe is requested, computed and fed when.
    /repo/source/include/firefly/Reconstructor.hpp: run_until_done 2306-2888, queue_probes 2894-2993, get_probe 2996-3012, feed_job 3015-3113,
    interpolate_job 3116-3304, get_job 3326-3366, compute_probe 3369-3477, reset_new_prime 3721-3752.
    Every critical section of the code is one event, the events of all threads may interleave arbitrarily. The thread pool (C32, C33) is abstracted: a
    submitted task may start at any time; a change of the prime waits for the running tasks and drops the others (kill_all). *)
From Coq Require Import ZArith List Bool Arith Lia.
From Verif Require Import FeedQueue Combi.
Import ListNotations.

(** the point of a probe: t and zi_order (Reconstructor.hpp:2986 index_map) *)
Definition point : Type := Z * list nat.
Definition point_eqb (a b : point) : bool := (fst a =? fst b)%Z && (if list_eq_dec Nat.eq_dec (snd a) (snd b) then true else false).
(** an entry of reconst (Reconstructor.hpp:169-172): the RatReconst object and whether the status is DONE; [r_cnt] is ghost: it was counted in
    items_new_prime for the current prime *)
Record rec := mk_rec { r_obj : obj; r_fin : bool; r_cnt : bool }.
(** feed_job: submitted; after "interpolate_jobs += items" (3019); in the loop over reconst (3059) with the looked-up points, the results, the position
    and counter *)
Inductive fjob := FWait (b : list (nat * list Z)) | FLook (b : list (nat * list Z)) | FLoop (ix : list nat) (pts : list point) (res : list (list Z)) (k c : nat).
(** interpolate_job for function k: submitted; inside RatReconst::interpolate(); returned from it with the tuple (3118); after the status update with
    probes still to be queued by queue_probes ([may]: the branches 3137-3283; picks: t chosen but not yet in the queue; owed: get_job not yet submitted) *)
Inductive ijob := IPend (k : nat) | IBody (k : nat) | IPost (k : nat) (r d : bool) (pr : nat) | IQueue (k : nat) (may : bool) (picks : list point) (owed : nat).
(** the main thread in run_until_done: in queue_probes; at get_probe; holding a bunch before (3011) and after probes_queued is decreased; after
    ++feed_jobs (2716); at the status check 2724; at 2737; in the wait loop 2744; at 2761; at 2771; ends *)
Inductive main_pc := MQueue (picks : list point) (owed : nat) | MGet | MGot (b : list (nat * list Z)) | MFeed1 (b : list (nat * list Z)) | MFeed2 (b : list (nat * list Z))
| MCheck | MLook | MWait | MLast | MIdle | MPrime | MDone | MStuck.
Record st := mk_st { recs : list rec; prime_it : nat; ind : nat; requested : list (nat * point); imap : list (nat * point); chosen : list point; probes_queued : Z; pool_get : nat; computing : list (list (nat * point)); computed : list (list (nat * list Z)); main : main_pc; feeds : list fjob; ijobs : list ijob; feed_jobs : Z; interpolate_jobs : Z; items_done : nat; items_new_prime : nat; hist : list (nat * point); looked : list nat; finished_ix : list nat; visits : list (nat * nat) }.
Definition set_recs (v : list rec) (s : st) : st := mk_st v (prime_it s) (ind s) (requested s) (imap s) (chosen s) (probes_queued s) (pool_get s) (computing s) (computed s) (main s) (feeds s) (ijobs s) (feed_jobs s) (interpolate_jobs s) (items_done s) (items_new_prime s) (hist s) (looked s) (finished_ix s) (visits s).
Definition set_prime_it (v : nat) (s : st) : st := mk_st (recs s) v (ind s) (requested s) (imap s) (chosen s) (probes_queued s) (pool_get s) (computing s) (computed s) (main s) (feeds s) (ijobs s) (feed_jobs s) (interpolate_jobs s) (items_done s) (items_new_prime s) (hist s) (looked s) (finished_ix s) (visits s).
Definition set_ind (v : nat) (s : st) : st := mk_st (recs s) (prime_it s) v (requested s) (imap s) (chosen s) (probes_queued s) (pool_get s) (computing s) (computed s) (main s) (feeds s) (ijobs s) (feed_jobs s) (interpolate_jobs s) (items_done s) (items_new_prime s) (hist s) (looked s) (finished_ix s) (visits s).
Definition set_requested (v : list (nat * point)) (s : st) : st := mk_st (recs s) (prime_it s) (ind s) v (imap s) (chosen s) (probes_queued s) (pool_get s) (computing s) (computed s) (main s) (feeds s) (ijobs s) (feed_jobs s) (interpolate_jobs s) (items_done s) (items_new_prime s) (hist s) (looked s) (finished_ix s) (visits s).
Definition set_imap (v : list (nat * point)) (s : st) : st := mk_st (recs s) (prime_it s) (ind s) (requested s) v (chosen s) (probes_queued s) (pool_get s) (computing s) (computed s) (main s) (feeds s) (ijobs s) (feed_jobs s) (interpolate_jobs s) (items_done s) (items_new_prime s) (hist s) (looked s) (finished_ix s) (visits s).
Definition set_chosen (v : list point) (s : st) : st := mk_st (recs s) (prime_it s) (ind s) (requested s) (imap s) v (probes_queued s) (pool_get s) (computing s) (computed s) (main s) (feeds s) (ijobs s) (feed_jobs s) (interpolate_jobs s) (items_done s) (items_new_prime s) (hist s) (looked s) (finished_ix s) (visits s).
Definition set_probes_queued (v : Z) (s : st) : st := mk_st (recs s) (prime_it s) (ind s) (requested s) (imap s) (chosen s) v (pool_get s) (computing s) (computed s) (main s) (feeds s) (ijobs s) (feed_jobs s) (interpolate_jobs s) (items_done s) (items_new_prime s) (hist s) (looked s) (finished_ix s) (visits s).
Definition set_pool_get (v : nat) (s : st) : st := mk_st (recs s) (prime_it s) (ind s) (requested s) (imap s) (chosen s) (probes_queued s) v (computing s) (computed s) (main s) (feeds s) (ijobs s) (feed_jobs s) (interpolate_jobs s) (items_done s) (items_new_prime s) (hist s) (looked s) (finished_ix s) (visits s).
Definition set_computing (v : list (list (nat * point))) (s : st) : st := mk_st (recs s) (prime_it s) (ind s) (requested s) (imap s) (chosen s) (probes_queued s) (pool_get s) v (computed s) (main s) (feeds s) (ijobs s) (feed_jobs s) (interpolate_jobs s) (items_done s) (items_new_prime s) (hist s) (looked s) (finished_ix s) (visits s).
Definition set_computed (v : list (list (nat * list Z))) (s : st) : st := mk_st (recs s) (prime_it s) (ind s) (requested s) (imap s) (chosen s) (probes_queued s) (pool_get s) (computing s) v (main s) (feeds s) (ijobs s) (feed_jobs s) (interpolate_jobs s) (items_done s) (items_new_prime s) (hist s) (looked s) (finished_ix s) (visits s).
Definition set_main (v : main_pc) (s : st) : st := mk_st (recs s) (prime_it s) (ind s) (requested s) (imap s) (chosen s) (probes_queued s) (pool_get s) (computing s) (computed s) v (feeds s) (ijobs s) (feed_jobs s) (interpolate_jobs s) (items_done s) (items_new_prime s) (hist s) (looked s) (finished_ix s) (visits s).
Definition set_feeds (v : list fjob) (s : st) : st := mk_st (recs s) (prime_it s) (ind s) (requested s) (imap s) (chosen s) (probes_queued s) (pool_get s) (computing s) (computed s) (main s) v (ijobs s) (feed_jobs s) (interpolate_jobs s) (items_done s) (items_new_prime s) (hist s) (looked s) (finished_ix s) (visits s).
Definition set_ijobs (v : list ijob) (s : st) : st := mk_st (recs s) (prime_it s) (ind s) (requested s) (imap s) (chosen s) (probes_queued s) (pool_get s) (computing s) (computed s) (main s) (feeds s) v (feed_jobs s) (interpolate_jobs s) (items_done s) (items_new_prime s) (hist s) (looked s) (finished_ix s) (visits s).
Definition set_feed_jobs (v : Z) (s : st) : st := mk_st (recs s) (prime_it s) (ind s) (requested s) (imap s) (chosen s) (probes_queued s) (pool_get s) (computing s) (computed s) (main s) (feeds s) (ijobs s) v (interpolate_jobs s) (items_done s) (items_new_prime s) (hist s) (looked s) (finished_ix s) (visits s).
Definition set_interpolate_jobs (v : Z) (s : st) : st := mk_st (recs s) (prime_it s) (ind s) (requested s) (imap s) (chosen s) (probes_queued s) (pool_get s) (computing s) (computed s) (main s) (feeds s) (ijobs s) (feed_jobs s) v (items_done s) (items_new_prime s) (hist s) (looked s) (finished_ix s) (visits s).
Definition set_items_done (v : nat) (s : st) : st := mk_st (recs s) (prime_it s) (ind s) (requested s) (imap s) (chosen s) (probes_queued s) (pool_get s) (computing s) (computed s) (main s) (feeds s) (ijobs s) (feed_jobs s) (interpolate_jobs s) v (items_new_prime s) (hist s) (looked s) (finished_ix s) (visits s).
Definition set_items_new_prime (v : nat) (s : st) : st := mk_st (recs s) (prime_it s) (ind s) (requested s) (imap s) (chosen s) (probes_queued s) (pool_get s) (computing s) (computed s) (main s) (feeds s) (ijobs s) (feed_jobs s) (interpolate_jobs s) (items_done s) v (hist s) (looked s) (finished_ix s) (visits s).
Definition set_hist (v : list (nat * point)) (s : st) : st := mk_st (recs s) (prime_it s) (ind s) (requested s) (imap s) (chosen s) (probes_queued s) (pool_get s) (computing s) (computed s) (main s) (feeds s) (ijobs s) (feed_jobs s) (interpolate_jobs s) (items_done s) (items_new_prime s) v (looked s) (finished_ix s) (visits s).
Definition set_looked (v : list nat) (s : st) : st := mk_st (recs s) (prime_it s) (ind s) (requested s) (imap s) (chosen s) (probes_queued s) (pool_get s) (computing s) (computed s) (main s) (feeds s) (ijobs s) (feed_jobs s) (interpolate_jobs s) (items_done s) (items_new_prime s) (hist s) v (finished_ix s) (visits s).
Definition set_finished_ix (v : list nat) (s : st) : st := mk_st (recs s) (prime_it s) (ind s) (requested s) (imap s) (chosen s) (probes_queued s) (pool_get s) (computing s) (computed s) (main s) (feeds s) (ijobs s) (feed_jobs s) (interpolate_jobs s) (items_done s) (items_new_prime s) (hist s) (looked s) v (visits s).
Definition set_visits (v : list (nat * nat)) (s : st) : st := mk_st (recs s) (prime_it s) (ind s) (requested s) (imap s) (chosen s) (probes_queued s) (pool_get s) (computing s) (computed s) (main s) (feeds s) (ijobs s) (feed_jobs s) (interpolate_jobs s) (items_done s) (items_new_prime s) (hist s) (looked s) (finished_ix s) v.

Definition items (s : st) : nat := length (recs s).
(** the state at the beginning of run_until_done: any reconstruction objects that have not been fed yet in this run, e.g. freshly constructed ones *)
Definition start_rec : rec := mk_rec obj_start false false.
Definition start_st (n : nat) : st := mk_st (repeat start_rec n) 0 0 [] [] [] 0 0 [] [] (MQueue [] 0) [] [] 0 0 0 0 [] [] [] [].

Fixpoint del {A} (i : nat) (l : list A) : list A := match l, i with [], _ => [] | _ :: r, O => r | y :: r, S j => y :: del j r end.
Fixpoint lookup (i : nat) (m : list (nat * point)) : option point := match m with [] => None | (j, p) :: r => if i =? j then Some p else lookup i r end.
Fixpoint erase (i : nat) (m : list (nat * point)) : list (nat * point) := match m with [] => [] | (j, p) :: r => if i =? j then erase i r else (j, p) :: erase i r end.
(** 3034-3036: index_map[index] and erase; a missing index would give a default entry and the error exit of 3040: [None] *)
Fixpoint look_all (ix : list nat) (m : list (nat * point)) : option (list point * list (nat * point)) :=
  match ix with
  | [] => Some ([], m)
  | i :: r => match lookup i m with
              | None => None
              | Some p => match look_all r (erase i m) with Some (ps, m') => Some (p :: ps, m') | None => None end
              end
  end.
(** 2916-2932: choose t for zi_order unless it was used before *)
Definition choose (p : point) (s : st) : option st := if existsb (point_eqb p) (chosen s) then None else Some (set_chosen (p :: chosen s) s).
(** 2976-2990: the next index; [ones]: emplace_front *)
Definition insert (ones : bool) (p : point) (s : st) : st :=
  set_requested (if ones then (ind s, p) :: requested s else requested s ++ [(ind s, p)])
  (set_imap ((ind s, p) :: imap s) (set_hist ((ind s, p) :: hist s) (set_ind (S (ind s)) (set_probes_queued (probes_queued s + 1)%Z s)))).
(** RatReconst::interpolate (RatReconst.cpp:298-313): what happens when the lock is taken first. None: the call returns; see [start_obj_agrees] *)
Definition start_obj (o : obj) : obj * option bool :=
  if fed_zero o then (mk_obj (queue o) (first_feed o) (start_interpolation o) (is_interpolating o) false (done o) (prime_number o) (zero_counter o) (combined_at o) (zero_result o), Some true)
  else if is_interpolating o then (o, Some false)
  else match queue o with [] => (o, Some false) | x :: q => (set_interp true q o, None) end.
(** RatReconst.cpp:326-331 *)
Definition return_obj (o : obj) : obj * option bool :=
  match queue o with
  | y :: q => (upd_queue q o, None)
  | [] => (mk_obj [] (first_feed o) true false (fed_zero o) (done o) (prime_number o) (zero_counter o) (combined_at o) (zero_result o), Some true)
  end.
Definition done_obj (o : obj) : obj := mk_obj (queue o) (first_feed o) (start_interpolation o) (is_interpolating o) (fed_zero o) true (prime_number o) (zero_counter o) (combined_at o) (zero_result o).
Definition new_prime_obj (o : obj) : obj := mk_obj [] true (start_interpolation o) (is_interpolating o) (fed_zero o) (done o) (S (prime_number o)) (zero_counter o) (combined_at o) (zero_result o).
Definition set_rec (k : nat) (r : rec) (s : st) : st := set_recs (set_nth k r (recs s)) s.
Definition set_ijob (i : nat) (j : ijob) (s : st) : st := set_ijobs (set_nth i j (ijobs s)) s.
Definition set_fjob (i : nat) (j : fjob) (s : st) : st := set_feeds (set_nth i j (feeds s)) s.
Definition add_ijob (j : ijob) (s : st) : st := set_ijobs (ijobs s ++ [j]) s.
(** the switch 3330-3356 *)
Definition bunch_sizes : list Z := [1; 2; 4; 8; 16; 32; 64; 128]%Z.
(** the bunch fed to function k (3065): t, value, zi_order *)
Definition bunch_for (k : nat) (pts : list point) (res : list (list Z)) : list (Z * Z * list nat) :=
  map (fun x => (fst (fst x), nth k (snd x) 0%Z, snd (fst x))) (combine pts res).
Definition quiet_f (j : fjob) : bool := match j with FWait _ => true | _ => false end.
Definition quiet_i (j : ijob) : bool := match j with IPend _ => true | _ => false end.
(** reset_new_prime (3721-3752) *)
Definition next_prime (s : st) : st :=
  mk_st (map (fun r => mk_rec (r_obj r) (r_fin r) false) (recs s)) (S (prime_it s)) 0 [] [] [] 0 0 [] [] (MQueue [] 0) [] [] 0 0 (items_done s) 0 [] [] [] [].

Inductive sevent :=
| MChoose (p : point) | MInsert (ones : bool) | MSubmit | MReady (* the main thread in queue_probes; it queues at least one probe *)
| MPop | MDecr | MIncr | MRun | MStat | MLookQ | MWake | MFinal | MEnd | MNext
| GetJob (* a get_job task takes a bunch from the queue: 3327-3345 *) | Finish (i : nat) (* the black box returned: 3401 *)
| FCount (j : nat) | FLookup (j : nat) | FVisit (j : nat) | FFinish (j : nat)
| IStart (i : nat) | IDone (i : nat) | INew (i : nat) | IRet (i : nat) | ICount (i : nat) | IChoose (i : nat) (p : point) | IInsert (i : nat) (ones : bool) | ISubmit (i : nat) | IEnd (i : nat).

Section Step.
(** the black box: the values of all functions at a point in the field of the prime with the given number; number of threads, maximal bunch size; scan *)
Variable bb : nat -> point -> list Z.
Variables thr bs : Z.
Variable scan : bool.
Definition sstep (e : sevent) (s : st) : option st :=
  match e with
  | MChoose p => match main s with MQueue ps w => option_map (set_main (MQueue (p :: ps) w)) (choose p s) | _ => None end
  | MInsert ones => match main s with MQueue (p :: ps) w => Some (set_main (MQueue ps (S w)) (insert ones p s)) | _ => None end
  | MSubmit => match main s with MQueue ps (S w) => Some (set_main (MQueue ps w) (set_pool_get (S (pool_get s)) s)) | _ => None end
  | MReady => match main s with MQueue [] 0 => if (probes_queued s =? 0)%Z then None else Some (set_main MGet s) | _ => None end
  | MPop => match main s, computed s with MGet, b :: r => Some (set_main (MGot b) (set_computed r s)) | _, _ => None end
  | MDecr => match main s with MGot b => Some (set_main (MFeed1 b) (set_probes_queued (probes_queued s - Z.of_nat (length b))%Z s)) | _ => None end
  | MIncr => match main s with MFeed1 b => Some (set_main (MFeed2 b) (set_feed_jobs (feed_jobs s + 1)%Z s)) | _ => None end
  | MRun => match main s with MFeed2 b => Some (set_main MCheck (set_feeds (feeds s ++ [FWait b]) s)) | _ => None end
  | MStat => match main s with MCheck =>
      if items_done s =? items s then Some (set_main MDone s) else if items_done s + items_new_prime s =? items s then Some (set_main MPrime s) else Some (set_main MLook s) | _ => None end
  | MLookQ => match main s with MLook => if (probes_queued s =? 0)%Z then Some (set_main MWait s) else Some (set_main MGet s) | _ => None end
  | MWake => match main s with MWait =>
      if ((feed_jobs s =? 0) && (interpolate_jobs s =? 0))%Z then Some (set_main MLast s) else if (probes_queued s =? 0)%Z then Some s else Some (set_main MGet s) | _ => None end
  | MFinal => match main s with MLast => if (probes_queued s =? 0)%Z then Some (set_main MIdle s) else Some (set_main MGet s) | _ => None end
  | MEnd => match main s with MIdle =>
      if items_done s =? items s then Some (set_main MDone s) else if items_done s + items_new_prime s =? items s then Some (set_main MPrime s) else Some (set_main MStuck s) | _ => None end
  | MNext => match main s with MPrime => if forallb quiet_f (feeds s) && forallb quiet_i (ijobs s) then match computing s with [] => Some (next_prime s) | _ => None end else None | _ => None end
  | GetJob =>
    match pool_get s with
    | O => None
    | S w =>
      match requested s with
      | [] => Some (set_pool_get w s)
      | _ => match compute_bunch_size (Z.of_nat (length (requested s))) thr bs with
             | None => None
             | Some b => if existsb (Z.eqb b) bunch_sizes then
                 if (b <=? Z.of_nat (length (requested s)))%Z then
                   Some (set_pool_get w (set_requested (skipn (Z.to_nat b) (requested s)) (set_computing (computing s ++ [firstn (Z.to_nat b) (requested s)]) s)))
                 else None (* front() of an empty deque *)
               else Some (set_pool_get w s) (* no case of the switch *)
             end
      end
    end
  | Finish i =>
    match nth_error (computing s) i with
    | Some b => Some (set_computing (del i (computing s)) (set_computed (computed s ++ [map (fun x => (fst x, bb (prime_it s) (snd x))) b]) s))
    | None => None
    end
  | FCount j => match nth_error (feeds s) j with Some (FWait b) => Some (set_fjob j (FLook b) (set_interpolate_jobs (interpolate_jobs s + Z.of_nat (items s))%Z s)) | _ => None end
  | FLookup j => match nth_error (feeds s) j with
      | Some (FLook b) => match look_all (map fst b) (imap s) with
          | Some (pts, m) => Some (set_fjob j (FLoop (map fst b) pts (map snd b) 0 0) (set_imap m (set_looked (map fst b ++ looked s) s)))
          | None => None (* std::exit *)
          end
      | _ => None end
  | FVisit j => match nth_error (feeds s) j with
      | Some (FLoop ix pts res k c) =>
        match nth_error (recs s) k with
        | Some r =>
          let s := set_visits (map (pair k) ix ++ visits s) s in
          if r_fin r || done (r_obj r) || negb (prime_number (r_obj r) =? prime_it s) then Some (set_fjob j (FLoop ix pts res (S k) c) s)
          else match feed_vec scan (bunch_for k pts res) (prime_it s) (r_obj r) with
               | Fed o b => let s := set_rec k (mk_rec o (r_fin r) (r_cnt r)) s in
                   if b then Some (set_fjob j (FLoop ix pts res (S k) (S c)) (add_ijob (IPend k) s)) else Some (set_fjob j (FLoop ix pts res (S k) c) s)
               | _ => None
               end
        | None => None
        end
      | _ => None end
  | FFinish j => match nth_error (feeds s) j with
      | Some (FLoop ix pts res k c) => if k =? items s then
          Some (set_feeds (del j (feeds s)) (set_finished_ix (ix ++ finished_ix s) (set_interpolate_jobs (interpolate_jobs s - (Z.of_nat (items s) - Z.of_nat c))%Z (set_feed_jobs (feed_jobs s - 1)%Z s)))) else None
      | _ => None end
  | IStart i => match nth_error (ijobs s) i with
      | Some (IPend k) => match nth_error (recs s) k with
          | Some r => if r_fin r then Some (set_ijob i (IQueue k false [] 0) s)
                      else let (o, res) := start_obj (r_obj r) in
                        let s := set_rec k (mk_rec o (r_fin r) (r_cnt r)) s in
                        match res with None => Some (set_ijob i (IBody k) s) | Some b => Some (set_ijob i (IPost k b (done o) (prime_number o)) s) end
          | None => None end
      | _ => None end
  | IDone i => match nth_error (ijobs s) i with
      | Some (IBody k) => match nth_error (recs s) k with Some r => Some (set_rec k (mk_rec (done_obj (r_obj r)) (r_fin r) (r_cnt r)) s) | None => None end
      | _ => None end
  | INew i => match nth_error (ijobs s) i with
      | Some (IBody k) => match nth_error (recs s) k with
          | Some r => if (prime_number (r_obj r) =? prime_it s) && negb (done (r_obj r)) && negb (S (prime_number (r_obj r)) =? 300) then Some (set_rec k (mk_rec (new_prime_obj (r_obj r)) (r_fin r) (r_cnt r)) s) else None
          | None => None end
      | _ => None end
  | IRet i => match nth_error (ijobs s) i with
      | Some (IBody k) => match nth_error (recs s) k with
          | Some r => let (o, res) := return_obj (r_obj r) in
                      let s := set_rec k (mk_rec o (r_fin r) (r_cnt r)) s in
                      match res with None => Some s | Some b => Some (set_ijob i (IPost k b (done o) (prime_number o)) s) end
          | None => None end
      | _ => None end
  | ICount i => match nth_error (ijobs s) i with
      | Some (IPost k r d pr) =>
        match nth_error (recs s) k with
        | Some x =>
          if negb r then Some (set_ijob i (IQueue k false [] 0) s)
          else if negb d then
            if prime_it s <? pr then Some (set_ijob i (IQueue k false [] 0) (set_items_new_prime (S (items_new_prime s)) (set_rec k (mk_rec (r_obj x) (r_fin x) true) s)))
            else Some (set_ijob i (IQueue k true [] 0) s)
          else if r_fin x then Some (set_ijob i (IQueue k false [] 0) s)
          else Some (set_ijob i (IQueue k false [] 0) (set_items_done (S (items_done s)) (set_rec k (mk_rec (r_obj x) true (r_cnt x)) s)))
        | None => None end
      | _ => None end
  | IChoose i p => match nth_error (ijobs s) i with Some (IQueue k true ps w) => option_map (set_ijob i (IQueue k true (p :: ps) w)) (choose p s) | _ => None end
  | IInsert i ones => match nth_error (ijobs s) i with Some (IQueue k m (p :: ps) w) => Some (set_ijob i (IQueue k m ps (S w)) (insert ones p s)) | _ => None end
  | ISubmit i => match nth_error (ijobs s) i with Some (IQueue k m ps (S w)) => Some (set_ijob i (IQueue k m ps w) (set_pool_get (S (pool_get s)) s)) | _ => None end
  | IEnd i => match nth_error (ijobs s) i with Some (IQueue k m [] 0) => Some (set_ijobs (del i (ijobs s)) (set_interpolate_jobs (interpolate_jobs s - 1)%Z s)) | _ => None end
  end.
Inductive sreach (n : nat) : st -> Prop :=
| sreach_start : sreach n (start_st n)
| sreach_step s e s' : sreach n s -> sstep e s = Some s' -> sreach n s'.
End Step.

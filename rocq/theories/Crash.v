(** The files of the save mechanism under crashes: /repo/source/RatReconst.cpp:143-170 (zero), 1680-1750 (end of a prime), 2482-2535, 2537-2724
    (save_state), 2726-3150 (start_from_saved_file), 3340-3385 (done), 3674-3730 (probes) and
    /repo/source/include/firefly/Reconstructor.hpp:503-540, 680-770 (resume). *)
From Coq Require Import List Bool Arith Lia.
Import ListNotations.

(** the files of one function (one tag): ff_save/states/tag_k.gz, ff_save/probes/tag_k.gz, ff_save/tmp/tag_k.gz and
    ff_save/tmp/probe_tag_k_tmp.gz *)
Inductive file := State (k : nat) | Probes (k : nat) | TmpState (k : nat) | TmpProbes (k : nat).
Definition file_eqb (a b : file) : bool :=
  match a, b with State i, State j | Probes i, Probes j | TmpState i, TmpState j | TmpProbes i, TmpProbes j => i =? j | _, _ => false end.
(** what a state file says: the file of set_tag_name ("tag_name ..."), "ZERO", or a full state. Of a full state only the primes whose images are
    combined in it (indices into primes(), in order) and is_done are kept; that the coefficients are read back as they were written is C35. *)
Inductive saved := Fresh | ZeroFile | Full (ps : list nat) (fin : bool).
(** contents; [Cut] is a state file that is open for writing (it may hold any prefix of the text after a crash); [CutFood] a probe file while probes
    are appended. A stored probe is represented by the number of the function and the index of the prime it was computed for (the file itself does not
    say them). *)
Inductive content := Sv (s : saved) | Cut | Food (l : list (nat * nat)) | CutFood (l : list (nat * nat)).
Definition dir := list (file * content).
Definition del (f : file) (d : dir) : dir := filter (fun e => negb (file_eqb (fst e) f)) d.
Definition put (f : file) (c : content) (d : dir) : dir := del f d ++ [(f, c)].
Definition get (f : file) (d : dir) : option content := match find (fun e => file_eqb (fst e) f) d with Some e => Some (snd e) | None => None end.
Definition food_of (o : option content) : list (nat * nat) := match o with Some (Food l) | Some (CutFood l) => l | _ => [] end.

(** single actions; a crash may happen before and after each of them. std::rename is atomic and fails without effect if the source does not exist.
    An empty probe file needs one action (nothing is written into it). [OLock]: ++prime_number under mutex_status (no effect on the disk). *)
Inductive op := OOpen (f : file) | OClose (f : file) (s : saved) | ORename (f g : file) | OEmpty (f : file) | OLock
  | OAppend (f : file) | OAppended (f : file) (l : list (nat * nat)).
Definition apply (o : op) (d : dir) : dir :=
  match o with
  | OOpen f => put f Cut d
  | OClose f s => put f (Sv s) d
  | ORename f g => match get f d with Some c => put g c (del f d) | None => d end
  | OEmpty f => put f (Food []) d
  | OLock => d
  | OAppend f => put f (CutFood (food_of (get f d))) d
  | OAppended f l => put f (Food (food_of (get f d) ++ l)) d
  end.
(** RatReconst.cpp:2537-2724 save_state with prime_number = k *)
Definition save_ops (k : nat) (s : saved) : list op :=
  [OOpen (TmpState k); OClose (TmpState k) s] ++ (match k with 0 => [] | S j => [ORename (State j) (State k)] end) ++ [ORename (TmpState k) (State k)].
(** RatReconst.cpp:1725-1750 and 160-170: the probe file moves on from prime k to prime k + 1 *)
Definition roll_ops (k : nat) : list op :=
  [OLock; ORename (Probes k) (TmpProbes (S k)); OEmpty (Probes (S k)); ORename (Probes (S k)) (TmpProbes (S k)); ORename (TmpProbes (S k)) (Probes (S k))].
(** RatReconst.cpp:2520-2535 save_zero_state, save_zero_consecutive_prime *)
Definition zero_ops (k : nat) : list op :=
  match k with 0 => [OOpen (State 0); OClose (State 0) ZeroFile] | S j => [ORename (State j) (State k)] end.
(** RatReconst.cpp:3674-3703 write_food_to_file: n probes of the current prime of function t *)
Definition food_ops (t k n : nat) : list op := [OAppend (Probes k); OAppended (Probes k) (repeat (t, k) n)].
(** the actions on probe files of the thread that ends a prime *)
Definition on_probes (o : op) : bool := match o with OEmpty _ | ORename (Probes _) _ | ORename (TmpProbes _) _ => true | _ => false end.

(** the part of the object that is saved: prime_number, zero_counter, the state it would save, done *)
Record memory := mk_mem { prime : nat; zeros : nat; data : saved; fin : bool }.
(** a function: its number (tag), its directory entries, its object, the number of probes in saved_food, the actions still to be done by the thread that
    ends a prime ([pend]) and by the thread that writes probes ([pendw]) and the object as it was before [pend] *)
Record item := mk_item { tag : nat; dsk : dir; mem : memory; food : nat; pend : list op; pendw : list op; before : memory }.
(** after set_tag_name (RatReconst.cpp:2482-2518) *)
Definition fresh_mem : memory := mk_mem 0 0 Fresh false.
Definition start (t : nat) : item := mk_item t [(State 0, Sv Fresh); (Probes 0, Food [])] fresh_mem 0 [] [] fresh_mem.
Definition done_primes (s : saved) : list nat := match s with Full ps _ => ps | _ => [] end.
(** whether a state without a combined prime becomes "ZERO" *)
Definition zero_data (s : saved) : saved := match s with Full ps f => Full ps f | _ => ZeroFile end.
(** the object after the first probe of a prime vanished (RatReconst.cpp:146-181), after the image of the prime was combined and after the end; in the
    first two cases prime_number is incremented later, by [OLock] *)
Definition zero_mem (m : memory) : memory := mk_mem (prime m) (S (zeros m)) (zero_data (data m)) ((S (zeros m) =? 3) && (S (prime m) =? 3)).
Definition comb_mem (m : memory) : memory := mk_mem (prime m) (zeros m) (Full (done_primes (data m) ++ [prime m]) false) false.
Definition end_mem (m : memory) (ps : list nat) : memory := mk_mem (prime m) (zeros m) (Full ps true) true.
Definition bump (o : op) (m : memory) : memory := match o with OLock => mk_mem (S (prime m)) (zeros m) (data m) (fin m) | _ => m end.
Definition drop_food (o : op) (n : nat) : nat := match o with OLock => 0 | _ => n end.
(** whether another thread can take mutex_status *)
Definition unlocked (r : list op) : Prop := In OLock r \/ existsb on_probes r = false.

Inductive istep : item -> item -> Prop :=
(** RatReconst.cpp:143-181 *)
| IZero t d m b : fin m = false -> istep (mk_item t d m 0 [] [] b) (mk_item t d (zero_mem m) 0 (zero_ops (prime m) ++ roll_ops (prime m)) [] m)
(** combine_primes: the image of the current prime is combined (RatReconst.cpp:1680-1750; exactly one of the lines 1683 and 1722 is executed unless
    the normalization vanishes, which is not modelled) *)
| ICombine t d m n w b : fin m = false -> istep (mk_item t d m n [] w b) (mk_item t d (comb_mem m) n (save_ops (prime m) (data (comb_mem m)) ++ roll_ops (prime m)) w m)
(** check_if_done: the guess from the combined primes passes the test (RatReconst.cpp:3361-3370) *)
| IDone t d m n w b ps : fin m = false -> data m = Full ps false -> istep (mk_item t d m n [] w b) (mk_item t d (end_mem m ps) n (save_ops (prime m) (Full ps true)) w m)
(** the next action of the thread that ends the prime; combine_primes waits until no probes are being written (1732-1736) and empties saved_food (1738) *)
| IOp t d m n o r w b : (o = OLock -> w = []) -> istep (mk_item t d m n (o :: r) w b) (mk_item t (apply o d) (bump o m) (drop_food o n) r w b)
(** feed (RatReconst.cpp:184-199) *)
| IFeed t d m n r w b : fin m = false -> unlocked r -> istep (mk_item t d m n r w b) (mk_item t d m (S n) r w b)
(** write_food_to_file takes the whole queue (3674-3684) and writes it without the lock *)
| IFood t d m n r b : unlocked r -> istep (mk_item t d m (S n) r [] b) (mk_item t d m 0 r (food_ops t (prime m) (S n)) b)
| IFoodOp t d m n r o w b : istep (mk_item t d m n r (o :: w) b) (mk_item t (apply o d) m n r w b).

(** ---- resuming ---- *)
Definition state_files (d : dir) : list (nat * content) := flat_map (fun e => match fst e with State k => [(k, snd e)] | _ => [] end) d.
Definition probe_files (d : dir) : list (nat * content) := flat_map (fun e => match fst e with Probes k => [(k, snd e)] | _ => [] end) d.
(** RatReconst.cpp:2726-3150: None is an exit (incomplete or unknown file) *)
Definition load (j : nat) (c : content) : option memory :=
  match c with
  | Sv Fresh => Some fresh_mem
  | Sv ZeroFile => Some (if 2 <? S j then mk_mem (S j) 0 ZeroFile true else mk_mem (S j) (S j) ZeroFile false)
  | Sv (Full ps f) => Some (mk_mem (S j) 0 (Full ps f) f)
  | _ => None
  end.
(** RatReconst.cpp:3705-3730 read_in_probes: [RFood l]: the probes l enter the queue. [RBroken]: a line that ends early is parsed and its missing
    numbers are read beyond the end of the vector *)
Inductive reading := RFood (l : list (nat * nat)) | RBroken.
Definition read_probes (m : memory) (q : nat) (c : content) : reading :=
  if negb (fin m) && (q =? prime m) then match c with Food l => RFood l | CutFood _ => RBroken | _ => RFood [] end else RFood [].
(** Reconstructor.hpp:680-770: the state files and the probe files, each sorted by the tag; the i-th probe file is given to the i-th state file. None:
    the program exits. (That the number of state files is the number of functions is proved, not assumed.) *)
Fixpoint load_all (ss : list (nat * content)) (qs : list (nat * content)) : option (list (memory * reading)) :=
  match ss, qs with
  | [], [] => Some []
  | (j, c) :: ss', (q, f) :: qs' =>
    match load j c, load_all ss' qs' with Some m, Some r => Some ((m, read_probes m q f) :: r) | _, _ => None end
  | _, _ => None
  end.
Definition resume (is : list item) : option (list (memory * reading)) :=
  load_all (flat_map (fun it => state_files (dsk it)) is) (flat_map (fun it => probe_files (dsk it)) is).
Definition restarted (it : item) (m : memory) : item := mk_item (tag it) (dsk it) m 0 [] [] m.

(** ---- histories: steps of single functions, and crashes followed by a successful resume. [ok] restricts the points of crashes. ---- *)
Inductive gstep (ok : list item -> Prop) : list item -> list item -> Prop :=
| GStep a it it' b : istep it it' -> gstep ok (a ++ it :: b) (a ++ it' :: b)
| GCrash is ms : ok is -> resume is = Some ms -> length ms = length is ->
    gstep ok is (map (fun x => restarted (fst x) (fst (snd x))) (combine is ms)).
Inductive history (ok : list item -> Prop) (n : nat) : list item -> Prop :=
| HStart : history ok n (map start (seq 0 n))
| HStep is is' : history ok n is -> gstep ok is is' -> history ok n is'.

(** ---- the windows in which a crash does harm, by the action that comes next ---- *)
Definition risky (it : item) : Prop :=
  match pendw it with
  | OAppended _ _ :: _ => True (* probes are being appended to the probe file *)
  | _ =>
    match pend it with
    | OClose (State _) _ :: _ => True (* "ZERO" is being written over the first state file *)
    | ORename (TmpState k) _ :: _ => k <> 0 (* the old state already has the name of the new one *)
    | OLock :: _ => True (* the state is that of the next prime, the probe file still that of the old one ... *)
    | ORename (Probes k) (TmpProbes j) :: _ => j <> k
    | OEmpty _ :: _ => True (* there is no probe file ... *)
    | ORename (TmpProbes _) _ :: _ => True
    | _ => False
    end
  end.

(** Probes that are computed outside: /repo/source/include/firefly/Reconstructor.hpp 3751-3818 (load_precomputed_probes_from_file), 3820-3844
    (write_requested_probes_to_file), 2954-2973 (queue_probes in this mode: no task is given to the pool), 2996-3013 and 3029-3043 (get_probe and the look-up
    in index_map by feed_job or start_first_runs).
    Simplifications: a text file is its list of characters (no compression); one prime field (reset_new_prime clears everything); indices have no upper bound. *)
From Coq Require Import Ascii String.
From Verif Require Import Machine FFInt SYParse SYEval DecPrint StateFile Results.
From Coq Require Import List.
Import ListNotations.
Open Scope Z_scope.
Local Notation "'do' x <- a ; b" := (obind a (fun x => b)) (at level 200, x pattern, a at level 100, b at level 200).

(** requested_probes, index_map, ind, chosen_t (Results.queue); computed_probes: index and results (one probe each); probes_queued; [pc_fed]: what feed_job passes
    to the RatReconst objects: t, zi_order, results *)
Record pstate := mk_ps { pc_queue : queue; pc_computed : list (nat * list Z); pc_queued : Z; pc_fed : list (Z * list nat * list Z) }.
Definition empty_ps : pstate := mk_ps empty_queue [] 0 [].

(** std::string::find(" | "): the parts before and behind *)
Definition bar : ascii := "|"%char.
Definition at_bar (s : chars) : option chars :=
  match s with a :: b :: c :: r => if Ascii.eqb a sp && Ascii.eqb b bar && Ascii.eqb c sp then Some r else None | _ => None end.
Fixpoint find_bar (s : chars) : option (chars * chars) :=
  match at_bar s with
  | Some r => Some ([], r)
  | None => match s with [] => None | c :: r => option_map (fun '(x, y) => (c :: x, y)) (find_bar r) end
  end.

(** Reconstructor.hpp:3763-3806: one line: t, zi_order, results.  probe_string.back() of an empty string is undefined. *)
Definition load_line (p : Z) (n : nat) (line : chars) : outcome (Z * list nat * list Z) :=
  match find_bar line with
  | None => Throw
  | Some (before, remainder) =>
      match find_bar remainder with
      | None => Throw
      | Some (t_string, probe_string) =>
          do t <- stoul t_string;
          do zi <- parse_vector_32 (before ++ [sp]) (Z.of_nat n - 1);
          if (length (fst zi) =? n - 1)%nat then
            match rev probe_string with
            | [] => UB
            | c :: _ =>
                do r <- parse_vector_FFInt p (if Ascii.eqb c sp then probe_string else probe_string ++ [sp]) (-1);
                Ret (ff_ctor p t, map Z.to_nat (fst zi), fst r)
            end
          else Throw
      end
  end.
(** Reconstructor.hpp:3807-3810 *)
Definition add_probe (x : Z * list nat * list Z) (s : pstate) : pstate :=
  let '(t, zi, r) := x in let q := pc_queue s in
  mk_ps (mk_queue (q_chosen q) (S (q_ind q)) (q_requested q) (q_index q ++ [(q_ind q, (t, zi))]) (q_drawn q)) (pc_computed s ++ [(q_ind q, r)]) (pc_queued s + 1) (pc_fed s).
Fixpoint load_lines (p : Z) (n : nat) (ls : list chars) (s : pstate) : outcome pstate :=
  match ls with [] => Ret s | l :: r => do x <- load_line p n l; load_lines p n r (add_probe x s) end.
(** Reconstructor.hpp:3751-3818 load_precomputed_probes_from_file; [None]: the file cannot be opened *)
Definition load_probes (p : Z) (n : nat) (file : option chars) (s : pstate) : outcome pstate :=
  match file with None => Exit | Some f => load_lines p n (getlines f []) s end.

(** Reconstructor.hpp:3829-3841 *)
Definition request_line (t : Z) (zi : list nat) (values : list Z) : chars :=
  flat_map (fun z => print (Z.of_nat z) ++ [sp]) zi ++ str "| " ++ print t ++ str " |" ++ flat_map (fun v => sp :: print v) values.
Fixpoint request_lines (index : list (nat * (Z * list nat))) (req : list (nat * list Z)) : outcome (list chars) :=
  match req with
  | [] => Ret []
  | (i, values) :: r =>
      match nat_find i index with
      | Some (t, zi) => do ls <- request_lines index r; Ret (request_line t zi values :: ls)
      | None => Throw                                                  (* std::unordered_map::at *)
      end
  end.
(** Reconstructor.hpp:3820-3844 write_requested_probes_to_file *)
Definition write_requests (s : pstate) : outcome chars := do ls <- request_lines (q_index (pc_queue s)) (q_requested (pc_queue s)); Ret (to_file ls).

(** index_map.erase *)
Definition erase_index (i : nat) (m : list (nat * (Z * list nat))) : list (nat * (Z * list nat)) := filter (fun e => negb (fst e =? i)%nat) m.
(** Reconstructor.hpp:2996-3013 get_probe (it waits for ever if nothing has been loaded: nobody computes), 3029-3036 feed_job *)
Definition feed_one (s : pstate) : outcome pstate :=
  match pc_computed s with
  | [] => Diverge
  | (i, r) :: rest =>
      let q := pc_queue s in
      match nat_find i (q_index q) with
      | Some (t, zi) => Ret (mk_ps (mk_queue (q_chosen q) (q_ind q) (q_requested q) (erase_index i (q_index q)) (q_drawn q)) rest (pc_queued s - 1) (pc_fed s ++ [(t, zi, r)]))
      | None => Exit                                                   (* a default entry: "zi_order of probe has wrong length" *)
      end
  end.

(** Calls in any order within one prime field *)
Inductive pevent := PQueue (ones : bool) (zi : list nat) (k : nat) | PLoad (file : chars) | PFeed.
Section Run.
  Variables (p : Z) (n : nat) (change : bool) (order : list (nat * nat)) (shift : list Z) (rz : list nat -> list Z) (rnd : nat -> Z) (fuel : nat).
  Definition pstep (e : pevent) (s : pstate) : outcome pstate :=
    match e with
    | PQueue ones zi k => do q <- queue_probes p n change order shift rz rnd fuel ones zi k (pc_queue s); Ret (mk_ps q (pc_computed s) (pc_queued s + Z.of_nat k) (pc_fed s))
    | PLoad f => load_probes p n (Some f) s
    | PFeed => feed_one s
    end.
  Fixpoint prun (es : list pevent) (s : pstate) : outcome pstate := match es with [] => Ret s | e :: r => do s' <- pstep e s; prun r s' end.
End Run.

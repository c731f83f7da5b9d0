(** class ShuntingYardParser, part 3: the object. /repo/source/ShuntingYardParser.cpp,
    /repo/source/include/firefly/ShuntingYardParser.hpp *)
From Coq Require Import Ascii String.
From Verif Require Import Machine FFInt FFVec SYParse SYEval.
From Coq Require Import List.
Import ListNotations.
Open Scope nat_scope.

(** ShuntingYardParser.hpp:146-158: the members ([pvars] is the content of vars_map in order of insertion,
    [cmap] is check_map as an association list; prime_counter is represented by the two primes passed in) *)
Record parser := mk_parser {
  functions : list (list chars);
  pvars : list chars;
  precomp : list (list ptok);
  partial : list (list (nat * list chars));
  check_is_equal : bool;
  keep_rpn : bool;
  precomputed : bool;
  prime_internal : Z;
  check_vars_1 : list Z;
  check_vars_2 : list Z;
  cmap : list ((Z * Z) * nat);
  epos : list nat }.

Fixpoint omap {A B} (f : A -> outcome B) (l : list A) : outcome (list B) :=
  match l with [] => Ret [] | a :: r => obind (f a) (fun b => obind (omap f r) (fun bs => Ret (b :: bs))) end.

Fixpoint cfind (k : Z * Z) (m : list ((Z * Z) * nat)) : option nat :=
  match m with [] => None | (k', n) :: r => if ((fst k =? fst k') && (snd k =? snd k'))%Z then Some n else cfind k r end.

(** ShuntingYardParser.cpp:125-140 and 156-171: insert a parsed function, with the check for equal functions.
    [pA] is the prime of the first fingerprint, [p] of the second. *)
Definition insert (p pA : Z) (o : parser) (ts : list chars) : outcome parser :=
  let '(mk_parser fs vs pc pt ch kr pd pi c1 c2 m ep) := o in
  if negb ch then Ret (mk_parser (fs ++ [ts]) vs pc pt ch kr pd pi c1 c2 m ep)
  else
    obind (evaluate1 pA vs c1 ts) (fun v1 =>
    obind (evaluate1 p vs c2 ts) (fun v2 =>
    match cfind (v1, v2) m with
    | Some n => Ret (mk_parser fs vs pc pt ch kr pd pi c1 c2 m (ep ++ [n]))
    | None => Ret (mk_parser (fs ++ [ts]) vs pc pt ch kr pd pi c1 c2 (m ++ [((v1, v2), length fs)]) (ep ++ [length fs]))
    end)).
(** validate, parse, insert *)
Definition read_fun (p pA : Z) (o : parser) (f : chars) : outcome parser :=
  obind (validate f) (fun s => obind (parse s) (insert p pA o)).
Fixpoint read_all (p pA : Z) (o : parser) (fs : list chars) : outcome parser :=
  match fs with [] => Ret o | f :: r => obind (read_fun p pA o f) (fun o' => read_all p pA o' r) end.

(** ShuntingYardParser.cpp:568-575 *)
Definition precompute_all (p : Z) (vs : list chars) (fs : list (list chars)) : outcome (list (list ptok * list (nat * list chars))) :=
  omap (precompute p vs) fs.
(** ShuntingYardParser.cpp:585-589 *)
Fixpoint refresh_all (p : Z) (vs : list chars) (ts : list (list ptok)) (parts : list (list (nat * list chars))) : outcome (list (list ptok)) :=
  match ts, parts with
  | t :: ts, q :: parts => obind (refresh p vs q t) (fun t' => obind (refresh_all p vs ts parts) (fun r => Ret (t' :: r)))
  | [], _ => Ret []
  | _ :: _, [] => UB                       (* partial_rpn[i] beyond the end *)
  end.
(** ShuntingYardParser.cpp:550-591 precompute_tokens; a vector that was moved from is empty *)
Definition precompute_tokens (p : Z) (force : bool) (o : parser) : outcome parser :=
  let '(mk_parser fs vs pc pt ch kr pd pi c1 c2 m ep) := o in
  if (p =? pi)%Z && negb force then Ret (mk_parser fs vs pc pt ch kr true pi c1 c2 m ep)
  else if negb pd || force then
    obind (precompute_all p vs fs) (fun l =>
    Ret (mk_parser (if kr then fs else []) vs (map fst l) (map snd l) ch kr true p [] [] [] ep))
  else
    obind (refresh_all p vs pc pt) (fun pc' => Ret (mk_parser fs vs pc' pt ch kr pd p [] [] [] ep)).

(** ShuntingYardParser.cpp:46-58 and 60-199: the constructor from a list of functions. [c1], [c2] are the random points
    (73-92). The constructor from a file (33-44, 98-146) splits at ';' and removes blanks, tabs and line breaks first;
    with this preprocessing done it is the same. *)
Definition construct (p pA : Z) (funs : list chars) (vs : list chars) (ch kr : bool) (c1 c2 : list Z) : outcome parser :=
  obind (read_all p pA (mk_parser [] vs [] [] ch kr false 0 (if ch then c1 else []) (if ch then c2 else []) [] []) funs)
        (precompute_tokens p false).

(** ShuntingYardParser.hpp:346-362 and 462-478: results in the order of the input *)
Definition spread (o : parser) (res : list Z) : outcome (list Z) :=
  if check_is_equal o && negb (length (functions o) =? length (epos o)) then
    omap (fun i => match nth_error res i with Some v => Ret v | None => UB end) (epos o)
  else Ret res.
(** ShuntingYardParser.hpp:365-480 evaluate_pre *)
Definition evaluate_pre (p : Z) (o : parser) (values : list Z) : outcome (list Z) :=
  obind (omap (eval_pre1 p values) (precomp o)) (spread o).

(** ShuntingYardParser.hpp:240-363 evaluate (the public one): the tokens "~" and ";" are not in the list of operators *)
Definition is_op_pub (t : chars) : bool := is_op t && negb (match t with [c] => (c =?c "~") || (c =?c ";") | _ => false end).
Definition exec1_pub (p : Z) (vs : list chars) (values : list Z) (t : chars) (st : list Z) : outcome (list Z) :=
  if is_op_pub t then match st with a :: b :: r => obind (apply_op p (hd nul t) b a) (fun v => Ret (v :: r)) | _ => UB end
  else obind (tok_value p vs values t) (fun v => Ret (v :: st)).
Fixpoint exec_pub (p : Z) (vs : list chars) (values : list Z) (ts : list chars) (st : list Z) : outcome (list Z) :=
  match ts with [] => Ret st | t :: r => obind (exec1_pub p vs values t st) (exec_pub p vs values r) end.
Definition evaluate (p : Z) (o : parser) (values : list Z) : outcome (list Z) :=
  obind (omap (fun ts => obind (exec_pub p (pvars o) values ts []) (fun st => match st with v :: _ => Ret v | [] => Exit end)) (functions o)) (spread o).

(** ShuntingYardParser.cpp:542-548 *)
Definition parser_empty (o : parser) : bool := match functions o with [] => true | _ => false end.
Definition get_size (o : parser) : nat := length (functions o).

(** ShuntingYardParser.cpp:347-377 add_otf: position of the function *)
Definition add_otf (p pA : Z) (f : chars) (no_dup : bool) (o : parser) : outcome (parser * nat) :=
  obind (validate f) (fun s => obind (parse s) (fun ts =>
  let '(mk_parser fs vs pc pt ch kr pd pi c1 c2 m ep) := o in
  if negb ch then Ret (mk_parser (fs ++ [ts]) vs pc pt ch kr pd pi c1 c2 m ep, length fs)
  else
    obind (evaluate1 pA vs c1 ts) (fun v1 =>
    obind (evaluate1 p vs c2 ts) (fun v2 =>
    match cfind (v1, v2) m with
    | Some n => Ret (mk_parser fs vs pc pt ch kr pd pi c1 c2 m (if no_dup then ep else ep ++ [n]), n)
    | None => Ret (mk_parser (fs ++ [ts]) vs pc pt ch kr pd pi c1 c2 (m ++ [((v1, v2), length fs)]) (ep ++ [length fs]), length fs)
    end)))).
(** ShuntingYardParser.cpp:331-341 add_otf_precompute *)
Definition add_otf_precompute (p : Z) (ts : list chars) (o : parser) : outcome (parser * nat) :=
  let '(mk_parser fs vs pc pt ch kr pd pi c1 c2 m ep) := o in
  obind (precompute p vs ts) (fun q => Ret (mk_parser fs vs (pc ++ [fst q]) (pt ++ [snd q]) ch kr pd p c1 c2 m ep, length pc)).

(** ShuntingYardParser.cpp:724-776 trim: [keep] is the set elements_to_keep; the result is the new object and the map
    from old to new positions. partial_rpn is not trimmed. Reading functions[...] or precomp_tokens[...] beyond the end is
    undefined; a function that was moved from is empty (each is moved at most once, 751-763). *)
Definition keep_toks (pc : list (list ptok)) (k : nat) (new : list (list ptok)) : outcome (list (list ptok)) :=
  match pc with [] => Ret new | _ => match nth_error pc k with Some t => Ret (new ++ [t]) | None => UB end end.
(** 735-745: without the check for equal functions *)
Fixpoint trim_plain (keep : nat -> bool) (pc : list (list ptok)) (fs : list (list chars)) (i : nat)
  (nf : list (list chars)) (np : list (list ptok)) (pos : list (nat * nat)) : outcome (list (list chars) * list (list ptok) * list (nat * nat)) :=
  match fs with
  | [] => Ret (nf, np, pos)
  | f :: fs => if keep i then obind (keep_toks pc i np) (fun np' => trim_plain keep pc fs (S i) (nf ++ [f]) np' (pos ++ [(i, length nf)]))
               else trim_plain keep pc fs (S i) nf np pos
  end.
Fixpoint nfind (k : nat) (m : list (nat * nat)) : option nat :=
  match m with [] => None | (k', n) :: r => if k =? k' then Some n else nfind k r end.
(** 747-765: with it; [cp] is copied_functions *)
Fixpoint trim_check (keep : nat -> bool) (fs : list (list chars)) (pc : list (list ptok)) (ep : list nat) (i : nat)
  (nf : list (list chars)) (np : list (list ptok)) (ne : list nat) (cp pos : list (nat * nat)) : outcome (list (list chars) * list (list ptok) * list nat * list (nat * nat)) :=
  match ep with
  | [] => Ret (nf, np, ne, pos)
  | e :: ep =>
      if keep i then
        match nfind e cp with
        | Some n => trim_check keep fs pc ep (S i) nf np (ne ++ [n]) cp (pos ++ [(i, length ne)])
        | None => match nth_error fs e with
                  | None => UB
                  | Some f => obind (keep_toks pc e np) (fun np' =>
                      trim_check keep fs pc ep (S i) (nf ++ [f]) np' (ne ++ [length nf]) (cp ++ [(e, length nf)]) (pos ++ [(i, length ne)]))
                  end
        end
      else trim_check keep fs pc ep (S i) nf np ne cp pos
  end.
Definition trim (keep : nat -> bool) (o : parser) : outcome (parser * list (nat * nat)) :=
  let '(mk_parser fs vs pc pt ch kr pd pi c1 c2 m ep) := o in
  if negb ch then obind (trim_plain keep pc fs 0 [] [] []) (fun '(nf, np, pos) => Ret (mk_parser nf vs np pt ch kr pd pi c1 c2 m [], pos))
  else obind (trim_check keep fs pc ep 0 [] [] [] [] []) (fun '(nf, np, ne, pos) => Ret (mk_parser nf vs np pt ch kr pd pi c1 c2 m ne, pos)).

(** ShuntingYardParser.hpp:482-600 evaluate_pre_2: the stack is an array of tokens.size() zeros, filled from index 1 *)
Definition exec_arr1 (p : Z) (values : list Z) (t : ptok) (s : list Z * nat) : outcome (list Z * nat) :=
  let '(a, d) := s in
  let push v := if S d <? length a then Ret (upd a (S d) v, S d) else UB in
  match t with
  | POp c => match d with
             | O => UB                                            (* stack[-1] *)
             | S d' => match nth_error a d', nth_error a d with
                       | Some x, Some y => obind (apply_op p c x y) (fun v => Ret (upd a d' v, d'))
                       | _, _ => UB
                       end
             end
  | PVar i => match nth_error values i with Some v => push v | None => UB end
  | PNegVar i => match nth_error values i with Some v => push (ff_opp p v) | None => UB end
  | PNum v => push v
  end.
Fixpoint exec_arr (p : Z) (values : list Z) (ts : list ptok) (s : list Z * nat) : outcome (list Z * nat) :=
  match ts with [] => Ret s | t :: r => obind (exec_arr1 p values t s) (exec_arr p values r) end.
Definition eval_pre2_1 (p : Z) (values : list Z) (ts : list ptok) : outcome Z :=
  obind (exec_arr p values ts (repeat 0%Z (length ts), 0)) (fun '(a, d) =>
    if d =? 1 then match nth_error a 1 with Some v => Ret v | None => UB end else Exit).
Definition evaluate_pre_2 (p : Z) (o : parser) (values : list Z) : outcome (list Z) :=
  obind (omap (eval_pre2_1 p values) (precomp o)) (spread o).

(** ShuntingYardParser.cpp:114-120: the functions in a file. getline stops at ';' or at the end of the file; blanks, tabs
    and line breaks are removed; empty pieces are skipped. *)
Fixpoint split_semi (s acc : chars) : list chars :=
  match s with [] => [acc] | c :: r => if c =?c ";" then acc :: split_semi r [] else split_semi r (acc ++ [c]) end.
Definition strip (s : chars) : chars := filter (fun c => negb ((c =?c " ") || (c =?c "009") || (c =?c "010"))) s.
Definition file_functions (content : chars) : list chars :=
  filter (fun l => negb (match l with [] => true | _ => false end)) (map strip (split_semi content [])).

(** class AmplitudeParser: /repo/source/AmplitudeParser.cpp, /repo/source/include/firefly/AmplitudeParser.hpp.
    A std::string is a [list ascii], positions are naturals, npos is [None]. A std::unordered_map is an association list
    in order of insertion; where the code iterates over one, the order of the iteration is an argument.
    Not modelled: messages, the log file, timing. Strings are shorter than 2^63 characters. *)
From Coq Require Import Ascii String.
From Verif Require Import Machine FFInt FFVec SYParse SYEval SYObj.
From Coq Require Import List.
Import ListNotations.
Open Scope nat_scope.

(** ---- std::string ---- *)
Definition ceqb (a b : chars) : bool := if list_eq_dec ascii_dec a b then true else false.
(** s.find(c) *)
Fixpoint findc (c : ascii) (s : chars) : option nat :=
  match s with [] => None | d :: r => if c =?c d then Some 0 else option_map S (findc c r) end.
(** s.find(c, pos) *)
Definition findc_from (c : ascii) (s : chars) (pos : nat) : option nat := option_map (Nat.add pos) (findc c (skipn pos s)).
(** s starts with f *)
Fixpoint starts (f s : chars) : bool :=
  match f, s with [], _ => true | a :: f, b :: s => (a =?c b) && starts f s | _ :: _, [] => false end.
(** s.find(f) *)
Fixpoint finds (f s : chars) : option nat :=
  if starts f s then Some 0 else match s with [] => None | _ :: r => option_map S (finds f r) end.
(** s.find(f, pos) *)
Definition finds_from (f s : chars) (pos : nat) : option nat :=
  if length s <? pos then None else option_map (Nat.add pos) (finds f (skipn pos s)).
(** s.rfind(f) *)
Fixpoint rfinds (f s : chars) : option nat :=
  match (match s with [] => None | _ :: r => rfinds f r end) with
  | Some i => Some (S i)
  | None => if starts f s then Some 0 else None
  end.
(** s.rfind(c, pos): the last position up to pos; pos = npos is the whole string *)
Definition rfindc_to (c : ascii) (s : chars) (pos : option nat) : option nat :=
  rfinds [c] (match pos with Some i => firstn (S i) s | None => s end).
(** s.substr(pos) and s.substr(pos, len): std::out_of_range if pos > size *)
Definition substr_end (s : chars) (pos : nat) : outcome chars := if length s <? pos then Throw else Ret (skipn pos s).
Definition substr (s : chars) (pos len : nat) : outcome chars := if length s <? pos then Throw else Ret (firstn len (skipn pos s)).
(** s.substr(pos, a - b) with size_t arguments: a difference below zero wraps to a length beyond every string *)
Definition substr_diff (s : chars) (pos a b : nat) : outcome chars := if a <? b then substr_end s pos else substr s pos (a - b).
(** s.erase(std::remove(..., c), ...) *)
Definition remove_char (c : ascii) (s : chars) : chars := filter (fun d => negb (d =?c c)) s.
Definition strip_white (s : chars) : chars := remove_char "010" (remove_char "009" (remove_char " " s)).
(** AmplitudeParser.cpp:101-105 and 233-237: the braces; reading s[s.size() - 1] of an empty string is undefined *)
Definition strip_braces (s : chars) : outcome chars :=
  let s := if hd nul s =?c "{" then tl s else s in
  match s with [] => UB | _ => Ret (if last s nul =?c "}" then removelast s else s) end.

(** ---- parse_string, AmplitudeParser.cpp:93-197 ---- *)
(** 122-124: the first of the families that occurs in the name, and where *)
Fixpoint first_family (fams : list chars) (s : chars) : option nat :=
  match fams with [] => None | f :: r => match finds f s with Some i => Some i | None => first_family r s end end.
(** 146-157: the coefficient in front of the next function; [nxt] is found + 1 (found = fo_2 - size - 2) *)
Fixpoint coef_loop (fams : list chars) (seed2 : chars) (fo2 : nat) (coef : chars) (nxt : nat) : outcome (chars * nat) :=
  match fams with
  | [] => Ret (coef, nxt)
  | f :: r =>
      match rfinds f seed2 with
      | Some tf =>
          obind (substr_diff seed2 (if hd nul seed2 =?c "*" then 1 else 0) tf 2) (fun c =>
          coef_loop r seed2 fo2 c (fo2 - length f - 1))
      | None => coef_loop r seed2 fo2 coef nxt
      end
  end.
(** 139-165: the coefficient of the function that ends at [found], and found + 1 afterwards *)
Definition coefficient (fams : list chars) (amp : chars) (found : nat) : outcome (chars * nat) :=
  if (found + 1 <? length amp - 1) && (nth (found + 1) amp nul =?c "*") then
    match findc_from "[" amp (found + 1) with
    | Some fo2 => obind (substr amp (found + 1) (fo2 - (found + 1))) (fun seed2 => coef_loop fams seed2 fo2 [] (found + 1))
    | None => obind (substr_end amp (found + 2)) (fun c => Ret (c, found + 1))
    end
  else Ret (["1"%char], found + 1).
(** 115-185: one function. Result: the pair (function, coefficient) and found + 1 *)
Definition parse_one (fams : list chars) (amp : chars) (old_pos found : nat) : outcome ((chars * chars) * nat) :=
  obind (substr amp old_pos (found + 1 - old_pos)) (fun seed =>
  let fo := findc "[" seed in
  let int_fam := match fo with Some i => firstn i seed | None => seed end in
  match first_family fams int_fam with
  | None => Exit                                        (* unknown function *)
  | Some fo2 =>
      match fo with
      | None => Throw                                   (* seed.substr(npos) *)
      | Some fo =>
          let integral := skipn fo2 int_fam ++ skipn fo seed in
          let prefac := if fo2 =? 0 then [] else [nth (fo2 - 1) int_fam nul] in
          if ceqb prefac ["*"%char] then Exit           (* c*FUNCTION is not supported *)
          else
            obind (coefficient fams amp found) (fun cn =>
            let '(c, nxt) := cn in
            Ret ((integral, if ceqb prefac ["-"%char] then "-"%char :: "("%char :: c ++ [")"%char] else c), nxt))
      end
  end).
(** 110-186: the loop over the closing brackets; [n] bounds the number of iterations *)
Fixpoint parse_loop (n : nat) (fams : list chars) (amp : chars) (old_pos : nat) (acc : list (chars * chars)) : outcome (list (chars * chars)) :=
  match findc_from "]" amp old_pos with
  | None => Ret acc
  | Some found =>
      match n with
      | O => Diverge
      | S n => obind (parse_one fams amp old_pos found) (fun r => parse_loop n fams amp (snd r) (acc ++ [fst r]))
      end
  end.
Definition parse_body (fams : list chars) (amp : chars) : outcome (list (chars * chars)) :=
  match amp with [] => Exit | _ => parse_loop (length amp) fams amp 0 [] end.
Definition parse_string (fams : list chars) (amp : chars) (replacement : bool) : outcome (list (chars * chars)) :=
  if replacement then parse_body fams amp else obind (strip_braces (strip_white amp)) (parse_body fams).

(** ---- the object, AmplitudeParser.hpp:139-151 ---- *)
Record amplitude := mk_amp {
  a_vars : list chars;
  a_fams : list chars;
  integrals : list (chars * nat);
  repl_integrals : list chars;
  masters : list (chars * nat);
  masters_inv : list (nat * chars);
  mapping : list (nat * list (nat * nat));
  a_functions : list chars;
  n_integrals : nat;       (* distinct_integral_counter *)
  n_masters : nat;         (* distinct_master_counter, starts at COEF_TYPE_SIZE = 2 *)
  p_counter : nat }.       (* parser_counter *)
(** AmplitudeParser.cpp:27-29 *)
Definition new_amplitude (vars fams : list chars) : amplitude := mk_amp vars fams [] [] [] [] [] [] 0 2 0.

(** find in a map with string keys and with size_t keys *)
Fixpoint sfind {B} (k : chars) (m : list (chars * B)) : option B :=
  match m with [] => None | (k', b) :: r => if ceqb k k' then Some b else sfind k r end.
Fixpoint nfind {B} (k : nat) (m : list (nat * B)) : option B :=
  match m with [] => None | (k', b) :: r => if k =? k' then Some b else nfind k r end.
Definition smem (k : chars) (l : list chars) : bool := existsb (ceqb k) l.
(** emplace: nothing happens if the key is there *)
Definition nemplace {B} (k : nat) (b : B) (m : list (nat * B)) : list (nat * B) := match nfind k m with Some _ => m | None => m ++ [(k, b)] end.
(** amplitude_mapping[k].emplace_back(x) *)
Fixpoint npush (k : nat) (x : nat * nat) (m : list (nat * list (nat * nat))) : list (nat * list (nat * nat)) :=
  match m with [] => [(k, [x])] | (k', l) :: r => if k =? k' then (k', l ++ [x]) :: r else (k', l) :: npush k x r end.

(** AmplitudeParser.cpp:72-85: one summand of the expression; coef_type::PREFACTOR = 0 *)
Definition add_summand (st : amplitude) (ic : chars * chars) : amplitude :=
  let 'mk_amp vs fs ins rep ms inv mp fun_ ni nm pc := st in
  match sfind (fst ic) ins with
  | Some i => mk_amp vs fs ins rep ms inv (npush i (pc, 0) mp) (fun_ ++ [snd ic]) ni nm (pc + 1)
  | None => mk_amp vs fs (ins ++ [(fst ic, ni)]) rep ms inv (nemplace ni [(pc, 0)] mp) (fun_ ++ [snd ic]) (ni + 1) nm (pc + 1)
  end.
(** AmplitudeParser.cpp:64-91; 69-70 reset the counters *)
Definition parse_amplitude_string (st : amplitude) (s : chars) : outcome amplitude :=
  obind (parse_string (a_fams st) s false) (fun res =>
  let 'mk_amp vs fs ins rep ms inv mp fun_ _ nm _ := st in
  Ret (fold_left add_summand res (mk_amp vs fs ins rep ms inv mp fun_ 0 nm 0))).
(** AmplitudeParser.cpp:31-62: the text before the first semicolon; nothing is read from an empty file *)
Fixpoint before (c : ascii) (s : chars) : chars := match s with [] => [] | d :: r => if d =?c c then [] else d :: before c r end.
Definition parse_amplitude_file (st : amplitude) (content : chars) : outcome amplitude :=
  match content with [] => Ret st | _ => parse_amplitude_string st (before ";" content) end.

(** AmplitudeParser.cpp:270-281 and 307-318: one function of the right-hand side of a rule for [name] *)
Definition add_replacement (name : chars) (st : amplitude) (mc : chars * chars) : amplitude :=
  let 'mk_amp vs fs ins rep ms inv mp fun_ ni nm pc := st in
  let fresh := match sfind (fst mc) ms with None => true | Some _ => false end in
  let ms' := if fresh then ms ++ [(fst mc, nm)] else ms in
  let inv' := if fresh then nemplace (nm - 2) (fst mc) inv else inv in
  let nm' := if fresh then nm + 1 else nm in
  let i := match sfind name ins with Some i => i | None => 0 end in
  let k := match sfind (fst mc) ms' with Some k => k | None => 0 end in
  mk_amp vs fs ins rep ms' inv' (npush i (pc, k) mp) (fun_ ++ [snd mc]) ni nm' (pc + 1).
(** AmplitudeParser.cpp:252-282 and 292-319: one rule; repl_lhs[0] of an empty vector is undefined *)
Definition add_rule (st : amplitude) (lhs rhs : chars) : outcome amplitude :=
  obind (parse_string (a_fams st) lhs true) (fun l =>
  match l with
  | [] => UB
  | (name, _) :: _ =>
      match sfind name (integrals st) with
      | None => Ret st
      | Some _ =>
          if smem name (repl_integrals st) then Exit      (* multiple replacement rules *)
          else
            obind (parse_string (a_fams st) rhs true) (fun r =>
            let 'mk_amp vs fs ins rep ms inv mp fun_ ni nm pc := st in
            Ret (fold_left (add_replacement name) r (mk_amp vs fs ins (rep ++ [name]) ms inv mp fun_ ni nm pc)))
      end
  end).
(** AmplitudeParser.cpp:239-320: the loop over the arrows; [pos] is the position of the current one *)
Fixpoint table_loop (n : nat) (tab : chars) (old_pos : nat) (pos : option nat) (st : amplitude) : outcome amplitude :=
  match pos with
  | None => Ret st
  | Some pos =>
      match n with
      | O => Diverge
      | S n =>
          obind (substr_diff tab old_pos pos old_pos) (fun lhs =>
          let old_pos := pos + 2 in
          match finds_from ["-"; ">"]%char tab old_pos with
          | None => obind (substr_end tab old_pos) (add_rule st lhs)
          | Some tp =>
              let tp := rfindc_to "," tab (rfindc_to "[" tab (Some tp)) in
              match tp with
              | Some tp =>
                  obind (substr_diff tab old_pos tp old_pos) (fun rhs =>
                  obind (add_rule st lhs rhs) (table_loop n tab tp (finds_from ["-"; ">"]%char tab tp)))
              | None => obind (substr_end tab old_pos) (add_rule st lhs)    (* substr(old_pos, npos - old_pos), then find from npos *)
              end
          end)
      end
  end.
(** AmplitudeParser.cpp:229-334 *)
Definition parse_ibp_table_string (st : amplitude) (s : chars) : outcome amplitude :=
  obind (strip_braces (strip_white s)) (fun tab => table_loop (length tab) tab 0 (finds ["-"; ">"]%char tab) st).
(** AmplitudeParser.cpp:199-227: the text before the first zero character *)
Definition parse_ibp_table_file (st : amplitude) (content : chars) : outcome amplitude :=
  match content with [] => Ret st | _ => parse_ibp_table_string st (before nul content) end.

(** AmplitudeParser.cpp:339-358: one function without a rule *)
Definition add_unreplaced (st : amplitude) (ni_ : chars * nat) : amplitude :=
  let 'mk_amp vs fs ins rep ms inv mp fun_ ni nm pc := st in
  if smem (fst ni_) rep then st
  else
    match sfind (fst ni_) ms with
    | None => mk_amp vs fs ins rep (ms ++ [(fst ni_, nm)]) (nemplace (nm - 2) (fst ni_) inv) (npush (snd ni_) (pc, nm) mp) (fun_ ++ [["1"%char]]) ni (nm + 1) (pc + 1)
    | Some k => mk_amp vs fs ins rep ms inv (npush (snd ni_) (pc, k) mp) (fun_ ++ [["1"%char]]) ni nm (pc + 1)
    end.
(** AmplitudeParser.cpp:336-369; [order] is the order in which the map [integrals] is traversed *)
Definition check_for_unreplaced_masters (order : list (chars * nat)) (st : amplitude) : amplitude * nat :=
  let st' := fold_left add_unreplaced order st in (st', n_masters st' - 2).

(** ---- the coefficient of a basis function, AmplitudeParser.cpp:371-422 ---- *)
Definition paren (s : chars) : chars := "("%char :: s ++ [")"%char].
Record cst_ := mk_cst { c_text : chars; pref_done : bool; got_pref : bool; got_fun : bool }.
(** 391-413: one entry of the map; [second] - 2 = master with size_t is second = master + 2 *)
Definition coef_entry (funs : list chars) (master : nat) (c : cst_) (e : nat * nat) : outcome cst_ :=
  let 'mk_cst s pd gp gf := c in
  if (snd e =? 0) || (snd e =? 1) then
    match nth_error funs (fst e) with
    | None => UB
    | Some f => Ret (if gp then mk_cst (s ++ "+"%char :: paren f) pd gp gf else mk_cst (s ++ paren f) pd true gf)
    end
  else if snd e =? master + 2 then
    match nth_error funs (fst e) with
    | None => UB
    | Some f =>
        let s := if pd then s else s ++ [")"; "*"; "("]%char in
        Ret (if gf then mk_cst (s ++ "+"%char :: paren f) true gp gf else mk_cst (s ++ paren f) true gp true)
    end
  else Ret c.
Fixpoint coef_entries (funs : list chars) (master : nat) (l : list (nat * nat)) (c : cst_) : outcome cst_ :=
  match l with [] => Ret c | e :: r => obind (coef_entry funs master c e) (coef_entries funs master r) end.
(** 374-419: the function number [i] *)
Definition coef_of_integral (st : amplitude) (master i : nat) : outcome chars :=
  match nfind i (mapping st) with
  | None => Throw                                        (* amplitude_mapping.at(i) *)
  | Some l =>
      if existsb (fun e => snd e =? master + 2) l then
        obind (coef_entries (a_functions st) master l (mk_cst ["+"; "("]%char false false false)) (fun c => Ret (c_text c ++ [")"%char]))
      else Ret []
  end.
Fixpoint coef_upto (st : amplitude) (master : nat) (is : list nat) : outcome chars :=
  match is with [] => Ret [] | i :: r => obind (coef_of_integral st master i) (fun s => obind (coef_upto st master r) (fun t => Ret (s ++ t))) end.
Definition get_unsimplified_coef (st : amplitude) (master : nat) : outcome chars := coef_upto st master (seq 0 (n_integrals st)).
(** AmplitudeParser.cpp:424-476 (the same text) and AmplitudeParser.hpp:46-51: the black box is a parser of one function;
    59-61 prime_changed is precompute_tokens *)
Definition build_black_box (p pA : Z) (st : amplitude) (master : nat) : outcome parser :=
  obind (get_unsimplified_coef st master) (fun s => construct p pA [s] (a_vars st) false false [] []).
(** AmplitudeParser.cpp:478-480 *)
Definition get_master (st : amplitude) (i : nat) : outcome chars := match nfind i (masters_inv st) with Some n => Ret n | None => Throw end.

(** ---- /repo/ff_insert.cpp:254-279: an expression, then all tables ---- *)
Fixpoint parse_tables (st : amplitude) (l : list chars) : outcome amplitude :=
  match l with [] => Ret st | t :: l => obind (parse_ibp_table_string st t) (fun st => parse_tables st l) end.
Fixpoint parse_table_files (st : amplitude) (l : list chars) : outcome amplitude :=
  match l with [] => Ret st | t :: l => obind (parse_ibp_table_file st t) (fun st => parse_table_files st l) end.

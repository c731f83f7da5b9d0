(** class ShuntingYardParser, part 1: from strings to reverse polish notation.
    /repo/source/ShuntingYardParser.cpp (validate 778-837, parse 201-313, get_weight 484-503, is_operand 505-510, is_operator 512-517, is_variable 519-524).
    A std::string is a [list ascii]; reading r[r.size()] gives the terminating zero character.
    Simplified: the int positions of validate are unbounded integers (strings shorter than 2^31 characters). *)
From Coq Require Export Ascii String.
From Verif Require Import Machine FFInt FFVec.
Open Scope nat_scope.

Notation chars := (list ascii).
Definition nul : ascii := "000"%char.
Infix "=?c" := Ascii.eqb (at level 70).

(** ShuntingYardParser.cpp:28 chars, 519-524 is_variable: the letters *)
Definition is_variable (c : ascii) : bool := is_alpha c.
(** ShuntingYardParser.cpp:512-517 is_operator *)
Definition is_operator (c : ascii) : bool :=
  (c =?c "+") || (c =?c "-") || (c =?c "*") || (c =?c "/") || (c =?c "^").
(** ShuntingYardParser.cpp:505-510 is_operand *)
Definition is_operand (c : ascii) : bool :=
  negb (is_operator c) && negb (c =?c "(") && negb (c =?c ")") && negb (is_variable c) && negb (c =?c " ").
(** ShuntingYardParser.cpp:484-503 get_weight *)
Definition weight (c : ascii) : nat :=
  if (c =?c "^") || (c =?c "!") || (c =?c "~") || (c =?c ";") then 3
  else if (c =?c "/") || (c =?c "*") then 2
  else if (c =?c "+") || (c =?c "-") then 1 else 0.

(** ---- validate ---- *)
(** ShuntingYardParser.cpp:784-821: the loop over positions i, ..., size-1 with [n] = size - i iterations left;
    [st] is the stack of positions. [Exit] is std::exit with a mismatch message. *)
Fixpoint validate_loop (n : nat) (r : chars) (st : list Z) (i : nat) : outcome chars :=
  match n with
  | O => match st with [] => Ret r | _ => Exit end
  | S m =>
      let r := if (nth i r nul =?c "+") && (nth (i + 1) r nul =?c "-") then upd r i "$"%char else r in
      let r := if (nth i r nul =?c "-") && (nth (i + 1) r nul =?c "+") then upd r (i + 1) "$"%char else r in
      let c := nth i r nul in
      if c =?c "(" then
        validate_loop m r ((if negb (i =? 0) && (nth (i - 1) r nul =?c "(") then (- Z.of_nat i)%Z else Z.of_nat i) :: st) (S i)
      else if c =?c ")" then
        match st with
        | [] => Exit
        | top :: st' =>
            let r := if negb (m =? 0) && (nth (i + 1) r nul =?c ")") && (top <? 0)%Z
                     then upd (upd r (Z.to_nat (- top)) "$"%char) i "$"%char else r in
            validate_loop m r st' (S i)
        end
      else validate_loop m r st (S i)
  end.
(** ShuntingYardParser.cpp:778-837: the loop, then all '$' are erased *)
Definition validate (r : chars) : outcome chars :=
  match validate_loop (length r + 1) r [] 0 with
  | Ret r' => Ret (filter (fun c => negb (c =?c "$")) r')
  | o => o
  end.

(** ---- parse ---- *)
Record pst := mk_pst { p_toks : list chars; p_ops : list ascii; p_tmp : chars; p_neg : bool }.

(** ShuntingYardParser.cpp:246-249: while the top of the stack binds at least as tightly, move it to the tokens *)
Fixpoint pop_ge (w : nat) (ops : list ascii) (toks : list chars) : list ascii * list chars :=
  match ops with
  | o :: t => if negb (o =?c "(") && (w <=? weight o) then pop_ge w t (toks ++ [[o]]) else (ops, toks)
  | [] => ([], toks)
  end.
(** ShuntingYardParser.cpp:281-289: pop until an opening parenthesis, which is removed *)
Fixpoint pop_paren (ops : list ascii) (toks : list chars) : list ascii * list chars :=
  match ops with
  | o :: t => if o =?c "(" then (t, toks) else pop_paren t (toks ++ [[o]])
  | [] => ([], toks)
  end.
(** tokens.back() starts with '-', has more than one character, and the character before the operator is not ')' *)
Definition neg_back (b : chars) (prev : ascii) : bool :=
  (1 <? length b) && (hd nul b =?c "-") && negb (prev =?c ")").
(** pop pending [tmp] into the tokens *)
Definition flush (toks : list chars) (tmp : chars) : list chars := match tmp with [] => toks | _ => toks ++ [tmp] end.

(** ShuntingYardParser.cpp:219-293: one character [ex]; [prev] is fun[c_counter - 1] and [rest] the characters after
    [ex] (so fun[c_counter + 1] and fun[c_counter + 2] are its first two). tokens.back() on an empty vector is [UB]. *)
Definition pstep (prev ex : ascii) (rest : chars) (s : pst) : outcome pst :=
  let 'mk_pst toks ops tmp neg := s in
  if ex =?c nul then Ret s
  else if is_operand ex || is_variable ex then Ret (mk_pst toks ops (tmp ++ [ex]) neg)
  else if is_operator ex then
    let toks1 := if neg then toks else flush toks tmp in
    let tmp1 := if neg then tmp else [] in
    let next := nth 0 rest nul in
    let next2 := nth 1 rest nul in
    if negb (match ops with [] => true | _ => false end) && (prev =?c "(") then
      if next =?c "(" then Ret (mk_pst (toks1 ++ [["0"%char]]) (ex :: ops) tmp1 neg)
      else if negb neg then Ret (mk_pst toks1 ops (ex :: tmp1) neg)
      else Ret (mk_pst toks1 ops tmp1 false)
    else if match ops, toks1 with [], [] => true | _, _ => false end then Ret (mk_pst toks1 ops (ex :: tmp1) neg)
    else
      let '(ops2, toks2) := pop_ge (weight ex) ops toks1 in
      if ex =?c "^" then
        match toks2 with
        | [] => UB
        | _ =>
          let b := last toks2 [] in
          if (next =?c "(") && (next2 =?c "-") then
            if neg_back b prev then Ret (mk_pst (removelast toks2 ++ [tl b]) (";"%char :: ops2) tmp1 true)
            else Ret (mk_pst toks2 ("~"%char :: ops2) tmp1 true)
          else if neg_back b prev then Ret (mk_pst (removelast toks2 ++ [tl b]) ("!"%char :: ops2) tmp1 neg)
          else Ret (mk_pst toks2 (ex :: ops2) tmp1 neg)
        end
      else Ret (mk_pst toks2 (ex :: ops2) tmp1 neg)
  else if ex =?c "(" then Ret (mk_pst toks ("("%char :: ops) tmp neg)
  else if ex =?c ")" then
    let '(ops2, toks2) := pop_paren ops (flush toks tmp) in Ret (mk_pst toks2 ops2 [] neg)
  else Ret s.

(** ShuntingYardParser.cpp:219-294: the loop over the characters *)
Fixpoint ploop (prev : ascii) (s : chars) (st : pst) : outcome pst :=
  match s with
  | [] => Ret st
  | c :: rest => match pstep prev c rest st with Ret st' => ploop c rest st' | Throw => Throw | Exit => Exit | UB => UB | Diverge => Diverge end
  end.

(** ShuntingYardParser.cpp:205-210: signs in front of a parenthesis at the beginning *)
Definition global_sign (f : chars) : chars :=
  match f with
  | c0 :: c1 :: _ :: _ =>
      if ((c0 =?c "+") || (c0 =?c "-")) && (c1 =?c "(") then (if c0 =?c "+" then tl f else "0"%char :: f) else f
  | _ => f
  end.

(** ShuntingYardParser.cpp:201-313 parse *)
Definition parse (f : chars) : outcome (list chars) :=
  match ploop nul (global_sign f) (mk_pst [] [] [] false) with
  | Ret (mk_pst toks ops tmp _) => Ret (flush toks tmp ++ map (fun o => [o]) ops)
  | Throw => Throw | Exit => Exit | UB => UB | Diverge => Diverge
  end.

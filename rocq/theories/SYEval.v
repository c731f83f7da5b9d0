(** class ShuntingYardParser, part 2: evaluation of reverse polish notation, precomputed tokens, the parser object.
    /repo/source/ShuntingYardParser.cpp, /repo/source/include/firefly/ShuntingYardParser.hpp (FFIntTemp = FFInt).
    A stored FFInt is its integer n; [p] is FFInt::p. *)
From Coq Require Import Ascii String.
From Verif Require Import Machine FFInt FFVec SYParse.
From Coq Require Import List.
Import ListNotations.
Open Scope nat_scope.

(** ---- tokens ---- *)
Definition is_op (t : chars) : bool :=
  match t with [c] => (c =?c "+") || (c =?c "-") || (c =?c "*") || (c =?c "/") || (c =?c "^") || (c =?c "!") || (c =?c "~") || (c =?c ";") | _ => false end.
(** vars_map.find: the variables are inserted with emplace in order, so the first declaration of a name counts
    (ShuntingYardParser.cpp:37-39, 52-54) *)
Fixpoint chars_eqb (a b : chars) : bool := match a, b with [], [] => true | x :: a, y :: b => (x =?c y) && chars_eqb a b | _, _ => false end.
Fixpoint var_index (vars : list chars) (w : chars) : option nat :=
  match vars with [] => None | v :: r => if chars_eqb v w then Some 0 else option_map S (var_index r w) end.

(** mpz_class(std::string): GMP's mpz_set_str with base 0 (0x.., 0b.. and 0.. are hexadecimal, binary and octal);
    std::invalid_argument for anything else. Simplified: white space inside the token is not skipped. *)
Definition digit36 (c : ascii) : Z :=
  let n := Z.of_nat (nat_of_ascii c) in
  (if is_digit c then n - 48 else if (65 <=? n) && (n <=? 90) then n - 55 else if (97 <=? n) && (n <=? 122) then n - 87 else 99)%Z.
Fixpoint mpz_digits (base acc : Z) (s : chars) : outcome Z :=
  match s with [] => Ret acc | c :: r => if (digit36 c <? base)%Z then mpz_digits base (acc * base + digit36 c)%Z r else Throw end.
Definition mpz_unsigned (s : chars) : outcome Z :=
  match s with
  | [] => Throw
  | c :: r =>
      if negb (is_digit c) then Throw
      else if c =?c "0" then
        match r with
        | x :: r' => if (x =?c "x") || (x =?c "X") then mpz_digits 16 0 r' else if (x =?c "b") || (x =?c "B") then mpz_digits 2 0 r' else mpz_digits 8 0 r
        | [] => Ret 0%Z
        end
      else mpz_digits 10 0 s
  end.
Definition mpz_str (s : chars) : outcome Z :=
  match s with c :: r => if c =?c "-" then obind (mpz_unsigned r) (fun z => Ret (- z)%Z) else mpz_unsigned s | [] => Throw end.

Section Eval.
  Variable p : Z.                 (* FFInt::p *)
  Variable vars : list chars.     (* vars_map *)

  (** ShuntingYardParser.cpp:446-451, 456-461, 463-468: a name without sign. values[...] beyond the end is undefined,
      std::stoull reads the longest prefix of digits (at most 18, so it fits), an undeclared name exits. *)
  Definition lookup (values : list Z) (w : chars) : outcome Z :=
    match var_index vars w with
    | Some i => match nth_error values i with Some v => Ret v | None => UB end
    | None => if is_digit (hd nul w) then Ret (ff_ctor p (fst (scan_digits 0 w))) else Exit
    end.
  (** ShuntingYardParser.cpp:434-470: value of an operand token *)
  Definition tok_value (values : list Z) (t : chars) : outcome Z :=
    if 18 <? length t then
      obind (mpz_str (if hd nul t =?c "+" then tl t else t)) (fun z => Ret (ff_ctor_mpz p z))
    else if hd nul t =?c "-" then obind (lookup values (tl t)) (fun v => Ret (ff_opp p v))
    else if hd nul t =?c "+" then lookup values (tl t)
    else lookup values t.
  (** ShuntingYardParser.cpp:391-431: the operators; [b] is below [a] on the stack *)
  Definition apply_op (c : ascii) (b a : Z) : outcome Z :=
    if c =?c "+" then Ret (ff_add_assign p b a)
    else if c =?c "-" then Ret (ff_sub_assign p b a)
    else if c =?c "*" then Ret (ff_mul_assign p b a)
    else if c =?c "/" then Ret (ff_div_assign p b a)
    else if c =?c "^" then Ret (ff_pow p b a)
    else if c =?c "!" then Ret (ff_opp p (ff_pow p b a))
    else match ff_to_neg_int a with
         | None => UB                                  (* -INT_MIN *)
         | Some k => if c =?c "~" then Ret (ff_pow_int p b k) else Ret (ff_opp p (ff_pow_int p b k))
         end.
  (** ShuntingYardParser.cpp:384-472: one token; nums.top() of an empty stack is undefined *)
  Definition exec1 (values : list Z) (t : chars) (st : list Z) : outcome (list Z) :=
    if is_op t then
      match st with
      | a :: b :: r => obind (apply_op (hd nul t) b a) (fun v => Ret (v :: r))
      | _ => UB
      end
    else obind (tok_value values t) (fun v => Ret (v :: st)).
  Fixpoint exec (values : list Z) (ts : list chars) (st : list Z) : outcome (list Z) :=
    match ts with [] => Ret st | t :: r => obind (exec1 values t st) (exec values r) end.
  (** ShuntingYardParser.cpp:379-482 evaluate (the private one, of a single function) *)
  Definition evaluate1 (values : list Z) (ts : list chars) : outcome Z :=
    obind (exec values ts []) (fun st => match st with v :: _ => Ret v | [] => Exit end).

  (** ---- precomputed tokens ---- *)
  (** ShuntingYardParser.hpp:220-238: enum tokens with the FFInt of the pair *)
  Inductive ptok := POp (c : ascii) | PVar (i : nat) | PNegVar (i : nat) | PNum (v : Z).
  (** ShuntingYardParser.cpp:593-718 precompute. The vector precomp_tokens[i] is kept as the reversed list of the
      entries written so far (its length is j), partial_rpn[i] as a reversed list too. Division of two numbers is folded
      (621-637), division of a variable by a number becomes a multiplication (638-643). Reading an entry at j - 1 or
      j - 2 when there is none, or back() of an empty vector, is undefined. *)
  Definition pre_num (rp : list ptok) (pr : list (nat * list chars)) (v : Z) (r : chars) :=
    Ret (PNum v :: rp, (length rp, [r]) :: pr).
  Definition pre_name (rp : list ptok) (pr : list (nat * list chars)) (neg : bool) (w r : chars) : outcome (list ptok * list (nat * list chars)) :=
    match var_index vars w with
    | Some i => Ret ((if neg then PNegVar i else PVar i) :: rp, pr)
    | None => if is_digit (hd nul w) then
                let v := ff_ctor p (fst (scan_digits 0 w)) in pre_num rp pr (if neg then ff_opp p v else v) r
              else Exit
    end.
  Definition pre1 (t : chars) (s : list ptok * list (nat * list chars)) : outcome (list ptok * list (nat * list chars)) :=
    let '(rp, pr) := s in
    if is_op t then
      if hd nul t =?c "/" then
        match rp with
        | PNum b :: PNum a :: rp' =>
            match pr with
            | (_, v1) :: (_, v2) :: pr' => Ret (PNum (ff_div p a b) :: rp', (length rp', v2 ++ v1 ++ [["/"%char]]) :: pr')
            | _ => UB
            end
        | PNum b :: (PVar _ as v) :: rp' | PNum b :: (PNegVar _ as v) :: rp' =>
            match pr with
            | (k, c :: _) :: pr' => Ret (POp "*"%char :: PNum (ff_div p (ff_ctor p 1) b) :: v :: rp', (k, [["1"%char]; c; ["/"%char]]) :: pr')
            | _ => UB
            end
        | [PNum _] => UB
        | [] => UB
        | _ => Ret (POp "/"%char :: rp, pr)
        end
      else Ret (POp (hd nul t) :: rp, pr)
    else if 18 <? length t then
      let tmp := if hd nul t =?c "+" then tl t else t in
      obind (mpz_str tmp) (fun z => pre_num rp pr (ff_ctor_mpz p z) tmp)
    else if hd nul t =?c "-" then pre_name rp pr true (tl t) ("-"%char :: tl t)
    else if hd nul t =?c "+" then pre_name rp pr false (tl t) t
    else pre_name rp pr false t t.
  Fixpoint pre_loop (ts : list chars) (s : list ptok * list (nat * list chars)) : outcome (list ptok * list (nat * list chars)) :=
    match ts with [] => Ret s | t :: r => obind (pre1 t s) (pre_loop r) end.
  Definition precompute (ts : list chars) : outcome (list ptok * list (nat * list chars)) :=
    obind (pre_loop ts ([], [])) (fun s => Ret (rev (fst s), rev (snd s))).

  (** ShuntingYardParser.hpp:375-460 evaluate_pre: one function *)
  Definition exec_pre1 (values : list Z) (t : ptok) (st : list Z) : outcome (list Z) :=
    match t with
    | POp c => match st with a :: b :: r => obind (apply_op c b a) (fun v => Ret (v :: r)) | _ => UB end
    | PVar i => match nth_error values i with Some v => Ret (v :: st) | None => UB end
    | PNegVar i => match nth_error values i with Some v => Ret (ff_opp p v :: st) | None => UB end
    | PNum v => Ret (v :: st)
    end.
  Fixpoint exec_pre (values : list Z) (ts : list ptok) (st : list Z) : outcome (list Z) :=
    match ts with [] => Ret st | t :: r => obind (exec_pre1 values t st) (exec_pre values r) end.
  Definition eval_pre1 (values : list Z) (ts : list ptok) : outcome Z :=
    obind (exec_pre values ts []) (fun st => match st with v :: _ => Ret v | [] => Exit end).

  (** ShuntingYardParser.cpp:585-589: after a change of the prime only the numbers are computed again *)
  Fixpoint refresh (parts : list (nat * list chars)) (ts : list ptok) : outcome (list ptok) :=
    match parts with
    | [] => Ret ts
    | (j, r) :: parts => obind (evaluate1 [0%Z] r) (fun v => refresh parts (upd ts j (PNum v)))
    end.
End Eval.

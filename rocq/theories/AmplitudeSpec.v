(** Specification for the insertion of replacement rules into an expression (C50): the input format, as used in
    /repo/examples/ff_insert, and the coefficients that the insertion has to give. Independent of the parser model. *)
From Coq Require Import Ascii String.
From Verif Require Import Machine FFInt SYGrammar.
From Coq Require Import List.
Import ListNotations.
Open Scope nat_scope.

(** one summand of a sum:  +F[1,2,{3}]*c  or  -F[1,2,{3}]  (no coefficient). c is a product or quotient of numbers,
    variables and expressions in parentheses. *)
Record summand := mk_sm { s_minus : bool; s_fam : list ascii; s_idx : list ascii; s_cf : option term }.
Definition fname (fam idx : list ascii) : list ascii := fam ++ "["%char :: idx ++ ["]"%char].
Definition s_name (s : summand) : list ascii := fname (s_fam s) (s_idx s).
(** a replacement rule  F[1,2,{3}] -> sum *)
Record rule := mk_rule { r_fam : list ascii; r_idx : list ascii; r_plus : bool; r_rhs : list summand }.
Definition r_name (r : rule) : list ascii := fname (r_fam r) (r_idx r).

(** ---- spelling ---- *)
Definition show_body (s : summand) : list ascii := s_name s ++ match s_cf s with None => [] | Some t => "*"%char :: show_t t end.
Definition show_sg (m : bool) : ascii := (if m then "-" else "+")%char.
Definition show_rest (l : list summand) : list ascii := flat_map (fun s => show_sg (s_minus s) :: show_body s) l.
(** the first summand may have a plus sign; an empty sum is spelled 0 *)
Definition show_sum (plus : bool) (l : list summand) : list ascii :=
  match l with
  | [] => ["0"%char]
  | s :: r => (if s_minus s || plus then [show_sg (s_minus s)] else []) ++ show_body s ++ show_rest r
  end.
Definition show_rule (r : rule) : list ascii := r_name r ++ "-"%char :: ">"%char :: show_sum (r_plus r) (r_rhs r).
(** rules are separated by commas *)
Fixpoint show_rules (l : list rule) : list ascii :=
  match l with [] => [] | [r] => show_rule r | r :: l => show_rule r ++ ","%char :: show_rules l end.
(** optional braces around the whole *)
Definition braced (b1 b2 : bool) (s : list ascii) : list ascii := (if b1 then ["{"%char] else []) ++ s ++ (if b2 then ["}"%char] else []).

(** ---- admissible input ---- *)
Definition occurs (f s : list ascii) : Prop := exists a b, s = a ++ f ++ b.
(** the list of the functions: names made of letters and digits; a name that contains another one starts with it and
    stands after it (as F1 and F1x12 in /repo/examples/ff_insert/config/functions) *)
Definition families_ok (fams : list (list ascii)) : Prop :=
  Forall wf_word fams /\
  forall l f r, fams = l ++ f :: r -> Forall (fun g => ~ occurs g f) r /\ Forall (fun g => occurs g f -> exists u, f = g ++ u) l.
(** arguments of a function: anything without brackets, > and white space *)
Definition idx_ok (idx : list ascii) : Prop := Forall (fun c => c <> "["%char /\ c <> "]"%char /\ c <> ">"%char /\ ~ white c) idx.
(** a coefficient contains no name of a function, except perhaps the first one in the list *)
Definition coef_ok (fams : list (list ascii)) (t : term) : Prop := wf_t t /\ Forall (fun f => ~ occurs f (show_t t)) (tl fams).
Definition summand_ok (fams : list (list ascii)) (s : summand) : Prop :=
  In (s_fam s) fams /\ idx_ok (s_idx s) /\ match s_cf s with None => True | Some t => coef_ok fams t end.
Definition rule_ok (fams : list (list ascii)) (r : rule) : Prop := In (r_fam r) fams /\ idx_ok (r_idx r) /\ Forall (summand_ok fams) (r_rhs r).
(** the coefficients of a sum and of rules *)
Definition coefs_of (l : list summand) : list term := flat_map (fun s => match s_cf s with None => [] | Some t => [t] end) l.

(** an expression and tables with rules: no function of the expression has two rules *)
Record input_ok (fams : list (list ascii)) (A : list summand) (T : list (list rule)) : Prop := mk_input {
  in_fams : families_ok fams;
  in_sum : Forall (summand_ok fams) A;
  in_rules : Forall (fun t => t <> [] /\ Forall (rule_ok fams) t) T;
  in_once : NoDup (filter (fun n => if in_dec (list_eq_dec ascii_dec) n (map s_name A) then true else false) (map r_name (concat T))) }.
(** the texts: white space anywhere, optional braces around the whole *)
Definition text_of_sum (A : list summand) (s : list ascii) : Prop := exists plus b1 b2, spaced (braced b1 b2 (show_sum plus A)) s.
Definition text_of_table (t : list rule) (s : list ascii) : Prop := exists b1 b2, spaced (braced b1 b2 (show_rules t)) s.
(** the coefficients as functions for the parser of rational functions *)
Definition coef_trees (A : list summand) (T : list (list rule)) : list expr := map (ELead SNone) (coefs_of A ++ coefs_of (flat_map r_rhs (concat T))).

(** ---- meaning ---- *)
Definition name_dec (a b : list ascii) : {a = b} + {a <> b} := list_eq_dec ascii_dec a b.
(** the rule for a function *)
Definition rule_for (R : list rule) (n : list ascii) : option rule := find (fun r => if name_dec n (r_name r) then true else false) R.
(** [m] stands in the expression [A] after the rules [R] have been applied (once) *)
Definition basis (A : list summand) (R : list rule) (m : list ascii) : Prop :=
  exists s, In s A /\ match rule_for R (s_name s) with None => m = s_name s | Some r => In m (map s_name (r_rhs r)) end.
Definition sumZ {A} (f : A -> Z) (l : list A) : Z := fold_right (fun a acc => f a + acc)%Z 0%Z l.
Section Meaning.
  Variable p : Z.                          (* the prime *)
  Variable env : list ascii -> Z.          (* values of the variables and numbers *)
  (** value of a coefficient with its sign *)
  Definition sm_val (s : summand) : Z :=
    let v := match s_cf s with None => 1%Z | Some t => den_t p env t end in if s_minus s then (- v)%Z else v.
  (** coefficient of the function [m] in a sum *)
  Definition sum_coef (l : list summand) (m : list ascii) : Z := sumZ (fun s => if name_dec (s_name s) m then sm_val s else 0%Z) l.
  (** coefficient of [m] in what replaces the function [n] *)
  Definition repl_coef (R : list rule) (n m : list ascii) : Z :=
    match rule_for R n with Some r => sum_coef (r_rhs r) m | None => if name_dec n m then 1%Z else 0%Z end.
  (** coefficient of [m] in the expression after the replacement *)
  Definition inserted_coef (A : list summand) (R : list rule) (m : list ascii) : Z := sumZ (fun s => (sm_val s * repl_coef R (s_name s) m)%Z) A.
  (** value of a sum if the functions have the values [V], and of the expression with the rules inserted *)
  Definition sum_val (V : list ascii -> Z) (l : list summand) : Z := sumZ (fun s => (sm_val s * V (s_name s))%Z) l.
  Definition inserted_val (V : list ascii -> Z) (A : list summand) (R : list rule) : Z :=
    sum_val (fun n => match rule_for R n with Some r => sum_val V (r_rhs r) | None => V n end) A.
End Meaning.

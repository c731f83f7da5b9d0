(** The documented input language of the parser (README.md:161-213), as concrete syntax trees: how a tree is spelled
    and what it means. Independent of the parser model. *)
From Coq Require Import Ascii String Znumtheory.
From Verif Require Import Machine FFInt.
Open Scope nat_scope.

(** optional sign in front of the first term of an expression: none, +, -, +- , -+ *)
Inductive sign := SNone | SPlus | SMinus | SPlusMinus | SMinusPlus.
(** binary operators between terms, with the spellings that README allows for minus *)
Inductive addop := OAdd | OSub | OAddSub | OSubAdd.
(** exponents: x^n, x^(n), x^(-n), the literal n given by its digits *)
Inductive expo := XNone | XPow (n : list ascii) | XPowPar (n : list ascii) | XNeg (n : list ascii).

Inductive base := Atom (w : list ascii) | Par (e : expr)
with factor := Fac (b : base) (x : expo)
with term := TFac (f : factor) | TMul (t : term) (f : factor) | TDiv (t : term) (f : factor)
with expr := ELead (s : sign) (t : term) | EBin (e : expr) (o : addop) (t : term).

Scheme base_mut := Induction for base Sort Prop
  with factor_mut := Induction for factor Sort Prop
  with term_mut := Induction for term Sort Prop
  with expr_mut := Induction for expr Sort Prop.
Combined Scheme syntax_ind from base_mut, factor_mut, term_mut, expr_mut.

(** ---- spelling ---- *)
Definition show_sign (s : sign) : list ascii :=
  list_ascii_of_string (match s with SNone => "" | SPlus => "+" | SMinus => "-" | SPlusMinus => "+-" | SMinusPlus => "-+" end)%string.
Definition show_op (o : addop) : list ascii :=
  list_ascii_of_string (match o with OAdd => "+" | OSub => "-" | OAddSub => "+-" | OSubAdd => "-+" end)%string.
Definition show_expo (x : expo) : list ascii :=
  match x with
  | XNone => []
  | XPow n => "^"%char :: n
  | XPowPar n => "^"%char :: "("%char :: n ++ [")"%char]
  | XNeg n => "^"%char :: "("%char :: "-"%char :: n ++ [")"%char]
  end.
Fixpoint show_b (b : base) : list ascii := match b with Atom w => w | Par e => "("%char :: show_e e ++ [")"%char] end
with show_f (f : factor) : list ascii := match f with Fac b x => show_b b ++ show_expo x end
with show_t (t : term) : list ascii :=
  match t with TFac f => show_f f | TMul t f => show_t t ++ "*"%char :: show_f f | TDiv t f => show_t t ++ "/"%char :: show_f f end
with show_e (e : expr) : list ascii :=
  match e with ELead s t => show_sign s ++ show_t t | EBin e o t => show_e e ++ show_op o ++ show_t t end.

(** ---- well-formedness: atoms and exponents are spelled with letters and digits ---- *)
Definition alnum (c : ascii) : bool := is_alpha c || is_digit c.
Definition wf_word (w : list ascii) : Prop := w <> [] /\ forallb alnum w = true.
Definition wf_num (w : list ascii) : Prop := w <> [] /\ forallb is_digit w = true.
Definition wf_x (x : expo) : Prop := match x with XNone => True | XPow n | XPowPar n | XNeg n => wf_num n end.
Fixpoint wf_b (b : base) : Prop := match b with Atom w => wf_word w | Par e => wf_e e end
with wf_f (f : factor) : Prop := match f with Fac b x => wf_b b /\ wf_x x end
with wf_t (t : term) : Prop := match t with TFac f => wf_f f | TMul t f | TDiv t f => wf_t t /\ wf_f f end
with wf_e (e : expr) : Prop := match e with ELead s t => wf_t t | EBin e o t => wf_e e /\ wf_t t end.

(** ---- meaning in Z/p ---- *)
(** value of a digit string *)
Fixpoint dec_acc (acc : Z) (w : list ascii) : Z :=
  match w with [] => acc | c :: t => dec_acc (10 * acc + (Z.of_nat (nat_of_ascii c) - 48)) t end.
Definition dec (w : list ascii) : Z := dec_acc 0 w.

Section Meaning.
  Variable p : Z.                          (* the prime *)
  Variable env : list ascii -> Z.          (* value of a variable or a number *)
  (** 1/x by Fermat's little theorem; dividing by zero gives zero (as FFInt does) *)
  Definition inv_p (x : Z) : Z := (if x =? 0 then 0 else x ^ (p - 2) mod p)%Z.
  Definition den_x (v : Z) (x : expo) : Z :=
    match x with XNone => v | XPow n | XPowPar n => (v ^ dec n mod p)%Z | XNeg n => (inv_p v ^ dec n mod p)%Z end.
  Definition den_sign (s : sign) (v : Z) : Z := match s with SNone | SPlus => v | _ => ((- v) mod p)%Z end.
  Fixpoint den_b (b : base) : Z := match b with Atom w => env w | Par e => den_e e end
  with den_f (f : factor) : Z := match f with Fac b x => den_x (den_b b) x end
  with den_t (t : term) : Z :=
    match t with
    | TFac f => den_f f
    | TMul t f => ((den_t t * den_f f) mod p)%Z
    | TDiv t f => ((den_t t * inv_p (den_f f)) mod p)%Z
    end
  with den_e (e : expr) : Z :=
    match e with
    | ELead s t => den_sign s (den_t t)       (* a sign applies to the whole first term: -x^2*y = -(x^2*y) *)
    | EBin e o t => match o with OAdd => ((den_e e + den_t t) mod p)%Z | _ => ((den_e e - den_t t) mod p)%Z end
    end.
End Meaning.

(** ---- what a user has to respect (README.md:161-213 and ShuntingYardParser.hpp:40: names of at most 16 characters,
    declared variables) together with the limits of the representation: a literal of 18 or more digits has no leading
    zero, an exponent is smaller than p - 1 (a negative one also than 2^31) ---- *)
Section Admissible.
  Variable p : Z.
  Variable vars : list (list ascii).
  Definition literal (w : list ascii) : Prop := wf_num w /\ ~ In w vars /\ (length w < 18 \/ hd "0"%char w <> "0"%char).
  Definition ok_word (w : list ascii) : Prop := (In w vars /\ length w <= 16) \/ literal w.
  Definition ok_x (x : expo) : Prop :=
    match x with
    | XNone => True
    | XPow n | XPowPar n => literal n /\ (dec n < p - 1)%Z
    | XNeg n => literal n /\ (dec n < p)%Z /\ (dec n < 2 ^ 31)%Z
    end.
  Fixpoint ok_b (b : base) : Prop := match b with Atom w => ok_word w | Par e => ok_e e end
  with ok_f (f : factor) : Prop := match f with Fac b x => ok_b b /\ ok_x x end
  with ok_t (t : term) : Prop := match t with TFac f => ok_f f | TMul t f | TDiv t f => ok_t t /\ ok_f f end
  with ok_e (e : expr) : Prop := match e with ELead s t => ok_t t | EBin e o t => ok_e e /\ ok_t t end.
  (** the values of words: variables take the values of the point (the first declaration of a name counts), literals
      their residue *)
  Definition env_ok (values : list Z) (env : list ascii -> Z) : Prop :=
    (forall i w, nth_error vars i = Some w -> (forall j, j < i -> nth_error vars j <> Some w) -> nth_error values i = Some (env w)) /\
    (forall w, wf_num w -> ~ In w vars -> env w = (dec w mod p)%Z).
End Admissible.

(** the spelling ends in a division that is not inside further operations: a/b, (a/b), ((a/b)), ... *)
Fixpoint quot_f (f : factor) : bool := match f with Fac (Par e) XNone => quot_e e | _ => false end
with quot_t (t : term) : bool := match t with TFac f => quot_f f | TMul _ _ => false | TDiv _ _ => true end
with quot_e (e : expr) : bool := match e with ELead _ t => quot_t t | EBin _ _ _ => false end.
(** a single variable, possibly signed or in parentheses: x, -x, (x), (-x), ((x)), ... *)
Fixpoint lone_f (f : factor) : bool :=
  match f with Fac (Atom w) XNone => negb (forallb is_digit w) | Fac (Par e) XNone => lone_e e | _ => false end
with lone_t (t : term) : bool := match t with TFac f => lone_f f | _ => false end
with lone_e (e : expr) : bool := match e with ELead _ t => lone_t t | EBin _ _ _ => false end.
(** a number or a quotient of numbers, possibly signed or in parentheses: 2, (2/3), (-2/(3/4)), ... *)
Fixpoint cst_f (f : factor) : bool :=
  match f with Fac (Atom w) XNone => forallb is_digit w | Fac (Par e) XNone => cst_e e | _ => false end
with cst_t (t : term) : bool := match t with TFac f => cst_f f | TMul _ _ => false | TDiv t f => cst_t t && cst_f f end
with cst_e (e : expr) : bool := match e with ELead _ t => cst_t t | EBin _ _ _ => false end.
(** no single variable is divided by a quotient of numbers in parentheses, as in x/(2/3) *)
Fixpoint nq_b (b : base) : Prop := match b with Atom _ => True | Par e => nq_e e end
with nq_f (f : factor) : Prop := match f with Fac b _ => nq_b b end
with nq_t (t : term) : Prop := match t with TFac f => nq_f f | TMul t f => nq_t t /\ nq_f f | TDiv t f => nq_t t /\ nq_f f /\ (lone_t t && cst_f f && quot_f f) = false end
with nq_e (e : expr) : Prop := match e with ELead _ t => nq_t t | EBin e _ t => nq_e e /\ nq_t t end.
(** no exponent is negative *)
Definition nn_x (x : expo) : Prop := match x with XNeg _ => False | _ => True end.
Fixpoint nn_b (b : base) : Prop := match b with Atom _ => True | Par e => nn_e e end
with nn_f (f : factor) : Prop := match f with Fac b x => nn_b b /\ nn_x x end
with nn_t (t : term) : Prop := match t with TFac f => nn_f f | TMul t f | TDiv t f => nn_t t /\ nn_f f end
with nn_e (e : expr) : Prop := match e with ELead _ t => nn_t t | EBin e _ t => nn_e e /\ nn_t t end.

(** every closing parenthesis has an opening one before it and none stays open; [d] are open already *)
Fixpoint balanced (d : nat) (s : list ascii) : bool :=
  match s with
  | [] => d =? 0
  | c :: r => if Ascii.eqb c "(" then balanced (S d) r
              else if Ascii.eqb c ")" then match d with O => false | S d => balanced d r end
              else balanced d r
  end.

(** the assumptions on prime, names and functions (a name that consists of digits only cannot be told from a number) *)
Record good (p : Z) (vars : list (list ascii)) (es : list expr) : Prop := mk_good {
  g_prime : prime p;
  g_size : (p < 2 ^ 63)%Z;
  g_names : forall v, In v vars -> ~ wf_num v;
  g_funs : Forall (fun e => wf_e e /\ ok_e p vars e) es }.
(** a parameter point with its environment: canonical values of the variables *)
Definition point (p : Z) (vars : list (list ascii)) (values : list Z) (env : list ascii -> Z) : Prop :=
  env_ok p vars values env /\ Forall (fun v => 0 <= v < p)%Z values.
(** ---- the same text with blanks, tabs and line breaks in it ---- *)
Definition white (c : ascii) : Prop := c = " "%char \/ c = "009"%char \/ c = "010"%char.
Inductive spaced : list ascii -> list ascii -> Prop :=
| Sp_end : spaced [] []
| Sp_white c w l : white c -> spaced w l -> spaced w (c :: l)
| Sp_char c w l : spaced w l -> spaced (c :: w) (c :: l).

(** Model of class RationalNumber (source/RationalNumber.cpp).  mpz_class is [Z];
    mpz_class operator/ is truncated division ([Z.quot]); a division by zero
    aborts the program ([None]). *)
From Verif Require Import Machine.

Record rn : Type := mk_rn { num : Z; den : Z }.

(** [x / gcd_] on mpz_class *)
Definition zdiv (a g : Z) : option Z := if g =? 0 then None else Some (Z.quot a g).

(** source/RationalNumber.cpp:24-26 and the same three lines in every operator:
    divide both parts by their gcd. *)
Definition rn_reduce (n d : Z) : option rn :=
  match zdiv n (Z.gcd n d), zdiv d (Z.gcd n d) with
  | Some n', Some d' => Some (mk_rn n' d')
  | _, _ => None
  end.

(** source/RationalNumber.cpp:28-31 etc.: move the sign into the numerator *)
Definition rn_fix_sign (r : rn) : rn :=
  if den r <? 0 then mk_rn (- num r) (- den r) else r.

(** source/RationalNumber.cpp:23-32, constructor *)
Definition rn_make (n d : Z) : option rn := option_map rn_fix_sign (rn_reduce n d).

(** source/RationalNumber.cpp:34, default constructor: both mpz members are 0 *)
Definition rn_default : rn := mk_rn 0 0.

(** source/RationalNumber.cpp:80-93 operator*= ; result is the new value of *this *)
Definition rn_mul_assign (a b : rn) : option rn :=
  let r := rn_fix_sign (mk_rn (num a * num b) (den a * den b)) in
  rn_reduce (num r) (den r).

(** source/RationalNumber.cpp:36-49 operator* : (returned value, new value of *this) *)
Definition rn_mul (a b : rn) : option (rn * rn) :=
  option_map (fun r => (r, r)) (rn_mul_assign a b).

(** source/RationalNumber.cpp:51-66 operator-= *)
Definition rn_sub_assign (a b : rn) : option rn :=
  let r := if den b =? den a then mk_rn (num a - num b) (den a)
           else mk_rn (num a * den b - num b * den a) (den a * den b) in
  let r := rn_fix_sign r in
  rn_reduce (num r) (den r).

(** source/RationalNumber.cpp:68-78 operator+= (no sign normalisation) *)
Definition rn_add_assign (a b : rn) : option rn :=
  let r := if den b =? den a then mk_rn (num a + num b) (den a)
           else mk_rn (num a * den b + num b * den a) (den a * den b) in
  rn_reduce (num r) (den r).

(** source/RationalNumber.cpp:95-97 unary minus *)
Definition rn_opp (a : rn) : option rn := rn_make (- num a) (den a).

(** source/RationalNumber.cpp:99-101 operator== *)
Definition rn_eqb (a b : rn) : bool := (num a =? num b) && (den a =? den b).

(** source/RationalNumber.cpp:123-127 gcd of two rational numbers *)
Definition rn_gcd (a b : rn) : option rn :=
  rn_make (Z.gcd (num a * den b) (num b * den a)) (den a * den b).

(** The operations a client can apply to a number it already has, for statements
    about arbitrary histories. *)
Inductive rn_op : Type :=
| OpAdd (b : rn) | OpSub (b : rn) | OpMulAssign (b : rn) | OpMul (b : rn) | OpNeg.

Definition rn_step (a : rn) (o : rn_op) : option rn :=
  match o with
  | OpAdd b => rn_add_assign a b
  | OpSub b => rn_sub_assign a b
  | OpMulAssign b => rn_mul_assign a b
  | OpMul b => option_map snd (rn_mul a b)
  | OpNeg => rn_opp a
  end.

Fixpoint rn_run (a : rn) (os : list rn_op) : option rn :=
  match os with
  | [] => Some a
  | o :: os' => match rn_step a o with Some a' => rn_run a' os' | None => None end
  end.

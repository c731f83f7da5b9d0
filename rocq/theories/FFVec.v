(** FFIntVec<N>: /repo/source/FFIntVec.cpp and include/firefly/FFIntVec.hpp.
    std::array<FFInt,N> is a [list Z] of length N of stored values. *)
From Verif Require Import Machine FFInt.
Open Scope Z_scope.

Fixpoint upd {A} (l : list A) (i : nat) (x : A) : list A :=
  match l, i with
  | [], _ => []
  | _ :: t, O => x :: t
  | y :: t, S j => y :: upd t j x
  end.

(** the loop  for (int i = 0; i != N; ++i) vec[i] = f(i, vec[i])  (FFIntVec.cpp:87-130 and later) *)
Fixpoint vloop (i n : nat) (f : nat -> Z -> Z) (v : list Z) : list Z :=
  match n with
  | O => v
  | S m => vloop (S i) m f (upd v i (f i (nth i v 0)))
  end.

Definition vec_op (N : nat) (op : Z -> Z -> Z) (a b : list Z) : list Z :=
  vloop 0 N (fun i x => op x (nth i b 0)) a.
Definition vec_scal (N : nat) (op : Z -> Z -> Z) (a : list Z) (b : Z) : list Z :=
  vloop 0 N (fun _ x => op x b) a.

(** FFIntVec.cpp:87-121 +=, -=, *=, /= and 145-213 +, -, *, / between vectors (the binary forms copy the
    left operand and use the assigning operators of FFInt) *)
Definition vadd N p a b := vec_op N (ff_add_assign p) a b.
Definition vsub N p a b := vec_op N (ff_sub_assign p) a b.
Definition vmul N p a b := vec_op N (ff_mul_assign p) a b.
Definition vdiv N p a b := vec_op N (ff_div_assign p) a b.
(** FFIntVec.cpp:156-164, 177-185 unary + and - (result starts as N zeros) *)
Definition vneg N p a := vloop 0 N (fun i _ => ff_opp p (nth i a 0)) (repeat (ff_ctor p 0) N).
Definition vpos N p a := vloop 0 N (fun i _ => ff_uplus p (nth i a 0)) (repeat (ff_ctor p 0) N).
(** FFIntVec.cpp:123-143, 296-304 pow with vector / FFInt exponents; FFIntVec.hpp:108-133 integral exponents *)
Definition vpow N p a b := vec_op N (ff_pow p) a b.
Definition vpow_ff N p a b := vec_scal N (ff_pow p) a b.
Definition vpow_int N p a k := vec_scal N (ff_pow_int p) a k.
Definition vpow_vec N p a (ks : list Z) : outcome (list Z) :=
  if (length ks =? N)%nat then Ret (vec_op N (ff_pow_int p) a ks) else Throw.
(** FFIntVec.cpp:215-253 vector op scalar *)
Definition vadd_s N p a b := vec_scal N (ff_add_assign p) a b.
Definition vsub_s N p a b := vec_scal N (ff_sub_assign p) a b.
Definition vmul_s N p a b := vec_scal N (ff_mul_assign p) a b.
Definition vdiv_s N p a b := vec_scal N (ff_div_assign p) a b.
(** FFIntVec.cpp:255-293 scalar op vector: the bodies are those of vector op scalar *)
Definition sadd_v N p b a := vec_scal N (ff_add_assign p) a b.
Definition ssub_v N p b a := vec_scal N (ff_sub_assign p) a b.
Definition smul_v N p b a := vec_scal N (ff_mul_assign p) a b.
Definition sdiv_v N p b a := vec_scal N (ff_div_assign p) a b.
(** FFIntVec.hpp:62-67 constructors from FFInt and default *)
Definition vfill (N : nat) (x : Z) : list Z := repeat x N.
(** FFIntVec.hpp:92-97 at(i); a negative index is not rejected (undefined behaviour) *)
Definition vat (N : nat) (v : list Z) (i : Z) : outcome Z :=
  if i <? Z.of_nat N - 1 then (if i <? 0 then UB else Ret (nth (Z.to_nat i) v 0)) else Throw.
(** FFIntVec.hpp:135-143 operator! *)
Definition vnot (v : list Z) : bool := existsb (fun x => x =? 0) v.

(** Straight-line arithmetic as a black box writes it, evaluated with FFIntTemp = FFInt or FFIntVec<N>. *)
Inductive aexpr : Type :=
| AVar (i : nat)
| AConst (c : Z)                       (* an FFInt constant, converted by FFIntVec(const FFInt&) *)
| AAdd (a b : aexpr) | ASub (a b : aexpr) | AMul (a b : aexpr) | ADiv (a b : aexpr)
| ANeg (a : aexpr)
| APow (a : aexpr) (k : Z)             (* pow with an integral exponent *)
| AAddS (a : aexpr) (c : Z) | ASubS (a : aexpr) (c : Z) | AMulS (a : aexpr) (c : Z) | ADivS (a : aexpr) (c : Z).

Fixpoint eval1 (p : Z) (e : aexpr) (env : nat -> Z) : Z :=
  match e with
  | AVar i => env i
  | AConst c => c
  | AAdd a b => ff_add p (eval1 p a env) (eval1 p b env)
  | ASub a b => ff_sub p (eval1 p a env) (eval1 p b env)
  | AMul a b => ff_mul p (eval1 p a env) (eval1 p b env)
  | ADiv a b => ff_div p (eval1 p a env) (eval1 p b env)
  | ANeg a => ff_opp p (eval1 p a env)
  | APow a k => ff_pow_int p (eval1 p a env) k
  | AAddS a c => ff_add p (eval1 p a env) c
  | ASubS a c => ff_sub p (eval1 p a env) c
  | AMulS a c => ff_mul p (eval1 p a env) c
  | ADivS a c => ff_div p (eval1 p a env) c
  end.

Fixpoint evalN (N : nat) (p : Z) (e : aexpr) (env : nat -> list Z) : list Z :=
  match e with
  | AVar i => env i
  | AConst c => vfill N c
  | AAdd a b => vadd N p (evalN N p a env) (evalN N p b env)
  | ASub a b => vsub N p (evalN N p a env) (evalN N p b env)
  | AMul a b => vmul N p (evalN N p a env) (evalN N p b env)
  | ADiv a b => vdiv N p (evalN N p a env) (evalN N p b env)
  | ANeg a => vneg N p (evalN N p a env)
  | APow a k => vpow_int N p (evalN N p a env) k
  | AAddS a c => vadd_s N p (evalN N p a env) c
  | ASubS a c => vsub_s N p (evalN N p a env) c
  | AMulS a c => vmul_s N p (evalN N p a env) c
  | ADivS a c => vdiv_s N p (evalN N p a env) c
  end.

(** constants are canonical, exponents are in the range of uint64_t/int64_t *)
Fixpoint aexpr_ok (p : Z) (e : aexpr) : Prop :=
  match e with
  | AVar _ => True
  | AConst c => 0 <= c < p
  | AAdd a b | ASub a b | AMul a b | ADiv a b => aexpr_ok p a /\ aexpr_ok p b
  | ANeg a => aexpr_ok p a
  | APow a k => aexpr_ok p a /\ - two63 < k < two64
  | AAddS a c | ASubS a c | AMulS a c | ADivS a c => aexpr_ok p a /\ 0 <= c < p
  end.

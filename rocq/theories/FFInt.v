(** Model of class FFInt (source/FFInt.cpp, include/firefly/FFInt.hpp), DEFAULT
    arithmetic backend.  An FFInt is its member [n] (uint64_t, a [Z]); the static
    member FFInt::p is the parameter [p] of every function. *)
From Coq Require Import String Ascii.
From Verif Require Import Machine LongDouble.

(** source/FFInt.cpp:356-369 mod_mul *)
Definition mod_mul (a0 b0 m : Z) : Z :=
  let a := if m <=? a0 then a0 mod m else a0 in
  let b := if m <=? b0 then b0 mod m else b0 in
  let x := ld_of_u64 a in
  let c := ld_trunc (ld_div (ld_mul x (ld_of_u64 b)) (ld_of_u64 m)) in
  let r := Z.rem (sint64 (wrap64 (wrap64 (a * b) - wrap64 (c * m)))) (sint64 m) in
  if r <? 0 then wrap64 (wrap64 r + m) else wrap64 r.

(** source/FFInt.cpp:371-383 mod_pow.  The loop consumes the binary digits of
    [exp] from the least significant end; [exp] is a uint64_t, written here as a
    [positive] so that the recursion is structural. *)
Fixpoint mod_pow_loop (res base : Z) (exp : positive) (m : Z) : Z :=
  match exp with
  | xH => mod_mul res base m
  | xO e => mod_pow_loop res (mod_mul base base m) e m
  | xI e => mod_pow_loop (mod_mul res base m) (mod_mul base base m) e m
  end.

Definition mod_pow (base exp m : Z) : Z :=
  match exp with
  | Zpos e => mod_pow_loop 1 base e m
  | _ => 1
  end.

(** source/FFInt.cpp:394-402, the while loop of mod_inv.  Int64 variables t,
    newt; uint64 r, newr.  [q * newt] is computed in uint64 and the difference
    is converted back to int64.  Fuel bounds the number of iterations; [None] is
    "fuel exhausted". *)
Fixpoint mod_inv_loop (fuel : nat) (t newt r newr : Z) : option (Z * Z) :=
  if newr =? 0 then Some (t, r)
  else match fuel with
       | O => None
       | S f =>
         let q := r / newr in
         mod_inv_loop f newt (sint64 (wrap64 t - wrap64 (q * wrap64 newt)))
                      newr (wrap64 (r - wrap64 (q * newr)))
       end.

(** source/FFInt.cpp:385-405 mod_inv.  130 iterations are more than Euclid's
    algorithm can make on 64-bit numbers (shown in FFIntProofs). *)
Definition mod_inv_fuel : nat := 130.

Definition mod_inv (a m : Z) : Z :=
  match mod_inv_loop mod_inv_fuel 0 1 m a with
  | Some (t, _) => if t <? 0 then wrap64 (wrap64 t + m) else wrap64 t
  | None => -1 (* not a uint64 value; excluded by mod_inv_some *)
  end.

(** include/firefly/FFInt.hpp:129-140, constructor from an integral type, for
    64-bit T: [n0] ranges over [-2^63, 2^64).  The negation of -2^63 overflows
    (undefined for int64_t); for all other n0 the negation is exact. *)
Definition ff_ctor (p n0 : Z) : Z :=
  if 0 <=? n0 then (if n0 <? p then n0 else n0 mod p)
  else wrap64 (p - wrap64 (- n0) mod p).

(** source/FFInt.cpp:30-36, constructor from mpz_class ([%] truncates). *)
Definition ff_ctor_mpz (p z : Z) : Z :=
  let i := Z.rem z p in
  if i <? 0 then p + i else i.

(** source/FFInt.cpp:131-134 operator+= *)
Definition ff_add_assign (p a b : Z) : Z :=
  if a <? wrap64 (p - b) then wrap64 (a + b) else wrap64 (wrap64 (a + b) - p).

(** source/FFInt.cpp:136-139 operator-= *)
Definition ff_sub_assign (p a b : Z) : Z :=
  if a <? b then wrap64 (wrap64 (a - b) + p) else wrap64 (a - b).

(** source/FFInt.cpp:181-187 operator+, operator- (result passes through the
    integer constructor) *)
Definition ff_add (p a b : Z) : Z := ff_ctor p (ff_add_assign p a b).
Definition ff_sub (p a b : Z) : Z := ff_ctor p (ff_sub_assign p a b).

(** source/FFInt.cpp:141-144 operator*=, 331-333 operator* *)
Definition ff_mul_assign (p a b : Z) : Z := mod_mul a b p.
Definition ff_mul (p a b : Z) : Z := ff_ctor p (mod_mul a b p).

(** source/FFInt.cpp:146-153 operator/=, 325-329 operator/ *)
Definition ff_div_assign (p a b : Z) : Z :=
  if b =? 0 then 0 else mod_mul a (mod_inv b p) p.
Definition ff_div (p a b : Z) : Z :=
  if b =? 0 then ff_ctor p 0 else ff_ctor p (mod_mul a (mod_inv b p) p).

(** source/FFInt.cpp:190-196 unary - and + *)
Definition ff_opp (p a : Z) : Z := ff_ctor p (wrap64 (p - a)).
Definition ff_uplus (p a : Z) : Z := ff_ctor p a.

(** source/FFInt.cpp:198-220: the operators ++ and --; the result is the pair
    (returned value, new value of the operand). *)
Definition ff_preincr (p x : Z) : Z * Z := (ff_add_assign p (ff_ctor p x) (ff_ctor p 1), x).
Definition ff_postincr (p x : Z) : Z * Z := (ff_add_assign p (ff_ctor p x) (ff_ctor p 1), x).
Definition ff_predecr (p x : Z) : Z * Z := (ff_sub_assign p (ff_ctor p x) (ff_ctor p 1), x).
Definition ff_postdecr (p x : Z) : Z * Z := (ff_sub_assign p (ff_ctor p x) (ff_ctor p 1), x).

(** source/FFInt.cpp:226-228 to_neg_int.  [static_cast<int>] keeps the low 32
    bits; negating INT_MIN is undefined ([None]). *)
Definition ff_to_neg_int (x : Z) : option Z :=
  let i := sint32 x in if i =? - two31 then None else Some (- i).

(** include/firefly/FFInt.hpp:149-173 pow with an integral exponent.  For
    [power] of a signed 64-bit type the negation is exact except for -2^63. *)
Definition ff_pow_int (p x power : Z) : Z :=
  if power =? 2 then ff_ctor p (mod_mul x x p)
  else if 0 <=? power then mod_pow x (wrap64 power) p
  else mod_pow (mod_inv x p) (wrap64 (- power)) p.

(** source/FFInt.cpp:155-179 pow with an FFInt exponent *)
Definition ff_pow (p x e : Z) : Z :=
  if e =? 2 then ff_ctor p (mod_mul x x p)
  else if e <? Z.shiftr p 1 then mod_pow x e p
  else mod_pow (mod_inv x p) (wrap64 (wrap64 (p - e) - 1)) p.

(** source/FFInt.cpp:222-224, 288-310 operator! and the comparisons compare the
    stored uint64 values. *)
Definition ff_eqb (a b : Z) : bool := a =? b.
Definition ff_ltb (a b : Z) : bool := a <? b.

(** ** The string constructor *)

Definition is_digit (c : ascii) : bool :=
  let n := nat_of_ascii c in (Nat.leb 48 n && Nat.leb n 57)%bool.
Definition digit_val (c : ascii) : Z := Z.of_nat (nat_of_ascii c) - 48.
(** C-locale std::isspace and std::isalpha *)
Definition is_space (c : ascii) : bool :=
  let n := nat_of_ascii c in ((Nat.leb 9 n && Nat.leb n 13) || Nat.eqb n 32)%bool.
Definition is_alpha (c : ascii) : bool :=
  let n := nat_of_ascii c in
  ((Nat.leb 65 n && Nat.leb n 90) || (Nat.leb 97 n && Nat.leb n 122))%bool.

Definition chars := list ascii.

Fixpoint skip_space (s : chars) : chars :=
  match s with
  | c :: s' => if is_space c then skip_space s' else s
  | [] => []
  end.

(** longest prefix of digits, as value and rest *)
Fixpoint scan_digits (acc : Z) (s : chars) : Z * chars :=
  match s with
  | c :: s' => if is_digit c then scan_digits (10 * acc + digit_val c) s' else (acc, s)
  | [] => (acc, [])
  end.

(** [std::istringstream >> uint64_t] (libstdc++ num_get, base 10, C locale):
    skips white space, accepts an optional sign, needs a digit, fails when the
    magnitude does not fit; a negative number is negated modulo 2^64.
    Result: extracted value and the unread rest, or [None] for failbit. *)
Definition split_sign (s : chars) : bool * chars :=
  match s with
  | c :: r => if Ascii.eqb c "+"%char then (false, r)
              else if Ascii.eqb c "-"%char then (true, r) else (false, s)
  | [] => (false, [])
  end.

Definition stream_u64 (s : chars) : option (Z * chars) :=
  let s1 := skip_space s in
  let '(neg, s2) := split_sign s1 in
  match s2 with
  | c :: _ =>
    if is_digit c then
      let '(v, rest) := scan_digits 0 s2 in
      if v <? two64 then Some (if (neg : bool) then wrap64 (- v) else v, rest) else None
    else None
  | [] => None
  end.

(** source/FFInt.cpp:262-283, the chunk loop of parse_longint on the remaining
    string [s] ([str.substr(pos)]); [fuel] >= number of chunks. *)
Fixpoint longint_loop (fuel : nat) (p result : Z) (len : nat) (s : chars) : Z :=
  match fuel with
  | O => result
  | S f =>
    match s with
    | [] => result
    | _ =>
      let chunk := firstn len s in
      let intchunk := match stream_u64 chunk with Some (v, _) => v | None => 0 end in
      let r1 := if result =? 0 then result
                else ff_mul p (ff_ctor p result) (ff_ctor p 1000000000000000000) in
      longint_loop f p (ff_add p (ff_ctor p r1) (ff_ctor p intchunk)) 18 (skipn len s)
    end
  end.

(** source/FFInt.cpp:247-286 parse_longint (called with a non-empty string only) *)
Definition parse_longint (p : Z) (s : chars) : outcome Z :=
  if forallb is_digit s then
    Ret (longint_loop (List.length s) p 0 (Nat.modulo (List.length s - 1) 18 + 1) s)
  else Throw.

(** source/FFInt.cpp:56-66, first matching replacement *)
Fixpoint find_replacement (s : string) (repl : list (string * Z)) : option Z :=
  match repl with
  | (v, x) :: r => if String.eqb v s then Some x else find_replacement s r
  | [] => None
  end.

(** source/FFInt.cpp:55-86, the string constructor.  [str.front()] on an empty
    string is undefined behaviour (it precedes the [str.empty()] test). *)
Definition ff_ctor_string (p : Z) (str : string) (repl : list (string * Z)) : outcome Z :=
  match find_replacement str repl with
  | Some v => Ret (if p <? v then v mod p else v)
  | None =>
    let s := list_ascii_of_string str in
    match s with
    | [] => UB
    | c0 :: _ =>
      if Ascii.eqb c0 "-"%char then Throw
      else match stream_u64 s with
           | Some (n, []) => Ret (if p <=? n then n mod p else n)
           | _ => if is_alpha c0 then Throw else parse_longint p s
           end
    end
  end.

(** Non-negative x87 80-bit [long double] values: significand of 64 bits, round
    to nearest, ties to even.  Used by [mod_mul] (source/FFInt.cpp:356-369).
    A value is a pair (mantissa, exponent) standing for mantissa * 2^exponent.
    Simplification: the exponent range is unbounded (the values met in
    [mod_mul] lie between 2^-64 and 2^127, far inside the x87 range). *)
From Verif Require Import Machine.

Definition ld : Type := (Z * Z)%type.

(** Round the quotient N/D of integers (D > 0) to an integer, ties to even. *)
Definition rne_div (N D : Z) : Z :=
  let q := N / D in
  let r := N mod D in
  if 2 * r <? D then q
  else if D <? 2 * r then q + 1
  else if Z.even q then q else q + 1.

(** N * 2^(-e) / D as a fraction of integers. *)
Definition scale_num (N e : Z) : Z := N * 2 ^ (Z.max 0 (- e)).
Definition scale_den (D e : Z) : Z := D * 2 ^ (Z.max 0 e).

(** Exponent e with 2^63 <= N/D * 2^(-e) < 2^64 (N, D > 0). *)
Definition ld_exp (N D : Z) : Z :=
  let e0 := Z.log2 N - Z.log2 D - 63 in
  if scale_num N e0 <? 2 ^ 63 * scale_den D e0 then e0 - 1 else e0.

(** The long double nearest to N/D. *)
Definition ld_round (N D : Z) : ld :=
  if N =? 0 then (0, 0)
  else let e := ld_exp N D in (rne_div (scale_num N e) (scale_den D e), e).

(** uint64_t -> long double *)
Definition ld_of_u64 (n : Z) : ld := ld_round n 1.

(** long double multiplication and division *)
Definition ld_mul (x y : ld) : ld :=
  let e := snd x + snd y in
  let M := fst x * fst y in
  ld_round (M * 2 ^ Z.max 0 e) (2 ^ Z.max 0 (- e)).

Definition ld_div (x y : ld) : ld :=
  let e := snd x - snd y in
  ld_round (fst x * 2 ^ Z.max 0 e) (fst y * 2 ^ Z.max 0 (- e)).

(** long double -> uint64_t (truncation; the C++ conversion is undefined when
    the truncated value does not fit, which is shown not to happen). *)
Definition ld_trunc (x : ld) : Z :=
  (fst x * 2 ^ Z.max 0 (snd x)) / 2 ^ Z.max 0 (- snd x).

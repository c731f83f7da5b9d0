(** Small specification vocabulary used in theorem statements, independent of
    the model of the C++ code. *)
From Coq Require Import String Ascii Znumtheory.
From Verif Require Import Machine.

(** Decimal digit characters and the number a digit string denotes. *)
Definition decimal_digit (c : ascii) : Prop := (48 <= N_of_ascii c <= 57)%N.
Definition decimal_value (s : string) : Z :=
  fold_left (fun acc c => 10 * acc + (Z.of_N (N_of_ascii c) - 48)) (list_ascii_of_string s) 0.
Definition all_digits (s : string) : Prop := Forall decimal_digit (list_ascii_of_string s).

(** A prime the DEFAULT backend can work with ("m must be at most 63 bit"). *)
Definition field_prime (p : Z) : Prop := prime p /\ p < 2 ^ 63.

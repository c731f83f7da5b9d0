(** Specification vocabulary for C54 *)
From Coq Require Import Permutation.
From Verif Require Import Machine Printers.
From Coq Require Import List.
Import ListNotations.

(** two sides of factors: the same terms in some order; a side that is there has the same variable *)
Definition same_side (a b : poly) : Prop := Permutation (coefs a) (coefs b) /\ (coefs a <> [] -> pn b = pn a /\ var_pos b = var_pos a).
Definition same_factor (f g : poly * poly) : Prop := same_side (fst f) (fst g) /\ same_side (snd f) (snd g).

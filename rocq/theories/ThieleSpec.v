(** Specification vocabulary for Thiele interpolation *)
From Verif Require Import Machine FField FSum FPoly.
Open Scope nat_scope.

Section ThieleSpec.
  Context {K : fops}.
  (** Thiele's inverse differences of the values f at the points y *)
  Fixpoint inverse_difference (y f : nat -> K) (i k : nat) : K :=
    match k with O => f i | S j => ((y i - y j) / (inverse_difference y f i j - inverse_difference y f j j))%K end.
  (** none of the divisions among the first n points is a division by zero *)
  Definition no_breakdown (y f : nat -> K) (n : nat) : Prop :=
    forall i j, j < i -> i < n -> inverse_difference y f i j <> inverse_difference y f j j.
  (** a_k + (x - y_k) / (a_(k+1) + (x - y_(k+1)) / ( ... + a_(k+l))) with a_i the i-th inverse difference at y_i *)
  Fixpoint continued_fraction (y f : nat -> K) (k l : nat) (x : K) : K :=
    match l with
    | O => inverse_difference y f k k
    | S l' => (inverse_difference y f k k + (x - y k) / continued_fraction y f (S k) l' x)%K
    end.
  (** a polynomial function of degree at most d *)
  Definition polynomial_function (d : nat) (g : K -> K) : Prop := exists c, forall x, g x = ueval (S d) c x.
  (** the first n pairs (point, value) *)
  Definition point_list (y f : nat -> K) (n : nat) : list (K * K) := map (fun i => (y i, f i)) (seq 0 n).
End ThieleSpec.

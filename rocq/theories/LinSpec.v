(** Specification vocabulary for dense linear algebra (independent of the model of DenseSolver.hpp).
    A matrix is a function row -> column -> entry, n is the dimension. *)
From Verif Require Import Machine FField FSum.
Open Scope nat_scope.

Section LinSpec.
  Context {K : fops}.
  (** A x = b : every row sum equals the right-hand side *)
  Definition solves (n : nat) (A : nat -> nat -> K) (b x : nat -> K) : Prop :=
    forall r, r < n -> fsum n (fun c => A r c * x c)%K = b r.
  (** the homogeneous system has only the zero solution *)
  Definition nonsingular (n : nat) (A : nat -> nat -> K) : Prop :=
    forall x, (forall r, r < n -> fsum n (fun c => A r c * x c)%K = f0) -> forall c, c < n -> x c = f0.
  (** A . X = 1, entrywise *)
  Definition right_inverse (n : nat) (A X : nat -> nat -> K) : Prop :=
    forall r c, r < n -> c < n -> fsum n (fun k => A r k * X k c)%K = if r =? c then f1 else f0.
  Definition is_inverse (n : nat) (A X : nat -> nat -> K) : Prop := right_inverse n A X /\ right_inverse n X A.
  (** the unit lower triangular and the upper triangular factor stored in one matrix *)
  Definition lu_L (A : nat -> nat -> K) : nat -> nat -> K := fun r k => if k <? r then A r k else if k =? r then f1 else f0.
  Definition lu_U (A : nat -> nat -> K) : nat -> nat -> K := fun k c => if k <=? c then A k c else f0.
End LinSpec.

(** a permutation of 0..n-1 *)
Definition perm_on (n : nat) (p : nat -> nat) : Prop :=
  (forall i, i < n -> p i < n) /\ (forall i j, i < n -> j < n -> p i = p j -> i = j) /\ (forall j, j < n -> exists i, i < n /\ p i = j).

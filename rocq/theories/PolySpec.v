(** Specification vocabulary for multivariate polynomials given as lists of (exponents, coefficient). *)
From Coq Require Import Permutation.
From Verif Require Import Machine FField FSum.
Open Scope nat_scope.

Section PolySpec.
  Context {K : fops}.
  (** x_0^e_0 * ... * x_(n-1)^e_(n-1) *)
  Fixpoint monomial_value (n : nat) (e : list Z) (x : nat -> K) : K :=
    match n with O => f1 | S m => fmul (monomial_value m e x) (pw (x m) (Z.to_nat (nth m e 0%Z))) end.
  (** sum of coefficient * monomial *)
  Definition poly_value (n : nat) (m : list (list Z * K)) (x : nat -> K) : K :=
    fold_right (fun kc acc => fadd (fmul (snd kc) (monomial_value n (fst kc) x)) acc) f0 m.
  (** an exponent vector: n components of type uint32_t *)
  Definition exponents_ok (n : nat) (e : list Z) : Prop := length e = n /\ Forall (fun z => (0 <= z < 2 ^ 32)%Z) e.
  (** a map: pairwise different keys, all of them exponent vectors *)
  Definition poly_ok (n : nat) (m : list (list Z * K)) : Prop :=
    NoDup (map fst m) /\ Forall (fun kc => exponents_ok n (fst kc)) m.
  Definition no_zero_coefficient (m : list (list Z * K)) : Prop := Forall (fun kc => snd kc <> f0) m.
  (** an unordered container may be traversed in any order *)
  Definition any_order (ord : list (list Z * K) -> list (list Z * K)) : Prop := forall m, Permutation (ord m) m.
  (** the image of 1 + ... + 1 (j times) is not zero for 0 < j <= b *)
  Definition characteristic_above (b : nat) : Prop := forall j, 0 < j <= b -> @nsum K j <> f0.
End PolySpec.
Arguments characteristic_above K b : clear implicits.

(** Specification vocabulary for the interpolation of a polynomial of n variables over a field (independent of the model of PolyReconst).
    A polynomial is a list of terms (exponents, coefficient). *)
From Verif Require Import Machine FField FSum FPoly PolySpec BMSpec.
Open Scope nat_scope.

(** total degree of a monomial *)
Definition total (e : list Z) : Z := fold_right Z.add 0%Z e.

Section Spec.
  Context {K : fops}.
  (** n variables, every exponent at most D, no exponent vector twice, no zero coefficient, not the zero polynomial *)
  Definition polynomial (n D : nat) (f : list (list Z * K)) : Prop :=
    f <> [] /\ NoDup (map fst f) /\
    forall e a, In (e, a) f -> a <> f0 /\ length e = n /\ (forall i, (0 <= nth i e 0 <= Z.of_nat D)%Z) /\ (total e < 2 ^ 31)%Z.

  (** the terms whose first j exponents are q *)
  Definition part (f : list (list Z * K)) (j : nat) (q : list Z) : list (list Z * K) :=
    filter (fun t => if list_eq_dec Z.eq_dec (firstn j (fst t)) q then true else false) f.
  (** f as a polynomial of its first j variables, the others fixed at the anchor points y: the coefficient of the monomial q *)
  Definition coefficient (n : nat) (y : nat -> K) (f : list (list Z * K)) (j : nat) (q : list Z) : K :=
    poly_value n (part f j q) (fun i => if i <? j then f1 else y i).
  (** the same coefficient as a function of the variable j *)
  Definition slice (n : nat) (y : nat -> K) (f : list (list Z * K)) (j : nat) (q : list Z) (t : K) : K :=
    poly_value n (part f j q) (fun i => if i <? j then f1 else if i =? j then t else y i).

  Definition of_degree_below (k : nat) (g : K -> K) : Prop := exists a, forall x, g x = ueval k a x.
  (** a polynomial of degree below k <= D through the first k values that predicts the next value is g *)
  Definition prediction_is_right (D : nat) (z : K) (g : K -> K) : Prop :=
    forall k h, k <= D -> of_degree_below k h -> (forall i, i <= k -> h (pw z (S i)) = g (pw z (S i))) -> forall x, h x = g x.
  (** the characteristic polynomial of the recurrence a has degree length es and the different powers z^e, e in es, as roots *)
  Definition splits (z : K) (a : nat -> K) (es : list nat) : Prop :=
    NoDup (map (pw z) es) /\ (forall i, length es < i -> a i = f0) /\
    forall e, In e es -> fsum (S (length es)) (fun i => fmul (a i) (pw (pw z e) (length es - i))) = f0.
  (** a linear recurrence of length L for the first 2 L + 1 values whose roots are powers of z holds for all values *)
  Definition recurrence_is_right (z : K) (s : nat -> K) : Prop :=
    forall L a es, recurrence a L s (2 * L + 1) -> length es <= L -> splits z a es -> forall m, recurrence a L s m.

  (** the anchor points y are suitable for f: their powers differ, no coefficient vanishes on them, different monomials of the lower
      variables have different values, and no early coincidence ends a univariate interpolation *)
  Record suitable (newton bt : bool) (n D : nat) (f : list (list Z * K)) (y : nat -> K) : Prop := mk_suitable {
    su_powers : forall j, j < n -> y j <> f0 /\ distinct (D + 2) (pw (y j));
    su_coefficients : forall j e, j <= n -> In e (map fst f) -> coefficient n y f j (firstn j e) <> f0;
    su_monomials : forall j e e', j < n -> In e (map fst f) -> In e' (map fst f) ->
      monomial_value j e y = monomial_value j e' y -> firstn j e = firstn j e';
    su_newton : newton = true -> forall j e, j < n -> In e (map fst f) -> prediction_is_right D (y j) (slice n y f j (firstn j e));
    su_bt : bt = true -> forall j e, j < n -> In e (map fst f) -> recurrence_is_right (y j) (fun k => slice n y f j (firstn j e) (pw (y j) (S k)))
  }.

  (** the value of f at the powers of the anchor points given by the orders *)
  Definition black_box (n : nat) (f : list (list Z * K)) (y : nat -> K) (orders : list nat) : K :=
    poly_value n f (fun j => pw (y j) (nth j orders 0)).
End Spec.

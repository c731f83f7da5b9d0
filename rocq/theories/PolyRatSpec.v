(** Specification vocabulary for the reconstruction of a polynomial of n variables with rational coefficients from its values over
    several primes (independent of the model of PolyReconst, except for the records of the configuration and of a session).
    A polynomial is a list of terms (exponents, (numerator, denominator)). *)
From Coq Require Import Znumtheory Permutation.
From Verif Require Import Machine FField FSum FPoly PolySpec RatNum PField RatUniSpec PolyRecSpec PolyRec PolyRecRunSpec PolyRat.
Open Scope Z_scope.

Definition qterm : Type := list Z * (Z * Z).
(** n variables, every exponent at most D, no exponent vector twice, no zero coefficient, every coefficient in lowest terms *)
Definition rational_polynomial (n D : nat) (f : list qterm) : Prop :=
  NoDup (map fst f) /\
  forall t, In t f -> fst (snd t) <> 0 /\ lowest (snd t) /\ length (fst t) = n /\ (forall i, 0 <= nth i (fst t) 0 <= Z.of_nat D) /\ total (fst t) < 2 ^ 31.

(** the polynomial modulo a prime, and the terms that do not vanish there *)
Definition over (F : pfield) (f : list qterm) : list (list Z * fld F) := map (fun t => (fst t, krat (snd t))) f.
Definition image (F : pfield) (f : list qterm) : list (list Z * fld F) := filter (fun t => negb (feqb (snd t) f0)) (over F f).

(** a fraction whose numerator and denominator are at most sqrt(M/2) *)
Definition within_root (M : Z) (c : Z * Z) : Prop := lowest c /\ 2 * (fst c * fst c) <= M /\ 2 * (snd c * snd c) <= M.
(** the same exponents with coefficients within that bound that have the same residues modulo M (there is at most one such polynomial,
    and if M is large it is f); a coefficient may be zero *)
Definition lookalike (M : Z) (f f' : list qterm) : Prop :=
  Forall2 (fun a b => fst a = fst b /\ within_root M (snd b) /\ agrees M (snd a) (snd b)) f f'.

(** the result: the map exponents -> number is the list of terms in some order *)
Definition is_polynomial (g : list (list Z * rn)) (f : list qterm) : Prop :=
  Permutation g (map (fun t => (fst t, mk_rn (fst (snd t)) (snd (snd t)))) f).

Section Run.
  Variables (c : pcfg) (D : nat) (f : list qterm).
  (** no coefficient becomes infinite, and the black box takes the values of f at the powers of the anchor points *)
  Definition values_of (s : session) : Prop :=
    (forall t, In t f -> ~ (pf_mod (se_F s) | snd (snd t))) /\
    forall orders, se_bb s orders = black_box (pc_n c) (over (se_F s) f) (se_y s) orders.
  (** the anchor points are suitable for the polynomial modulo the prime and there are enough probes; if the polynomial vanishes modulo
      the prime Newton's interpolation has to be on *)
  Definition prime_ok (s : session) : Prop :=
    let g := image (se_F s) f in
    if g then pc_newton c = true /\ (1 <= se_m s)%nat
    else config_fits c D g (se_y s) /\ suitable (pc_newton c) (pc_bt c) (pc_n c) D g (se_y s) /\ (pc_n c * depth c D g * length g <= se_m s)%nat.
  (** a wrong guess from the residues modulo M does not take the value of f at the anchor points *)
  Definition not_fooled (M : Z) (s : session) : Prop :=
    forall f', lookalike M f f' -> poly_value (pc_n c) (over (se_F s) f') (se_y s) = poly_value (pc_n c) (over (se_F s) f) (se_y s) -> f' = f.

  (** a run over several primes, from the product of the primes before it (None: it starts) to the product after it *)
  Inductive good_primes : option Z -> list session -> option Z -> Prop :=
  | gp_nil M : good_primes M [] M
  | gp_first s l M' : values_of s -> prime_ok s -> good_primes (Some (pf_mod (se_F s))) l M' -> good_primes None (s :: l) M'
  | gp_later M s l M' : values_of s -> prime_ok s -> not_fooled M s -> ~ (pf_mod (se_F s) | M) ->
      good_primes (Some (M * pf_mod (se_F s))) l M' -> good_primes (Some M) (s :: l) M'.
End Run.

(** the modulus the constructor sees: that of the first prime *)
Definition first_mod (l : list session) : Z := match l with s :: _ => pf_mod (se_F s) | [] => 0 end.

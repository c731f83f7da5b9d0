(** Specification vocabulary for the reconstruction of a univariate rational function with rational coefficients (independent of the
    model of RatReconst).  A polynomial is a list of terms (degree, (numerator, denominator)). *)
From Coq Require Import Znumtheory.
From Verif Require Import Machine FField FSum FPoly ThieleSpec RatNum PField.
Open Scope Z_scope.

Definition rterm : Type := nat * (Z * Z).
(** the greatest degree of a term *)
Definition degree (l : list rterm) : nat := fold_right Nat.max 0%nat (map fst l).
(** a fraction in lowest terms *)
Definition lowest (c : Z * Z) : Prop := 0 < snd c /\ Z.gcd (fst c) (snd c) = 1.

(** N / D: no degree twice, no zero coefficient, every coefficient in lowest terms; the coefficient of the lowest power of the
    denominator is one *)
Definition rational_function (N D : list rterm) (d0 : nat) : Prop :=
  N <> [] /\ NoDup (map fst N) /\ NoDup (map fst D) /\
  (forall t, In t (N ++ D) -> fst (snd t) <> 0 /\ lowest (snd t) /\ Z.of_nat (fst t) < 2 ^ 31) /\
  In (d0, (1, 1)) D /\ (forall t, In t D -> (d0 <= fst t)%nat).

Section Values.
  Context {K : fops}.
  (** the image of an integer and of a fraction (a fraction whose denominator vanishes has the image zero) *)
  Definition kint (z : Z) : K := if z <? 0 then fopp (nsum (Z.to_nat (- z))) else nsum (Z.to_nat z).
  Definition krat (c : Z * Z) : K := fdiv (kint (fst c)) (kint (snd c)).
  (** the value of a polynomial *)
  Fixpoint fvalue (l : list rterm) (x : K) : K :=
    match l with [] => f0 | (e, c) :: r => fadd (fmul (krat c) (pw x e)) (fvalue r x) end.
  (** no common factor: a combination of the two polynomials is one *)
  Definition coprime_polys (N D : list rterm) : Prop :=
    exists U V : K -> K, polynomial_function (degree D) U /\ polynomial_function (degree N) V /\
      forall x, (U x * fvalue N x + V x * fvalue D x)%K = f1.
  (** the probes (argument, value) of N / D *)
  Definition probe_of (N D : list rterm) (t v : K) : Prop := fvalue D t <> f0 /\ fmul v (fvalue D t) = fvalue N t.
  (** the k values a_e t^e (e in SN) and - v b_e t^e (e in SD) determine the coefficients: only the trivial combination vanishes at
      the first k probes *)
  Definition determined (SN SD : list nat) (t v : nat -> K) (k : nat) : Prop :=
    forall a b : nat -> K,
      (forall i, (i < k)%nat ->
        fold_right (fun e s => fadd (fmul (a e) (pw (t i) e)) s) f0 SN =
        fmul (v i) (fold_right (fun e s => fadd (fmul (b e) (pw (t i) e)) s) f0 SD)) ->
      (forall e, In e SN -> a e = f0) /\ (forall e, In e SD -> b e = f0).
End Values.

(** c' represents the same residue as c modulo M *)
Definition agrees (M : Z) (c c' : Z * Z) : Prop := (fst c' * snd c - fst c * snd c') mod M = 0.
(** a fraction small enough to be guessed from a residue modulo M *)
Definition guessable (M : Z) (c : Z * Z) : Prop := lowest c /\ Z.abs (fst c) * snd c < M.
(** c is the only fraction guessable modulo M that agrees with c modulo M' *)
Definition no_impostor (M M' : Z) (c : Z * Z) : Prop := forall c', guessable M c' -> agrees M' c c' -> c' = c.
(** the same terms with other coefficients that are guessable and agree modulo M *)
Definition variant (M : Z) (l l' : list rterm) : Prop :=
  Forall2 (fun a b => fst a = fst b /\ guessable M (snd b) /\ agrees M (snd a) (snd b)) l l'.

(** the result: the map degree vector -> number is the list of terms in some order *)
Definition is_result (g : list (list Z * rn)) (l : list rterm) : Prop :=
  Permutation.Permutation g (map (fun t => ([Z.of_nat (fst t)], mk_rn (fst (snd t)) (snd (snd t)))) l).

(** ---- conditions on the primes and probes of a run ---- *)
Section Run.
  Variables (N D : list rterm) (d0 : nat).
  (** argument and value of the i-th probe of a prime *)
  Definition arg (F : pfield) (pr : list (Z * Z)) (i : nat) : fld F := fofZ (fst (nth i pr (0, 0))).
  Definition value (F : pfield) (pr : list (Z * Z)) (i : nat) : fld F := fofZ (snd (nth i pr (0, 0))).
  (** the probes are values of N / D *)
  Definition probes_ok (F : pfield) (pr : list (Z * Z)) : Prop :=
    forall i, (i < length pr)%nat -> 0 <= fst (nth i pr (0, 0)) < pf_mod F /\ 0 <= snd (nth i pr (0, 0)) < pf_mod F /\ probe_of N D (arg F pr i) (value F pr i).

  (** number of points after which a Thiele interpolation of N / D is complete *)
  Definition thiele_points : nat := Nat.max (2 * degree N) (2 * degree D + 1).

  (** the prime of the univariate interpolation: no coefficient vanishes or becomes infinite, the function stays in lowest terms; the
      arguments are different, not zero, and no division by zero occurs in Thiele's scheme *)
  Definition first_prime (F : pfield) (pr : list (Z * Z)) : Prop :=
    (forall t, In t (N ++ D) -> ~ (pf_mod F | fst (snd t)) /\ ~ (pf_mod F | snd (snd t))) /\
    Z.of_nat (3 * (degree N + degree D) + 3) < pf_mod F /\ coprime_polys (K := fld F) N D /\
    probes_ok F pr /\ (thiele_points < length pr)%nat /\ value F pr 0 <> f0 /\
    distinct (S thiele_points) (arg F pr) /\ (forall i, (i <= thiele_points)%nat -> arg F pr i <> f0) /\
    no_breakdown (arg F pr) (value F pr) thiele_points /\
    (forall k, (0 < k < thiele_points)%nat -> continued_fraction (arg F pr) (value F pr) k (thiele_points - 1 - k) (arg F pr thiele_points) <> f0).

  (** a wrong guess from the residues modulo M does not take the first value by accident *)
  Definition not_misled (M : Z) (F : pfield) (pr : list (Z * Z)) : Prop :=
    forall N' D', variant M N N' -> variant M D D' -> In (d0, (1, 1)) D' ->
      fvalue D' (arg F pr 0) <> f0 -> fvalue N' (arg F pr 0) = fmul (value F pr 0) (fvalue D' (arg F pr 0)) -> N' = N /\ D' = D.

  (** a further prime, M is the product of the previous ones: no coefficient becomes infinite, the probes determine any set of unknown
      coefficients, no coincidence spoils the recognition of a coefficient or of the function *)
  Definition later_prime (M : Z) (F : pfield) (pr : list (Z * Z)) : Prop :=
    (forall t, In t (N ++ D) -> ~ (pf_mod F | snd (snd t))) /\ ~ (pf_mod F | M) /\
    probes_ok F pr /\ pr <> [] /\ (length N + length D <= S (length pr))%nat /\ value F pr 0 <> f0 /\
    (forall t, In t (N ++ D) -> no_impostor M (M * pf_mod F) (snd t)) /\ not_misled M F pr /\
    (forall SN SD, NoDup SN -> NoDup SD -> incl SN (map fst N) -> incl SD (map fst D) -> ~ In d0 SD ->
       determined SN SD (arg F pr) (value F pr) (length SN + length SD)).

  (** a run over several primes, from the product of the primes used before it (None: none) to the product after it; a prime whose
      first value is zero is not used *)
  Inductive good_run : option Z -> list (pfield * list (Z * Z)) -> option Z -> Prop :=
  | gr_nil M : good_run M [] M
  | gr_zero M F t pr l M' : good_run M l M' -> good_run M ((F, (t, 0) :: pr) :: l) M'
  | gr_first F pr l M' : first_prime F pr -> good_run (Some (pf_mod F)) l M' -> good_run None ((F, pr) :: l) M'
  | gr_later M F pr l M' : later_prime M F pr -> good_run (Some (M * pf_mod F)) l M' -> good_run (Some M) ((F, pr) :: l) M'.
End Run.

(** the first value is zero for the first three primes *)
Definition three_zeros (l : list (pfield * list (Z * Z))) : Prop :=
  exists F0 F1 F2 t0 t1 t2 r0 r1 r2 r, l = (F0, (t0, 0) :: r0) :: (F1, (t1, 0) :: r1) :: (F2, (t2, 0) :: r2) :: r.

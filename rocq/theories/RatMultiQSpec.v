(** Specification vocabulary for the reconstruction of a rational function of n > 1 variables with rational coefficients from its values
    over several primes (independent of the model of RatReconst, except for the record of a session: the field, the anchor points, the
    shift, the black box on the rays and the points t). *)
From Coq Require Import Znumtheory Permutation.
From Verif Require Import Machine FField FSum FPoly PolySpec RatNum PField RatUniSpec PolyRecSpec PolyRatSpec RatMulti RatMultiSpec RatMultiRunSpec RatMultiQ.
Open Scope Z_scope.

(** N / D: no exponent vector twice, no zero coefficient, every coefficient in lowest terms, no huge degree *)
Record rational_function_n (n : nat) (N D : list qterm) : Prop := mk_rational_function_n {
  rf_num : N <> [];
  rf_den : D <> [];
  rf_num_keys : NoDup (map fst N);
  rf_den_keys : NoDup (map fst D);
  rf_terms : forall t, In t (N ++ D) -> fst (snd t) <> 0 /\ lowest (snd t) /\ length (fst t) = n /\ (forall i, 0 <= nth i (fst t) 0) /\ total (fst t) < 2 ^ 31;
  rf_size : Z.of_nat (length N + length D) < 2 ^ 31
}.

(** T' is T with every coefficient divided by a *)
Definition divided (a : Z * Z) (T T' : list qterm) : Prop :=
  Forall2 (fun t t' => fst t' = fst t /\ lowest (snd t') /\ fst (snd t') * (snd (snd t) * fst a) = fst (snd t) * snd a * snd (snd t')) T T'.
(** the same exponents with other coefficients that are guessable and agree modulo M *)
Definition qvariant (M : Z) (T T' : list qterm) : Prop :=
  Forall2 (fun a b => fst a = fst b /\ guessable M (snd b) /\ agrees M (snd a) (snd b)) T T'.

Definition no_shift {K : fops} : nat -> K := fun _ => f0.

Section Session.
  (** the function N / D is normalised: the monomial m of the denominator (in_den) or of the numerator has the coefficient one and is the only
      one of its total degree there; M is the product of the primes before *)
  Variables (n : nat) (N D : list qterm) (in_den : bool) (m : list Z).
  Definition rays : nat := Nat.max (length N) (length D).
  Definition pt (s : msession) (i : nat) : fld (ms_F s) := nth i (ms_ts s) f0.
  (** the first point, on the first ray *)
  Definition first_point (s : msession) : nat -> fld (ms_F s) := ray_point (ms_y s) no_shift (repeat 1%nat (n - 1)) (pt s 0).
  Definition first_val (s : msession) : fld (ms_F s) := ms_bb s (repeat 1%nat (n - 1)) (pt s 0).
  (** the black box of N / D on the unshifted rays *)
  Definition plain_values (s : msession) : Prop :=
    forall o t, ms_bb s o t = ray_value n (over (ms_F s) N) (over (ms_F s) D) (ms_y s) no_shift o t.

  Record later_session (M : Z) (s : msession) : Prop := mk_later_session {
    (** no coefficient becomes infinite, the prime is new *)
    ls_finite : forall t, In t (N ++ D) -> ~ (pf_mod (ms_F s) | snd (snd t));
    ls_prime : ~ (pf_mod (ms_F s) | M);
    ls_values : plain_values s;
    (** enough points; the first value is not zero; no pole is hit *)
    ls_enough : (0 < length (ms_ts s) /\ rays * (length N + length D) <= length (ms_ts s))%nat;
    ls_first : first_val s <> f0;
    ls_poles : forall i j, (1 <= i <= rays)%nat -> (j < length (ms_ts s))%nat ->
      poly_value n (over (ms_F s) D) (ray_point (ms_y s) no_shift (repeat i (n - 1)) (pt s j)) <> f0;
    (** the anchor points are not zero and tell the monomials of one degree apart *)
    ls_anchors : forall i, (i < n - 1)%nat -> ms_y s i <> f0;
    ls_apart : forall T k k', T = N \/ T = D -> In k (map fst T) -> In k' (map fst T) -> total k = total k' ->
      monomial_value (n - 1) (tl k) (ms_y s) = monomial_value (n - 1) (tl k') (ms_y s) -> k = k';
    (** no coincidence spoils the recognition of a coefficient or of the function *)
    ls_impostor : forall t, In t (N ++ D) -> no_impostor M (M * pf_mod (ms_F s)) (snd t);
    ls_misled : forall N' D', qvariant M N N' -> qvariant M D D' -> In (m, (1, 1)) (if in_den then D' else N') ->
      poly_value n (over (ms_F s) D') (first_point s) <> f0 ->
      poly_value n (over (ms_F s) N') (first_point s) = fmul (first_val s) (poly_value n (over (ms_F s) D') (first_point s)) -> N' = N /\ D' = D;
    (** the equations of a ray determine any set of unknown homogeneous parts *)
    ls_regular : forall i j SN SD, (1 <= i <= rays)%nat -> NoDup SN -> NoDup SD ->
      (forall d, In d SN -> In (Z.of_nat d) (map (fun t => total (fst t)) N) /\ (in_den = false -> Z.of_nat d <> total m)) ->
      (forall d, In d SD -> In (Z.of_nat d) (map (fun t => total (fst t)) D) /\ (in_den = true -> Z.of_nat d <> total m)) ->
      (j + (length SN + length SD) <= length (ms_ts s))%nat ->
      determined SN SD (fun k => pt s (j + k)) (fun k => ms_bb s (repeat i (n - 1)) (pt s (j + k))) (length SN + length SD)
  }.

  (** further primes, from the product M of the primes used before them to the product after them; a prime whose first value is zero is not used *)
  Inductive good_sessions : Z -> list msession -> Z -> Prop :=
  | gs_nil M : good_sessions M [] M
  | gs_zero M s l M' : ms_ts s <> [] -> first_val s = f0 -> good_sessions M l M' -> good_sessions M (s :: l) M'
  | gs_later M s l M' : later_session M s -> good_sessions (M * pf_mod (ms_F s)) l M' -> good_sessions M (s :: l) M'.

  (** the first probe of one more prime: N / D is defined and not zero there *)
  Definition one_probe (s : msession) : Prop :=
    (forall t, In t (N ++ D) -> ~ (pf_mod (ms_F s) | snd (snd t))) /\ plain_values s /\ ms_ts s <> [] /\
    poly_value n (over (ms_F s) D) (first_point s) <> f0 /\ first_val s <> f0.
End Session.

(** the first prime, before any normalisation: a multiple of N / D satisfies the conditions of the interpolation over one prime (the factor k
    makes the value at the shift one), and there are enough points *)
Definition first_session (c : mcfg) (N D : list qterm) (s : msession) : Prop :=
  (forall o t, ms_bb s o t = ray_value (mc_n c) (over (ms_F s) N) (over (ms_F s) D) (ms_y s) (ms_s s) o t) /\
  exists (k : fld (ms_F s)) Ns Ds,
    interpolable (mc_n c) (mc_norm_den c) (mc_bt c) (times k (over (ms_F s) N)) (times k (over (ms_F s) D)) Ns Ds (ms_y s) (ms_s s) (ms_ts s) /\
    mconfig_fits c (times k (over (ms_F s) N)) (times k (over (ms_F s) D)) Ns Ds /\
    (max_probes (mc_n c) (times k (over (ms_F s) N)) (times k (over (ms_F s) D)) Ns Ds <= length (ms_ts s))%nat.

(** the coefficient that is set to one: its monomial m, its value a; N' / D' is N / D divided by it; the monomial is alone in its degree *)
Definition normalisation (c : mcfg) (F : pfield) (N D : list qterm) (in_den : bool) (m : list Z) (N' D' : list qterm) : Prop :=
  exists a, normalised_by (mc_n c) (mc_norm_den c) (over F N) (over F D) in_den m false /\ In (m, a) (if in_den then D else N) /\ divided a N N' /\ divided a D D'.
(** every coefficient is within the bound of the reconstruction of rational numbers *)
Definition all_within (M : Z) (T : list qterm) : Prop := forall t, In t T -> within_root M (snd t).

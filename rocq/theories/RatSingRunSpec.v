(** Specification vocabulary for shifted systems of RatReconst over several primes (property C57; independent of the model of RatReconst, except for the record of a
    session, as in RatMultiQSpec.v, and for that of what the first prime fixes). *)
From Coq Require Import Znumtheory Permutation.
From Verif Require Import Machine FField FSum FPoly PolyFF PolySpec PField RatUniSpec PolyRecSpec PolyRatSpec RatMulti RatMultiSpec RatMultiQ RatMultiQSpec RatSingSpec RatSingRun.
Open Scope nat_scope.

(** the greatest total degree of a term *)
Definition qdegree (T : list qterm) : nat := fold_right Nat.max 0 (map (fun t => Z.to_nat (total (fst t))) T).
(** some monomial of the list has the total degree d *)
Definition has_degree (d : nat) (ks : list (list Z)) : Prop := exists k, In k ks /\ total k = Z.of_nat d.
(** the powers of t whose coefficients are unknown on a ray: those of the monomials of T and of A (the monomials of T after the shift), without the constant of the side
    where it is one *)
Definition unknown_degrees (norm : bool) (T : list qterm) (A : list (list Z)) (U : list nat) : Prop :=
  NoDup U /\ forall d, In d U <-> has_degree d (map fst T) \/ ((norm = true -> d <> 0) /\ has_degree d A).
(** A: the monomials of T over the field F after the shift s *)
Definition monomials_after (n : nat) (F : pfield) (s : nat -> fld F) (T : list qterm) (A : list (list Z)) : Prop :=
  exists Ts, translated n s (over F T) Ts /\ forall e, In e (map fst Ts) <-> In e A.

Section Session.
  (** N / D has no constants; the monomial m of the denominator (in_den) or of the numerator has the coefficient one; AN and AD: the monomials after the shift; norm_den: the
      value at the shift of the denominator or of the numerator is set to one; UN, UD: the unknown degrees *)
  Variables (n : nat) (norm_den : bool) (N D : list qterm) (AN AD : list (list Z)) (in_den : bool) (m : list Z) (UN UD : list nat).
  (** what the first prime fixes: the normalising monomial, the greatest degrees, the degrees that only the shift has brought, the number of unknowns of a ray *)
  Record fixed_by_first (x : sing_fix) : Prop := mk_fixed_by_first {
    fx_norm : sx_norm_den x = in_den /\ sx_norm x = m;
    fx_degree : sx_degn x = qdegree N /\ sx_degd x = qdegree D;
    fx_zeron : forall d, In d (sx_zeron x) <-> has_degree d AN /\ forall e, In e (map fst N) -> total e <> Z.of_nat d;
    fx_zerod : forall d, In d (sx_zerod x) <-> has_degree d AD /\ forall e, In e (map fst D) -> total e <> Z.of_nat d;
    fx_unknown : unknown_degrees (negb norm_den) N AN UN /\ unknown_degrees norm_den D AD UD;
    fx_eqn : sx_eqn x = length UN + length UD
  }.
  (** one side over a prime with the shift s, times k: the coefficients are not zero, after the shift it has the monomials A, and the field is large enough *)
  Definition shifts (F : pfield) (s : nat -> fld F) (k : fld F) (T : list qterm) (A : list (list Z)) (Ps : list (list Z * fld F)) : Prop :=
    polynomial n (qdegree T) (over F T) /\ translated n s (times k (over F T)) Ps /\ (forall e, In e (map fst Ps) <-> In e A) /\
    (exists v : nat -> fld F, distinct (S (qdegree T)) v) /\ characteristic_above (fld F) (qdegree T).
  (** k: the factor that makes the value at the shift one *)
  Definition shift_ok (F : pfield) (s : nat -> fld F) (k : fld F) (Ns Ds : list (list Z * fld F)) : Prop :=
    fmul k (poly_value n (over F (if norm_den then D else N)) s) = f1 /\ shifts F s k N AN Ns /\ shifts F s k D AD Ds.

  Definition shifted_point (s : msession) : nat -> fld (ms_F s) := ray_point (ms_y s) (ms_s s) (repeat 1 (n - 1)) (pt s 0).
  (** the black box of N / D on the shifted rays *)
  Definition shifted_values (s : msession) : Prop :=
    forall o t, ms_bb s o t = ray_value n (over (ms_F s) N) (over (ms_F s) D) (ms_y s) (ms_s s) o t.

  Record shifted_session (M : Z) (s : msession) : Prop := mk_shifted_session {
    (** no coefficient becomes infinite, the prime is new *)
    ss_finite : forall t, In t (N ++ D) -> ~ (pf_mod (ms_F s) | snd (snd t))%Z;
    ss_prime : ~ (pf_mod (ms_F s) | M)%Z;
    ss_values : shifted_values s;
    ss_shift : exists k Ns Ds, shift_ok (ms_F s) (ms_s s) k Ns Ds;
    (** enough points; the first value is not zero; no pole is hit *)
    ss_enough : 0 < length (ms_ts s) /\ rays N D * (length UN + length UD) <= length (ms_ts s);
    ss_first : first_val n s <> f0;
    ss_poles : forall i j, 1 <= i <= rays N D -> j < length (ms_ts s) ->
      poly_value n (over (ms_F s) D) (ray_point (ms_y s) (ms_s s) (repeat i (n - 1)) (pt s j)) <> f0;
    (** the anchor points are not zero and tell the monomials of one degree apart *)
    ss_anchors : forall i, i < n - 1 -> ms_y s i <> f0;
    ss_apart : forall T k k', T = map fst N ++ AN \/ T = map fst D ++ AD -> In k T -> In k' T -> total k = total k' ->
      monomial_value (n - 1) (tl k) (ms_y s) = monomial_value (n - 1) (tl k') (ms_y s) -> k = k';
    (** no coincidence spoils the recognition of a coefficient or of the function *)
    ss_impostor : forall t, In t (N ++ D) -> no_impostor M (M * pf_mod (ms_F s)) (snd t);
    ss_misled : forall N' D', qvariant M N N' -> qvariant M D D' -> In (m, (1, 1)%Z) (if in_den then D' else N') ->
      poly_value n (over (ms_F s) D') (shifted_point s) <> f0 ->
      poly_value n (over (ms_F s) N') (shifted_point s) = fmul (first_val n s) (poly_value n (over (ms_F s) D') (shifted_point s)) -> N' = N /\ D' = D;
    (** the equations of a ray determine any set of unknown coefficients *)
    ss_regular : forall i j VN VD, 1 <= i <= rays N D -> NoDup VN -> NoDup VD -> incl VN UN -> incl VD UD -> j + (length VN + length VD) <= length (ms_ts s) ->
      determined VN VD (fun k => pt s (j + k)) (fun k => ms_bb s (repeat i (n - 1)) (pt s (j + k))) (length VN + length VD)
  }.
  (** further primes, from the product M of the primes used before them to the product after them; a prime whose first value is zero is not used *)
  Inductive shifted_sessions : Z -> list msession -> Z -> Prop :=
  | hs_nil M : shifted_sessions M [] M
  | hs_zero M s l M' : ms_ts s <> [] -> first_val n s = f0 -> shifted_sessions M l M' -> shifted_sessions M (s :: l) M'
  | hs_later M s l M' : shifted_session M s -> shifted_sessions (M * pf_mod (ms_F s)) l M' -> shifted_sessions M (s :: l) M'.
  (** the first probe of one more prime: N / D is defined and not zero there *)
  Definition shifted_probe (s : msession) : Prop :=
    (forall t, In t (N ++ D) -> ~ (pf_mod (ms_F s) | snd (snd t))%Z) /\ shifted_values s /\ ms_ts s <> [] /\
    poly_value n (over (ms_F s) D) (shifted_point s) <> f0 /\ first_val n s <> f0.

  (** the terms of the shift over a prime, for the numerator and for the denominator *)
  Definition terms_of_shift (F : pfield) (subn subd : list (nat * polyff (fld F))) : Prop :=
    exists (s : nat -> fld F) k Ns Ds, shift_ok F s k Ns Ds /\
      shift_terms n (qdegree N) (times k (over F N)) Ns subn /\ shift_terms n (qdegree D) (times k (over F D)) Ds subd.
End Session.

(** as [normalisation] in RatMultiQSpec.v, for a function whose coefficient set to one is not alone in its degree *)
Definition singular_normalisation (c : mcfg) (F : pfield) (N D : list qterm) (in_den : bool) (m : list Z) (N' D' : list qterm) : Prop :=
  exists a, normalised_by (mc_n c) (mc_norm_den c) (over F N) (over F D) in_den m true /\ In (m, a) (if in_den then D else N) /\ divided a N N' /\ divided a D D'.

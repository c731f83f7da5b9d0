(** Specification vocabulary for the search for a sparse shift (independent of its model) *)
From Coq Require Import Sorted.
From Verif Require Import Machine FField FSum FPoly PolySpec ThieleSpec RatUniSpec PolyRecSpec RatMultiSpec.
Open Scope nat_scope.

(** Which variables are shifted: a tuple of zeros and ones.  All tuples in the order of the search: fewer shifted variables first, then lexicographically *)
Definition pattern (n : nat) (p : list Z) : Prop := length p = n /\ Forall (fun x => x = 0%Z \/ x = 1%Z) p.
Definition shifted_variables (p : list Z) : nat := length (filter (fun x => (x =? 1)%Z) p).
Definition lex_below (a b : list Z) : Prop := exists i, i < length a /\ (nth i a 0 < nth i b 0)%Z /\ forall j, j < i -> nth j a 0%Z = nth j b 0%Z.
Definition earlier (a b : list Z) : Prop := shifted_variables a < shifted_variables b \/ (shifted_variables a = shifted_variables b /\ lex_below a b).
Definition all_patterns (n : nat) (L : list (list Z)) : Prop := StronglySorted earlier L /\ forall p, In p L <-> pattern n p.

Section Spec.
  Context {K : fops}.
  (** polynomials of one variable as terms (degree, coefficient) *)
  Definition uvalue (P : list (nat * K)) (x : K) : K := fold_right (fun t r => fadd (fmul (snd t) (pw x (fst t))) r) f0 P.
  Definition udegree (P : list (nat * K)) : nat := fold_right Nat.max 0 (map fst P).
  Definition upolynomial (P : list (nat * K)) : Prop := P <> [] /\ NoDup (map fst P) /\ forall t, In t P -> snd t <> f0.
  (** Thiele's interpolation of the function h needs this many points besides the last one *)
  Definition points_needed (R S : list (nat * K)) : nat := Nat.max (2 * udegree R) (2 * udegree S + 1).

  (** h is R / S in lowest terms, and Thiele's interpolation at the points ts succeeds: enough different points, no division by zero *)
  Record fraction (h : K -> K) (ts : list K) (R S : list (nat * K)) : Prop := mk_fraction {
    fr_num : upolynomial R;
    fr_den : upolynomial S;
    fr_coprime : exists U V : K -> K, polynomial_function (udegree S) U /\ polynomial_function (udegree R) V /\ forall t, fadd (fmul (U t) (uvalue R t)) (fmul (V t) (uvalue S t)) = f1;
    fr_values : forall i, i <= points_needed R S -> uvalue S (point ts i) <> f0 /\ fmul (h (point ts i)) (uvalue S (point ts i)) = uvalue R (point ts i);
    fr_field : exists v : nat -> K, distinct (3 * (udegree R + udegree S) + 3) v;
    fr_bound : (Z.of_nat (points_needed R S) < 2 ^ 32)%Z;
    fr_points : points_needed R S < length ts;
    fr_first : h (point ts 0) <> f0;
    fr_distinct : distinct (Datatypes.S (points_needed R S)) (point ts);
    fr_nonzero : forall i, i <= points_needed R S -> point ts i <> f0;
    fr_breakdown : no_breakdown (point ts) (fun i => h (point ts i)) (points_needed R S);
    fr_fraction : forall k, 0 < k < points_needed R S -> continued_fraction (point ts) (fun i => h (point ts i)) k (points_needed R S - 1 - k) (point ts (points_needed R S)) <> f0
  }.

  (** the shift of the variables marked by p *)
  Definition shift_by (p : list Z) (rnd : nat -> K) (i : nat) : K := if (nth i p 0 =? 1)%Z then rnd i else f0.
  (** the function bb on the first ray: (t + s_1, t y_2 + s_2, ..., t y_n + s_n) *)
  Definition on_ray (bb : (nat -> K) -> K) (y s : nat -> K) (t : K) : K := bb (fun i => match i with O => fadd t (s 0) | Datatypes.S j => fadd (fmul t (y j)) (s (Datatypes.S j)) end).

  (** ---- interpolation from known degrees ---- *)
  Section Run.
    Variables (n : nat) (norm_den bt : bool) (N D Ns Ds : list (list Z * K)) (y s : nat -> K) (ts : list K) (dn dd : list nat).
    (** the degrees whose coefficient is not set to one *)
    Definition unknowns (fixed : bool) (l : list nat) : list nat := if fixed then filter (fun d => negb (d =? 0)) l else l.

    (** conditions on the function, the shift s, the anchor points y and the points ts (cf. [interpolable]: there Thiele's interpolation finds the degrees) *)
    Record known_degrees : Prop := mk_known_degrees {
      kd_n : 2 <= n;
      kd_num : polynomial n (tdegree N) N;
      kd_den : polynomial n (tdegree D) D;
      kd_nums : translated n s N Ns;
      kd_dens : translated n s D Ds;
      kd_norm : poly_value n (if norm_den then D else N) s = f1;
      kd_layers : forall d, (hom d N <> [] -> hom d Ns <> []) /\ (hom d D <> [] -> hom d Ds <> []);
      kd_anchors : forall P d, In P [N; D; Ns; Ds] -> 0 < d -> hom d P <> [] -> suitable true bt (n - 1) d (layer d P) y;
      kd_field : exists v : nat -> K, distinct (3 * (tdegree N + tdegree D) + 3) v;
      kd_char : characteristic_above K (max_degree N D);
      (** the degrees in t of numerator and denominator on the first ray, each once *)
      kd_degrees : NoDup dn /\ NoDup dd /\ (forall d, In d dn <-> hom d Ns <> []) /\ (forall d, In d dd <-> hom d Ds <> []);
      (** no pole is hit, and the equations of a ray determine the unknown coefficients *)
      kd_poles : forall o i, probe_order (n - 1) (max_terms N D Ns Ds) (max_degree N D) o -> i < length ts -> poly_value n D (ray_point y s o (point ts i)) <> f0;
      kd_first : determined (unknowns (negb norm_den) dn) (unknowns norm_den dd) (point ts) (fun i => ray_value n N D y s (ones n) (point ts i)) (length dn + length dd - 1);
      kd_regular : forall o i SN SD, probe_order (n - 1) (max_terms N D Ns Ds) (max_degree N D) o -> NoDup SN -> NoDup SD ->
        (forall d, In d SN -> 0 < d /\ hom d Ns <> []) -> (forall d, In d SD -> 0 < d /\ hom d Ds <> []) -> i + (length SN + length SD) <= length ts ->
        determined SN SD (fun j => point ts (i + j)) (fun j => ray_value n N D y s o (point ts (i + j))) (length SN + length SD)
    }.
    (** number of probes that suffices *)
    Definition max_probes_known : nat := length dn + length dd - 1 + max_rays n N D Ns Ds * (tdegree N + tdegree D).
  End Run.
End Spec.

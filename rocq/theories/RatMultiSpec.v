(** Specification vocabulary for the interpolation of a rational function of n variables over one prime field (independent of the model of
    RatReconst).  Numerator and denominator are lists of terms (exponents, coefficient). *)
From Coq Require Import Permutation.
From Verif Require Import Machine FField FSum FPoly PolySpec ThieleSpec RatUniSpec PolyRecSpec.
Open Scope nat_scope.

Section Spec.
  Context {K : fops}.
  (** the greatest total degree of a term *)
  Definition tdegree (P : list (list Z * K)) : nat := fold_right Nat.max 0 (map (fun t => Z.to_nat (total (fst t))) P).
  (** the terms of total degree d, and these with the first variable set to one *)
  Definition hom (d : nat) (P : list (list Z * K)) : list (list Z * K) := filter (fun t => (total (fst t) =? Z.of_nat d)%Z) P.
  Definition layer (d : nat) (P : list (list Z * K)) : list (list Z * K) := map (fun t => (tl (fst t), snd t)) (hom d P).
  (** every coefficient times k *)
  Definition times (k : K) (P : list (list Z * K)) : list (list Z * K) := map (fun t => (fst t, fmul k (snd t))) P.
  (** the same polynomial after the substitution x -> x + s *)
  Definition translated (n : nat) (s : nat -> K) (P Ps : list (list Z * K)) : Prop :=
    polynomial n (tdegree P) Ps /\ tdegree Ps = tdegree P /\ forall x, poly_value n Ps x = poly_value n P (fun i => fadd (x i) (s i)).

  (** ---- the coefficient that is set to one ---- *)
  Definition zeros (n : nat) : list Z := repeat 0%Z n.
  (** the monomial m is the only one of its total degree *)
  Definition alone (m : list Z) (P : list (list Z * K)) : Prop := In m (map fst P) /\ forall m', In m' (map fst P) -> total m' = total m -> m' = m.
  (** the least monomial, where the last exponent counts most *)
  Definition colex_below (a b : list Z) : Prop := exists i, i < length a /\ (nth i a 0 < nth i b 0)%Z /\ forall j, i < j < length a -> nth j a 0%Z = nth j b 0%Z.
  Definition least (m : list Z) (P : list (list Z * K)) : Prop := In m (map fst P) /\ forall m', In m' (map fst P) -> m' = m \/ colex_below m m'.
  (** the constant of the chosen side; else a monomial alone in its degree, of the denominator if possible; else the least monomial of the denominator *)
  Definition normalised_by (n : nat) (norm_den : bool) (N D : list (list Z * K)) (in_den : bool) (m : list Z) (singular : bool) : Prop :=
    if in_dec (list_eq_dec Z.eq_dec) (zeros n) (map fst (if norm_den then D else N)) then in_den = norm_den /\ m = zeros n /\ singular = false
    else (in_den = true /\ alone m D /\ singular = false) \/
         ((forall m', ~ alone m' D) /\ in_den = false /\ alone m N /\ singular = false) \/
         ((forall m', ~ alone m' D) /\ (forall m', ~ alone m' N) /\ in_den = true /\ least m D /\ singular = true).

  (** the point t of a ray: the first variable is t + s_1, the others are t y^o + s *)
  Definition ray_point (y s : nat -> K) (o : list nat) (t : K) (i : nat) : K :=
    match i with O => fadd t (s 0) | S j => fadd (fmul t (pw (y j) (nth j o 0))) (s (S j)) end.
  (** the black box N / D on a ray *)
  Definition ray_value (n : nat) (N D : list (list Z * K)) (y s : nat -> K) (o : list nat) (t : K) : K :=
    fdiv (poly_value n N (ray_point y s o t)) (poly_value n D (ray_point y s o t)).

  (** the orders (i, ..., i, k, 1, ..., 1) of m variables with i <= T and k <= G + 1 *)
  Definition probe_order (m T G : nat) (o : list nat) : Prop :=
    exists z i k, z < m /\ 1 <= i <= T /\ 1 <= k <= G + 1 /\ o = map (fun j => if j <? z then i else if j =? z then k else 1) (seq 0 m).

  Section Run.
    Variables (n : nat) (norm_den bt : bool) (N D Ns Ds : list (list Z * K)) (y s : nat -> K) (ts : list K).
    Definition max_degree : nat := Nat.max (tdegree N) (tdegree D).
    Definition max_terms : nat := Nat.max (Nat.max (length N) (length Ns)) (Nat.max (length D) (length Ds)).
    Definition point (i : nat) : K := nth i ts f0.
    (** the first ray *)
    Definition ones : list nat := repeat 1 (n - 1).
    Definition first_value (i : nat) : K := ray_value n N D y s ones (point i).
    (** the number of points after which Thiele's interpolation on the first ray is complete *)
    Definition first_points : nat := Nat.max (2 * tdegree N) (2 * tdegree D + 1).

    (** conditions on the function, the shift s, the anchor points y and the points ts under which the interpolation succeeds *)
    Record interpolable : Prop := mk_interpolable {
      ip_n : 2 <= n;
      ip_num : polynomial n (tdegree N) N;
      ip_den : polynomial n (tdegree D) D;
      ip_nums : translated n s N Ns;
      ip_dens : translated n s D Ds;
      (** N / D is normalised to the value one at the shift: of the denominator or of the numerator *)
      ip_norm : poly_value n (if norm_den then D else N) s = f1;
      (** the shift cancels no homogeneous part *)
      ip_layers : forall d, (hom d N <> [] -> hom d Ns <> []) /\ (hom d D <> [] -> hom d Ds <> []);
      (** the anchor points are suitable for the homogeneous parts *)
      ip_anchors : forall P d, In P [N; D; Ns; Ds] -> 0 < d -> hom d P <> [] -> suitable true bt (n - 1) d (layer d P) y;
      (** the field is large enough *)
      ip_field : exists v : nat -> K, distinct (3 * (tdegree N + tdegree D) + 3) v;
      ip_char : characteristic_above K max_degree;
      (** Thiele's interpolation along the first ray: no common factor, different points, no division by zero *)
      ip_coprime : exists U V : K -> K, polynomial_function (tdegree D) U /\ polynomial_function (tdegree N) V /\
        forall t, fadd (fmul (U t) (poly_value n N (ray_point y s ones t))) (fmul (V t) (poly_value n D (ray_point y s ones t))) = f1;
      ip_points : first_points < length ts;
      ip_first : first_value 0 <> f0;
      ip_distinct : distinct (S first_points) point;
      ip_nonzero : forall i, i <= first_points -> point i <> f0;
      ip_breakdown : no_breakdown point first_value first_points;
      ip_fraction : forall k, 0 < k < first_points -> continued_fraction point first_value k (first_points - 1 - k) (point first_points) <> f0;
      (** no pole is hit, and the equations of a ray determine the unknown coefficients *)
      ip_poles : forall o i, probe_order (n - 1) max_terms max_degree o -> i < length ts -> poly_value n D (ray_point y s o (point i)) <> f0;
      ip_regular : forall o i SN SD, probe_order (n - 1) max_terms max_degree o -> NoDup SN -> NoDup SD ->
        (forall d, In d SN -> 0 < d /\ hom d Ns <> []) -> (forall d, In d SD -> 0 < d /\ hom d Ds <> []) -> i + (length SN + length SD) <= length ts ->
        determined SN SD (fun j => point (i + j)) (fun j => ray_value n N D y s o (point (i + j))) (length SN + length SD)
    }.

    (** number of probes that suffices *)
    Definition weight (P : list (list Z * K)) : nat := fold_right Nat.add 0 (map (fun t => Z.to_nat (total (fst t)) + 2) P).
    Definition max_rays : nat := (n - 1) * (weight N + weight Ns + weight D + weight Ds) + tdegree N + tdegree D.
    Definition max_probes : nat := S first_points + max_rays * (tdegree N + tdegree D).
  End Run.
End Spec.

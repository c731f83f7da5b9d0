(** Specification for the shifted systems of RatReconst over a further prime (property C56). *)
From Coq Require Import Permutation.
From Verif Require Import Machine FField FPoly PolyFF PolySpec PolyRecSpec RatMulti RatMultiSpec.
Open Scope nat_scope.

(** the subtraction term of degree d *)
Definition sub_at {K : fops} (sub : list (nat * polyff K)) (d : nat) : list (list Z * K) := match nfind sub d with Some q => pf_coefs q | None => [] end.

(** What is known of one side when a prime begins.  [P]: the polynomial over this prime, [Ps]: the one with the shift; [g]: the monomials whose coefficients are known,
    [W]: the others, [ns] lists them by degree; [sub]: the terms of the shift over the prime before; [norm]: this is the side with the constant one. *)
Record known_side {K0 K : fops} (n G : nat) (norm : bool) (P Ps : list (list Z * K)) (y : nat -> K) (g W : list (list Z)) (ns : list (nat * list (list Z)))
    (sub : list (nat * polyff K0)) (zero : list nat) : Prop := mk_known_side {
  kb_noconst : ~ In (repeat 0%Z n) (map fst P);
  kb_split : Permutation (W ++ g) (map fst P);
  kb_groups : NoDup (map fst ns) /\ (forall d l, In (d, l) ns -> l <> [] /\ Permutation l (filter (fun k => Z.to_nat (total k) =? d) W)) /\
    (forall k, In k W -> In (Z.to_nat (total k)) (map fst ns));
  kb_sub_keys : NoDup (map fst sub) /\ forall d, In d (map fst sub) -> d <= G;
  kb_sub : forall d, NoDup (map fst (sub_at sub d)) /\
    forall k a, In (k, a) (sub_at sub d) -> if feqb a f0 then k = repeat 0%Z n else length k = n /\ (forall i, (0 <= nth i k 0)%Z) /\ total k = Z.of_nat d;
  kb_shift : forall k, In k (map fst Ps) -> ~ In k (map fst P) -> (norm = true -> total k <> 0%Z) ->
    exists a, In (k, a) (sub_at sub (Z.to_nat (total k))) /\ a <> f0;
  kb_zero : forall d, In d zero -> forall k, In k (map fst P) -> total k <> Z.of_nat d;
  kb_zero_all : forall d, d <= G -> (forall k, In k (map fst P) -> total k <> Z.of_nat d) -> (exists k a, In (k, a) (sub_at sub d) /\ a <> f0) -> In d zero;
  kb_apart : forall d k k', (In k (map fst P) \/ In k (map fst (sub_at sub d))) -> (In k' (map fst P) \/ In k' (map fst (sub_at sub d))) -> total k = Z.of_nat d -> total k' = Z.of_nat d ->
    monomial_value (n - 1) (tl k) y = monomial_value (n - 1) (tl k') y -> k = k'
}.

(** the powers of t whose coefficients are unknown on a ray: a monomial of that degree is in P, or in the terms of the shift over the prime before *)
Definition unknown_powers {K0 K : fops} (G : nat) (norm : bool) (P : list (list Z * K)) (sub : list (nat * polyff K0)) (U : list nat) : Prop :=
  NoDup U /\ forall d, In d U <-> d <= G /\ ((exists k, In k (map fst P) /\ total k = Z.of_nat d) \/ ((norm = true -> d <> 0) /\ exists k a, In (k, a) (sub_at sub d) /\ a <> f0)).
(** the terms of P whose monomial is not in g, divided by a *)
Definition remaining {K : fops} (g : list (list Z)) (P : list (list Z * K)) (a : K) : list (list Z * K) :=
  map (fun t => (fst t, fdiv (snd t) a)) (filter (fun t => if in_dec (list_eq_dec Z.eq_dec) (fst t) g then false else true) P).

(** the terms of the shift: for every degree d the part of degree d of Ps without that of P; a zero coefficient stands only at the constant *)
Definition shift_terms {K : fops} (n G : nat) (P Ps : list (list Z * K)) (sub : list (nat * polyff K)) : Prop :=
  map fst sub = seq 0 (S G) /\
  forall d, d <= G -> NoDup (map fst (sub_at sub d)) /\
    (forall k a, In (k, a) (sub_at sub d) -> if feqb a f0 then k = repeat 0%Z n else length k = n /\ (forall i, (0 <= nth i k 0)%Z) /\ total k = Z.of_nat d) /\
    forall x, poly_value n (sub_at sub d) x = fsub (poly_value n (hom d Ps) x) (poly_value n (hom d P) x).

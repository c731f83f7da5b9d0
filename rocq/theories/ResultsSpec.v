(** Specification vocabulary for C52 *)
From Coq Require Import Znumtheory.
From Verif Require Import Machine RatNum SYGrammar SYObj Printers PrintSpec Results.
From Coq Require Import List.
Import ListNotations.
Open Scope Z_scope.

(** the positions 0 .. n-1 in another order: position i goes to the position [image] o i *)
Definition renumbering (n : nat) (o : list (nat * nat)) : Prop :=
  NoDup (map fst o) /\ (forall i, In i (map fst o) <-> (i < n)%nat) /\ NoDup (map snd o) /\ forall j, In j (map snd o) -> (j < n)%nat.
(** the point (t + s_1, t y_2 + s_2, ..., t y_n + s_n) modulo p *)
Definition ray (p : Z) (n : nat) (t : Z) (y s : list Z) : list Z :=
  map (fun i => match i with O => (t + nth 0 s 0) mod p | S j => (nth j y 0 * t + nth i s 0) mod p end) (seq 0 n).

(** a polynomial in one variable that is not constant *)
Definition univariate (b : Z) (m : pmap rn) : Prop := keys_ok 1 b m /\ Forall (fun e => rn_ok (snd e)) m /\ exists z c, In ([z], c) m /\ z <> 0.
(** values of numerators and denominators; a factor without numerator or denominator has one there *)
Definition numerators (p : Z) (fs : list (poly * poly)) (xs : list Z) : Z := fold_right (fun fd acc => part_at p (fst fd) xs * acc) 1 fs.
Definition denominators (p : Z) (fs : list (poly * poly)) (xs : list Z) : Z := fold_right (fun fd acc => part_at p (snd fd) xs * acc) 1 fs.
(** numerator / denominator modulo p *)
Definition quotient_at (p : Z) (f : ratfun) (xs : list Z) : Z := (poly_at p (rnum f) xs * inv_p p (part_at p (rden f) xs mod p)) mod p.
Definition canonical_point (p : Z) (n : nat) (xs : list Z) : Prop := length xs = n /\ Forall (fun x => 0 <= x < p) xs.

(** admissible factors: a side that is there is not constant; at least one side is there *)
Definition found_ok (n : nat) (b : Z) (f : found_factor) : Prop :=
  (ff_var f < n)%nat /\ (ff_num f = [] \/ univariate b (ff_num f)) /\ (ff_den f = [] \/ univariate b (ff_den f)) /\ (ff_num f <> [] \/ ff_den f <> []).
(** [g] is the function [f] together with the factors stored for the index i and the order of the variables *)
Definition completed (change : bool) (order : list (nat * nat)) (frf : list (nat * list (poly * poly))) (i : nat) (f g : ratfun) : Prop :=
  rnum g = rnum f /\ rden g = rden f /\ order_map g = (if change then order else order_map f) /\
  (forall l, In (i, l) frf -> factors g = factors f ++ l) /\ (~ In i (map fst frf) -> factors g = factors f).
(** [values] has the n coordinates of the ray in the order of the user's variables: coordinate i at the position that the order gives to it *)
Definition on_ray (p : Z) (n : nat) (o : list (nat * nat)) (t : Z) (y s values : list Z) : Prop :=
  canonical_point p n values /\ forall i, (i < n)%nat -> nth (image o i) values 0 = nth i (ray p n t y s) 0.

(** Specification for the printed polynomials: their values, and admissible inputs. *)
From Coq Require Import Ascii String Znumtheory.
From Verif Require Import Machine RatNum FFInt SYGrammar SYObj Printers.
From Coq Require Import List.
Import ListNotations.
Open Scope Z_scope.

(** x_1^e_1 * ... * x_n^e_n *)
Fixpoint mono_val (e xs : list Z) : Z := match e, xs with z :: e, x :: xs => x ^ z * mono_val e xs | _, _ => 1 end.
(** sum of coefficient * monomial, [cv] the value of a coefficient *)
Definition poly_val {C} (cv : C -> Z) (m : pmap C) (xs : list Z) : Z := fold_right (fun kc acc => cv (snd kc) * mono_val (fst kc) xs + acc) 0 m.
(** a rational number modulo p; 1/x is inv_p of SYGrammar.v *)
Definition rn_val (p : Z) (r : rn) : Z := num r * inv_p p (den r mod p).
(** a map of n variables: keys of length n, exponents 0 .. b, pairwise different keys *)
Definition keys_ok {C} (n : nat) (b : Z) (m : pmap C) : Prop :=
  Forall (fun e => length (fst e) = n /\ Forall (fun z => 0 <= z <= b) (fst e)) m /\ NoDup (map fst m).
(** a coefficient over Q: reduced, positive denominator *)
Definition rn_ok (r : rn) : Prop := 0 < den r /\ Z.gcd (num r) (den r) = 1.
(** names of variables: letters and digits, at most 16 characters, not only digits, pairwise different *)
Definition names_ok (vars : list (list ascii)) : Prop := Forall (fun v => wf_word v /\ (length v <= 16)%nat /\ ~ wf_num v) vars /\ NoDup vars.
(** a polynomial over Q with one value per variable; [var_pos] (if not -1) tells which variable a polynomial in one
    variable depends on *)
Definition poly_at (p : Z) (q : poly) (xs : list Z) : Z :=
  poly_val (rn_val p) (coefs q) (if var_pos q =? -1 then xs else nth (Z.to_nat (var_pos q)) xs 0 :: tl xs).
Definition poly_ok (n : nat) (b : Z) (q : poly) : Prop :=
  Forall (fun e => rn_ok (snd e)) (coefs q) /\
  ((var_pos q = -1 /\ pn q = n /\ keys_ok n b (coefs q)) \/ (0 <= var_pos q < Z.of_nat n /\ keys_ok 1 b (coefs q))).
(** an absent part of a rational function or of a factor counts as one *)
Definition part_at (p : Z) (q : poly) (xs : list Z) : Z := match coefs q with [] => 1 | _ => poly_at p q xs end.
(** the variables in their changed order: position i takes the variable at position [order_map] i *)
Definition image (o : list (nat * nat)) (i : nat) : nat := match find (fun e => Nat.eqb (fst e) i) o with Some e => snd e | None => i end.
Definition reorder {A} (d : A) (o : list (nat * nat)) (xs : list A) : list A :=
  match o with [] => xs | _ => map (fun i => nth (image o i) xs d) (seq 0 (length xs)) end.
(** all positions 0 .. n-1, each once, replaced by positions below n *)
Definition order_ok (n : nat) (o : list (nat * nat)) : Prop :=
  o = [] \/ (NoDup (map fst o) /\ (forall i, In i (map fst o) <-> (i < n)%nat) /\ Forall (fun e => (snd e < n)%nat) o).
Definition ratfun_ok (n : nat) (b : Z) (f : ratfun) : Prop :=
  poly_ok n b (rnum f) /\ poly_ok n b (rden f) /\ Forall (fun fd => poly_ok n b (fst fd) /\ poly_ok n b (snd fd)) (factors f) /\ order_ok n (order_map f).
(** product of the factors * numerator / (product of their denominators * denominator) modulo p *)
Definition ratfun_val (p : Z) (f : ratfun) (xs : list Z) : Z :=
  let ys := reorder 0 (order_map f) xs in
  (fold_right (fun fd acc => part_at p (fst fd) xs * acc) 1 (factors f) * poly_at p (rnum f) ys) *
  inv_p p ((fold_right (fun fd acc => part_at p (snd fd) xs * acc) 1 (factors f) * part_at p (rden f) ys) mod p).

(** primes below 2^63, exponents up to [b] below p - 1 *)
Definition prime_ok (b p : Z) : Prop := prime p /\ p < 2 ^ 63 /\ b < p - 1.
(** the change to further primes, as the interpolation does it: the tokens are computed anew *)
Fixpoint change_primes (ps : list Z) (o : parser) : outcome parser :=
  match ps with [] => Ret o | q :: ps => obind (precompute_tokens q false o) (change_primes ps) end.
(** The string [s] in the variables [vars] is a function with the values [f p xs] modulo p: a parser made from it with
    the prime p that then changes to the primes [ps] in turn returns, with the last prime, the values of [f]. *)
Definition reads_as (p : Z) (ps : list Z) (vars : list (list ascii)) (s : list ascii) (f : Z -> list Z -> Z) : Prop :=
  forall keep pA c1 c2, exists o, obind (construct p pA [s] vars false keep c1 c2) (change_primes ps) = Ret o /\
  forall xs, length xs = length vars -> Forall (fun x => 0 <= x < last ps p) xs ->
  evaluate_pre (last ps p) o xs = Ret [f (last ps p) xs mod last ps p].

(** values returned by a history of changes and evaluations of a polynomial with first variable one *)
Fixpoint hop_values (p : Z) (m : pmap Z) (l : list hop) : list Z :=
  match l with
  | [] => []
  | Change m' :: r => hop_values p m' r
  | Calc x :: r => poly_val (fun c => c) m (1 :: x) mod p :: hop_values p m r
  end.
Definition ff_map_ok (p : Z) (n : nat) (b : Z) (m : pmap Z) : Prop := keys_ok n b m /\ Forall (fun e => 0 <= snd e < p) m.
Definition hop_ok (p : Z) (n : nat) (b : Z) (h : hop) : Prop :=
  match h with Change m => ff_map_ok p n b m | Calc x => S (length x) = n /\ Forall (fun v => 0 <= v < p) x end.

(** What C46 assumes about the configuration of the object, and the bound on the number of probes. *)
From Verif Require Import Machine FField PolyRec PolyRecSpec.
Open Scope nat_scope.

(** at least one algorithm is on, the given total degree (-1: unknown) and the given bounds of the exponents hold for f, the sizes fit
    the machine types, and the number of steps allowed for the search of exponents suffices: it ends when the powers of the anchor point
    start over or exceed the given degree *)
Definition config_fits {K : fops} (c : pcfg) (D : nat) (f : list (list Z * K)) (y : nat -> K) : Prop :=
  pc_newton c || pc_bt c = true /\ 0 < pc_n c /\
  (pc_deg c = -1 \/ ((pc_deg c < 2 ^ 31) /\ forall e, In e (map fst f) -> total e <= pc_deg c))%Z /\
  (forall b, pc_bounds c = Some b -> forall e i, In e (map fst f) -> i < pc_n c -> (nth i e 0 <= nth i b 0)%Z) /\
  S D < pc_fuel c /\ (Z.of_nat D + 2 < 2 ^ 32)%Z /\ (Z.of_nat (length f) + 1 < 2 ^ 62)%Z /\ (Z.of_nat (pc_thr c) < 2 ^ 62)%Z /\
  (pc_bt c = true -> forall j, j < pc_n c -> exists r, 0 < r < pc_fuel c /\ (pw (y j) r = f1 \/ pc_deg c <> -1 /\ pc_deg c < Z.of_nat r)%Z).

(** the number of values a univariate interpolation takes at most: D + 2 for Newton, 2 T plus the threshold for Ben-Or/Tiwari,
    the smaller of the two when both race *)
Definition depth {K : fops} (c : pcfg) (D : nat) (f : list (list Z * K)) : nat :=
  match pc_newton c, pc_bt c with
  | true, false => D + 2
  | false, _ => 2 * length f + Nat.max 1 (pc_thr c)
  | true, true => Nat.min (D + 2) (2 * length f + Nat.max 1 (pc_thr c))
  end.

(** The conditions on the settings of RatReconst under which the interpolation theorem is stated *)
From Verif Require Import Machine FField PolyRecSpec RatMulti RatMultiSpec.
Open Scope nat_scope.

Section Fits.
  Context {K : fops}.
  (** the loops get enough iterations, the counters do not overflow, the individual degree bounds are right *)
  Record mconfig_fits (c : mcfg) (N D Ns Ds : list (list Z * K)) : Prop := mk_mconfig_fits {
    mf_fuel : S (max_degree N D) < mc_fuel c;
    mf_steps : (mc_n c - 1) * (max_degree N D + 2) * max_terms N D Ns Ds + 1 < mc_steps c;
    mf_thr : (Z.of_nat (mc_thr c) < 2 ^ 62)%Z;
    mf_terms : (Z.of_nat (max_terms N D Ns Ds) + 1 < 2 ^ 62)%Z;
    mf_degree : (Z.of_nat (max_degree N D) < 2 ^ 31)%Z;
    mf_bounds_num : forall b e i, mc_bn c = Some b -> In e (map fst (N ++ Ns)) -> S i < mc_n c -> (nth (S i) e 0 <= nth i b 0)%Z;
    mf_bounds_den : forall b e i, mc_bd c = Some b -> In e (map fst (D ++ Ds)) -> S i < mc_n c -> (nth (S i) e 0 <= nth i b 0)%Z
  }.
End Fits.

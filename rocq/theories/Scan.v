(** The search for a sparse shift and the interpolation that starts from the degrees it has found:
    /repo/source/include/firefly/Reconstructor.hpp:1198-1287 (scan_for_shift), /repo/source/RatReconst.cpp:118-129 (set_zi_shift), 402-450 (interpolate with
    the option scan), 2100-2165 (build_factor_uni_gauss, solve_factor_uni_gauss), 2376-2383 (is_shift_working), 2385-2419 (accept_shift).
    Simplifications: probes are processed when they are fed and come in the requested order (the queue is C34); messages, the state file that accept_shift
    writes and the file ff_save/scan are left out; there is at least one function and n > 1. *)
From Verif Require Import Machine FField LinAlg PolyFF Thiele RatUni Combi PolyRec RatMulti.
Open Scope nat_scope.

Section Scan.
  Context {K : fops}.
  Variable ord : forall A : Type, list A -> list A.

  (** The members of a RatReconst during the scan: t_interpolator, all_shift_max_degs, factor_degs, normalize_to_den, shift_works, done
      (RatReconst.hpp:414-457, with the initial values) *)
  Record scan_fn := mk_scan_fn { sf_th : thiele K; sf_max : nat * nat; sf_degs : list nat * list nat; sf_norm_den : bool; sf_works : bool; sf_done : bool }.
  Definition scan_start : scan_fn := mk_scan_fn (mk_thiele [] []) (0, 0) ([], []) true false false.

  (** RatReconst.cpp:418-427: the degrees of the terms, in the order of the hash map *)
  Definition degs_of (m : pmap K) : list nat := map (fun e => Z.to_nat (expo (fst e) 0)) (ord _ m).
  (** RatReconst.cpp:336-353, 402-450: one probe; [all_ones]: curr_shift == std::vector<uint32_t>(n, 1).  min_deg() of an empty polynomial is empty, its
      first element does not exist. *)
  Definition scan_interpolate (all_ones : bool) (st : scan_fn) (t v : K) : outcome scan_fn :=
    if sf_done st then Ret st
    else
      do a <- add_point (sf_th st) v t;
      if fst a then
        do nd <- get_result (ord _) (snd a);
        let mx := (Z.to_nat (max_deg1 ord (pf_coefs (fst nd))), Z.to_nat (max_deg1 ord (pf_coefs (snd nd)))) in
        let degs := (degs_of (pf_coefs (fst nd)), degs_of (pf_coefs (snd nd))) in
        if all_ones then Ret (mk_scan_fn (mk_thiele [] []) mx degs (sf_norm_den st) false true)
        else if (fst mx =? fst (sf_max st)) && (snd mx =? snd (sf_max st)) then
          match min_deg1 ord (pf_coefs (snd nd)) with
          | None => UB
          | Some z => Ret (mk_scan_fn (mk_thiele [] []) (sf_max st) degs (z =? 0)%Z true true)
          end
        else Ret (mk_scan_fn (mk_thiele [] []) (sf_max st) degs (sf_norm_den st) false true)
      else Ret (mk_scan_fn (snd a) (sf_max st) (sf_degs st) (sf_norm_den st) (sf_works st) false).
  (** RatReconst.cpp:2376-2383 is_shift_working: done = false *)
  Definition scan_again (st : scan_fn) : scan_fn := mk_scan_fn (sf_th st) (sf_max st) (sf_degs st) (sf_norm_den st) (sf_works st) false.

  (** all probes of one function on the ray *)
  Fixpoint scan_feed (all_ones : bool) (h : K -> K) (ts : list K) (st : scan_fn) : outcome scan_fn :=
    match ts with [] => Ret st | t :: r => do st' <- scan_interpolate all_ones st t (h t); scan_feed all_ones h r st' end.

  (** RatReconst.cpp:118-129 set_zi_shift: a random number for every variable that is shifted *)
  Definition shift_values (pattern : list Z) (rnd : nat -> K) (i : nat) : K := if (nth i pattern 0 =? 1)%Z then rnd i else f0.
  (** Reconstructor.hpp:2893-2990 queue_probes: the point t of the first ray, the anchor points y to the power one *)
  Definition scan_point (y s : nat -> K) (t : K) (i : nat) : K := match i with O => fadd t (s 0) | S j => fadd (fmul t (y j)) (s (S j)) end.

  (** run_until_done and the loop over reconst (Reconstructor.hpp:1240-1258).  [ts]: the points at which the values arrive; if they do not suffice the
      program would ask for more for ever. *)
  Fixpoint scan_round (all_ones : bool) (y s : nat -> K) (ts : list K) (fs : list (((nat -> K) -> K) * scan_fn)) : outcome (list (((nat -> K) -> K) * scan_fn)) :=
    match fs with
    | [] => Ret []
    | (bb, st) :: r =>
        do st' <- scan_feed all_ones (fun t => bb (scan_point y s t)) ts st;
        if sf_done st' then do r' <- scan_round all_ones y s ts r; Ret ((bb, scan_again st') :: r') else Diverge
    end.
  Definition is_ones (pattern : list Z) : bool := forallb (fun z => (z =? 1)%Z) pattern.
  (** Reconstructor.hpp:1217-1287: the loop from the second round on; [draw k] and [pts k]: the random numbers and the points of round k.
      The result: found_shift, the pattern, the functions *)
  Fixpoint scan_loop (fuel : nat) (y : nat -> K) (draw : nat -> nat -> K) (pts : nat -> list K) (k : nat) (cur : list Z) (fs : list (((nat -> K) -> K) * scan_fn))
    : outcome (bool * list Z * list (((nat -> K) -> K) * scan_fn)) :=
    match fuel with
    | O => Diverge
    | S fuel' =>
        do fs' <- scan_round (is_ones cur) y (shift_values cur (draw k)) (pts k) fs;
        if forallb (fun f => sf_works (snd f)) fs' then Ret (true, cur, fs')
        else
          let p := generate_next_permutation cur in
          if fst p then scan_loop fuel' y draw pts (S k) (snd p) fs' else Ret (false, repeat 1%Z (length cur), fs')
    end.
  (** Reconstructor.hpp:1198-1287: the first round shifts all variables (RatReconst.cpp:55-59), its verdict is not used *)
  Definition scan_for_shift (fuel n : nat) (y : nat -> K) (draw : nat -> nat -> K) (pts : nat -> list K) (bbs : list ((nat -> K) -> K))
    : outcome (bool * list Z * list (((nat -> K) -> K) * scan_fn)) :=
    do fs <- scan_round true y (shift_values (repeat 1%Z n) (draw 0)) (pts 0) (map (fun bb => (bb, scan_start)) bbs);
    scan_loop fuel y draw pts 1 (repeat 0%Z n) fs.
End Scan.

(** ---- the interpolation after the scan: skip_thiele, factor_degs known ---- *)
Section Start.
  Context {K : fops}.
  Variable ord : forall A : Type, list A -> list A.
  Variable c : mcfg.
  Variables (y s : nat -> K).
  (** factor_degs *)
  Variables (dn dd : list nat).

  (** RatReconst.cpp:2107, 2118, 2140, 2152 with scan == false: the coefficient that is set to one *)
  Definition is_fixed (is_num : bool) (el : nat) : bool := (if is_num then negb (mc_norm_den c) else mc_norm_den c) && (el =? 0).
  (** RatReconst.cpp:2100-2125 build_factor_uni_gauss: the new row *)
  Definition factor_row (t v : K) : list K :=
    let res := if existsb (is_fixed false) dd then v else if existsb (is_fixed true) dn then fopp f1 else f0 in
    map (fun el => fpow t (Z.of_nat el)) (filter (fun el => negb (is_fixed true el)) dn) ++
    map (fun el => fmul (fopp v) (fpow t (Z.of_nat el))) (filter (fun el => negb (is_fixed false el)) dd) ++ [res].
  (** RatReconst.cpp:2127: size *)
  Definition factor_eqns : nat := length dn + length dd - 1.
  (** RatReconst.cpp:2138-2162 solve_factor_uni_gauss: the terms that do not vanish, [k]: counter *)
  Fixpoint factor_terms (is_num : bool) (l : list nat) (x : nat -> K) (k : nat) : pmap K * nat :=
    match l with
    | [] => ([], k)
    | el :: r =>
        if is_fixed is_num el then let q := factor_terms is_num r x k in (([Z.of_nat el], f1) :: fst q, snd q)
        else let q := factor_terms is_num r x (S k) in (if feqb (x k) f0 then fst q else ([Z.of_nat el], x k) :: fst q, snd q)
    end.
  (** RatReconst.cpp:2136-2165 solve_factor_uni_gauss, 409-410 *)
  Definition solve_factor (rows : list (list K)) : outcome (polyff K * polyff K) :=
    do x <- solve_gauss_system (length rows) (fun r c => nth c (nth r rows []) f0) false;
    let nu := factor_terms true dn x 0 in
    let de := factor_terms false dd x (snd nu) in
    Ret (mk_polyff 1 (fst nu), mk_polyff 1 (fst de)).

  Inductive sst := SDegs (rows : list (list K)) | SRays (st : mst K).
  Inductive sfed := SMore (st : sst) | SResult (r : mres K).
  Definition lift (f : mfed K) : sfed := match f with MMore st => SMore (SRays st) | MResult r => SResult r end.
  (** RatReconst.cpp:336-868 interpolate, with skip_thiele in the first step (349-353, 404-407) *)
  Definition sinterpolate (st : sst) (t v : K) : outcome sfed :=
    match st with
    | SDegs rows =>
        let rows' := rows ++ [factor_row t v] in
        if length rows' =? factor_eqns then do nd <- solve_factor rows'; do f <- first_ray ord c y s (fst nd) (snd nd); Ret (lift f)
        else Ret (SMore (SDegs rows'))
    | SRays st' => do f <- minterpolate ord c y s st' t v; Ret (lift f)
    end.
  Definition srequested (st : sst) : list nat := match st with SDegs _ => repeat 1 (mc_n c - 1) | SRays st' => requested c st' end.
  (** feeding a black box: the value on the requested ray at the given points *)
  Fixpoint sdrive (bb : list nat -> K -> K) (ts : list K) (st : sst) : outcome sfed :=
    match ts with
    | [] => Ret (SMore st)
    | t :: r => do f <- sinterpolate st t (bb (srequested st) t); match f with SMore st' => sdrive bb r st' | SResult _ => Ret f end
    end.
End Start.
Arguments scan_fn K : clear implicits.
Arguments sst K : clear implicits.
Arguments sfed K : clear implicits.

(** RatReconst for n > 1 variables over several primes, shifted ("singular") systems: /repo/source/RatReconst.cpp:131-210 (feed), 336-400, 914-1232
    (interpolate), 1367-1765 (combine_primes), 3158-3323 (set_singular_system_vars), 3340-3448 (check_if_done), put together from RatMultiQ.v and
    RatSing.v: the first probe of a prime tests the guess, then the missing coefficients are computed over the prime (C56) and combined with
    those of the primes before.
    Simplifications: as in RatMultiQ.v and RatSing.v.  The fields read by systems without shift only (num_eqn between the primes, the polynomials set at
    3390-3427) are left out; check_for_solved_degs (2335-2354) is left out: its lists are empty for these systems, and it switches the mode off
    only when the numerator or the denominator is constant. *)
From Coq Require Import Znumtheory.
From Verif Require Import Machine FField LinAlg Vandermonde PolyFF Thiele RatNum Modular Primes PField RatUni Newton PolyRec RatMulti RatMultiQ RatSing.
Open Scope nat_scope.

(** sub_num, sub_den and the field they belong to: that of the last prime that was used *)
Record sing_terms := mk_sing_terms { sg_F : pfield; sg_num : list (nat * polyff (fld sg_F)); sg_den : list (nat * polyff (fld sg_F)) }.
(** what the first prime fixes: normalizer_den_num and normalizer_deg, max_deg_num and max_deg_den, zero_degs_num and zero_degs_den, shifted_max_num_eqn *)
Record sing_fix := mk_sing_fix { sx_norm_den : bool; sx_norm : mon; sx_degn : nat; sx_degd : nat; sx_zeron : list nat; sx_zerod : list nat; sx_eqn : nat }.

Section Model.
  Variable ord : forall A : Type, list A -> list A.
  Variable c : mcfg.
  Variable x : sing_fix.
  Local Notation n := (mc_n c).
  (** the object waits for more probes of a prime, for the next prime, or it is done *)
  Inductive sresult := SStarved (g : qrr) | SRunning (g : qrr) (u : sing_terms) | SComplete (g : qrr).
  (** RatReconst.cpp:3158-3312: both sides at the beginning of a prime *)
  Definition sing_sides (F : pfield) (g : qrr) (u : sing_terms) : (scfg * sside (fld F)) * (scfg * sside (fld F)) :=
    (sing_start (K := fld F) ord c false (negb (mc_norm_den c)) (map fst (qr_gni g)) (qr_nsn g) (sg_num u) (sx_zeron x) (sx_degn x),
     sing_start (K := fld F) ord c true (mc_norm_den c) (map fst (qr_gdi g)) (qr_nsd g) (sg_den u) (sx_zerod x) (sx_degd x)).
  (** one prime; RatReconst.cpp:131-188 (the first value), 346-353 (the guess), 914-1232 (the coefficients), 1440-1765 (combine_primes, with the
      keys of g_ni and g_di as they are after the guess was rejected) *)
  Definition sing_prime (g : qrr) (u : sing_terms) (s : msession) : outcome sresult :=
    let F := ms_F s in
    match ms_ts s with
    | [] => Ret (SStarved g)
    | t :: _ =>
        if qr_done g then Ret (SComplete g)
        else
          let v := ms_bb s (repeat 1 (n - 1)) t in
          if feqb v f0 then
            do f <- qfeed_zero c F g;
            match f with QMore _ g' _ => Ret (SStarved g') | QNext _ g' => Ret (SRunning g' u) | QDone _ g' => Ret (SComplete g') end
          else
            let g0 := mk_qrr (qr_prime_number g) (qr_new_prime g) false (qr_zero_counter g) (qr_done g) (qr_use_crt g) (qr_combined_prime g) (qr_cni g) (qr_cdi g)
                             (qr_gni g) (qr_gdi g) (qr_nsn g) (qr_nsd g) (qr_eqn g) in
            do chk <- qcheck_if_done ord c F (ms_y s) (ms_s s) g0 (work_start F g0) v t;
            let g1 := snd (fst chk) in
            if fst (fst chk) then Ret (SComplete g1)
            else
              let '((cn, stn), (cd, std)) := sing_sides F g1 u in
              do f <- sing_drive ord c (ms_y s) (ms_s s) cn cd (sx_eqn x) (sx_norm_den x) (sx_norm x) (map fst (qr_gni g1)) (map fst (qr_gdi g1)) (ms_bb s) (ms_ts s)
                        (mk_swork stn std 1 ([], []) []);
              match f with
              | SMore _ => Ret (SStarved g1)
              | SResult nu de un ud => do g' <- qcombine_next ord F g1 nu de; Ret (SRunning g' (mk_sing_terms F un ud))
              end
    end.
  Fixpoint sing_run (g : qrr) (u : sing_terms) (l : list msession) : outcome sresult :=
    match l with
    | [] => Ret (SRunning g u)
    | s :: r => do f <- sing_prime g u s; match f with SRunning g' u' => sing_run g' u' r | _ => Ret f end
    end.
End Model.

(** what the first prime leaves for the next ones; RatReconst.cpp:709-868, 1440-1483 *)
Definition sing_fixed {K : fops} (r : mres K) : sing_fix :=
  mk_sing_fix (mr_norm_den r) (mr_norm r) (fst (mr_degs r)) (snd (mr_degs r)) (fst (mr_zeros r)) (snd (mr_zeros r)) (mr_eqn r).
Definition first_terms (F : pfield) (r : mres (fld F)) : sing_terms := mk_sing_terms F (fst (mr_subs r)) (snd (mr_subs r)).
(** from the first prime on, when it leaves a system that needs the shift (RatReconst.cpp:785-845, 1367-1438); the runs with no point or with the
    first value zero are those of RatMultiQ.v *)
Definition sing_reconstruct (ord : forall A : Type, list A -> list A) (c : mcfg) (s : msession) (l : list msession) : outcome sresult :=
  match ms_ts s with
  | [] => Ret (SStarved fresh)
  | t :: _ =>
      if feqb (ms_bb s (repeat 1 (mc_n c - 1)) t) f0 then Ret (SStarved fresh)
      else
        do f <- mdrive ord c (ms_y s) (ms_s s) (ms_bb s) (ms_ts s) (MFirst (mk_thiele [] []));
        match f with
        | MMore _ => Ret (SStarved fresh)
        | MResult r => if mr_singular r then sing_run ord c (sing_fixed r) (qcombine_first ord (ms_F s) 0 r) (first_terms (ms_F s) r) l else Ret (SStarved fresh)
        end
  end.

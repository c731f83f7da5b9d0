(** RatReconst for n > 1 variables over several primes, from the numerator and denominator found over the first prime (RatMulti.v) to the
    rational coefficients: /repo/source/RatReconst.cpp:131-210 (feed), 336-400, 875-913, 1099-1232 (interpolate), 1367-1765 (combine_primes),
    1951-2000, 2032-2085, 2216-2283, 2319-2333, 3340-3448 (check_if_done).
    Over a further prime the monomials are known.  The function is restricted to the rays (t, t y_2^i, ..., t y_n^i), i = 1, 2, ...; the
    coefficients of the powers of t come from a system of linear equations, the coefficients of the monomials of one degree from the values
    for i = 1, 2, ... by a transposed Vandermonde system.
    Simplifications: as in RatUni.v and RatMulti.v; is_singular_system is false and the shift is zero over the further primes (Reconstructor
    calls disable_shift), interpolations is 1, so check_interpolation is true after the first prime.  needed_feed_vec only announces probes
    (C34) and is left out.  prime_number >= interpolations holds for every further prime. *)
From Coq Require Import Znumtheory.
From Verif Require Import Machine FField LinAlg Vandermonde PolyFF Thiele RatNum Modular Primes PField RatUni Newton PolyRec RatMulti.
Open Scope nat_scope.

(** The members that survive a change of the prime; normalizer_den_num and normalizer_deg are [qr_norm_den] and [qr_norm] *)
Record qrr := mk_qrr {
  qr_prime_number : Z; qr_new_prime : bool; qr_first_feed : bool; qr_zero_counter : Z; qr_done : bool; qr_use_crt : bool; qr_combined_prime : Z;
  qr_cni : list (mon * Z); qr_cdi : list (mon * Z); qr_gni : list (mon * rn); qr_gdi : list (mon * rn);
  qr_nsn : list (nat * list mon); qr_nsd : list (nat * list mon); qr_eqn : nat }.

Definition nerase {A} (m : list (nat * A)) (k : nat) : list (nat * A) := filter (fun e => negb (k =? fst e)) m.
(** RatReconst.cpp:2319-2333 add_non_solved_num, add_non_solved_den *)
Definition add_non_solved (ns : list (nat * list mon)) (k : mon) : list (nat * list mon) :=
  let d := Z.to_nat (degree32 k) in nset ns d (nget [] ns d ++ [k]).

Section Model.
  Variable ord : forall A : Type, list A -> list A.
  Variable c : mcfg.
  Local Notation n := (mc_n c).

  Section Prime.
    Variable F : pfield.
    Local Notation K := (fld F).
    Local Notation p := (pf_mod F).
    (** private_anchor_points *)
    Variable y : nat -> K.

    (** non_solved_degs_num, coef_mat_num and solved_degs_num (and the same for the denominator) while a prime is worked on *)
    Record qside := mk_qside { qs_ns : list (nat * list mon); qs_mat : list (nat * list K); qs_solved : list (nat * polyff K) }.
    (** both sides, the entries of curr_zi_order (all equal), num_eqn, num_sub_num and num_sub_den, coef_mat *)
    Record qwork := mk_qwork { qw_num : qside; qw_den : qside; qw_order : nat; qw_eqn : nat; qw_subs : list (nat * K) * list (nat * K); qw_rows : list (list K) }.
    (** RatReconst.cpp:1695-1707 (n > 1): an empty vector for every unsolved degree *)
    Definition side_start (ns : list (nat * list mon)) : qside := mk_qside ns (map (fun e => (fst e, [])) ns) [].
    Definition work_start (g : qrr) : qwork := mk_qwork (side_start (qr_nsn g)) (side_start (qr_nsd g)) 1 (qr_eqn g) ([], []) [].

    (** ---- check_if_done ---- *)
    (** RatReconst.cpp:1951-2000 rec_rat_coef: (run_test, g_ni, g_di) *)
    Definition qrec_rat_coef (g : qrr) : outcome (bool * list (mon * rn) * list (mon * rn)) :=
      do nu <- promote (qr_combined_prime g) (ord _ (qr_cni g)) (qr_gni g) [];
      let '(ok_n, gn, kn) := nu in
      if ok_n then
        do de <- promote (qr_combined_prime g) (ord _ (qr_cdi g)) (qr_gdi g) [];
        let '(ok_d, gd, kd) := de in
        if ok_d then Ret (true, gn, gd) else Ret (false, erase_all gn kn, erase_all gd kd)
      else Ret (false, erase_all gn kn, qr_gdi g).
    (** RatReconst.cpp:2072-2083: (ti + shift[0], ti * zi^1 + shift[i]) *)
    Definition guess_point (s : nat -> K) (order : nat) (t : K) : nat -> K :=
      fun i => match i with O => fadd t (s 0) | S j => fadd (fmul t (rand_zi (y j) order)) (s i) end.
    (** RatReconst.cpp:2066-2085 test_guess *)
    Definition qtest_guess (s : nat -> K) (order : nat) (gn gd : list (mon * rn)) (v t : K) : bool :=
      feqb (fdiv (calc (ord _) (mk_polyff n (convert_to_ffint ord F gn)) (guess_point s order t)) (calc (ord _) (mk_polyff n (convert_to_ffint ord F gd)) (guess_point s order t))) v.
    (** RatReconst.cpp:3411-3448: the known part of the function, one polynomial per degree *)
    Definition qsolved_polys (g : list (mon * rn)) : list (nat * polyff K) :=
      let tmp := fold_left (fun m e => passign m (fst e) (to_ff F (snd e))) (ord _ g) [(zero_mon c, f0)] in
      fold_left (fun s kc =>
        let d := Z.to_nat (degree32 (fst kc)) in
        let q := nget no_poly s d in
        nset s d (if pzero q then mk_polyff n [kc] else mk_polyff (pf_n q) (pemplace (pf_coefs q) (fst kc) (snd kc)))) (ord _ tmp) [].
    Definition set_solved (s : qside) (l : list (nat * polyff K)) : qside := mk_qside (qs_ns s) (qs_mat s) l.
    (** RatReconst.cpp:3340-3448 check_if_done: (done, state, working data); [s]: the shift *)
    Definition qcheck_if_done (s : nat -> K) (g : qrr) (w : qwork) (v t : K) : outcome (bool * qrr * qwork) :=
      do r <- qrec_rat_coef g;
      let '(run_test, gn, gd) := r in
      if run_test && qtest_guess s (qw_order w) gn gd v t
      then Ret (true, mk_qrr (qr_prime_number g) false (qr_first_feed g) (qr_zero_counter g) true false (qr_combined_prime g) (qr_cni g) (qr_cdi g) gn gd
                        (qr_nsn g) (qr_nsd g) (qr_eqn g), w)
      else
        let gn' := if run_test then erase_all gn (map fst (ord _ (qr_cni g))) else gn in
        let gd' := if run_test then erase_all gd (map fst (ord _ (qr_cdi g))) else gd in
        Ret (false, mk_qrr (qr_prime_number g) false (qr_first_feed g) (qr_zero_counter g) false true (qr_combined_prime g) (qr_cni g) (qr_cdi g) gn' gd'
                      (qr_nsn g) (qr_nsd g) (qr_eqn g),
             mk_qwork (set_solved (qw_num w) (qsolved_polys gn')) (set_solved (qw_den w) (qsolved_polys gd')) (qw_order w) (qw_eqn w) (qw_subs w) (qw_rows w)).

    (** ---- the equations of a ray ---- *)
    (** RatReconst.cpp:2233-2240: the values of the known parts on the ray *)
    Definition qknown (order : nat) (s : qside) : list (nat * K) :=
      map (fun e => (fst e, calc_n_m_1 (ord _) (snd e) (rand_vec y (repeat order (n - 1))))) (ord _ (qs_solved s)).
    (** RatReconst.cpp:2216-2283 build_homogenized_multi_gauss *)
    Definition qbuild_row (w : qwork) (t v : K) : qwork :=
      let subs := match qw_rows w with [] => (qknown (qw_order w) (qw_num w), qknown (qw_order w) (qw_den w)) | _ => qw_subs w end in
      let res := fold_left (fun r e => fsub r (fmul (snd e) (fpow t (Z.of_nat (fst e))))) (ord _ (fst subs)) f0 in
      let res := fold_left (fun r e => fadd r (fmul (fmul (snd e) (fpow t (Z.of_nat (fst e)))) v)) (ord _ (snd subs)) res in
      let eq := map (fun e => fpow t (Z.of_nat (fst e))) (qs_ns (qw_num w)) ++ map (fun e => fmul (fopp v) (fpow t (Z.of_nat (fst e)))) (qs_ns (qw_den w)) ++ [res] in
      mk_qwork (qw_num w) (qw_den w) (qw_order w) (qw_eqn w) subs (qw_rows w ++ [eq]).
    (** RatReconst.cpp:2032-2054 solve_homogenized_multi_gauss *)
    Definition qsolve_rows (w : qwork) : outcome (list (nat * K) * list (nat * K)) :=
      do x <- solve_gauss_system (qw_eqn w) (fun r c => nth c (nth r (qw_rows w) []) f0) false;
      let ln := length (qs_ns (qw_num w)) in
      Ret (map (fun e => (fst (fst e), x (snd e))) (combine (qs_ns (qw_num w)) (seq 0 ln)),
           map (fun e => (fst (fst e), x (snd e))) (combine (qs_ns (qw_den w)) (seq ln (length (qs_ns (qw_den w)))))).

    (** RatReconst.cpp:879-895, 897-912: the value of the coefficient of t^d; the Vandermonde system of the degree is solved when complete *)
    Definition file_value (s : qside) (e : nat * K) : outcome qside :=
      let d := fst e in
      let degs := nget [] (qs_ns s) d in
      let vals := nget [] (qs_mat s) d in
      let vals := if length vals <? length degs then vals ++ [snd e] else vals in
      if length vals =? length degs then
        do q <- solve_vandermonde_system (n - 1) degs (fun i => nth i vals f0) y;
        let old := nget no_poly (qs_solved s) d in
        Ret (mk_qside (nerase (qs_ns s) d) (nerase (qs_mat s) d) (nset (qs_solved s) d (if pzero old then q else padd_assign (ord _) old q)))
      else Ret (mk_qside (qs_ns s) (nset (qs_mat s) d vals) (qs_solved s)).
    Fixpoint file_values (l : list (nat * K)) (s : qside) : outcome qside :=
      match l with [] => Ret s | e :: r => do s' <- file_value s e; file_values r s' end.

    (** RatReconst.cpp:1188-1206: solved_num, the zero constant it starts from is removed *)
    Definition qsum (s : qside) : pmap K :=
      let m := pf_coefs (fold_left (fun r e => padd_assign (ord _) r (snd e)) (ord _ (qs_solved s)) (zero_poly c)) in
      match pfind m (zero_mon c) with Some a => if feqb a f0 then perase m (zero_mon c) else m | None => m end.

    (** ---- combine_primes ---- *)
    (** RatReconst.cpp:1401-1433, first prime: one side; [norm]: the normaliser if it is on this side *)
    Definition split_side (norm : option mon) (l : list (mon * Z)) : list (mon * Z) * list (mon * rn) * list (nat * list mon) :=
      fold_left (fun s e =>
        let '(co, g, ns) := s in
        if match norm with Some k => mon_eqb (fst e) k | None => false end then (aerase co (fst e), aset g (fst e) (mk_rn 1 1), ns) else (co, g, add_non_solved ns (fst e)))
      (ord _ l) (l, [], []).
    (** RatReconst.cpp:1367-1765 combine_primes, first prime (use_chinese_remainder is false, g_ni and g_di are empty), for the result of RatMulti.v;
        num_eqn: 1708-1709; next prime: 1728-1760 *)
    Definition qcombine_first (zero_counter : Z) (r : mres K) : qrr :=
      let '(cni, gni, nsn) := split_side (if mr_norm_den r then None else Some (mr_norm r)) (convert_to_mpz ord F (mr_num r)) in
      let '(cdi, gdi, nsd) := split_side (if mr_norm_den r then Some (mr_norm r) else None) (convert_to_mpz ord F (mr_den r)) in
      mk_qrr 1 true true zero_counter false false p cni cdi gni gdi (ord _ nsn) (ord _ nsd) (length nsn + length nsd).

    (** RatReconst.cpp:1512-1589, 1592-1661: the loop over combined_ni_back: (combined, g, non_solved) *)
    Fixpoint qfix_map (M M' : Z) (l : list (mon * Z)) (co : list (mon * Z)) (g : list (mon * rn)) (ns : list (nat * list mon)) :
      outcome (list (mon * Z) * list (mon * rn) * list (nat * list mon)) :=
      match l with
      | [] => Ret (co, g, ns)
      | (k, old) :: r =>
          match afind g k with
          | Some _ => qfix_map M M' r co g ns
          | None =>
              do res <- decide old M (match afind co k with Some x => x | None => 0%Z end) M';
              match res with
              | Some q => qfix_map M M' r (aerase co k) (aset g k q) ns
              | None => qfix_map M M' r co g (add_non_solved ns k)
              end
          end
      end.
    (** RatReconst.cpp:1440-1760, further primes *)
    Definition qcombine_next (g : qrr) (numer denom : pmap K) : outcome qrr :=
      let M := qr_combined_prime g in
      do cn <- crt_map F M numer (ord _ (qr_cni g)) 0;
      do cd <- crt_map F M denom (ord _ (qr_cdi g)) (snd cn);
      let M' := snd cd in
      do fn <- qfix_map M M' (ord _ (qr_cni g)) (fst cn) (qr_gni g) [];
      do fd <- qfix_map M M' (ord _ (qr_cdi g)) (fst cd) (qr_gdi g) [];
      let '(cni, gni, nsn) := fn in
      let '(cdi, gdi, nsd) := fd in
      if (qr_prime_number g + 1 =? 300)%Z then Exit
      else Ret (mk_qrr (qr_prime_number g + 1) true true (qr_zero_counter g) (qr_done g) (qr_use_crt g) M' cni cdi gni gdi (ord _ nsn) (ord _ nsd) (length nsn + length nsd)).

    (** ---- a probe ---- *)
    Inductive qfed := QMore (g : qrr) (w : qwork) | QNext (g : qrr) | QDone (g : qrr).
    (** RatReconst.cpp:875-913, 1099-1232 *)
    Definition qfinish_ray (g : qrr) (w : qwork) (ln ld : list (nat * K)) : outcome qfed :=
      do num <- file_values (ord _ ln) (qw_num w);
      do den <- file_values (ord _ ld) (qw_den w);
      match qs_mat num, qs_mat den with
      | [], [] => do g' <- qcombine_next g (qsum num) (qsum den); Ret (QNext g')
      | _, _ => Ret (QMore g (mk_qwork num den (S (qw_order w)) (length (qs_ns num) + length (qs_ns den)) ([], []) []))
      end.
    (** RatReconst.cpp:336-400 interpolate *)
    Definition qinterpolate (g : qrr) (w : qwork) (t v : K) : outcome qfed :=
      do chk <- (if qr_new_prime g then qcheck_if_done (fun _ => f0) g w v t else Ret (false, g, w));
      let '(dn, g1, w1) := chk in
      if dn : bool then Ret (QDone g1)
      else
        let w2 := qbuild_row w1 t v in
        if qw_eqn w2 =? length (qw_rows w2) then do nd <- qsolve_rows w2; qfinish_ray g1 w2 (fst nd) (snd nd) else Ret (QMore g1 w2).
    (** RatReconst.cpp:131-188 feed *)
    Definition qfeed_zero (g : qrr) : outcome qfed :=
      let zc := (qr_zero_counter g + 1)%Z in
      let cp := if (zc =? qr_prime_number g + 1)%Z then nth (Z.to_nat (qr_prime_number g + 1)) primes 0%Z else qr_combined_prime g in
      let pn := (qr_prime_number g + 1)%Z in
      if (pn =? 300)%Z then Exit
      else if ((zc =? 3) && (pn =? 3))%Z
      then Ret (QDone (mk_qrr pn false (qr_first_feed g) zc true (qr_use_crt g) cp (qr_cni g) (qr_cdi g)
                         (aset (qr_gni g) (zero_mon c) (mk_rn 0 1)) (aset (qr_gdi g) (zero_mon c) (mk_rn 1 1)) (qr_nsn g) (qr_nsd g) (qr_eqn g)))
      else Ret (QNext (mk_qrr pn true (qr_first_feed g) zc (qr_done g) (qr_use_crt g) cp (qr_cni g) (qr_cdi g) (qr_gni g) (qr_gdi g) (qr_nsn g) (qr_nsd g) (qr_eqn g))).
    Definition qfeed (g : qrr) (w : qwork) (t v : K) : outcome qfed :=
      if qr_done g then Ret (QDone g)
      else if qr_first_feed g then
        if feqb v f0 then qfeed_zero g
        else qinterpolate (mk_qrr (qr_prime_number g) (qr_new_prime g) false (qr_zero_counter g) (qr_done g) (qr_use_crt g) (qr_combined_prime g) (qr_cni g) (qr_cdi g)
                             (qr_gni g) (qr_gdi g) (qr_nsn g) (qr_nsd g) (qr_eqn g)) w t v
      else qinterpolate g w t v.
    (** feeding a black box: the value on the requested ray at the given points *)
    Fixpoint qdrive (bb : list nat -> K -> K) (ts : list K) (g : qrr) (w : qwork) : outcome qfed :=
      match ts with
      | [] => Ret (QMore g w)
      | t :: r => do f <- qfeed g w t (bb (repeat (qw_order w) (n - 1)) t); match f with QMore g' w' => qdrive bb r g' w' | _ => Ret f end
      end.

    (** the branch taken when prime_number is not below interpolations: every coefficient of t^d, d > 0, is filed (879-912) with no unsolved monomial *)
    Definition late_first_ray (nu de : polyff K) : outcome qside :=
      match min_deg1 ord (pf_coefs (if mc_norm_den c then de else nu)) with
      | None => UB
      | Some mn =>
          let equalizer := fdiv f1 (coef_at (pf_coefs (if mc_norm_den c then de else nu)) [mn]) in
          let pos := fun m : pmap K => map (fun e => (Z.to_nat (expo (fst e) 0), snd e)) (filter (fun e => negb (mon_eqb (fst e) [0%Z])) m) in
          do _ <- file_values (ord _ (pos (pf_coefs (pscale nu equalizer)))) (mk_qside [] [] []);
          file_values (ord _ (pos (pf_coefs (pscale de equalizer)))) (mk_qside [] [] [])
      end.
    Fixpoint late_thiele (bb : list nat -> K -> K) (ts : list K) (th : thiele K) : outcome (option qside) :=
      match ts with
      | [] => Ret None
      | t :: r =>
          do a <- add_point th (bb (repeat 1 (n - 1)) t) t;
          if fst a then do nd <- get_result (ord _) (snd a); do q <- late_first_ray (fst nd) (snd nd); Ret (Some q) else late_thiele bb r (snd a)
      end.
  End Prime.

  (** a prime: the field, the anchor points, the shift (used over the first prime only), the black box on the rays, the points *)
  Record msession := mk_msession { ms_F : pfield; ms_y : nat -> fld ms_F; ms_s : nat -> fld ms_F; ms_bb : list nat -> fld ms_F -> fld ms_F; ms_ts : list (fld ms_F) }.
  (** the object waits for more probes of a prime (QFirst: of the first prime with a non-zero first value), for the next prime, or it is done;
      QLate: the first ray is complete after a prime whose first value was zero, and nothing has been filed (not followed further) *)
  Inductive qresult := QFirst | QStarved (g : qrr) | QRunning (g : qrr) | QComplete (g : qrr) | QLate.
  Fixpoint qrun (g : qrr) (l : list msession) : outcome qresult :=
    match l with
    | [] => Ret (QRunning g)
    | s :: r =>
        do f <- qdrive (ms_F s) (ms_y s) (ms_bb s) (ms_ts s) g (work_start (ms_F s) g);
        match f with QMore _ g' _ => Ret (QStarved g') | QNext _ g' => qrun g' r | QDone _ g' => Ret (QComplete g') end
    end.
  (** RatReconst.hpp: the members before the first probe *)
  Definition fresh : qrr := mk_qrr 0 true true 0 false false (nth 0 primes 0%Z) [] [] [] [] [] [] 0.
  (** The whole run.  RatReconst.cpp:145-180: a first value zero ends the prime; 182-183: new_prime is reset as check_interpolation is still
      false; 349-353, 395-530 Thiele's interpolation on the first ray, 534 and 875-913: prime_number is 0 for the first prime (RatMulti.v), but
      not below interpolations after a zero *)
  Fixpoint reconstruct_from (g : qrr) (l : list msession) : outcome qresult :=
    match l with
    | [] => Ret (QRunning g)
    | s :: r =>
        match ms_ts s with
        | [] => Ret QFirst
        | t :: _ =>
            if feqb (ms_bb s (repeat 1 (n - 1)) t) f0 then
              do f <- qfeed_zero (ms_F s) g;
              match f with QMore _ g' _ => Ret (QStarved g') | QNext _ g' => reconstruct_from g' r | QDone _ g' => Ret (QComplete g') end
            else if (qr_prime_number g =? 0)%Z then
              do f <- mdrive ord c (ms_y s) (ms_s s) (ms_bb s) (ms_ts s) (MFirst (mk_thiele [] []));
              match f with MMore _ => Ret QFirst | MResult x => qrun (qcombine_first (ms_F s) (qr_zero_counter g) x) r end
            else
              do q <- late_thiele (ms_F s) (ms_y s) (ms_bb s) (ms_ts s) (mk_thiele [] []);
              match q with None => Ret QFirst | Some _ => Ret QLate end
        end
    end.
  Definition reconstruct (s : msession) (l : list msession) : outcome qresult := reconstruct_from fresh (s :: l).
End Model.

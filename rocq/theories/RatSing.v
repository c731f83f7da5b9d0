(** RatReconst for n > 1 variables over a further prime, shifted ("singular") systems: /repo/source/RatReconst.cpp:914-1098 (the coefficients of the
    powers of t on one ray), 1099-1232 (the end of a ray, the end of the prime), 2032-2054, 2216-2283 (the equations of a ray), 3158-3318
    (set_singular_system_vars).
    Over the first prime the coefficients of the powers of t were interpolated with the shift (RatMulti.v).  Over a further prime the monomials are
    known.  A homogeneous part of few monomials after the shift is found from the values on the rays i = 1, 2, ... by one Vandermonde system
    ("dense"); the others are solved when the part with the most monomials before the shift is complete: from the highest degree down, the
    contributions of the higher parts are subtracted and the remaining values are given to a Vandermonde system ("sparse").
    Simplifications: as in RatMultiQ.v; combine_primes is in RatMultiQ.v (C47), this file gives its arguments. *)
From Verif Require Import Machine FField LinAlg Vandermonde PolyFF RatUni Newton PolyRec RatMulti RatMultiQ.
Open Scope nat_scope.

Section Model.
  Context {K : fops}.
  Variable ord : forall A : Type, list A -> list A.
  Variable c : mcfg.
  (** private_anchor_points and shift *)
  Variables (y s : nat -> K).
  Local Notation n := (mc_n c).

  (** one side.  What does not change during a prime: max_num_coef_num.first, dense_solve_degs_num, zero_degs_num, max_deg_num *)
  Record scfg := mk_scfg { sc_max : nat; sc_dense : list nat; sc_zero : list nat; sc_deg : nat; sc_den : bool }.
  (** what changes: non_solved_degs_num, coef_mat_num, solved_degs_num, sub_num, tmp_solved_coefs_num *)
  Record sside := mk_sside { ss_ns : list (nat * list mon); ss_mat : list (nat * list K); ss_solved : list (nat * polyff K);
    ss_sub : list (nat * polyff K); ss_count : nat }.

  (** ---- the coefficients of the powers of t on one ray ---- *)
  Section Side.
    Variable g : scfg.
    (** RatReconst.cpp:915-920, 1011-1016 *)
    Definition sing_push (st : sside) (e : nat * K) : sside :=
      let vals := nget [] (ss_mat st) (fst e) in
      mk_sside (ss_ns st) (nset (ss_mat st) (fst e) (if length vals <? length (nget [] (ss_ns st) (fst e)) then vals ++ [snd e] else vals))
        (ss_solved st) (ss_sub st) (ss_count st).
    Definition sing_set (st : sside) (d : nat) (q : polyff K) (sub : list (nat * polyff K)) : sside :=
      mk_sside (nerase (ss_ns st) d) (nerase (ss_mat st) d) (nset (ss_solved st) d q) sub (S (ss_count st)).
    (** the ray of the j-th value (from 0): get_rand_zi_vec((j + 1, ..., j + 1)) *)
    Definition ray_vec (j : nat) : nat -> K := rand_vec y (repeat (S j) (n - 1)).
    (** RatReconst.cpp:946-950: the subtraction term is removed from the values *)
    Definition remove_shift (q : polyff K) (vals : list K) : list K :=
      map (fun e => fsub (snd e) (calc_n_m_1 (ord _) q (ray_vec (fst e)))) (combine (seq 0 (length vals)) vals).
    (** RatReconst.cpp:978-1000, 1072-1092: degree 0 *)
    Definition sing_zero (st : sside) : outcome sside :=
      match nfind (ss_mat st) 0 with
      | None => Ret st
      | Some vals =>
          if nmem 0 (sc_zero g) then Ret (sing_set st 0 (zero_poly c) (ss_sub st))
          else
            let vals' := if 0 <? sc_deg g then match vals with v :: r => fsub v (calc_n_m_1 (ord _) (nget no_poly (ss_sub st) 0) (fun _ => f0)) :: r | [] => [] end else vals in
            do q <- solve_vandermonde_system (n - 1) (nget [] (ss_ns st) 0) (fun i => nth i vals' f0) y;
            Ret (sing_set st 0 q (ss_sub st))
      end.
    (** RatReconst.cpp:933-976, 1029-1070: one degree of the loop over all degrees *)
    Definition sing_sparse (i : nat) (st : sside) : outcome sside :=
      match nfind (ss_mat st) i with
      | Some vals =>
          if nmem i (sc_zero g) then Ret (sing_set st i (zero_poly c) (ss_sub st))
          else
            let vals' := if i <? sc_deg g then remove_shift (nget no_poly (ss_sub st) i) vals else vals in
            do q <- solve_vandermonde_system (n - 1) (nget [] (ss_ns st) i) (fun j => nth j vals' f0) y;
            do l <- shift_polys ord c s q i;
            let st' := sing_set st i q (add_subs ord (ss_sub st) l) in
            if sc_den g then sing_zero st' else Ret st'
      | None =>
          do st' <-
            match nfind (ss_solved st) i with
            | Some q =>
                if nmem i (sc_zero g) then Ret st
                else
                  do l <- shift_polys ord c s (psub_assign (ord _) q (nget no_poly (ss_sub st) i)) i;
                  Ret (mk_sside (ss_ns st) (ss_mat st) (ss_solved st) (add_subs ord (ss_sub st) l) (ss_count st))
            | None =>
                if negb (i =? sc_deg g) && negb (pzero (nget no_poly (ss_sub st) i))
                then Ret (mk_sside (nerase (ss_ns st) i) (ss_mat st) (nset (ss_solved st) i (nget no_poly (ss_sub st) i)) (ss_sub st) (S (ss_count st)))
                else Ret st
            end;
          if sc_den g then sing_zero st' else Ret st'
      end.
    Fixpoint sing_sparse_all (l : list nat) (st : sside) : outcome sside :=
      match l with [] => Ret st | i :: r => do st' <- sing_sparse i st; sing_sparse_all r st' end.
    (** RatReconst.cpp:923-1009, 1018-1098: the loop over the coefficients; it ends with the break after the degrees are solved sparsely *)
    Fixpoint sing_loop (l : list (nat * K)) (st : sside) : outcome sside :=
      match l with
      | [] => Ret st
      | (d, _) :: r =>
          if (nmem d (sc_dense g) || (d =? sc_max g)) && (length (nget [] (ss_mat st) d) =? length (nget [] (ss_ns st) d)) then
            if d =? sc_max g then
              do st' <- sing_sparse_all (rev (seq 1 (sc_deg g))) st;
              if sc_den g then Ret st' else sing_zero st'
            else
              do q <- solve_vandermonde_system (n - 1) (nget [] (ss_ns st) d) (fun i => nth i (nget [] (ss_mat st) d) f0) y;
              sing_loop r (sing_set st d q (ss_sub st))
          else sing_loop r st
      end.
    Definition sing_file (l : list (nat * K)) (st : sside) : outcome sside :=
      sing_loop (ord _ l) (fold_left sing_push (ord _ l) st).

    (** RatReconst.cpp:1107-1145: the sum of the parts without the shift *)
    Definition sing_part (st : sside) (e : nat * polyff K) : polyff K :=
      if nmem (fst e) (sc_dense g) then psub (ord _) (snd e) (nget no_poly (ss_sub st) (fst e)) else snd e.
    Definition sing_sum (st : sside) : polyff K :=
      fold_left (fun r e => if nmem (fst e) (sc_zero g) then r else padd_assign (ord _) r (sing_part st e)) (ord _ (ss_solved st)) (zero_poly c).
    (** RatReconst.cpp:2249-2268: the values of the solved degrees on the ray *)
    Definition sing_known (order : nat) (st : sside) : list (nat * K) :=
      map (fun e => (fst e,
        let v := calc_n_m_1 (ord _) (snd e) (rand_vec y (repeat order (n - 1))) in
        if nmem (fst e) (sc_dense g) then v else fadd v (calc_n_m_1 (ord _) (nget no_poly (ss_sub st) (fst e)) (rand_vec y (repeat order (n - 1)))))) (ord _ (ss_solved st)).
  End Side.

  (** ---- both sides ---- *)
  (** both sides, the entries of curr_zi_order (all equal), num_sub_num and num_sub_den, coef_mat *)
  Record swork := mk_swork { sw_num : sside; sw_den : sside; sw_order : nat; sw_subs : list (nat * K) * list (nat * K); sw_rows : list (list K) }.
  Section Both.
    Variables gn gd : scfg.
    (** shifted_max_num_eqn *)
    Variable eqn : nat.
    (** normalizer_den_num, normalizer_deg, the keys of g_ni and g_di *)
    Variables (norm_den : bool) (norm : mon) (gni gdi : list mon).
    (** RatReconst.cpp:2216-2283 build_homogenized_multi_gauss *)
    Definition sing_row (w : swork) (t v : K) : swork :=
      let subs := match sw_rows w with [] => (sing_known gn (sw_order w) (sw_num w), sing_known gd (sw_order w) (sw_den w)) | _ => sw_subs w end in
      let res := if mc_norm_den c then v else fopp f1 in
      let res := fold_left (fun r e => fsub r (fmul (snd e) (fpow t (Z.of_nat (fst e))))) (ord _ (fst subs)) res in
      let res := fold_left (fun r e => fadd r (fmul (fmul (snd e) (fpow t (Z.of_nat (fst e)))) v)) (ord _ (snd subs)) res in
      let eq := map (fun e => fpow t (Z.of_nat (fst e))) (ss_ns (sw_num w)) ++ map (fun e => fmul (fopp v) (fpow t (Z.of_nat (fst e)))) (ss_ns (sw_den w)) ++ [res] in
      mk_swork (sw_num w) (sw_den w) (sw_order w) subs (sw_rows w ++ [eq]).
    (** RatReconst.cpp:1229-1230 *)
    Definition sing_eqn (w : swork) : nat := eqn - ss_count (sw_num w) - ss_count (sw_den w).
    (** RatReconst.cpp:2032-2054 solve_homogenized_multi_gauss *)
    Definition sing_solve (w : swork) : outcome (list (nat * K) * list (nat * K)) :=
      do x <- solve_gauss_system (sing_eqn w) (fun r c => nth c (nth r (sw_rows w) []) f0) false;
      let ln := length (ss_ns (sw_num w)) in
      Ret (map (fun e => (fst (fst e), x (snd e))) (combine (ss_ns (sw_num w)) (seq 0 ln)),
           map (fun e => (fst (fst e), x (snd e))) (combine (ss_ns (sw_den w)) (seq ln (length (ss_ns (sw_den w)))))).
    (** RatReconst.cpp:1147-1206: normalisation; the result is the arguments of combine_primes *)
    Definition without (m : pmap K) (ks : list mon) : pmap K := fold_left perase ks m.
    Definition drop_zero (m : pmap K) : pmap K :=
      match pfind m (zero_mon c) with Some a => if feqb a f0 then perase m (zero_mon c) else m | None => m end.
    Definition sing_combine (num den : sside) : pmap K * pmap K :=
      let nu := sing_sum gn num in
      let de := sing_sum gd den in
      let const_den := coef_at (pf_coefs (nget no_poly (ss_sub (if mc_norm_den c then den else num)) 0)) (zero_mon c) in
      let terminator :=
        if Bool.eqb norm_den (mc_norm_den c) && mon_eqb norm (zero_mon c) then if feqb const_den f1 then f1 else fsub f1 const_den
        else coef_at (pf_coefs (if norm_den then de else nu)) norm in
      let equalizer := fdiv f1 terminator in
      (drop_zero (pf_coefs (pscale (mk_polyff (pf_n nu) (without (pf_coefs nu) gni)) equalizer)),
       drop_zero (pf_coefs (pscale (mk_polyff (pf_n de) (without (pf_coefs de) gdi)) equalizer))).
    (** the prime is not complete, or: the arguments of combine_primes, sub_num and sub_den (used by set_singular_system_vars for the next prime) *)
    Inductive sfed := SMore (w : swork) | SResult (nu de : pmap K) (subn subd : list (nat * polyff K)).
    (** RatReconst.cpp:336-400, 914-1232 *)
    Definition sing_feed (w : swork) (t v : K) : outcome sfed :=
      let w1 := sing_row w t v in
      if sing_eqn w1 =? length (sw_rows w1) then
        do nd <- sing_solve w1;
        do num <- sing_file gn (fst nd) (sw_num w1);
        do den <- sing_file gd (snd nd) (sw_den w1);
        match ss_mat num, ss_mat den with
        | [], [] => let r := sing_combine num den in Ret (SResult (fst r) (snd r) (ss_sub num) (ss_sub den))
        | _, _ => Ret (SMore (mk_swork num den (S (sw_order w1)) ([], []) []))
        end
      else Ret (SMore w1).
    Fixpoint sing_drive (bb : list nat -> K -> K) (ts : list K) (w : swork) : outcome sfed :=
      match ts with
      | [] => Ret (SMore w)
      | t :: r => do f <- sing_feed w t (bb (repeat (sw_order w) (n - 1)) t); match f with SMore w' => sing_drive bb r w' | _ => Ret f end
      end.
  End Both.
End Model.
Arguments sside K : clear implicits.
Arguments swork K : clear implicits.
Arguments sfed K : clear implicits.

Section Start.
  Context {K K0 : fops}.
  Variable ord : forall A : Type, list A -> list A.
  Variable c : mcfg.
  (** ---- set_singular_system_vars ---- *)
  (** RatReconst.cpp:3178-3183: the degree of most monomials, the greater degree if there are several *)
  Definition most (l : list (nat * list mon)) : nat * nat :=
    fold_left (fun m e => let size := length (snd e) in
      if (snd m <? size) || ((size =? snd m) && (fst m <? fst e)) then (fst e, size) else m) (ord _ l) (0, 0).
  (** K0: the field of the prime before.  RatReconst.cpp:3210-3251: the monomials of one degree, [q] is the subtraction term of the prime before: (non_solved_degs, dense_solve_degs) *)
  Definition sing_degree (norm : bool) (mx : nat * nat) (st : list (nat * list mon) * list nat) (e : nat * polyff K0) : list (nat * list mon) * list nat :=
    let '(d, q) := e in
    if d =? fst mx then st
    else
      match nfind (fst st) d with
      | Some l =>
          let extra := filter (fun k => negb (existsb (mon_eqb k) l) && negb (mon_eqb k (zero_mon c))) (map fst (ord _ (pf_coefs (remove_zero_coefs (ord _) q)))) in
          let l' := l ++ extra in
          if (0 <? length l') && (length l' <? snd mx) then (nset (fst st) d l', d :: snd st) else st
      | None =>
          if negb (norm && (d =? 0)) && negb (pzero q) then
            let keys := map fst (ord _ (pf_coefs (remove_zero_coefs (ord _) q))) in
            if length keys <? snd mx
            then (nset (fst st) d (if d =? 0 then keys else filter (fun k => negb (mon_eqb k (zero_mon c))) keys), d :: snd st)
            else (nset (fst st) d [zero_mon c], snd st)
          else st
      end.
  (** RatReconst.cpp:3158-3312 for one side (coef_mat gets the degrees of a list {zero_vec} in the C++ only when their first value is stored; here they start with an empty list).  [norm]: this is the side whose constant is one; [g]: the keys of g_ni; [ns]: non_solved_degs_num, [sub]:
      sub_num of the prime before; [zero]: zero_degs_num; [mxd]: max_deg_num *)
  Definition sing_start (is_den norm : bool) (g : list mon) (ns : list (nat * list mon)) (sub : list (nat * polyff K0)) (zero : list nat) (mxd : nat) : scfg * sside K :=
    let ns1 := fold_left (fun m k => if norm && mon_eqb k (zero_mon c) then m else add_non_solved m k) (ord _ g) ns in
    let mx := most ns1 in
    let sub1 := fold_left (fun m i => match nfind m i with Some _ => m | None => nset m i (@zero_poly K0 c) end) (seq 0 (S mxd)) sub in
    let st := fold_left (sing_degree norm mx) (ord _ sub1) (ns1, []) in
    (mk_scfg (fst mx) (snd st) zero mxd is_den,
     mk_sside (fst st) (map (fun e => (fst e, [])) (fst st)) [] (map (fun i => (i, @zero_poly K c)) (seq 0 (S mxd))) 0).
End Start.

(** PolyReconst, the interpolation of a polynomial of n variables: /repo/source/PolyReconst.cpp:32-52, 102-103, 160-528, 607-636,
    676-697, 703-811, 890-942.  Univariate Newton interpolation and Ben-Or/Tiwari race in every stage (Newton.v, BM.v), the coefficients of the lower stages
    come from transposed Vandermonde systems (Vandermonde.v).
    Simplifications: probes are processed when they are fed (the queue protocol is C34); uint32_t/int sums of exponents do not overflow.
    The maps lambda, b, l, delta, bm_iteration, bt_terminator, nums_for_bt are always written and erased together for a key: they are one
    map.  std::unordered_map is a list with unique keys; every iteration over one goes through [ord], an arbitrary reordering. *)
From Verif Require Import Machine FField LinAlg Vandermonde PolyFF Newton BM RatUni.
Open Scope nat_scope.

(** Members that do not change during a run: n, deg (-1: unknown), use_newton, use_bt, bt_threshold, individual_degree_bounds
    (None: is_set_individual_degree_bounds is false).  [pc_fuel] bounds the loop of rootsexponents. *)
Record pcfg := mk_pcfg { pc_n : nat; pc_deg : Z; pc_newton : bool; pc_bt : bool; pc_thr : nat; pc_bounds : option (list Z); pc_fuel : nat }.

(** PolyReconst.cpp:897, 928: sum of the exponents *)
Definition tot (e : mon) : Z := fold_left Z.add e 0%Z.

Section Model.
  Context {K : fops}.
  Variable ord : forall A : Type, list A -> list A.
  Variable c : pcfg.
  (** private_anchor_points *)
  Variable y : nat -> K.
  Local Notation n := (pc_n c).
  Local Notation deg := (pc_deg c).
  (** zero_element *)
  Definition zero_key : mon := repeat 0%Z n.

  (** PolyReconst.hpp:195-222, BaseReconst.hpp: zi, curr_zi_order, ais, the maps of Ben-Or/Tiwari, nums, rec_degs, solved_degs,
      tmp_solved_degs *)
  Record pst := mk_pst { ps_zi : nat; ps_order : list nat; ps_ais : list (mon * list K); ps_bt : list (mon * (bm K * list K));
    ps_nums : list K; ps_rec : list mon; ps_solved : pmap K; ps_tmp : pmap K }.
  (** PolyReconst.cpp:32-52 constructor; the same values are set at the first probe of a later prime (108-119, 155-157) *)
  Definition ps_start : pst := mk_pst 1 (repeat 1 n) [(zero_key, [])] [] [] [] [] [].

  (** PolyReconst.cpp:181, 299: individual_degree_bounds[zi - 1] == i *)
  Definition bound_hit (zi i : nat) : bool :=
    match pc_bounds c with Some b => (nth (zi - 1) b 0 =? Z.of_nat i)%Z | None => false end.
  (** PolyReconst.cpp:167-185 and 284-303: the next Newton coefficient of a key; (finished, a_i) *)
  Definition newton_part (zi : nat) (key : mon) (i : nat) (ai : list K) (v : K) : bool * list K :=
    let a := newton_ai (y (zi - 1)) i v ai in
    if feqb a f0 then (true, ai)
    else ((negb (deg =? -1)%Z && (Z.of_nat i =? wrap32 (deg - tot key))%Z) || bound_hit zi i, ai ++ [a]).

  (** PolyReconst.cpp:187-222 and 320-356: one value for Berlekamp/Massey; on success the terms (exponent, coefficient) *)
  Definition bt_part (zi : nat) (key : mon) (old : option (bm K * list K)) (v : K) : outcome (option (list (nat * K)) * (bm K * list K)) :=
    let '(s, nums) := match old with Some x => x | None => (bm_init, []) end in
    let nums' := nums ++ [v] in
    do r <- bm_step (pc_thr c) s nums';
    let '(fl, s') := r in
    if fl then
      match rootsexponents (pc_fuel c) (bm_lambda s') (rand_zi (y (zi - 1)) 1) (wrap64 (deg - tot key)) with
      | None => Diverge
      | Some (roots, exps) =>
          if length roots =? length (bm_lambda s') - 1 then Ret (Some (combine exps (solve_tv roots nums')), (s', nums'))
          else Ret (None, (mk_bm (bm_lambda s') (bm_b s') (bm_l s') (bm_delta s') (bm_iter s') 1, nums'))
      end
    else Ret (None, (s', nums')).

  (** PolyReconst.cpp:676-697 construct_tmp_canonical *)
  Definition new_deg (zi : nat) (key : mon) (e : Z) : mon :=
    map (fun j => if j =? zi - 1 then e else if j <? zi - 1 then expo key j else 0%Z) (seq 0 n).
  Definition tmp_canonical (zi : nat) (key : mon) (ai : list K) : pmap K :=
    if (length ai =? 1) && (zi =? n) then [(key, nth 0 ai f0)]
    else fold_left (fun m el => if feqb (snd el) f0 then m else pemplace m (new_deg zi key (expo (fst el) 0)) (snd el))
           (ord _ (newton_canonical (ord _) n (y (zi - 1)) ai)) [].

  (** PolyReconst.cpp:890-903 check_for_tmp_solved_degs_for_newton: (solved_degs, tmp_solved_degs) *)
  Definition file_newton (tmp : pmap K) (st : pmap K * pmap K) : pmap K * pmap K :=
    fold_left (fun (s : pmap K * pmap K) el =>
      if (tot (fst el) =? deg)%Z && negb (feqb (snd el) f0) then (pemplace (fst s) (fst el) (snd el), snd s)
      else if negb (feqb (snd el) f0) then (fst s, pemplace (snd s) (fst el) (snd el)) else s) (ord _ tmp) st.
  (** PolyReconst.cpp:911-936 check_for_tmp_solved_degs_for_bt *)
  Definition bt_map (zi : nat) (key : mon) (terms : list (nat * K)) : pmap K :=
    match terms with
    | [] => [(key, f0)]
    | _ => fold_left (fun m el => pemplace m (set_at key (zi - 1) (Z.of_nat (fst el))) (snd el)) terms []
    end.
  Definition file_bt (tmp : pmap K) (st : pmap K * pmap K) : pmap K * pmap K :=
    fold_left (fun (s : pmap K * pmap K) el =>
      if (tot (fst el) =? deg)%Z && negb (feqb (snd el) f0) then (pemplace (fst s) (fst el) (snd el), snd s)
      else if n =? 1 then (pemplace (fst s) (fst el) (snd el), snd s)
      else if negb (feqb (snd el) f0) then (fst s, pemplace (snd s) (fst el) (snd el)) else s) (ord _ tmp) st.

  (** PolyReconst.cpp:905-908, 938-941: std::find and erase; erasing end() is undefined *)
  Fixpoint erase_first (key : mon) (l : list mon) : outcome (list mon) :=
    match l with
    | [] => UB
    | k :: r => if mon_eqb key k then Ret r else do r' <- erase_first key r; Ret (k :: r')
    end.
  Definition erase_rec (zi : nat) (key : mon) (l : list mon) : outcome (list mon) := if 1 <? zi then erase_first key l else Ret l.

  (** PolyReconst.cpp:237-261: the known terms are subtracted from the probe *)
  Definition term_value (zi : nat) (order : list nat) (el : mon * K) : K :=
    fold_left (fun r j => fmul r (fpow (rand_zi (y j) (nth j order 0)) (expo (fst el) j))) (seq 0 zi) (snd el).
  Definition subtract_known (s : pst) (v : K) : K :=
    fold_left (fun r el => fsub r (term_value (ps_zi s) (ps_order s) el)) (ord _ (ps_tmp s))
      (fold_left (fun r el => fsub r (term_value (ps_zi s) (ps_order s) el)) (ord _ (ps_solved s)) v).

  (** PolyReconst.cpp:607-636 build_and_solve_transposed_vandermonde *)
  Definition node_of (zi : nat) (key : mon) : K :=
    fold_left (fun vi j => fmul vi (rand_zi (y j) (Z.to_nat (expo key j)))) (seq 0 (zi - 1)) f1.
  Definition solve_row (zi : nat) (rec : list mon) (nums : list K) : pmap K :=
    fold_left (fun m el => pemplace m (fst el) (snd el)) (combine rec (solve_tv (map (node_of zi) rec) nums)) [].

  (** the data changed by the loop over the keys *)
  Record prow := mk_row { w_ais : list (mon * list K); w_bt : list (mon * (bm K * list K)); w_st : pmap K * pmap K; w_rec : list mon;
    w_cn : nat; w_cb : nat }.
  (** PolyReconst.cpp:279-357: one key of a row *)
  Definition process_key (zi i : nat) (w : prow) (el : mon * K) : outcome prow :=
    let '(key, v) := el in
    let ai := match afind (w_ais w) key with Some a => a | None => [] end in
    let '(fin, ai') := if pc_newton c then newton_part zi key i ai v else (false, ai) in
    if fin then
      do rec' <- erase_rec zi key (w_rec w);
      Ret (mk_row (aerase (w_ais w) key) (if pc_bt c then aerase (w_bt w) key else w_bt w)
             (file_newton (tmp_canonical zi key ai') (w_st w)) rec' (w_cn w) (w_cb w))
    else
      let ais' := if pc_newton c then aset (w_ais w) key ai' else w_ais w in
      let cn' := if pc_newton c then S (w_cn w) else w_cn w in
      if pc_bt c then
        do r <- bt_part zi key (afind (w_bt w) key) v;
        match fst r with
        | Some terms =>
            do rec' <- erase_rec zi key (w_rec w);
            Ret (mk_row (aerase ais' key) (aerase (w_bt w) key) (file_bt (bt_map zi key terms) (w_st w)) rec' cn' (w_cb w))
        | None => Ret (mk_row ais' (aset (w_bt w) key (snd r)) (w_st w) (w_rec w) cn' (S (w_cb w)))
        end
      else Ret (mk_row ais' (w_bt w) (w_st w) (w_rec w) cn' (w_cb w)).
  Fixpoint process_keys (zi i : nat) (w : prow) (l : pmap K) : outcome prow :=
    match l with [] => Ret w | el :: r => do w' <- process_key zi i w el; process_keys zi i w' r end.

  (** PolyReconst.cpp:418-429, 444-455: the keys of the next stage start with their value at the first order *)
  Fixpoint seed_bt (l : pmap K) : outcome (list (mon * (bm K * list K))) :=
    match l with
    | [] => Ret []
    | (k, v) :: r => do s <- bm_step (pc_thr c) bm_init [v]; do rest <- seed_bt r; Ret ((k, (snd s, [v])) :: rest)
    end.
  Definition seed_ais (l : pmap K) : list (mon * list K) := map (fun el => (fst el, [snd el])) l.

  (** a probe leads to a request for more probes or to the polynomial of this prime (tmp_pol_ff) *)
  Inductive pfed := PMore (s : pst) | PPoly (m : pmap K).
  (** PolyReconst.cpp:466-473: tmp_pol_ff *)
  Definition final_poly (zi : nat) (ais : list (mon * list K)) (solved : pmap K) : pmap K :=
    fold_left (fun m el => pemplace m (fst el) (snd el)) (ord _ solved)
      (fold_left (fun m a => fold_left (fun m el => pemplace m (fst el) (snd el)) (tmp_canonical zi (fst a) (snd a)) m) (ord _ ais) []).

  Definition set_order (zi k : nat) : list nat := map (fun j => if j =? zi - 1 then k else 1) (seq 0 n).
  (** PolyReconst.cpp:377-473, combine_res is set: the next stage or the result *)
  Definition combine_stage (s : pst) : outcome pfed :=
    let zi := ps_zi s in
    if 1 <? n then
      let '(solved, pol) :=
        if (zi =? 1) && pc_newton c
        then file_newton (tmp_canonical zi zero_key (match afind (ps_ais s) zero_key with Some a => a | None => [] end)) (ps_solved s, ps_tmp s)
        else (ps_solved s, ps_tmp s) in
      let rec := map fst (ord _ pol) in
      do bt <- seed_bt (ord _ pol);
      let zi' := if (length rec =? 0) && negb (zi =? n) then n else zi in
      if negb (zi' =? n)
      then Ret (PMore (mk_pst (S zi') (set_order (S zi') 2) (seed_ais (ord _ pol)) bt (ps_nums s) rec solved []))
      else Ret (PPoly (final_poly zi' (seed_ais (ord _ pol)) solved))
    else Ret (PPoly (final_poly zi (ps_ais s) (ps_solved s))).

  (** PolyReconst.cpp:163-234: the lowest stage *)
  Definition stage_one (s : pst) (v : K) : outcome (bool * pst) :=
    let i := nth 0 (ps_order s) 0 - 1 in
    let ai := match afind (ps_ais s) zero_key with Some a => a | None => [] end in
    let '(fin, ai') := if pc_newton c then newton_part 1 zero_key i ai v else (false, ai) in
    let ais' := if pc_newton c then aset (ps_ais s) zero_key ai' else ps_ais s in
    let order' := set_order 1 (S (nth 0 (ps_order s) 0)) in
    if fin then Ret (true, mk_pst 1 order' ais' (if pc_bt c then aerase (ps_bt s) zero_key else ps_bt s) (ps_nums s) (ps_rec s) (ps_solved s) (ps_tmp s))
    else if pc_bt c then
      do r <- bt_part 1 zero_key (if i =? 0 then None else afind (ps_bt s) zero_key) v;
      match fst r with
      | Some terms =>
          let st := file_bt (bt_map 1 zero_key terms) (ps_solved s, ps_tmp s) in
          Ret (true, mk_pst 1 order' (aerase ais' zero_key) (aerase (ps_bt s) zero_key) (ps_nums s) (ps_rec s) (fst st) (snd st))
      | None => Ret (false, mk_pst 1 order' ais' (aset (ps_bt s) zero_key (snd r)) (ps_nums s) (ps_rec s) (ps_solved s) (ps_tmp s))
      end
    else Ret (false, mk_pst 1 order' ais' (ps_bt s) (ps_nums s) (ps_rec s) (ps_solved s) (ps_tmp s)).

  (** PolyReconst.cpp:235-373: a probe of a higher stage *)
  Definition stage_next (s : pst) (v : K) : outcome (bool * pst) :=
    let zi := ps_zi s in
    let k := nth (zi - 1) (ps_order s) 0 in
    let nums := ps_nums s ++ [subtract_known s v] in
    if length nums =? length (ps_rec s) then
      do w <- process_keys zi (k - 1) (mk_row (ps_ais s) (ps_bt s) (ps_solved s, ps_tmp s) (ps_rec s) 0 0) (ord _ (solve_row zi (ps_rec s) nums));
      let done := ((w_cn w =? 0) && pc_newton c) || ((w_cb w =? 0) && pc_bt c) in
      Ret (done, mk_pst zi (set_order zi (S k)) (w_ais w) (w_bt w) [] (w_rec w) (fst (w_st w)) (snd (w_st w)))
    else Ret (false, mk_pst zi (map (fun j => if j <? zi - 1 then S (nth j (ps_order s) 0) else nth j (ps_order s) 0) (seq 0 n))
                       (ps_ais s) (ps_bt s) nums (ps_rec s) (ps_solved s) (ps_tmp s)).

  (** PolyReconst.cpp:160-473: one probe taken at the requested orders *)
  Definition pstep (s : pst) (v : K) : outcome pfed :=
    do r <- (if ps_zi s =? 1 then stage_one s v else stage_next s v);
    if fst r then combine_stage (snd r) else Ret (PMore (snd r)).
  (** PolyReconst.cpp:102-103: a probe with other orders is ignored *)
  Definition pfeed (s : pst) (v : K) (order : list nat) : outcome pfed :=
    if list_eq_dec Nat.eq_dec order (ps_order s) then pstep s v else Ret (PMore s).

  (** PolyReconst.cpp:519-520: result_ff of an object inside a RatReconst *)
  Definition rat_result (m : pmap K) : polyff K :=
    let r := phomogenize (ord _) (mk_polyff n m) deg in mk_polyff (S n) (pf_coefs r).

  (** feeding the values of a black box at the requested orders until the polynomial of the prime is there *)
  Fixpoint drive (bb : list nat -> K) (m : nat) (s : pst) : outcome pfed :=
    match m with
    | O => Ret (PMore s)
    | S m' => do r <- pfeed s (bb (ps_order s)) (ps_order s); match r with PMore s' => drive bb m' s' | PPoly _ => Ret r end
    end.
End Model.
Arguments pst K : clear implicits.
Arguments pfed K : clear implicits.

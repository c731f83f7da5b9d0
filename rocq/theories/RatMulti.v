(** RatReconst for n > 1 variables over the first prime, from the first probe to the numerator and denominator handed to combine_primes:
    /repo/source/RatReconst.cpp:336-875 (interpolate), 1250-1365 (feed_poly), 2007-2030 (solve_gauss), 2167-2214 (build_uni_gauss), 2356-2368,
    2444-2473 (calculate_shift_polynomials).
    The function is restricted to rays (t + s_1, t y_2^o_2 + s_2, ..., t y_n^o_n + s_n), o the order (curr_zi_order).  On the first ray Thiele's
    interpolation gives the degrees; on the other rays the coefficients of the powers of t come from systems of linear equations.  The coefficients of
    one power of t are values of a polynomial of n - 1 variables, recovered by a PolyReconst (PolyRec.v).
    Simplifications: probes are processed when they are fed and come in the requested order (the queue and saved_ti are C34); options scan, skip_thiele
    and interpolations > 1 are left out, so this is the prime with prime_number == zero_counter; the first probe is not zero (C39).  The loops over
    the std::list coef_n/coef_d erase an element and step back, at the first element that is a decrement of begin(), which libstdc++ carries out as if
    the list were circular.  vandermonde_size only counts the requested probes and is left out.  std::unordered_map is a list with unique keys; every
    iteration over one goes through [ord], an arbitrary reordering. *)
From Verif Require Import Machine FField LinAlg Vandermonde PolyFF Thiele Newton BM RatUni Combi PolyRec.
Open Scope nat_scope.

(** std::unordered_map<uint32_t, A> *)
Section NMap.
  Context {A : Type}.
  Fixpoint nfind (m : list (nat * A)) (k : nat) : option A :=
    match m with [] => None | (k', a) :: r => if k =? k' then Some a else nfind r k end.
  Definition nset (m : list (nat * A)) (k : nat) (a : A) : list (nat * A) :=
    match nfind m k with Some _ => map (fun e => if k =? fst e then (fst e, a) else e) m | None => m ++ [(k, a)] end.
  (** m[k], the default d is not stored *)
  Definition nget (d : A) (m : list (nat * A)) (k : nat) : A := match nfind m k with Some a => a | None => d end.
End NMap.
(** std::unordered_set<uint32_t>: find and erase *)
Definition nmem (k : nat) (l : list nat) : bool := existsb (Nat.eqb k) l.
Definition nremove (k : nat) (l : list nat) : list nat := filter (fun j => negb (k =? j)) l.

(** Members that do not change: n, normalize_to_den, PolyReconst::use_bt and bt_threshold, the individual degree bounds of numerator and
    denominator.  [mc_fuel] bounds the loop of rootsexponents, [mc_steps] the loop of feed_poly. *)
Record mcfg := mk_mcfg { mc_n : nat; mc_norm_den : bool; mc_bt : bool; mc_thr : nat; mc_bn : option (list Z); mc_bd : option (list Z);
  mc_fuel : nat; mc_steps : nat }.

Section Model.
  Context {K : fops}.
  Variable ord : forall A : Type, list A -> list A.
  Variable c : mcfg.
  (** private_anchor_points and shift *)
  Variables (y s : nat -> K).
  Local Notation n := (mc_n c).

  (** shift != std::vector<FFInt>(n) *)
  Definition shifted : bool := existsb (fun i => negb (feqb (s i) f0)) (seq 0 n).
  Definition zero_mon : mon := repeat 0%Z n.
  (** RatReconst.cpp:461, 2447: {{std::vector<uint32_t>(n), 0}}; PolynomialFF() *)
  Definition zero_poly : polyff K := mk_polyff n [(zero_mon, f0)].
  Definition no_poly : polyff K := mk_polyff 0 [].
  (** RatReconst.cpp:538-543, 559-564: PolyReconst(n - 1, deg, true) with the bounds; use_newton is always true *)
  Definition poly_cfg (is_num : bool) (d : nat) : pcfg :=
    mk_pcfg (n - 1) (Z.of_nat d) true (mc_bt c) (mc_thr c) (if is_num then mc_bn c else mc_bd c) (mc_fuel c).
  (** RatReconst.cpp:2360-2368 get_rand_zi_vec *)
  Definition rand_vec (order : list nat) : nat -> K := fun i => rand_zi (y i) (nth i order 0).

  (** The members that exist for the numerator and for the denominator: coef_n, saved_num_num, solved_degs_num, sub_num, dense_solve_degs_num,
      restart_sparse_interpolation_num, tmp_solved_coefs_num, max_deg_num.  saved_num_num[order][{deg, zi}]: the newest entry is first. *)
  Record side := mk_side { sd_coef : list (nat * pst K); sd_saved : list ((list nat * (nat * nat)) * K); sd_solved : list (nat * polyff K);
    sd_sub : list (nat * polyff K); sd_dense : list nat; sd_restart : bool; sd_count : nat; sd_max : nat }.
  Fixpoint vfind (m : list ((list nat * (nat * nat)) * K)) (o : list nat) (d z : nat) : option K :=
    match m with
    | [] => None
    | ((o', (d', z')), v) :: r => if (if list_eq_dec Nat.eq_dec o o' then true else false) && (d =? d') && (z =? z') then Some v else vfind r o d z
    end.

  (** RatReconst.cpp:2444-2473 calculate_shift_polynomials *)
  Definition shift_polys (q : polyff K) (d : nat) : outcome (list (nat * polyff K)) :=
    do sp <- add_shift (ord _) q n s;
    Ret (fold_left (fun res el =>
           let e := Z.to_nat (degree32 (fst el)) in
           if (e <? d) && fgtb (snd el) f0 then nset res e (padd_assign (ord _) (nget no_poly res e) (mk_polyff n [el])) else res)
         (ord _ (pf_coefs sp)) (map (fun i => (i, zero_poly)) (seq 0 d))).
  (** RatReconst.cpp:730-732, 1291-1293: sub_num[i] += ... *)
  Definition add_subs (sub l : list (nat * polyff K)) : list (nat * polyff K) :=
    fold_left (fun m e => nset m (fst e) (padd_assign (ord _) (nget no_poly m (fst e)) (snd e))) (ord _ l) sub.

  (** RatReconst.cpp:1258-1287: the loop of feed_poly; inl: a value is missing, inr: tmp_pol_ff *)
  Fixpoint feed_loop (fuel : nat) (pc : pcfg) (d : nat) (sparse : bool) (sd : side) (st : pst K) : outcome (pst K + pmap K) :=
    match fuel with
    | O => Diverge
    | S fuel' =>
        match vfind (sd_saved sd) (ps_order st) d (S (ps_zi st)) with
        | None => Ret (inl st)
        | Some food =>
            let v := if sparse && shifted then fsub food (calc_n_m_1 (ord _) (nget no_poly (sd_sub sd) d) (rand_vec (ps_order st))) else food in
            do r <- pfeed ord pc y st v (ps_order st);
            match r with PMore st' => feed_loop fuel' pc d sparse sd st' | PPoly m => Ret (inr m) end
        end
    end.

  (** RatReconst.cpp:724-735, 1307-1315: the shift is removed from a solved degree, its own contributions are added to the lower degrees *)
  Definition unshift (k : nat) (sd : side) : outcome side :=
    let q := psub_assign (ord _) (nget no_poly (sd_solved sd) k) (nget no_poly (sd_sub sd) k) in
    do l <- (if k =? 0 then Ret [] else shift_polys q k);
    Ret (mk_side (sd_coef sd) (sd_saved sd) (nset (sd_solved sd) k q) (add_subs (sd_sub sd) l) (sd_dense sd) (sd_restart sd) (sd_count sd) (sd_max sd)).
  Definition undense (k : nat) (sd : side) : side :=
    mk_side (sd_coef sd) (sd_saved sd) (sd_solved sd) (sd_sub sd) (nremove k (sd_dense sd)) (sd_restart sd) (sd_count sd) (sd_max sd).
  (** RatReconst.cpp:1305-1317: solved degrees between the two highest unsolved ones *)
  Fixpoint unshift_between (l : list nat) (sd : side) : outcome side :=
    match l with
    | [] => Ret sd
    | k :: r => do sd' <- (match nfind (sd_solved sd) k with Some _ => unshift k (undense k sd) | None => Ret sd end); unshift_between r sd'
    end.
  (** RatReconst.cpp:1288-1322, 1323-1358: a degree is solved; all: coef_n at this moment *)
  Definition poly_solved (is_num : bool) (all : list (nat * pst K)) (d : nat) (m : pmap K) (sd : side) : outcome side :=
    let q := rat_result ord (poly_cfg is_num d) m in
    let sd1 := mk_side (sd_coef sd) (sd_saved sd) (nset (sd_solved sd) d q) (sd_sub sd) (sd_dense sd) (sd_restart sd) (S (sd_count sd)) (sd_max sd) in
    match all with
    | [] => UB
    | (front, _) :: rest =>
        if shifted && (d =? front) then
          do l <- shift_polys q d;
          let sd2 := mk_side (sd_coef sd1) (sd_saved sd1) (sd_solved sd1) (add_subs (sd_sub sd1) l) (nremove d (sd_dense sd1)) (sd_restart sd1) (sd_count sd1) (sd_max sd1) in
          match rest with
          | [] => Ret sd2
          | (next, _) :: _ =>
              unshift_between (rev (seq (S next) (d - S next)))
                (mk_side (sd_coef sd2) (sd_saved sd2) (sd_solved sd2) (sd_sub sd2) (nremove next (sd_dense sd2)) true (sd_count sd2) (sd_max sd2))
          end
        else Ret sd1
    end.
  Definition set_coef (l : list (nat * pst K)) (sd : side) : side :=
    mk_side l (sd_saved sd) (sd_solved sd) (sd_sub sd) (sd_dense sd) (sd_restart sd) (sd_count sd) (sd_max sd).
  Definition clear_restart (sd : side) : side :=
    mk_side (sd_coef sd) (sd_saved sd) (sd_solved sd) (sd_sub sd) (sd_dense sd) false (sd_count sd) (sd_max sd).
  (** RatReconst.cpp:594-621, 623-650: feed all polynomials that wait for this order *)
  Fixpoint feed_side (is_num : bool) (order : list nat) (kept todo : list (nat * pst K)) (sd : side) : outcome side :=
    match todo with
    | [] => Ret (set_coef kept sd)
    | (d, st) :: r =>
        if (if list_eq_dec Nat.eq_dec (ps_order st) order then true else false) || sd_restart sd then
          let st0 := if sd_restart sd then ps_start (poly_cfg is_num d) else st in
          let sd0 := clear_restart sd in
          do x <- feed_loop (mc_steps c) (poly_cfg is_num d) d (negb (nmem d (sd_dense sd))) sd0 st0;
          match x with
          | inl st' => feed_side is_num order (kept ++ [(d, st')]) r sd0
          | inr m => do sd1 <- poly_solved is_num (kept ++ (d, st) :: r) d m sd0; feed_side is_num order kept r sd1
          end
        else feed_side is_num order (kept ++ [(d, st)]) r sd
    end.

  (** RatReconst.cpp:573-588: the coefficients found on a ray are saved *)
  Definition save_values (order : list nat) (zi : nat) (l : list (nat * K)) (sd : side) : side :=
    mk_side (sd_coef sd)
      (fold_left (fun m e => if nth (zi - 2) order 0 <? fst e + 2 then ((order, (fst e, zi)), snd e) :: m else m) (ord _ l) (sd_saved sd))
      (sd_solved sd) (sd_sub sd) (sd_dense sd) (sd_restart sd) (sd_count sd) (sd_max sd).

  (** a_grt_b on orders of the same length (Combi.v) *)
  Definition order_grt (a b : list nat) : bool := match a_grt_b (map Z.of_nat a) (map Z.of_nat b) with Some r => r | None => false end.
  (** RatReconst.cpp:652-707: zi and curr_zi_order of the next ray *)
  Definition select (l : list (nat * pst K)) : nat * list nat :=
    fold_left (fun acc e =>
      let tzi := S (ps_zi (snd e)) in
      if fst acc <? tzi then (tzi, ps_order (snd e))
      else if (fst acc =? tzi) && order_grt (ps_order (snd e)) (snd acc) then (fst acc, ps_order (snd e)) else acc)
    l (2, repeat 1 (n - 1)).

  (** RatReconst.cpp:2167-2214 build_uni_gauss: the values of the solved degrees on the ray *)
  Definition known_values (order : list nat) (sd : side) : list (nat * K) :=
    map (fun e => (fst e, if nmem (fst e) (sd_dense sd) then calc_n_m_1 (ord _) (snd e) (rand_vec order)
                          else fadd (calc_n_m_1 (ord _) (snd e) (rand_vec order)) (calc_n_m_1 (ord _) (nget no_poly (sd_sub sd) (fst e)) (rand_vec order)))) (ord _ (sd_solved sd)).
  Definition build_row (num den : side) (subs : list (nat * K) * list (nat * K)) (t v : K) : list K :=
    let res := fold_left (fun r e => fsub r (fmul (snd e) (fpow t (Z.of_nat (fst e))))) (ord _ (fst subs)) f0 in
    let res := fold_left (fun r e => fadd r (fmul (fmul (snd e) (fpow t (Z.of_nat (fst e)))) v)) (ord _ (snd subs)) res in
    map (fun e => fpow t (Z.of_nat (fst e))) (sd_coef num) ++ map (fun e => fmul (fopp v) (fpow t (Z.of_nat (fst e)))) (sd_coef den) ++ [res].
  (** RatReconst.cpp:510, 1361: num_eqn *)
  Definition num_eqn (num den : side) : nat := sd_max den + sd_max num + 2 - sd_count num - sd_count den.
  (** RatReconst.cpp:2007-2030 solve_gauss *)
  Definition solve_rows (num den : side) (rows : list (list K)) : outcome (list (nat * K) * list (nat * K)) :=
    do x <- solve_gauss_system (num_eqn num den) (fun r c => nth c (nth r rows []) f0) false;
    let ln := length (sd_coef num) in
    Ret (map (fun e => (fst (fst e), x (snd e))) (combine (sd_coef num) (seq 0 ln)),
         map (fun e => (fst (fst e), x (snd e))) (combine (sd_coef den) (seq ln (length (sd_coef den))))).

  (** ---- the result of the prime ---- *)
  (** RatReconst.cpp:723-735, 737-747: remove the shift from the degrees that were interpolated with it *)
  Fixpoint unshift_all (l : list nat) (sd : side) : outcome side :=
    match l with
    | [] => Ret sd
    | k :: r => do sd' <- (if nmem k (sd_dense sd) then unshift k sd else Ret sd); unshift_all r sd'
    end.
  (** RatReconst.cpp:761-777: the sum of the non-zero degrees *)
  Definition sum_degrees (sd : side) : polyff K :=
    fold_left (fun r e => if pzero (snd e) then r else padd_assign (ord _) r (snd e)) (ord _ (sd_solved sd)) no_poly.
  (** RatReconst.cpp:2319-2333 add_non_solved_num/den for all terms *)
  Definition by_degree (m : pmap K) : list (nat * list mon) :=
    fold_left (fun g el => let d := Z.to_nat (degree32 (fst el)) in nset g d (nget [] g d ++ [fst el])) (ord _ m) [].
  Definition single (m : pmap K) : option mon :=
    match find (fun g => length (snd g) =? 1) (ord _ (by_degree m)) with Some (_, k :: _) => Some k | _ => None end.
  (** RatReconst.cpp:808-815: the minimal exponents of the denominator *)
  Definition min_mon (m : pmap K) : mon :=
    fold_left (fun acc el => match acc with [] => fst el | _ => match a_grt_b acc (fst el) with Some true => fst el | _ => acc end end) (ord _ m) [].
  Definition coef_at (m : pmap K) (k : mon) : K := match pfind m k with Some a => a | None => f0 end.
  (** RatReconst.cpp:779-847: terminator, normalizer_den_num, normalizer_deg, is_singular_system *)
  Definition normaliser (const_den : K) (nu de : pmap K) : K * bool * mon * bool :=
    if negb (feqb const_den f1) then (fsub f1 const_den, mc_norm_den c, zero_mon, false)
    else match (if mc_norm_den c then pfind de zero_mon else pfind nu zero_mon) with
         | Some a => (a, mc_norm_den c, zero_mon, false)
         | None =>
             match single de with
             | Some k => (coef_at de k, true, k, false)
             | None =>
                 match single nu with
                 | Some k => (coef_at nu k, false, k, false)
                 | None => (coef_at de (min_mon de), true, min_mon de, true)
                 end
             end
         end.
  (** the arguments of combine_primes, the normaliser, and what shifted systems use over the next primes: max_deg, zero_degs, shifted_max_num_eqn
      (846), sub_num and sub_den (the zero constant that 749-752 may insert into a subtraction term is left out) *)
  Record mres := mk_mres { mr_num : pmap K; mr_den : pmap K; mr_norm_den : bool; mr_norm : mon; mr_singular : bool; mr_div_by_zero : bool;
    mr_degs : nat * nat; mr_zeros : list nat * list nat; mr_eqn : nat; mr_subs : list (nat * polyff K) * list (nat * polyff K) }.
  (** RatReconst.cpp:761-777: zero_degs_num, zero_degs_den *)
  Definition zero_degrees (sd : side) : list nat := map fst (filter (fun e => pzero (snd e)) (sd_solved sd)).
  (** RatReconst.cpp:709-868 *)
  Definition combine_results (num den : side) : outcome mres :=
    do num1 <- (if shifted then unshift_all (rev (seq 0 (S (sd_max num)))) num else Ret num);
    do den1 <- (if shifted then unshift_all (rev (seq 0 (S (sd_max den)))) den else Ret den);
    let const_den := if shifted then coef_at (pf_coefs (nget no_poly (sd_sub (if mc_norm_den c then den1 else num1)) 0)) zero_mon else f0 in
    let nu := sum_degrees num1 in
    let de := sum_degrees den1 in
    let '(terminator, nd, deg, sing) := normaliser const_den (pf_coefs nu) (pf_coefs de) in
    let equalizer := fdiv f1 terminator in
    Ret (mk_mres (pf_coefs (pscale nu equalizer)) (pf_coefs (pscale de equalizer)) nd deg sing (feqb equalizer f0)
      (sd_max num1, sd_max den1) (zero_degrees num1, zero_degrees den1) (length (sd_solved num1) + length (sd_solved den1) - 1) (sd_sub num1, sd_sub den1)).

  (** ---- the rays ---- *)
  (** the current ray: zi, curr_zi_order, num_sub_num and num_sub_den, coef_mat *)
  Record ray := mk_ray { ra_zi : nat; ra_order : list nat; ra_subs : list (nat * K) * list (nat * K); ra_rows : list (list K) }.
  (** before the degrees are known the points of Thiele's interpolation are collected (t_interpolator), afterwards the equations of a ray *)
  Inductive mst := MFirst (th : thiele K) | MRay (num den : side) (r : ray).
  Inductive mfed := MMore (st : mst) | MResult (r : mres).

  (** RatReconst.cpp:573-868: the coefficients of a ray are known *)
  Definition finish_ray (order : list nat) (zi : nat) (ln ld : list (nat * K)) (num den : side) : outcome mfed :=
    let num0 := save_values order zi ln num in
    let den0 := save_values order zi ld den in
    do num1 <- feed_side true order [] (sd_coef num0) num0;
    do den1 <- feed_side false order [] (sd_coef den0) den0;
    match sd_coef num1, sd_coef den1 with
    | [], [] => do r <- combine_results num1 den1; Ret (MResult r)
    | _, _ => let sel := select (sd_coef num1 ++ sd_coef den1) in Ret (MMore (MRay num1 den1 (mk_ray (fst sel) (snd sel) ([], []) [])))
    end.

  (** PolynomialFF.cpp:279-311 max_deg and min_deg in one variable *)
  Definition max_deg1 (m : pmap K) : Z := fold_left (fun a kc => Z.max a (expo (fst kc) 0)) (ord _ m) 0%Z.
  Definition min_deg1 (m : pmap K) : option Z :=
    fold_left (fun a kc => match a with None => Some (expo (fst kc) 0) | Some z => Some (Z.min z (expo (fst kc) 0)) end) (ord _ m) None.
  (** RatReconst.cpp:457-470, 484-507, 519-571: one side after Thiele's interpolation; the degrees of coef are in decreasing order *)
  Definition first_side (is_num : bool) (m : pmap K) : side :=
    let mx := Z.to_nat (max_deg1 m) in
    let present d := match pfind m [Z.of_nat d] with Some a => true | None => false end in
    let nonzero d := match pfind m [Z.of_nat d] with Some a => negb (feqb a f0) | None => false end in
    mk_side (map (fun d => (d, ps_start (poly_cfg is_num d))) (filter nonzero (rev (seq 1 mx)))) []
      (match pfind m [0%Z] with Some a => [(0, mk_polyff n [(zero_mon, a)])] | None => [] end)
      (if shifted then map (fun i => (i, zero_poly)) (seq 0 (S mx)) else [])
      (filter present (seq 0 (S mx))) false
      (length (filter (fun d => negb (nonzero d)) (seq 1 mx)) + 1) mx.
  Definition first_values (m : pmap K) (sd : side) : list (nat * K) := map (fun e => (fst e, coef_at m [Z.of_nat (fst e)])) (sd_coef sd).
  (** RatReconst.cpp:402-512: the interpolation along the first ray is complete *)
  Definition first_ray (nu de : polyff K) : outcome mfed :=
    match min_deg1 (pf_coefs (if mc_norm_den c then de else nu)) with
    | None => UB
    | Some mn =>
        let equalizer := fdiv f1 (coef_at (pf_coefs (if mc_norm_den c then de else nu)) [mn]) in
        let cn := pf_coefs (pscale nu equalizer) in
        let cd := pf_coefs (pscale de equalizer) in
        let num := first_side true cn in
        let den := first_side false cd in
        finish_ray (repeat 1 (n - 1)) 2 (first_values cn num) (first_values cd den) num den
    end.

  (** RatReconst.cpp:336-868 interpolate: the value v at the point t of the current ray *)
  Definition minterpolate (st : mst) (t v : K) : outcome mfed :=
    match st with
    | MFirst th =>
        do a <- add_point th v t;
        if fst a then do nd <- get_result (ord _) (snd a); first_ray (fst nd) (snd nd) else Ret (MMore (MFirst (snd a)))
    | MRay num den r =>
        let subs := match ra_rows r with [] => (known_values (ra_order r) num, known_values (ra_order r) den) | _ => ra_subs r end in
        let rows := ra_rows r ++ [build_row num den subs t v] in
        if num_eqn num den =? length rows
        then do nd <- solve_rows num den rows; finish_ray (ra_order r) (ra_zi r) (fst nd) (snd nd) num den
        else Ret (MMore (MRay num den (mk_ray (ra_zi r) (ra_order r) subs rows)))
    end.
  (** the order of the requested probe *)
  Definition requested (st : mst) : list nat := match st with MFirst _ => repeat 1 (n - 1) | MRay _ _ r => ra_order r end.

  (** feeding a black box: the value on the requested ray at the given points *)
  Fixpoint mdrive (bb : list nat -> K -> K) (ts : list K) (st : mst) : outcome mfed :=
    match ts with
    | [] => Ret (MMore st)
    | t :: r => do f <- minterpolate st t (bb (requested st) t); match f with MMore st' => mdrive bb r st' | MResult _ => Ret f end
    end.
End Model.
Arguments side K : clear implicits.
Arguments mst K : clear implicits.
Arguments mfed K : clear implicits.
Arguments mres K : clear implicits.

(** RatReconst for one variable (n = 1, default options: no scan, no safe interpolation, no factor scan), from the first probe to the
    result: /repo/source/RatReconst.cpp.  The same combine_primes / rec_rat_coef / check_if_done code serves n > 1.
    Simplifications: probes are processed when they are fed (the queue protocol is C34); tags and files are left out (C35, C44); the
    branches guarded by scan, skip_thiele, n > 1, interpolations <> 1, is_singular_system, div_by_zero are not modelled (for n = 1 the
    shift is zero, so is_singular_system stays false).  std::unordered_map is a list with unique keys; every iteration over one goes
    through [ord], an arbitrary reordering.  A map keyed by a degree (non_solved_degs, solved_degs, num_sub) holds one polynomial per degree. *)
From Coq Require Import Znumtheory.
From Verif Require Import Machine FFInt FField LinAlg PolyFF Thiele RatNum Modular Primes PField.
Open Scope Z_scope.

(** std::unordered_map<std::vector<uint32_t>, A> *)
Section AMap.
  Context {A : Type}.
  Fixpoint afind (m : list (mon * A)) (k : mon) : option A :=
    match m with [] => None | (k', a) :: r => if mon_eqb k k' then Some a else afind r k end.
  Definition aset (m : list (mon * A)) (k : mon) (a : A) : list (mon * A) :=
    match afind m k with Some _ => map (fun e => if mon_eqb k (fst e) then (fst e, a) else e) m | None => m ++ [(k, a)] end.
  Definition aerase (m : list (mon * A)) (k : mon) : list (mon * A) := filter (fun e => negb (mon_eqb k (fst e))) m.
End AMap.

Definition obind {A B} (x : outcome A) (f : A -> outcome B) : outcome B :=
  match x with Ret a => f a | UB => UB | Throw => Throw | Exit => Exit | Diverge => Diverge end.
Notation "'do' x <- a ; b" := (obind a (fun x => b)) (at level 200, x pattern, a at level 100, b at level 200).
(** a division by zero in mpz_class or an inverse that does not exist *)
Definition oget {A} (x : option A) : outcome A := match x with Some a => Ret a | None => UB end.

(** The members of RatReconst/BaseReconst that survive a change of the prime (RatReconst.hpp:380-460, BaseReconst.hpp:110-125);
    max_deg_num == -1 is [rr_deg = None] *)
Record rr := mk_rr {
  rr_prime_number : Z; rr_new_prime : bool; rr_check_interpolation : bool; rr_first_feed : bool; rr_zero_counter : Z; rr_done : bool;
  rr_use_crt : bool; rr_combined_prime : Z; rr_cni : list (mon * Z); rr_cdi : list (mon * Z); rr_gni : list (mon * rn); rr_gdi : list (mon * rn);
  rr_nsn : list Z; rr_nsd : list Z; rr_deg : option (Z * Z); rr_norm : mon; rr_eqn : nat }.
(** RatReconst.cpp:42-62 the constructor, for the prime p *)
Definition rr_start (p : Z) : rr := mk_rr 0 false false true 0 false false p [] [] [] [] [] [] None [] 0.

Section Model.
  Variable ord : forall A : Type, list A -> list A.

  Section Prime.
    Variable F : pfield.
    Local Notation K := (fld F).
    Local Notation p := (pf_mod F).

    (** Working data of the current prime: t_interpolator, solved_degs_num/den, num_sub_num/den, coef_mat. They are empty when a prime
        starts: RatReconst.cpp:511 (t_interpolator), 2029-2031 (coef_mat, num_sub), 3361-3362 (solved_degs) *)
    Record work := mk_work { w_th : thiele K; w_sn : list (Z * polyff K); w_sd : list (Z * polyff K); w_subn : list (Z * K); w_subd : list (Z * K); w_mat : list (list K) }.
    Definition work_start : work := mk_work thiele_init [] [] [] [] [].

    (** BaseReconst.cpp:194-204 convert_to_ffint on one number: FFInt(mpz) / FFInt(mpz) *)
    Definition to_ff (r : rn) : K := fofZ (ff_div p (ff_ctor_mpz p (num r)) (ff_ctor_mpz p (den r))).
    Definition convert_to_ffint (g : list (mon * rn)) : list (mon * K) := map (fun e => (fst e, to_ff (snd e))) (ord _ g).
    (** BaseReconst.cpp:184-192 convert_to_mpz *)
    Definition convert_to_mpz (m : list (mon * K)) : list (mon * Z) := map (fun e => (fst e, kv (snd e))) (ord _ m).

    (** PolynomialFF.cpp:279-311 max_deg and min_deg (exponent sums below 2^31 are assumed not to overflow int); None: no coefficient *)
    Definition deg_sum (e : mon) : Z := fold_left Z.add e 0.
    Definition max_min_deg (m : list (mon * K)) : option (mon * mon) :=
      fold_left (fun acc kc =>
        match acc with
        | None => Some (fst kc, fst kc)
        | Some (mx, mn) =>
            Some (if deg_sum mx <=? deg_sum (fst kc) then fst kc else mx, if deg_sum (fst kc) <=? deg_sum mn then fst kc else mn)
        end) (ord _ m) None.

    (** RatReconst.cpp:1951-2000 rec_rat_coef, one map: (every number was reconstructed, g, promoted keys) *)
    Fixpoint promote (M : Z) (l : list (mon * Z)) (g : list (mon * rn)) (done_keys : list mon) : outcome (bool * list (mon * rn) * list mon) :=
      match l with
      | [] => Ret (true, g, done_keys)
      | (k, a) :: r =>
          do wang <- oget (get_rational_coef a M);
          if fst wang then promote M r (aset g k (snd wang)) (k :: done_keys)
          else
            do mqrr <- oget (get_rational_coef_mqrr a M);
            if fst mqrr then promote M r (aset g k (snd mqrr)) (k :: done_keys)
            else Ret (false, g, done_keys)
      end.
    Definition erase_all (g : list (mon * rn)) (ks : list mon) : list (mon * rn) := fold_left aerase ks g.
    (** RatReconst.cpp:1951-2000: (run_test, g_ni, g_di) *)
    Definition rec_rat_coef (g : rr) : outcome (bool * list (mon * rn) * list (mon * rn)) :=
      do n <- promote (rr_combined_prime g) (ord _ (rr_cni g)) (rr_gni g) [];
      let '(ok_n, gn, kn) := n in
      if ok_n then
        do d <- promote (rr_combined_prime g) (ord _ (rr_cdi g)) (rr_gdi g) [];
        let '(ok_d, gd, kd) := d in
        if ok_d then Ret (true, gn, gd) else Ret (false, erase_all gn kn, erase_all gd kd)
      else Ret (false, erase_all gn kn, rr_gdi g).

    (** RatReconst.cpp:2066-2085 test_guess; the shift of one variable is zero *)
    Definition test_guess (gn gd : list (mon * rn)) (v t : K) : bool :=
      let x := fun _ : nat => fadd t f0 in
      feqb (fdiv (calc (ord _) (mk_polyff 1 (convert_to_ffint gn)) x) (calc (ord _) (mk_polyff 1 (convert_to_ffint gd)) x)) v.

    (** RatReconst.cpp:3408-3448: the already known part of the function as one polynomial per degree *)
    Definition solved_polys (g : list (mon * rn)) : list (Z * polyff K) :=
      let tmp := fold_left (fun m e => passign m (fst e) (to_ff (snd e))) (ord _ g) [([0], f0)] in
      fold_left (fun (s : list (Z * polyff K)) kc =>
        let d := deg_sum (fst kc) in
        match find (fun e => fst e =? d) s with
        | Some (_, q) =>
            map (fun e => if fst e =? d then (d, if pzero q then mk_polyff 1 [kc] else mk_polyff (pf_n q) (pemplace (pf_coefs q) (fst kc) (snd kc))) else e) s
        | None => s ++ [(d, mk_polyff 1 [kc])]
        end) (ord _ tmp) [].

    (** RatReconst.cpp:3340-3448 check_if_done: (done, state, working data) *)
    Definition check_if_done (g : rr) (w : work) (v t : K) : outcome (bool * rr * work) :=
      do r <- rec_rat_coef g;
      let '(run_test, gn, gd) := r in
      if run_test && test_guess gn gd v t
      then Ret (true, mk_rr (rr_prime_number g) false (rr_check_interpolation g) (rr_first_feed g) (rr_zero_counter g) true
                        false (rr_combined_prime g) (rr_cni g) (rr_cdi g) gn gd (rr_nsn g) (rr_nsd g) (rr_deg g) (rr_norm g) (rr_eqn g), w)
      else
        let gn' := if run_test then erase_all gn (map fst (ord _ (rr_cni g))) else gn in
        let gd' := if run_test then erase_all gd (map fst (ord _ (rr_cdi g))) else gd in
        let sn := if 1 <=? rr_prime_number g then solved_polys gn' else [] in
        let sd := if 1 <=? rr_prime_number g then solved_polys gd' else [] in
        Ret (false, mk_rr (rr_prime_number g) false (rr_check_interpolation g) (rr_first_feed g) (rr_zero_counter g) false
                      true (rr_combined_prime g) (rr_cni g) (rr_cdi g) gn' gd' (rr_nsn g) (rr_nsd g) (rr_deg g) (rr_norm g) (rr_eqn g),
             mk_work (w_th w) sn sd (w_subn w) (w_subd w) (w_mat w)).

    (** RatReconst.cpp:2216-2283 build_homogenized_multi_gauss *)
    Definition build_row (g : rr) (w : work) (t v : K) : work :=
      let subn := match w_mat w with [] => map (fun e => (fst e, calc_n_m_1 (ord _) (snd e) (fun _ => f0))) (w_sn w) | _ => w_subn w end in
      let subd := match w_mat w with [] => map (fun e => (fst e, calc_n_m_1 (ord _) (snd e) (fun _ => f0))) (w_sd w) | _ => w_subd w end in
      let res := fold_left (fun r e => fsub r (fmul (snd e) (fpow t (fst e)))) (ord _ subn) f0 in
      let res := fold_left (fun r e => fadd r (fmul (fmul (snd e) (fpow t (fst e))) v)) (ord _ subd) res in
      let eq := map (fun d => fpow t d) (rr_nsn g) ++ map (fun d => fmul (fopp v) (fpow t d)) (rr_nsd g) ++ [res] in
      mk_work (w_th w) (w_sn w) (w_sd w) subn subd (w_mat w ++ [eq]).

    (** RatReconst.cpp:2027-2054 solve_homogenized_multi_gauss *)
    Definition solve_rows (g : rr) (w : work) : outcome (list (mon * K) * list (mon * K)) :=
      do x <- solve_gauss_system (rr_eqn g) (fun r c => nth c (nth r (w_mat w) []) f0) false;
      let ln := length (rr_nsn g) in
      Ret (map (fun e => ([fst e], x (snd e))) (combine (rr_nsn g) (seq 0 ln)),
           map (fun e => ([fst e], x (snd e))) (combine (rr_nsd g) (seq ln (length (rr_nsd g))))).

    (** RatReconst.cpp:2327-2341 add_non_solved_num/den: the degree as a key *)
    Definition add_degree (ns : list Z) (k : mon) : list Z := if existsb (Z.eqb (deg_sum k)) ns then ns else ns ++ [deg_sum k].

    (** RatReconst.cpp:1401-1439 combine_primes, first prime: the normaliser of the denominator is fixed to one *)
    Definition combine_first (g : rr) (numer denom : list (mon * K)) : rr :=
      let cni := convert_to_mpz numer in
      let cdi := convert_to_mpz denom in
      let nsn := fold_left (fun ns e => add_degree ns (fst e)) (ord _ cni) [] in
      let '(cdi', gdi, nsd) := fold_left (fun s e =>
          let '(c, gd, ns) := s in
          if mon_eqb (fst e) (rr_norm g) then (aerase c (fst e), aset gd (fst e) (mk_rn 1 1), ns) else (c, gd, add_degree ns (fst e)))
        (ord _ cdi) (cdi, rr_gdi g, []) in
      mk_rr (rr_prime_number g) (rr_new_prime g) (rr_check_interpolation g) (rr_first_feed g) (rr_zero_counter g) (rr_done g) (rr_use_crt g) p
        cni cdi' (rr_gni g) gdi (ord _ nsn) (ord _ nsd) (rr_deg g) (rr_norm g) (rr_eqn g).

    (** RatReconst.cpp:1463-1505: Chinese remaindering of one map; [last] is p3.second *)
    Fixpoint crt_map (M : Z) (img : list (mon * K)) (l : list (mon * Z)) (last : Z) : outcome (list (mon * Z) * Z) :=
      match l with
      | [] => Ret ([], last)
      | (k, c) :: r =>
          let i := match afind img k with Some x => kv x | None => 0 end in
          do p3 <- oget (run_chinese_remainder (c, M) (i, p));
          do rest <- crt_map M img r (snd p3);
          Ret ((k, fst p3) :: fst rest, snd rest)
      end.

    (** RatReconst.cpp:1512-1589 (numerator), 1592-1661 (denominator): is the coefficient the same as before? *)
    Definition decide (old M new M' : Z) : outcome (option rn) :=
      do lw <- oget (get_rational_coef old M);
      do cw <- oget (get_rational_coef new M');
      do lm <- oget (get_rational_coef_mqrr old M);
      do cm <- oget (get_rational_coef_mqrr new M');
      if fst lw && fst cw && rn_eqb (snd lw) (snd cw) then Ret (Some (snd cw))
      else if fst lm && fst cm && rn_eqb (snd lm) (snd cm) then Ret (Some (snd cm))
      else if old =? new then do r <- oget (rn_make old 1); Ret (Some r)
      else Ret None.
    (** the loop over combined_ni_back: (combined, g, non_solved) *)
    Fixpoint fix_map (M M' : Z) (l : list (mon * Z)) (c : list (mon * Z)) (g : list (mon * rn)) (ns : list Z) : outcome (list (mon * Z) * list (mon * rn) * list Z) :=
      match l with
      | [] => Ret (c, g, ns)
      | (k, old) :: r =>
          match afind g k with
          | Some _ => fix_map M M' r c g ns
          | None =>
              do res <- decide old M (match afind c k with Some x => x | None => 0 end) M';
              match res with
              | Some q => fix_map M M' r (aerase c k) (aset g k q) ns
              | None => fix_map M M' r c g (add_degree ns k)
              end
          end
      end.
    (** RatReconst.cpp:1440-1662 combine_primes, later primes *)
    Definition combine_next (g : rr) (numer denom : list (mon * K)) : outcome rr :=
      let M := rr_combined_prime g in
      do cn <- crt_map M numer (ord _ (rr_cni g)) 0;
      do cd <- crt_map M denom (ord _ (rr_cdi g)) (snd cn);
      let M' := snd cd in
      do fn <- fix_map M M' (ord _ (rr_cni g)) (fst cn) (rr_gni g) [];
      do fd <- fix_map M M' (ord _ (rr_cdi g)) (fst cd) (rr_gdi g) [];
      let '(cni, gni, nsn) := fn in
      let '(cdi, gdi, nsd) := fd in
      Ret (mk_rr (rr_prime_number g) (rr_new_prime g) (rr_check_interpolation g) (rr_first_feed g) (rr_zero_counter g) (rr_done g) (rr_use_crt g) M'
             cni cdi gni gdi (ord _ nsn) (ord _ nsd) (rr_deg g) (rr_norm g) (rr_eqn g)).

    (** RatReconst.cpp:1671-1740: number of equations for the next prime, next prime *)
    Definition next_prime_rr (g : rr) : outcome rr :=
      if rr_prime_number g + 1 =? 300 then Exit
      else Ret (mk_rr (rr_prime_number g + 1) true true true (rr_zero_counter g) (rr_done g) (rr_use_crt g) (rr_combined_prime g)
                  (rr_cni g) (rr_cdi g) (rr_gni g) (rr_gdi g) (rr_nsn g) (rr_nsd g) (rr_deg g) (rr_norm g) (length (rr_nsn g) + length (rr_nsd g))).
    (** RatReconst.cpp:1367-1765 combine_primes *)
    Definition combine_primes (g : rr) (numer denom : list (mon * K)) : outcome rr :=
      if rr_use_crt g then do g' <- combine_next g numer denom; next_prime_rr g'
      else next_prime_rr (combine_first g numer denom).

    (** RatReconst.cpp:402-511 after the last point of the Thiele interpolation: degrees, normaliser, scaling *)
    Definition canonical_form (g : rr) (nu de : polyff K) : outcome (rr * list (mon * K) * list (mon * K)) :=
      match max_min_deg (pf_coefs nu), max_min_deg (pf_coefs de) with
      | Some (mxn, _), Some (mxd, mnd) =>
          let equalizer := fdiv f1 (match afind (pf_coefs de) mnd with Some c => c | None => f0 end) in
          Ret (mk_rr (rr_prime_number g) (rr_new_prime g) (rr_check_interpolation g) (rr_first_feed g) (rr_zero_counter g) (rr_done g) (rr_use_crt g)
                 (rr_combined_prime g) (rr_cni g) (rr_cdi g) (rr_gni g) (rr_gdi g) (rr_nsn g) (rr_nsd g) (Some (expo mxn 0, expo mxd 0)) mnd (rr_eqn g),
               pf_coefs (pscale nu equalizer), pf_coefs (pscale de equalizer))
      | _, _ => UB
      end.

    (** what a probe leads to: more probes of this prime are needed, the next prime starts, the reconstruction is finished *)
    Inductive fed := More (g : rr) (w : work) | NextPrime (g : rr) | Finished (g : rr).

    (** RatReconst.cpp:336-516 interpolate(new_ti, num, fed_zi_ord) *)
    Definition interpolate (g : rr) (w : work) (t v : K) : outcome fed :=
      do chk <- (if rr_new_prime g then check_if_done g w v t else Ret (false, g, w));
      let '(dn, g1, w1) := chk in
      if dn then Ret (Finished g1)
      else
        match rr_deg g1 with
        | None =>
            do a <- add_point (w_th w1) v t;
            let w2 := mk_work (snd a) (w_sn w1) (w_sd w1) (w_subn w1) (w_subd w1) (w_mat w1) in
            if fst a then
              do nd <- get_result (ord _) (w_th w2);
              do c <- canonical_form g1 (fst nd) (snd nd);
              let '(g2, numer, denom) := c in
              do g3 <- combine_primes g2 numer denom; Ret (NextPrime g3)
            else Ret (More g1 w2)
        | Some _ =>
            let w2 := build_row g1 w1 t v in
            if Nat.eqb (rr_eqn g1) (length (w_mat w2)) then
              do nd <- solve_rows g1 w2;
              do g2 <- combine_primes g1 (fst nd) (snd nd); Ret (NextPrime g2)
            else Ret (More g1 w2)
        end.

    (** RatReconst.cpp:131-210 feed, then interpolate() (298-334) *)
    Definition feed_zero (g : rr) : outcome fed :=
      let zc := rr_zero_counter g + 1 in
      let cp := if zc =? rr_prime_number g + 1 then nth (Z.to_nat (rr_prime_number g + 1)) primes 0 else rr_combined_prime g in
      let pn := rr_prime_number g + 1 in
      if pn =? 300 then Exit
      else if (zc =? 3) && (pn =? 3)
      then Ret (Finished (mk_rr pn false (rr_check_interpolation g) (rr_first_feed g) zc true (rr_use_crt g) cp (rr_cni g) (rr_cdi g)
                            (aset (rr_gni g) [0] (mk_rn 0 1)) (aset (rr_gdi g) [0] (mk_rn 1 1)) (rr_nsn g) (rr_nsd g) (rr_deg g) (rr_norm g) (rr_eqn g)))
      else Ret (NextPrime (mk_rr pn true (rr_check_interpolation g) (rr_first_feed g) zc (rr_done g) (rr_use_crt g) cp (rr_cni g) (rr_cdi g)
                             (rr_gni g) (rr_gdi g) (rr_nsn g) (rr_nsd g) (rr_deg g) (rr_norm g) (rr_eqn g))).
    Definition feed (g : rr) (w : work) (t v : K) : outcome fed :=
      if rr_done g then Ret (Finished g)
      else if rr_first_feed g then
        if feqb v f0 then feed_zero g
        else interpolate (mk_rr (rr_prime_number g) (if rr_check_interpolation g then rr_new_prime g else false) (rr_check_interpolation g) false
                            (rr_zero_counter g) (rr_done g) (rr_use_crt g) (rr_combined_prime g) (rr_cni g) (rr_cdi g) (rr_gni g) (rr_gdi g)
                            (rr_nsn g) (rr_nsd g) (rr_deg g) (rr_norm g) (rr_eqn g)) w t v
      else interpolate g w t v.

    (** the probes (argument, value) of one prime; those arriving after the prime is finished are ignored (RatReconst.cpp:138) *)
    Fixpoint feed_all (g : rr) (w : work) (probes : list (Z * Z)) : outcome fed :=
      match probes with
      | [] => Ret (More g w)
      | (t, v) :: r =>
          do s <- feed g w (fofZ t) (fofZ v);
          match s with More g' w' => feed_all g' w' r | _ => Ret s end
      end.
  End Prime.

  (** a run: for each prime field its probes; the object at the end and whether it still waits for probes of the last prime *)
  Inductive run_result := Running (g : rr) | Starved (g : rr) | Complete (g : rr).
  Fixpoint run (g : rr) (l : list (pfield * list (Z * Z))) : outcome run_result :=
    match l with
    | [] => Ret (Running g)
    | (F, probes) :: r =>
        do s <- feed_all F g (work_start F) probes;
        match s with
        | More _ g' _ => Ret (Starved g')
        | NextPrime _ g' => run g' r
        | Finished _ g' => Ret (Complete g')
        end
    end.
End Model.

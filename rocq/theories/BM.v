(** Berlekamp/Massey and Ben-Or/Tiwari: /repo/source/PolyReconst.cpp:703-841 *)
From Verif Require Import Machine FField FSum LinAlg Vandermonde.
Open Scope nat_scope.

Section Model.
  Context {K : fops}.
  (** PolyReconst.hpp:202-209: the per-key entries of lambda, b, l, delta, bm_iteration, bt_terminator *)
  Record bm := mk_bm { bm_lambda : list K; bm_b : list K; bm_l : nat; bm_delta : K; bm_iter : nat; bm_term : nat }.
  (** PolyReconst.cpp:188-195: values set for a new key *)
  Definition bm_init : bm := mk_bm [f1] [f0] 0 f1 1 1.

  (** PolyReconst.cpp:714-716, 751-757: while (v.back() == 0) v.pop_back(); back() of an empty vector is undefined *)
  Fixpoint drop_zeros (l : list K) : list K :=
    match l with [] => [] | x :: r => if feqb x f0 then drop_zeros r else l end.
  Definition strip (l : list K) : outcome (list K) :=
    match rev (drop_zeros (rev l)) with [] => UB | l' => Ret l' end.

  (** PolyReconst.cpp:704-709 delta_r; at() throws for an index out of range (bm_iteration - i - 1 wraps) *)
  Definition discrepancy (s : bm) (nums : list K) : outcome K :=
    if (length nums <? bm_iter s) || (bm_iter s <? length (bm_lambda s)) then Throw
    else Ret (fold_left (fun d i => fadd d (fmul (nth i (bm_lambda s) f0) (nth (bm_iter s - i - 1) nums f0)))
                        (seq 0 (length (bm_lambda s))) f0).

  (** PolyReconst.cpp:735-744: entry j of the new lambda; b has already been shifted *)
  Definition new_lambda (lam b : list K) (dr delta : K) (j : nat) : K :=
    if (j <? length lam) && (j <? length b) then fsub (nth j lam f0) (fmul (fdiv dr delta) (nth j b f0))
    else if j <? length lam then nth j lam f0
    else fmul (fdiv (fopp dr) delta) (nth j b f0).

  (** PolyReconst.cpp:703-772 berlekamp_massey_step; thr is bt_threshold *)
  Definition bm_step (thr : nat) (s : bm) (nums : list K) : outcome (bool * bm) :=
    match discrepancy s nums with
    | Ret dr =>
        if feqb dr f0 then
          match strip (f0 :: bm_b s) with
          | Ret b' =>
              let t := S (bm_term s) in
              Ret ((thr + 1 <=? t) && (2 * bm_l s <? bm_iter s),
                   mk_bm (bm_lambda s) b' (bm_l s) (bm_delta s) (S (bm_iter s)) t)
          | _ => UB
          end
        else
          let b1 := f0 :: bm_b s in
          let lam1 := map (new_lambda (bm_lambda s) b1 dr (bm_delta s)) (seq 0 (Nat.max (length (bm_lambda s)) (length b1))) in
          let swap := 2 * bm_l s <? bm_iter s in
          let b2 := if swap then bm_lambda s else b1 in
          match strip lam1, strip b2 with
          | Ret lam', Ret b' =>
              Ret (false, mk_bm lam' b' (if swap then bm_iter s - bm_l s else bm_l s)
                                (if swap then dr else bm_delta s) (S (bm_iter s)) 1)
          | _, _ => UB
          end
    | Throw => Throw
    | _ => UB
    end.

  (** PolyReconst.cpp:197-199 (zi = 1) and 320-333: append the value to nums_for_bt, then one step. The list of flags. *)
  Fixpoint bm_feed (thr : nat) (s : bm) (nums : list K) (vals : list K) : outcome (list bool * bm) :=
    match vals with
    | [] => Ret ([], s)
    | v :: r =>
        match bm_step thr s (nums ++ [v]) with
        | Ret (fl, s') => match bm_feed thr s' (nums ++ [v]) r with Ret (fs, s'') => Ret (fl :: fs, s'') | o => o end
        | Throw => Throw
        | _ => UB
        end
    end.

  (** PolyReconst.cpp:784-800: value of the reversed polynomial at a; a.pow(i) *)
  Definition lambda_rev_value (lam : list K) (a : K) : K :=
    fold_left (fun r i => fadd r (fmul (nth (length lam - i - 1) lam f0) (fpow a (Z.of_nat i)))) (seq 0 (length lam)) f0.

  (** PolyReconst.cpp:774-815 rootsexponents: state roots, exponents, a, count; [maxc] is deg - sol_deg as size_t.
      [fuel] bounds the number of iterations; None means that the fuel did not suffice. The final size comparison only
      prints a message. *)
  Fixpoint rootsexp (fuel : nat) (lam : list K) (base : K) (maxc : Z) (roots : list K) (exps : list nat) (a : K) (count : nat)
    : option (list K * list nat) :=
    match fuel with
    | O => None
    | S fuel' =>
        if length roots <? length lam - 1 then
          let found := feqb (lambda_rev_value lam a) f0 in
          let roots' := if found then roots ++ [a] else roots in
          let exps' := if found then exps ++ [count] else exps in
          let a' := fmul a base in
          if feqb a' f1 then Some (roots', exps')
          else if (maxc <? Z.of_nat (S count))%Z then Some (roots', exps')
          else rootsexp fuel' lam base maxc roots' exps' a' (S count)
        else Some (roots, exps)
    end.
  Definition rootsexponents (fuel : nat) (lam : list K) (base : K) (maxc : Z) : option (list K * list nat) :=
    rootsexp fuel lam base maxc [] [] f1 0.

  (** PolyReconst.cpp:843-850: no equations *)
  Definition solve_tv (roots nums : list K) : list K :=
    match roots with
    | [] => [f0]
    | _ => map (vdm_solve (length roots) (fun i => nth i roots f0) (fun i => nth i nums f0)) (seq 0 (length roots))
    end.

  (** PolyReconst.cpp:188-230, 918-935 for one variable and Newton switched off: feed values until the Berlekamp/Massey step
      reports success and the number of roots matches; result: pairs (exponent, coefficient). After a failed root search the
      terminator is reset to 1. None: more values are needed. *)
  Definition bt_result (fuel : nat) (base : K) (maxc : Z) (s : bm) (nums : list K) : option (list (nat * K)) :=
    match rootsexponents fuel (bm_lambda s) base maxc with
    | Some (roots, exps) =>
        if length roots =? length (bm_lambda s) - 1 then Some (combine exps (solve_tv roots nums)) else None
    | None => None
    end.
  Fixpoint bt_feed (thr fuel : nat) (base : K) (maxc : Z) (s : bm) (nums vals : list K) : outcome (option (list (nat * K) * nat)) :=
    match vals with
    | [] => Ret None
    | v :: r =>
        match bm_step thr s (nums ++ [v]) with
        | Ret (true, s') =>
            match bt_result fuel base maxc s' (nums ++ [v]) with
            | Some p => Ret (Some (p, S (length nums)))
            | None => bt_feed thr fuel base maxc (mk_bm (bm_lambda s') (bm_b s') (bm_l s') (bm_delta s') (bm_iter s') 1) (nums ++ [v]) r
            end
        | Ret (false, s') => bt_feed thr fuel base maxc s' (nums ++ [v]) r
        | Throw => Throw
        | _ => UB
        end
    end.
End Model.
Arguments bm K : clear implicits.

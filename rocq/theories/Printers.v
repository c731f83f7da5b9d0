(** Printing of polynomials and rational functions: /repo/source/PolynomialFF.cpp (to_string, generate_hornerff,
    generate_horner_coefs), /repo/source/HornerGenerator.cpp, /repo/source/Polynomial.cpp, /repo/source/RationalFunction.cpp.
    A map from exponent vectors to coefficients is the list of its entries in the order of iteration; strings are lists
    of characters. The messages to the log are left out. *)
From Coq Require Import Ascii String.
From Verif Require Import Machine FFInt RatNum SYParse SYEval SYObj DecPrint.
From Coq Require Import List.
Import ListNotations.
Open Scope Z_scope.

Definition pmap (C : Type) := list (list Z * C).
Notation lit := list_ascii_of_string.

(** ---- sums of monomials ---- *)
Section ToString.
  Context {C : Type} (cs : C -> chars) (one : C -> bool).
  (** the variables of a monomial, each followed by a star: PolynomialFF.cpp:627-633, Polynomial.cpp:83-89 *)
  Fixpoint power_pieces (vars : list chars) (e : list Z) : outcome chars :=
    match e with
    | [] => Ret []
    | z :: r =>
        if z =? 0 then power_pieces (tl vars) r
        else match vars with
             | v :: vs => obind (power_pieces vs r) (fun s => Ret (v ++ (if 1 <? z then lit "^" ++ print z ++ lit "*" else lit "*") ++ s))
             | [] => UB
             end
    end.
  (** PolynomialFF.cpp:616-638, Polynomial.cpp:72-94: one monomial; [deg] is a uint32_t *)
  Definition mono_pieces (vars : list chars) (m : list Z * C) : outcome chars :=
    let deg := wrap32 (fold_left Z.add (fst m) 0) in
    obind (power_pieces vars (fst m)) (fun s =>
    Ret ((if negb (deg =? 0) && negb (one (snd m)) then cs (snd m) ++ lit "*" else if deg =? 0 then cs (snd m) ++ lit "*" else []) ++ s)).
  Fixpoint monos_string (vars : list chars) (acc : chars) (ms : pmap C) : outcome chars :=
    match ms with
    | [] => Ret acc
    | m :: r => obind (mono_pieces vars m) (fun s => monos_string vars (removelast (acc ++ s) ++ lit "+") r)
    end.
End ToString.
(** PolynomialFF.cpp:608-647 to_string; [n] is the member n *)
Definition ff_to_string (n : nat) (m : pmap Z) (vars : list chars) : outcome chars :=
  match m with
  | [] => Ret (lit "0")
  | _ => if negb (length vars =? n)%nat then Exit else obind (monos_string print (Z.eqb 1) vars [] m) (fun s => Ret (removelast s))
  end.

(** RationalNumber.cpp:103-121 string *)
Definition rn_string (r : rn) : chars :=
  if den r =? 1 then (if num r <? 1 then lit "(" ++ print (num r) ++ lit ")" else print (num r))
  else (if num r <? 1 then lit "(" ++ print (num r) ++ lit "/" ++ print (den r) ++ lit ")" else print (num r) ++ lit "/" ++ print (den r)).
Definition rn_is_one (r : rn) : bool := (num r =? 1) && (den r =? 1).
(** class Polynomial: coefs, n, var_pos *)
Record poly := mk_poly { coefs : pmap rn; pn : nat; var_pos : Z }.
(** vars_c of Polynomial.cpp:66-69 and 155-159 *)
Definition vars_c (p : poly) (vars : list chars) : outcome (list chars) :=
  if var_pos p =? -1 then Ret vars
  else match nth_error vars (Z.to_nat (var_pos p)), vars with Some v, _ :: r => Ret (v :: r) | _, _ => UB end.
(** Polynomial.cpp:55-99 to_string *)
Definition poly_to_string (p : poly) (vars : list chars) : outcome chars :=
  match coefs p with
  | [] => Ret (lit "0")
  | _ => if negb (length vars =? pn p)%nat && (var_pos p =? -1) then Exit
         else obind (vars_c p vars) (fun vs => obind (monos_string rn_string rn_is_one vs [] (coefs p)) (fun s => Ret (removelast s)))
  end.

(** ---- Horner forms ---- *)
(** for (i = m; i > 0; --i) *)
Definition down (m : Z) : list Z := map (fun k => m - Z.of_nat k) (seq 0 (Z.to_nat m)).
Definition pow_str (h : Z) : chars := if h =? 1 then [] else lit "^" ++ print h.
Section Level.
  Context {A : Type} (find : Z -> option A) (show : A -> chars) (var : chars).
  Definition has (i : Z) : bool := match find i with Some _ => true | None => false end.
  Definition shown (i : Z) : chars := match find i with Some a => show a | None => [] end.
  (** PolynomialFF.cpp:515-536 and 567-588, HornerGenerator.cpp:160-181 and 215-236: the loop over non_zero_degrees *)
  Fixpoint sparse_loop (first : chars) (max : Z) (ds : list Z) : chars :=
    match ds with
    | [] => []
    | d :: r =>
        let h := match r with d' :: _ => d - d' | [] => d end in
        (if d =? max then first else lit "+" ++ shown d ++ lit ")*" ++ var) ++ pow_str h ++ sparse_loop first max r
    end.
  (** PolynomialFF.cpp:499-547 and 551-599, HornerGenerator.cpp:144-190 and 199-245; [first] is the part with the
      coefficient of the highest power and the variable *)
  Definition horner_sparse (first : chars) (max : Z) : chars :=
    if 0 <? max then
      let nz := filter has (down max) in
      flat_map (fun i => if i =? max then [] else lit "(") nz ++ sparse_loop first max nz ++ (if has 0 then lit "+" ++ shown 0 else [])
    else shown 0.
  (** HornerGenerator.cpp:52-75 and 87-112 *)
  Definition horner_dense (first : chars) (max : Z) : chars :=
    if 0 <? max then
      repeat "("%char (Z.to_nat (max - 1)) ++ first ++
      flat_map (fun i => (if has i then lit "+" ++ shown i else []) ++ lit ")*" ++ var) (tl (down max)) ++
      (if has 0 then lit "+" ++ shown 0 else [])
    else shown 0.
End Level.
Fixpoint afind {A} (l : list (Z * A)) (i : Z) : option A := match l with [] => None | (d, a) :: r => if d =? i then Some a else afind r i end.
(** monomials.find({i}) *)
Fixpoint mfind {C} (m : pmap C) (i : Z) : option C :=
  match m with [] => None | (e, c) :: r => match e with [z] => if z =? i then Some c else mfind r i | _ => mfind r i end end.
Definition head_deg {C} (m : list Z * C) : Z := hd 0 (fst m).
(** the largest degree in a map with one variable: PolynomialFF.cpp:549-556, HornerGenerator.cpp:79-86 and 191-198 *)
Definition max_deg1 {C} (m : pmap C) : Z := fold_left (fun a e => if a <? head_deg e then head_deg e else a) m 0.
(** tmp_coefs: a map from the degree in the first variable to the polynomials in the others, highest degree first:
    PolynomialFF.cpp:477-491, HornerGenerator.cpp:28-42 and 121-135 *)
Fixpoint put_group {C} (d : Z) (e : list Z * C) (g : list (Z * pmap C)) : list (Z * pmap C) :=
  match g with
  | [] => [(d, [e])]
  | (d', l) :: r => if d' =? d then (d', l ++ [e]) :: r else if d' <? d then (d, [e]) :: g else (d', l) :: put_group d e r
  end.
Definition groups {C} (m : pmap C) : list (Z * pmap C) := fold_left (fun g e => put_group (head_deg e) (tl (fst e), snd e) g) m [].
Definition top {A} (g : list (Z * A)) : Z := match g with (d, _) :: _ => d | [] => 0 end.

Section Horner.
  Context {C : Type} (cs : C -> chars) (one : C -> bool).
  (** generate_horner_coefs (PolynomialFF.cpp:474-606) and generate_horner_rn (HornerGenerator.cpp:119-254) on a map
      that is not empty; [k] is the length of the keys, [vars] the names from the current index on *)
  Fixpoint horner_s (k : nat) (vars : list chars) (m : pmap C) : chars :=
    let var := hd [] vars in
    match k with
    | O => match m with (_, c) :: _ => cs c | [] => [] end
    | S k' =>
      match k' with
      | O => let max := max_deg1 m in
             horner_sparse (mfind m) cs var (match mfind m max with Some c => if one c then var else cs c ++ lit "*" ++ var | None => [] end) max
      | _ => let g := map (fun '(d, s) => (d, horner_s k' (tl vars) s)) (groups m) in
             let max := top g in
             horner_sparse (afind g) (fun s => s) var (lit "(" ++ match afind g max with Some s => s | None => [] end ++ lit ")*" ++ var) max
      end
    end.
  (** generate_horner_ff (HornerGenerator.cpp:26-117) on a map that is not empty *)
  Fixpoint horner_d (k : nat) (vars : list chars) (m : pmap C) : chars :=
    let var := hd [] vars in
    match k with
    | O => match m with (_, c) :: _ => cs c | [] => [] end
    | S k' =>
      match k' with
      | O => let max := max_deg1 m in
             horner_dense (mfind m) cs var (match mfind m max with Some c => if one c then var else var ++ lit "*" ++ cs c | None => [] end) max
      | _ => let g := map (fun '(d, s) => (d, horner_d k' (tl vars) s)) (groups m) in
             let max := top g in
             horner_dense (afind g) (fun s => s) var (var ++ lit "*(" ++ match afind g max with Some s => s | None => [] end ++ lit ")") max
      end
    end.
End Horner.
Definition key_length {C} (m : pmap C) : nat := match m with (e, _) :: _ => length e | [] => O end.
(** HornerGenerator.cpp:26-117 *)
Definition generate_horner_ff (m : pmap Z) (vars : list chars) : chars :=
  match m with [] => lit "0" | _ => horner_d print (Z.eqb 1) (key_length m) vars m end.
(** HornerGenerator.cpp:119-254 *)
Definition generate_horner_rn (m : pmap rn) (vars : list chars) : chars :=
  match m with [] => lit "0" | _ => horner_s rn_string rn_is_one (key_length m) vars m end.
(** std::unordered_map::emplace *)
Fixpoint keq (a b : list Z) : bool := match a, b with [], [] => true | x :: a, y :: b => (x =? y) && keq a b | _, _ => false end.
Definition emplace_m {C} (m : pmap C) (e : list Z * C) : pmap C := if existsb (fun x => keq (fst x) (fst e)) m then m else m ++ [e].
(** HornerGenerator.cpp:256-270 *)
Definition generate_horner_mon (m : pmap rn) (vars : list chars) : chars :=
  match m with [] => lit "0" | _ => generate_horner_rn (fold_left emplace_m m []) vars end.
(** Polynomial.cpp:154-162 generate_horner *)
Definition poly_horner (p : poly) (vars : list chars) : outcome chars :=
  obind (vars_c p vars) (fun vs => Ret (generate_horner_mon (coefs p) vs)).

(** ---- rational functions ---- *)
(** class RationalFunction: numerator, denominator, factors (with their own numerators and denominators), order_map *)
Record ratfun := mk_ratfun { rnum : poly; rden : poly; factors : list (poly * poly); order_map : list (nat * nat) }.
(** RationalFunction.cpp:32-40: vars_ordered *)
Fixpoint upd_l {A} (l : list A) (i : nat) (a : A) : list A := match l, i with [], _ => [] | _ :: r, O => a :: r | x :: r, S j => x :: upd_l r j a end.
Definition vars_ordered (o : list (nat * nat)) (vars : list chars) : outcome (list chars) :=
  match o with
  | [] => Ret vars
  | _ => fold_left (fun acc '(i, j) => obind acc (fun l => match nth_error vars j with
           | Some v => if (i <? length l)%nat then Ret (upd_l l i v) else UB | None => UB end)) o (Ret (map (fun _ => []) vars))
  end.
(** RationalFunction.cpp:28-74 to_string ([pr] = Polynomial::to_string) and 82-128 generate_horner ([pr] = generate_horner) *)
Fixpoint factor_strings (pr : poly -> outcome chars) (l : list poly) : outcome chars :=
  match l with
  | [] => Ret []
  | q :: r => match coefs q with
              | [] => factor_strings pr r
              | _ => obind (pr q) (fun s => obind (factor_strings pr r) (fun t => Ret (lit "(" ++ s ++ lit ")*" ++ t)))
              end
  end.
Definition ratfun_string (pr : poly -> list chars -> outcome chars) (f : ratfun) (vars : list chars) : outcome chars :=
  obind (vars_ordered (order_map f) vars) (fun vo =>
  let den_str := match coefs (rden f) with [] => Ret (lit "1") | _ => pr (rden f) vo end in
  match factors f with
  | [] => obind (pr (rnum f) vo) (fun a => obind den_str (fun b => Ret (lit "(" ++ a ++ lit ")/(" ++ b ++ lit ")")))
  | _ =>
    obind (factor_strings (fun q => pr q vars) (map fst (factors f))) (fun fa =>
    obind (factor_strings (fun q => pr q vars) (map snd (factors f))) (fun fb =>
    obind (pr (rnum f) vo) (fun a => obind den_str (fun b =>
    Ret (lit "(" ++ fa ++ lit "(" ++ a ++ lit "))/(" ++ fb ++ lit "(" ++ b ++ lit "))")))))
  end).

(** ---- the Horner shortcut of PolynomialFF::calc_n_m_1 (PolynomialFF.cpp:46-69 and 446-472) ---- *)
(** coefs_n_m_1: the first exponent is dropped, coefficients of equal keys are added *)
Fixpoint add_key (p : Z) (e : list Z * Z) (m : pmap Z) : pmap Z :=
  match m with
  | [] => [e]
  | (k, c) :: r => if keq k (fst e) then (k, ff_add_assign p c (snd e)) :: r else (k, c) :: add_key p e r
  end.
Definition drop_first (p : Z) (m : pmap Z) : pmap Z := fold_left (fun acc e => add_key p (tl (fst e), snd e) acc) m [].
(** the names a0, a1, ... *)
Definition a_names (n : nat) : list chars := map (fun i => lit "a" ++ print (Z.of_nat i)) (seq 0 n).
(** generate_hornerff on a polynomial in n >= 1 variables that is not empty *)
Definition horner_tokens (p : Z) (n : nat) (m : pmap Z) : outcome (list ptok) :=
  let m1 := drop_first p m in
  let vars := a_names (n - 1) in
  obind (parse (horner_s print (Z.eqb 1) (key_length m1) vars m1)) (fun ts => obind (precompute p vars ts) (fun tp => Ret (fst tp))).
(** generate_hornerff and s_y_fun.evaluate_pre(x)[0] *)
Definition calc_horner (p : Z) (n : nat) (m : pmap Z) (x : list Z) : outcome Z := obind (horner_tokens p n m) (eval_pre1 p x).
(** PolynomialFF.cpp:58-68: the loop over the terms *)
Fixpoint mono_loop (p : Z) (e x : list Z) (acc : Z) : Z :=
  match e, x with z :: e, v :: x => mono_loop p e x (ff_mul_assign p acc (ff_pow_int p v z)) | _, _ => acc end.
Definition calc_direct (p : Z) (m : pmap Z) (x : list Z) : Z :=
  fold_left (fun res t => ff_add_assign p res (ff_mul p (snd t) (mono_loop p (tl (fst t)) x 1))) m 0.
(** the object: coefs, generate_new_horner, eval_horner, the tokens of s_y_fun (PolynomialFF.hpp:130-137) *)
Record hobj := mk_hobj { hcoefs : pmap Z; gen_new : bool; eval_h : bool; htoks : list ptok }.
Definition new_hobj (m : pmap Z) : hobj := mk_hobj m true false [].
(** what operators += -= *= /= do besides changing coefs to m: PolynomialFF.cpp:143-146, 165-168, 200-203, 215-218 *)
Definition mutate (m : pmap Z) (o : hobj) : hobj := mk_hobj m (if (50 <? length m)%nat then true else gen_new o) false (htoks o).
(** PolynomialFF.cpp:46-69 calc_n_m_1 *)
Definition calc_obj (p : Z) (n : nat) (o : hobj) (x : list Z) : outcome (Z * hobj) :=
  if gen_new o && (50 <? length (hcoefs o))%nat then
    obind (horner_tokens p n (hcoefs o)) (fun ts => obind (eval_pre1 p x ts) (fun v => Ret (v, mk_hobj (hcoefs o) false true ts)))
  else if eval_h o then obind (eval_pre1 p x (htoks o)) (fun v => Ret (v, o))
  else Ret (calc_direct p (hcoefs o) x, o).
(** a history of changes and evaluations, and its results *)
Inductive hop := Change (m : pmap Z) | Calc (x : list Z).
Fixpoint run_hops (p : Z) (n : nat) (o : hobj) (l : list hop) : outcome (list Z) :=
  match l with
  | [] => Ret []
  | Change m :: r => run_hops p n (mutate m o) r
  | Calc x :: r => obind (calc_obj p n o x) (fun vo => obind (run_hops p n (snd vo) r) (fun l => Ret (fst vo :: l)))
  end.

(** From probes to results: points of the probes, division by factors and assembly of the results.
    /repo/source/include/firefly/Reconstructor.hpp: 1125-1148 (get_result), 1162-1195 (get_early_results), 1621-1634, 1751-1777, 1844-1875 (factors and
    order of the variables found by scan_for_factors), 2893-2990 (queue_probes), 3307-3323 (clean_reconst), 3369-3416 (compute_probe);
    /repo/source/ShuntingYardParser.cpp: 315-329 (parse_function); /repo/source/RationalFunction.cpp: 121-132 (add_factor, set_var_order).
    Simplifications: the scan for factors itself needs FLINT and is not modelled, only what is done with the factors it has found; mutexes are left out
    (schedules: C38, C42); the bunches of compute_probe are componentwise (C07). *)
From Coq Require Import Ascii String.
From Verif Require Import Machine FFInt RatNum SYParse SYEval SYObj DecPrint Printers.
From Coq Require Import List.
Import ListNotations.
Open Scope nat_scope.
Local Notation "'do' x <- a ; b" := (obind a (fun x => b)) (at level 200, x pattern, a at level 100, b at level 200).

(** ---- order of the variables ---- *)
(** Reconstructor.hpp:1751-1757: std::stable_sort of 0 .. n-1 by decreasing max_degs (by insertion: the standard only fixes the result) *)
Fixpoint insert_desc (deg : nat -> nat) (i : nat) (l : list nat) : list nat :=
  match l with [] => [i] | j :: r => if deg j <? deg i then i :: j :: r else j :: insert_desc deg i r end.
Definition sort_indices (deg : nat -> nat) (n : nat) : list nat := fold_left (fun l i => insert_desc deg i l) (seq 0 n) [].
(** Reconstructor.hpp:1759-1762 optimal_var_order, 1774-1777 change_var_order *)
Definition optimal_var_order (deg : nat -> nat) (n : nat) : list (nat * nat) := combine (seq 0 n) (sort_indices deg n).
Definition change_var_order (o : list (nat * nat)) : bool := existsb (fun e => negb (snd e =? fst e)) o.

(** ---- texts of the factors ---- *)
(** Reconstructor.hpp:1376 curr_var, 1761 vars *)
Definition x_name (i : nat) : chars := lit "x" ++ print (Z.of_nat i + 1).
(** A factor that was found: the variable, numerator and denominator (empty: none) *)
Record found_factor := mk_found { ff_var : nat; ff_num : pmap rn; ff_den : pmap rn }.
(** Reconstructor.hpp:1621-1632: the text that is put into factors_str.  The texts of one side differ because each contains its variable, so that the
    unordered_set keeps all of them (in any order). *)
Definition side_text (v : nat) (m : pmap rn) : outcome chars := poly_to_string (mk_poly m 1 (-1)) [x_name v].
Fixpoint side_texts (l : list (nat * pmap rn)) : outcome (list chars) :=
  match l with
  | [] => Ret []
  | (v, m) :: r => match m with [] => side_texts r | _ => do s <- side_text v m; do t <- side_texts r; Ret (s :: t) end
  end.
(** Reconstructor.hpp:1618-1634: the entry of factors_rf (set_var_pos for a side that is there, the default Polynomial otherwise) *)
Definition side_poly (v : nat) (m : pmap rn) : poly := match m with [] => mk_poly [] 0 (-1) | _ => mk_poly m 1 (Z.of_nat v) end.
Definition factor_entry (f : found_factor) : poly * poly := (side_poly (ff_var f) (ff_num f), side_poly (ff_var f) (ff_den f)).
(** Reconstructor.hpp:1845-1870: tmp_fac_s *)
Definition bracket (l : list chars) : chars := lit "(" ++ removelast (concat (map (fun s => lit "(" ++ s ++ lit ")*") l)) ++ lit ")".
Definition factor_text (nums dens : list chars) : chars :=
  (match nums with [] => [] | _ => bracket nums end) ++
  (match dens with [] => [] | _ => (match nums with [] => lit "1/" | _ => lit "/" end) ++ bracket dens end).
(** ShuntingYardParser.cpp:315-329 parse_function of a new object, precompute_tokens (Reconstructor.hpp:1872-1874) *)
Definition parse_one (p : Z) (s : chars) (vars : list chars) : outcome parser :=
  do ts <- parse s; precompute_tokens p false (mk_parser [ts] vars [] [] false false false 0 [] [] [] []).
(** Reconstructor.hpp:1844-1875: an element of parsed_factors *)
Definition parsed_factor (ord : forall A : Type, list A -> list A) (p : Z) (n : nat) (fs : list found_factor) : outcome parser :=
  do nums <- side_texts (map (fun f => (ff_var f, ff_num f)) fs);
  do dens <- side_texts (map (fun f => (ff_var f, ff_den f)) fs);
  parse_one p (factor_text (ord _ nums) (ord _ dens)) (map x_name (seq 0 n)).

(** ---- the points of the probes ---- *)
(** Reconstructor.hpp:2937-2951: the coordinate i of the ray *)
Definition ray_coordinate (p t : Z) (rand_zi shift : list Z) (i : nat) : outcome Z :=
  match i with
  | O => match nth_error shift 0 with Some s => Ret (ff_add p t s) | None => UB end
  | S j => match nth_error rand_zi j, nth_error shift i with Some r, Some s => Ret (ff_add p (ff_mul p r t) s) | _, _ => UB end
  end.
Fixpoint fill (p t : Z) (rand_zi shift : list Z) (places : list (nat * nat)) (values : list Z) : outcome (list Z) :=
  match places with
  | [] => Ret values
  | (i, j) :: r => do c <- ray_coordinate p t rand_zi shift i; if j <? length values then fill p t rand_zi shift r (upd_l values j c) else UB
  end.
(** Reconstructor.hpp:2913, 2937-2951: values; [order]: optimal_var_order in the order of traversal *)
Definition probe_point (p : Z) (n : nat) (change : bool) (order : list (nat * nat)) (rand_zi shift : list Z) (t : Z) : outcome (list Z) :=
  fill p t rand_zi shift (if change then order else map (fun i => (i, i)) (seq 0 n)) (repeat 0%Z n).

(** Reconstructor.hpp: chosen_t, ind, requested_probes, index_map; [q_drawn]: how many random numbers have been drawn *)
Record queue := mk_queue { q_chosen : list (list nat * list Z); q_ind : nat; q_requested : list (nat * list Z); q_index : list (nat * (Z * list nat)); q_drawn : nat }.
Definition same_order (a b : list nat) : bool := if list_eq_dec Nat.eq_dec a b then true else false.
Fixpoint chosen_for (zi : list nat) (l : list (list nat * list Z)) : option (list Z) :=
  match l with [] => None | (z, ts) :: r => if same_order z zi then Some ts else chosen_for zi r end.
Fixpoint put_chosen (zi : list nat) (t : Z) (l : list (list nat * list Z)) : list (list nat * list Z) :=
  match l with [] => [(zi, [t])] | (z, ts) :: r => if same_order z zi then (z, t :: ts) :: r else (z, ts) :: put_chosen zi t r end.
(** Reconstructor.hpp:2914-2934: random numbers are drawn until one has not been used for this zi_order *)
Fixpoint new_t (fuel : nat) (rnd : nat -> Z) (used : list Z) (k : nat) : outcome (Z * nat) :=
  match fuel with O => Diverge | S f => if existsb (Z.eqb (rnd k)) used then new_t f rnd used (S k) else Ret (rnd k, S k) end.
Section Queue.
  Variables (p : Z) (n : nat) (change : bool) (order : list (nat * nat)) (shift : list Z) (rz : list nat -> list Z) (rnd : nat -> Z) (fuel : nat).
  (** Reconstructor.hpp:2913-2973: one probe *)
  Definition queue_one (ones : bool) (zi : list nat) (q : queue) : outcome queue :=
    do tk <- new_t fuel rnd (match chosen_for zi (q_chosen q) with Some ts => ts | None => [] end) (q_drawn q);
    do values <- probe_point p n change order (rz zi) shift (fst tk);
    Ret (mk_queue (put_chosen zi (fst tk) (q_chosen q)) (S (q_ind q))
      (if ones then (q_ind q, values) :: q_requested q else q_requested q ++ [(q_ind q, values)]) (q_index q ++ [(q_ind q, (fst tk, zi))]) (snd tk)).
  (** Reconstructor.hpp:2893-2974 queue_probes; get_rand_zi_vec(zi_order) is a function of zi_order *)
  Fixpoint queue_probes (ones : bool) (zi : list nat) (to_start : nat) (q : queue) : outcome queue :=
    match to_start with O => Ret q | S k => do q' <- queue_one ones zi q; queue_probes ones zi k q' end.
  (** a sequence of calls: (front or back, zi_order, number) *)
  Fixpoint queue_all (calls : list (bool * list nat * nat)) (q : queue) : outcome queue :=
    match calls with [] => Ret q | (ones, zi, k) :: r => do q' <- queue_probes ones zi k q; queue_all r q' end.
End Queue.
Definition empty_queue : queue := mk_queue [] 0 [] [] 0.

(** ---- the value of a probe ---- *)
Fixpoint nat_find {A} (i : nat) (l : list (nat * A)) : option A := match l with [] => None | (j, a) :: r => if j =? i then Some a else nat_find i r end.
(** Reconstructor.hpp:3392-3399 (factor_scan == false) *)
Fixpoint divide_factors (p : Z) (parsed : list (nat * parser)) (values : list Z) (i : nat) (probe : list Z) : outcome (list Z) :=
  match probe with
  | [] => Ret []
  | v :: r =>
      do w <- match nat_find i parsed with
              | Some o => do res <- evaluate_pre p o values; match res with f :: _ => Ret (ff_div_assign p v f) | [] => UB end
              | None => Ret v
              end;
      do ws <- divide_factors p parsed values (S i) r; Ret (w :: ws)
  end.
Definition compute_probe (p : Z) (bb : list Z -> list Z) (parsed : list (nat * parser)) (values : list Z) : outcome (list Z) := divide_factors p parsed values 0 (bb values).

(** ---- the results ---- *)
(** Reconstructor.hpp:169 RatReconst_status; an element of reconst: index, status, RatReconst::get_result() *)
Inductive status := Reconstructing | Done | Delete.
Record entry := mk_entry { en_index : nat; en_status : status; en_result : ratfun }.
Definition is_reconstructing (e : entry) : bool := match en_status e with Reconstructing => true | _ => false end.
Definition is_done (e : entry) : bool := match en_status e with Done => true | _ => false end.
Definition is_delete (e : entry) : bool := match en_status e with Delete => true | _ => false end.
Section Get.
  Variables (change : bool) (order : list (nat * nat)) (factors_rf : list (nat * list (poly * poly))).
  (** Reconstructor.hpp:1133-1141, 1179-1187 with the key k of factors_rf *)
  Definition with_factors (k : nat) (f : ratfun) : ratfun :=
    mk_ratfun (rnum f) (rden f) (factors f ++ match nat_find k factors_rf with Some l => l | None => [] end) (if change then order else order_map f).
  (** Reconstructor.hpp:1125-1148 get_result *)
  Fixpoint get_result (counter : nat) (reconst : list entry) : list ratfun :=
    match reconst with [] => [] | e :: r => if is_done e then with_factors counter (en_result e) :: get_result (S counter) r else get_result counter r end.
  (** Reconstructor.hpp:1162-1195 get_early_results (without tags; factor_scan and scan are over) *)
  Definition early_results (reconst : list entry) : list (chars * ratfun) :=
    map (fun e => (print (Z.of_nat (en_index e)), with_factors (en_index e) (en_result e))) (filter is_done reconst).
  Definition early_mark (reconst : list entry) : list entry := map (fun e => if is_done e then mk_entry (en_index e) Delete (en_result e) else e) reconst.
  (** Reconstructor.hpp:3307-3323 clean_reconst *)
  Definition clean_reconst (reconst : list entry) : list entry := filter (fun e => negb (is_delete e)) reconst.
  (** Reconstructor.hpp:3286-3296 (interpolate_job), 3491-3500: the function i is finished *)
  Definition finish (i : nat) (reconst : list entry) : list entry :=
    map (fun e => if (en_index e =? i) && is_reconstructing e then mk_entry (en_index e) Done (en_result e) else e) reconst.
  (** calls in any order; the lists that get_early_results returned *)
  Inductive event := Finish (i : nat) | Early | Clean.
  Fixpoint run_events (evs : list event) (reconst : list entry) : list (list (chars * ratfun)) * list entry :=
    match evs with
    | [] => ([], reconst)
    | Finish i :: r => run_events r (finish i reconst)
    | Early :: r => let q := run_events r (early_mark reconst) in (early_results reconst :: fst q, snd q)
    | Clean :: r => run_events r (clean_reconst reconst)
    end.
End Get.
(** Reconstructor.hpp:2178-2260: reconst at the start of the interpolation *)
Definition start_entries (results : list ratfun) : list entry := map (fun ir => mk_entry (fst ir) Reconstructing (snd ir)) (combine (seq 0 (length results)) results).

(** Files of the order of the variables, of the factors and of the validation point.
    /repo/source/include/firefly/Reconstructor.hpp: 1783-1795 (var_order.gz), 1797-1830 (factors_rf/*.gz), 1872-1875 and 1908-1917 (factors/*.gz), 2146-2203 (validation.gz),
    resume_from_saved_state 560-668; /repo/source/ParserUtils.cpp: 80-161 (parse_factors_rf), 163-209 (parse_factors).
    Simplifications: a text file is its list of characters (no compression); a directory is the list of names and contents of its files in the order in which tinydir returns them
    (sub-directories are skipped); [ord] is the order in which an unordered_map is traversed. *)
From Coq Require Import Ascii String.
From Verif Require Import Machine FFInt RatNum SYParse SYEval SYObj DecPrint StateFile Printers Results.
From Coq Require Import List.
Import ListNotations.
Open Scope Z_scope.
Local Notation "'do' x <- a ; b" := (obind a (fun x => b)) (at level 200, x pattern, a at level 100, b at level 200).

(** ---- order of the variables ---- *)
(** optimal_var_order[i] (operator[] of a map: 0 if there is none) *)
Definition order_at (o : list (nat * nat)) (i : nat) : nat := match nat_find i o with Some j => j | None => 0%nat end.
(** Reconstructor.hpp:1783-1795: the file, if there is one *)
Definition write_order (n : nat) (change : bool) (o : list (nat * nat)) : option chars :=
  if change then Some (to_file (map (fun i => num_sp (Z.of_nat i) ++ num_sp (Z.of_nat (order_at o i))) (seq 0 n))) else None.
(** optimal_var_order[i] = j *)
Fixpoint put_order (i j : nat) (o : list (nat * nat)) : list (nat * nat) :=
  match o with [] => [(i, j)] | (k, v) :: r => if (k =? i)%nat then (k, j) :: r else (k, v) :: put_order i j r end.
Fixpoint read_order_lines (ls : list chars) (o : list (nat * nat)) : outcome (list (nat * nat)) :=
  match ls with
  | [] => Ret o
  | l :: r => do v <- parse_vector_32 l 2; match fst v with a :: b :: _ => read_order_lines r (put_order (Z.to_nat a) (Z.to_nat b) o) | _ => UB end
  end.
(** Reconstructor.hpp:560-600 (new object: the map is empty, change_var_order is false): order and change_var_order *)
Definition read_order (n : nat) (file : option chars) : outcome (list (nat * nat) * bool) :=
  match file with
  | None => Ret ([], false)
  | Some f => do o <- read_order_lines (getlines f []) []; Ret (o, existsb (fun i => negb (order_at o i =? i)%nat) (seq 0 n))
  end.

(** ---- factors as rational functions ---- *)
(** Reconstructor.hpp:1816-1819, 1823-1826; el.powers[0] *)
Definition term_line (e : list Z * rn) : outcome chars :=
  match fst e with z :: _ => Ret (num_sp z ++ print (num (snd e)) ++ sp :: print (den (snd e))) | [] => UB end.
Definition side_lines (q : poly) : outcome (list chars) := oseq (map term_line (coefs q)).
(** Reconstructor.hpp:1805-1827: one factor *)
Definition rf_lines (f : poly * poly) : outcome (list chars) :=
  let v := if var_pos (fst f) =? -1 then var_pos (snd f) else var_pos (fst f) in
  do a <- side_lines (fst f); do b <- side_lines (snd f);
  Ret ([str "var"; print v; str "numerator"] ++ a ++ [str "denominator"] ++ b).
Definition number_name (k : nat) : chars := print (Z.of_nat k) ++ str ".gz".
(** Reconstructor.hpp:1797-1830: name and content of the file of a function *)
Definition rf_file (e : nat * list (poly * poly)) : outcome (chars * chars) :=
  do ls <- oseq (map rf_lines (snd e)); Ret (number_name (fst e), to_file (concat ls)).
Definition write_factors_rf (frf : list (nat * list (poly * poly))) : outcome (list (chars * chars)) := oseq (map rf_file frf).

Section Read.
  Variable ord : forall A : Type, list A -> list A.
  (** Polynomial.cpp:26-35 and set_var_pos *)
  Definition poly_of (m : list (list Z * rn)) (v : Z) : poly := let c := ord _ m in mk_poly c (match c with [] => 0%nat | e :: _ => length (fst e) end) v.
  (** tmp_numerator, tmp_denominator, is_num, is_var, var_pos, the list *)
  Record rfs := mk_rfs { r_num : list (list Z * rn); r_den : list (list Z * rn); r_isnum : bool; r_isvar : bool; r_pos : Z; r_out : list (poly * poly) }.
  Definition flush (s : rfs) : list (poly * poly) :=
    match r_num s, r_den s with [], [] => r_out s | _, _ => r_out s ++ [(poly_of (r_num s) (r_pos s), poly_of (r_den s) (r_pos s))] end.
  (** ParserUtils.cpp:117-147: one line *)
  Definition rf_step (line : chars) (s : rfs) : outcome rfs :=
    if chars_eqb line (str "var") then Ret (mk_rfs [] [] false true (r_pos s) (flush s))
    else if chars_eqb line (str "numerator") then Ret (mk_rfs (r_num s) (r_den s) true (r_isvar s) (r_pos s) (r_out s))
    else if chars_eqb line (str "denominator") then Ret (mk_rfs (r_num s) (r_den s) false (r_isvar s) (r_pos s) (r_out s))
    else if r_isvar s then do v <- stoi line; Ret (mk_rfs (r_num s) (r_den s) (r_isnum s) false v (r_out s))
    else do vl <- parse_vector_32 line 1; do q <- parse_rational_number (snd vl);
         if r_isnum s then Ret (mk_rfs (emplace (r_num s) (fst vl) q) (r_den s) true false (r_pos s) (r_out s))
         else Ret (mk_rfs (r_num s) (emplace (r_den s) (fst vl) q) false false (r_pos s) (r_out s)).
  Fixpoint rf_steps (ls : list chars) (s : rfs) : outcome rfs := match ls with [] => Ret s | l :: r => do s' <- rf_step l s; rf_steps r s' end.
  (** factors_rf[k].emplace_back for each of them *)
  Fixpoint put_rf (k : nat) (fs : list (poly * poly)) (m : list (nat * list (poly * poly))) : list (nat * list (poly * poly)) :=
    match m with [] => [(k, fs)] | (j, l) :: r => if (j =? k)%nat then (j, l ++ fs) :: r else (j, l) :: put_rf k fs r end.
  (** ParserUtils.cpp:99-107 *)
  Definition name_number (name : chars) : outcome nat := do z <- stoi (upto "."%char name); Ret (Z.to_nat z).
  (** ParserUtils.cpp:98-161: the files in turn *)
  Fixpoint read_factors_rf (files : list (chars * chars)) (m : list (nat * list (poly * poly))) : outcome (list (nat * list (poly * poly))) :=
    match files with
    | [] => Ret m
    | (name, content) :: r =>
        do s <- rf_steps (getlines content []) (mk_rfs [] [] false true (-1) []);
        match flush s with [] => read_factors_rf r m | fs => do k <- name_number name; read_factors_rf r (put_rf k fs m) end
    end.
End Read.

(** ---- factors as texts ---- *)
(** Reconstructor.hpp:1908-1917 *)
Definition text_file (e : nat * chars) : chars * chars := (number_name (fst e), snd e ++ str ";" ++ [nl]).
(** Reconstructor.hpp:1844-1917: name and content of the file of a function (the text is the one that is parsed); [ord]: order of an unordered_set *)
Definition factor_file (ord : forall A : Type, list A -> list A) (e : nat * list found_factor) : outcome (chars * chars) :=
  do nums <- side_texts (map (fun f => (ff_var f, ff_num f)) (snd e)); do dens <- side_texts (map (fun f => (ff_var f, ff_den f)) (snd e));
  Ret (text_file (fst e, factor_text (ord _ nums) (ord _ dens))).
Definition write_factors (ord : forall A : Type, list A -> list A) (found : list (nat * list found_factor)) : outcome (list (chars * chars)) := oseq (map (factor_file ord) found).
(** ParserUtils.cpp:184-206; getline of an empty file leaves the line of the file before: not modelled further; pop_back of an empty line is undefined *)
Fixpoint read_factors (p : Z) (n : nat) (files : list (chars * chars)) : outcome (list (nat * parser)) :=
  match files with
  | [] => Ret []
  | (name, content) :: r =>
      match getlines content [] with
      | [] => UB
      | line :: _ =>
          match line with
          | [] => UB
          | _ => do o <- parse_one p (removelast line) (map x_name (seq 0 n)); do k <- name_number name;
                 do rest <- read_factors p n r; Ret ((k, o) :: rest)
          end
      end
  end.

(** ---- validation ---- *)
(** Reconstructor.hpp:2146-2203: the point and the first probe (divided by the factors) *)
Definition write_validation (values probe : list Z) : chars := to_file (flat_map num_sp values :: map print probe).
(** Reconstructor.hpp:638-640: the entries that have factors are divided; [parsed]: in the order of traversal *)
Fixpoint divide_at (p : Z) (parsed : list (nat * parser)) (values : list Z) (result : list Z) : outcome (list Z) :=
  match parsed with
  | [] => Ret result
  | (i, o) :: r =>
      do res <- evaluate_pre p o values;
      match res, nth_error result i with f :: _, Some v => divide_at p r values (upd_l result i (ff_div_assign p v f)) | _, _ => UB end
  end.
(** Reconstructor.hpp:642-651: result[counter] beyond the end is undefined *)
Fixpoint compare_entries (ls : list chars) (result : list Z) : outcome (list Z) :=
  match ls with
  | [] => Ret result
  | l :: r => do z <- stoul l; match result with v :: vs => if z =? v then compare_entries r vs else Exit | [] => UB end
  end.
(** Reconstructor.hpp:628-657: [Ret tt] if the saved states belong to this black box, [Exit] otherwise *)
Definition validate (p : Z) (bb : list Z -> list Z) (parsed : list (nat * parser)) (file : chars) : outcome unit :=
  match getlines file [] with
  | [] => do r <- divide_at p parsed [] (bb []); match r with [] => Ret tt | _ => Exit end
  | l :: ls => do v <- parse_vector_FFInt p l (-1); do r <- divide_at p parsed (fst v) (bb (fst v)); do rest <- compare_entries ls r;
               match rest with [] => Ret tt | _ => Exit end
  end.

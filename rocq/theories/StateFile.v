(** Saved states of RatReconst objects: /repo/source/ParserUtils.cpp and the functions set_tag_name, save_zero_state,
    save_state, start_from_saved_file, write_food_to_file and read_in_probes of /repo/source/RatReconst.cpp.
    A text file is its list of characters; the compression by gzstream is left out. Associative containers are lists of
    entries in the order of iteration. *)
From Coq Require Import Ascii String.
From Verif Require Import Machine FFInt RatNum SYEval DecPrint.
From Coq Require Import List.
Import ListNotations.
Open Scope Z_scope.

Notation str := list_ascii_of_string.
Definition sp : ascii := " "%char.
Definition nl : ascii := "010"%char.

(** ---- ParserUtils.cpp ---- *)
(** std::string::find(" ") with the parts before and after the blank *)
Fixpoint cut (line : chars) : option (chars * chars) :=
  match line with
  | [] => None
  | c :: r => if Ascii.eqb c sp then Some ([], r) else option_map (fun '(a, b) => (c :: a, b)) (cut r)
  end.
(** ParserUtils.cpp:25-43 and 45-63: the loop; [left] is number_of_parameters - i, the line is consumed. The fuel is
    the length of the line. *)
Fixpoint vec_loop (conv : chars -> outcome Z) (fuel : nat) (left : Z) (line : chars) : outcome (list Z * chars) :=
  match cut line with
  | None => Ret ([], line)
  | Some (w, rest) =>
      obind (conv w) (fun v =>
      if left - 1 =? 0 then Ret ([v], rest)
      else match fuel with
           | O => Diverge
           | S f => obind (vec_loop conv f (left - 1) rest) (fun '(vs, l) => Ret (v :: vs, l))
           end)
  end.
(** std::stoi converted to uint32_t *)
Definition stoi32 (s : chars) : outcome Z := obind (stoi s) (fun v => Ret (wrap32 v)).
(** ParserUtils.cpp:25-43: the vector and what is left of the line *)
Definition parse_vector_32 (line : chars) (number : Z) : outcome (list Z * chars) := vec_loop stoi32 (length line) number line.
(** ParserUtils.cpp:45-63; [p] is FFInt::p *)
Definition parse_vector_FFInt (p : Z) (line : chars) (number : Z) : outcome (list Z * chars) :=
  vec_loop (fun s => obind (stoul s) (fun v => Ret (ff_ctor p v))) (length line) number line.
(** ParserUtils.cpp:65-68. Without a blank both parts are the whole line (npos + 1 = 0). *)
Definition parse_rational_number (line : chars) : outcome rn :=
  let '(a, b) := match cut line with Some ab => ab | None => (line, line) end in
  obind (mpz_str a) (fun x => obind (mpz_str b) (fun y => match rn_make x y with Some r => Ret r | None => UB end)).
(** ParserUtils.cpp:70-78 *)
Fixpoint upto (c : ascii) (s : chars) : chars := match s with [] => [] | x :: r => if Ascii.eqb x c then [] else x :: upto c r end.
Definition parse_prime_number (file_name : chars) : outcome Z := stoi32 (rev (upto "_"%char (skipn 3 (rev file_name)))).

(** ---- text files ---- *)
Definition to_file (lines : list chars) : chars := flat_map (fun l => l ++ [nl]) lines.
(** std::getline until the end of the file; a last line without line break is read, too *)
Fixpoint getlines (s acc : chars) : list chars :=
  match s with
  | [] => match acc with [] => [] | _ => [acc] end
  | c :: r => if Ascii.eqb c nl then acc :: getlines r [] else getlines r (acc ++ [c])
  end.

(** ---- the members that are saved ---- *)
Definition mono := list Z.
Record rstate := mk_rstate {
  n_ : nat;                                  (* number of variables *)
  combined_prime : Z;
  tag_name : chars;
  done : bool;
  max_deg_num : Z;
  max_deg_den : Z;
  degree_bounds : list (Z * Z);              (* individual_degree_bounds *)
  interpolations : Z;
  is_singular_system : bool;
  normalizer_deg : mono;
  normalize_to_den : bool;
  normalizer_den_num : bool;
  shifted_max_num_eqn : Z;
  shift : list Z;
  sub_num : list (Z * list (mono * Z));      (* polff_map: coefficients of each polynomial *)
  sub_den : list (Z * list (mono * Z));
  zero_degs_num : list Z;
  zero_degs_den : list Z;
  g_ni : list (mono * rn);
  g_di : list (mono * rn);
  combined_ni : list (mono * Z);
  combined_di : list (mono * Z);
  combined_primes_ni : list (mono * Z);
  combined_primes_di : list (mono * Z) }.

Definition num_sp (z : Z) : chars := print z ++ [sp].
Definition bit (b : bool) : chars := if b then str "1" else str "0".
(** for (i = 0; i != n; ++i) file << v[i] << " "; reading beyond the end is undefined *)
Definition entries (n : nat) (v : list Z) : outcome chars :=
  if (length v <? n)%nat then UB else Ret (flat_map num_sp (firstn n v)).
Fixpoint oseq {A} (l : list (outcome A)) : outcome (list A) :=
  match l with [] => Ret [] | x :: r => obind x (fun a => obind (oseq r) (fun b => Ret (a :: b))) end.
(** PolynomialFF::zero, PolynomialFF.cpp:270-277 *)
Definition pol_zero (m : list (mono * Z)) : bool := match m with [] => true | [(_, c)] => c =? 0 | _ => false end.
(** RatReconst.cpp:2594-2632: one line for every monomial with a non-zero coefficient *)
Definition sub_lines (n : nat) (sub : list (Z * list (mono * Z))) : outcome (list chars) :=
  oseq (flat_map (fun '(d, m) =>
    if pol_zero m then [] else
    flat_map (fun '(v, c) => if c =? 0 then [] else [obind (entries n v) (fun e => Ret (num_sp d ++ e ++ [sp]))]) m) sub).
(** 2634-2652 *)
Definition set_line (l : list Z) : list chars := match l with [] => [] | _ => [flat_map num_sp l] end.
(** 2654-2672 *)
Definition rat_lines (n : nat) (g : list (mono * rn)) : outcome (list chars) :=
  oseq (map (fun '(v, r) => obind (entries n v) (fun e => Ret (e ++ print (num r) ++ sp :: print (den r)))) g).
(** 2674-2708 *)
Definition mpz_lines (n : nat) (m : list (mono * Z)) : outcome (list chars) :=
  oseq (map (fun '(v, c) => obind (entries n v) (fun e => Ret (e ++ print c))) m).
(** RatReconst.cpp:2537-2712 save_state: the lines of the file *)
Definition save_lines (s : rstate) : outcome (list chars) :=
  let n := n_ s in
  obind (entries n (normalizer_deg s)) (fun ndeg =>
  if (length (shift s) <? n)%nat then UB else
  obind (sub_lines n (sub_num s)) (fun sn => obind (sub_lines n (sub_den s)) (fun sd =>
  obind (rat_lines n (g_ni s)) (fun gn => obind (rat_lines n (g_di s)) (fun gd =>
  obind (mpz_lines n (combined_ni s)) (fun cn => obind (mpz_lines n (combined_di s)) (fun cd =>
  obind (mpz_lines n (combined_primes_ni s)) (fun pn => obind (mpz_lines n (combined_primes_di s)) (fun pd =>
  Ret (
    [str "combined_prime"; print (combined_prime s)] ++
    [str "tag_name"; tag_name s] ++
    [str "is_done"; bit (done s)] ++
    [str "max_deg_num"; print (max_deg_num s)] ++
    [str "max_deg_den"; print (max_deg_den s)] ++
    (str "individual_degrees_num" :: set_line (map fst (degree_bounds s))) ++
    (str "individual_degrees_den" :: set_line (map snd (degree_bounds s))) ++
    [str "need_prime_shift"; if interpolations s =? 1 then bit (is_singular_system s) else str "1"] ++
    [str "normalizer_deg"; ndeg] ++
    [str "normalize_to_den"; bit (normalize_to_den s)] ++
    [str "normalizer_den_num"; bit (normalizer_den_num s)] ++
    [str "shifted_max_num_eqn"; print (shifted_max_num_eqn s)] ++
    [str "shift"; flat_map (fun x => if x =? 0 then str "0 " else str "1 ") (firstn n (shift s))] ++
    (str "sub_num" :: sn) ++ (str "sub_den" :: sd) ++
    (str "zero_degs_num" :: set_line (zero_degs_num s)) ++ (str "zero_degs_den" :: set_line (zero_degs_den s)) ++
    (str "g_ni" :: gn) ++ (str "g_di" :: gd) ++
    (str "combined_ni" :: cn) ++ (str "combined_di" :: cd) ++
    (str "combined_primes_ni" :: pn) ++ (str "combined_primes_di" :: pd) ++
    [str "interpolations"; print (interpolations s)])))))))))).
Definition save_state (s : rstate) : outcome chars := obind (save_lines s) (fun l => Ret (to_file l)).

(** ---- reading ---- *)
(** RatReconst.hpp:466-471 enum save_variables *)
Inductive key := COMBINED_PRIME | TAG_NAME | IS_DONE | MAX_DEG_NUM | MAX_DEG_DEN | NEED_PRIME_SHIFT | NORMALIZER_DEG
  | NORMALIZE_TO_DEN | NORMALIZER_DEN_NUM | SHIFTED_MAX_NUM_EQN | SHIFT | SUB_NUM | SUB_DEN | ZERO_DEGS_NUM | ZERO_DEGS_DEN
  | G_NI | G_DI | COMBINED_NI | COMBINED_DI | COMBINED_PRIMES_NI | COMBINED_PRIMES_DI | INTERPOLATIONS
  | INDIVIDUAL_DEGREES_NUM | INDIVIDUAL_DEGREES_DEN.
(** RatReconst.cpp:2811-2881: the lines that announce a variable *)
Definition keywords : list (chars * key) :=
  [(str "is_done", IS_DONE); (str "tag_name", TAG_NAME); (str "max_deg_num", MAX_DEG_NUM); (str "max_deg_den", MAX_DEG_DEN);
   (str "need_prime_shift", NEED_PRIME_SHIFT); (str "normalizer_deg", NORMALIZER_DEG); (str "normalize_to_den", NORMALIZE_TO_DEN);
   (str "normalizer_den_num", NORMALIZER_DEN_NUM); (str "shifted_max_num_eqn", SHIFTED_MAX_NUM_EQN); (str "shift", SHIFT);
   (str "sub_num", SUB_NUM); (str "sub_den", SUB_DEN); (str "zero_degs_num", ZERO_DEGS_NUM); (str "zero_degs_den", ZERO_DEGS_DEN);
   (str "g_ni", G_NI); (str "g_di", G_DI); (str "combined_ni", COMBINED_NI); (str "combined_di", COMBINED_DI);
   (str "combined_primes_ni", COMBINED_PRIMES_NI); (str "combined_primes_di", COMBINED_PRIMES_DI); (str "interpolations", INTERPOLATIONS);
   (str "individual_degrees_num", INDIVIDUAL_DEGREES_NUM); (str "individual_degrees_den", INDIVIDUAL_DEGREES_DEN)].
Fixpoint find_key (l : list (chars * key)) (w : chars) : option key :=
  match l with [] => None | (k, v) :: r => if chars_eqb k w then Some v else find_key r w end.

(** the members while the file is read. [l_seen] are the set entries of parsed_variables, [l_sing] is the static
    singular_system_set, [l_shift] the static shift, [l_rand] the random numbers still to come (get_rand_64). *)
Record ld := mk_ld {
  l_cur : key; l_seen : list key;
  l_cp : Z; l_tag : chars; l_done : bool; l_mdn : Z; l_mdd : Z; l_idn : list Z; l_idd : list Z; l_need : bool; l_sing : list Z;
  l_ndeg : mono; l_n : nat; l_ntd : bool; l_ndn : bool; l_smne : Z; l_shift : list Z; l_rand : list Z;
  l_subn : list (Z * list (mono * Z)); l_subd : list (Z * list (mono * Z)); l_zdn : list Z; l_zdd : list Z;
  l_gni : list (mono * rn); l_gdi : list (mono * rn);
  l_cni : list (mono * Z); l_cdi : list (mono * Z); l_cpni : list (mono * Z); l_cpdi : list (mono * Z); l_interp : Z }.

Fixpoint zlist_eqb (a b : list Z) : bool := match a, b with [], [] => true | x :: a, y :: b => (x =? y) && zlist_eqb a b | _, _ => false end.
(** std::unordered_map::emplace: nothing happens if the key is there *)
Fixpoint memk {A} (v : mono) (m : list (mono * A)) : bool := match m with [] => false | (k, _) :: r => zlist_eqb k v || memk v r end.
Definition emplace {A} (m : list (mono * A)) (v : mono) (a : A) : list (mono * A) := if memk v m then m else m ++ [(v, a)].
(** std::unordered_set::emplace *)
Definition emplace_set (l : list Z) (z : Z) : list Z := if existsb (Z.eqb z) l then l else l ++ [z].
(** RatReconst.cpp:2980-2983: PolynomialFF += of the monomial with coefficient 1 (PolynomialFF.cpp:151-171) *)
Fixpoint pol_add1 (p : Z) (m : list (mono * Z)) (v : mono) : list (mono * Z) :=
  match m with
  | [] => [(v, ff_ctor p 1)]
  | (k, c) :: r => if zlist_eqb k v then (let c' := ff_add p c (ff_ctor p 1) in if c' =? 0 then r else (k, c') :: r) else (k, c) :: pol_add1 p r v
  end.
Fixpoint sub_add (p : Z) (s : list (Z * list (mono * Z))) (d : Z) (v : mono) : list (Z * list (mono * Z)) :=
  match s with
  | [] => [(d, [(v, ff_ctor p 1)])]
  | (d', m) :: r => if d' =? d then (d', pol_add1 p m v) :: r else (d', m) :: sub_add p r d v
  end.
(** RatReconst.cpp:2955-2965: the i-th entry of the static shift *)
Fixpoint set_shift_flags (p : Z) (n : nat) (flags sh rs : list Z) : outcome (list Z * list Z) :=
  match n with
  | O => Ret (sh, rs)
  | S n => match flags, sh with
           | f :: flags, x :: sh =>
               if negb (f =? 0) && (x =? 0) then
                 match rs with r :: rs => obind (set_shift_flags p n flags sh rs) (fun '(s, q) => Ret (ff_ctor p r :: s, q)) | [] => Diverge end
               else obind (set_shift_flags p n flags sh rs) (fun '(s, q) => Ret ((if (f =? 0) && negb (x =? 0) then 0 else x) :: s, q))
           | _, _ => UB
           end
  end.

Section Read.
  Variable p : Z.               (* FFInt::p *)
  Variable prime_number : Z.    (* the number in the name of the file plus one *)

  Definition set_key (k : key) (s : ld) : ld :=
    let '(mk_ld cur seen cp tg dn mdn mdd idn idd need sing ndeg n ntd ndn smne sh rs subn subd zdn zdd gni gdi cni cdi cpni cpdi it) := s in
    mk_ld k (match k with INDIVIDUAL_DEGREES_NUM | INDIVIDUAL_DEGREES_DEN => seen | _ => k :: seen end)
      cp tg dn mdn mdd idn idd need sing ndeg n ntd ndn smne sh rs subn subd zdn zdd gni gdi cni cdi cpni cpdi it.
  (** RatReconst.cpp:2882-3106: a line that does not announce a variable *)
  Definition read_value (line : chars) (s : ld) : outcome ld :=
    let '(mk_ld cur seen cp tg dn mdn mdd idn idd need sing ndeg n ntd ndn smne sh rs subn subd zdn zdd gni gdi cni cdi cpni cpdi it) := s in
    let vec k := obind (parse_vector_32 line (Z.of_nat n)) k in
    let guard (o : outcome ld) := if (n =? 0)%nat then Exit else o in
    match cur with
    | COMBINED_PRIME => obind (mpz_str line) (fun z => Ret (mk_ld cur seen z tg dn mdn mdd idn idd need sing ndeg n ntd ndn smne sh rs subn subd zdn zdd gni gdi cni cdi cpni cpdi it))
    | TAG_NAME => Ret (mk_ld cur seen cp line dn mdn mdd idn idd need sing ndeg n ntd ndn smne sh rs subn subd zdn zdd gni gdi cni cdi cpni cpdi it)
    | IS_DONE => obind (stoi line) (fun z => Ret (mk_ld cur seen cp tg (negb (z =? 0)) mdn mdd idn idd need sing ndeg n ntd ndn smne sh rs subn subd zdn zdd gni gdi cni cdi cpni cpdi it))
    | MAX_DEG_NUM => obind (stoi line) (fun z => Ret (mk_ld cur seen cp tg dn z mdd idn idd need sing ndeg n ntd ndn smne sh rs subn subd zdn zdd gni gdi cni cdi cpni cpdi it))
    | MAX_DEG_DEN => obind (stoi line) (fun z => Ret (mk_ld cur seen cp tg dn mdn z idn idd need sing ndeg n ntd ndn smne sh rs subn subd zdn zdd gni gdi cni cdi cpni cpdi it))
    | INDIVIDUAL_DEGREES_NUM => obind (parse_vector_32 line (-1)) (fun '(v, _) => Ret (mk_ld cur seen cp tg dn mdn mdd v idd need sing ndeg n ntd ndn smne sh rs subn subd zdn zdd gni gdi cni cdi cpni cpdi it))
    | INDIVIDUAL_DEGREES_DEN => obind (parse_vector_32 line (-1)) (fun '(v, _) => Ret (mk_ld cur seen cp tg dn mdn mdd idn v need sing ndeg n ntd ndn smne sh rs subn subd zdn zdd gni gdi cni cdi cpni cpdi it))
    | NEED_PRIME_SHIFT => obind (stoi line) (fun z =>
        let need' := negb (z =? 0) in
        Ret (mk_ld cur seen cp tg dn mdn mdd idn idd need' (if negb dn && need' then emplace_set sing prime_number else sing) ndeg n ntd ndn smne sh rs subn subd zdn zdd gni gdi cni cdi cpni cpdi it))
    | NORMALIZER_DEG => obind (parse_vector_32 line (-1)) (fun '(v, _) => Ret (mk_ld cur seen cp tg dn mdn mdd idn idd need sing v (length v) ntd ndn smne sh rs subn subd zdn zdd gni gdi cni cdi cpni cpdi it))
    | NORMALIZE_TO_DEN => obind (stoi line) (fun z => Ret (mk_ld cur seen cp tg dn mdn mdd idn idd need sing ndeg n (negb (z =? 0)) ndn smne sh rs subn subd zdn zdd gni gdi cni cdi cpni cpdi it))
    | NORMALIZER_DEN_NUM => obind (stoi line) (fun z => Ret (mk_ld cur seen cp tg dn mdn mdd idn idd need sing ndeg n ntd (negb (z =? 0)) smne sh rs subn subd zdn zdd gni gdi cni cdi cpni cpdi it))
    | SHIFTED_MAX_NUM_EQN => obind (stoi32 line) (fun z => Ret (mk_ld cur seen cp tg dn mdn mdd idn idd need sing ndeg n ntd ndn z sh rs subn subd zdn zdd gni gdi cni cdi cpni cpdi it))
    | SHIFT => if dn then Ret s else
        obind (parse_vector_32 line (-1)) (fun '(v, _) => obind (set_shift_flags p n v sh rs) (fun '(sh', rs') =>
        Ret (mk_ld cur seen cp tg dn mdn mdd idn idd need sing ndeg n ntd ndn smne sh' rs' subn subd zdn zdd gni gdi cni cdi cpni cpdi it)))
    | SUB_NUM => guard (obind (parse_vector_32 line 1) (fun '(ds, line') => match ds with [] => UB | d :: _ =>
        obind (parse_vector_32 line' (Z.of_nat n)) (fun '(v, _) =>
        Ret (mk_ld cur seen cp tg dn mdn mdd idn idd need sing ndeg n ntd ndn smne sh rs (sub_add p subn d v) subd zdn zdd gni gdi cni cdi cpni cpdi it)) end))
    | SUB_DEN => guard (obind (parse_vector_32 line 1) (fun '(ds, line') => match ds with [] => UB | d :: _ =>
        obind (parse_vector_32 line' (Z.of_nat n)) (fun '(v, _) =>
        Ret (mk_ld cur seen cp tg dn mdn mdd idn idd need sing ndeg n ntd ndn smne sh rs subn (sub_add p subd d v) zdn zdd gni gdi cni cdi cpni cpdi it)) end))
    | ZERO_DEGS_NUM => obind (parse_vector_32 line (-1)) (fun '(v, _) => Ret (mk_ld cur seen cp tg dn mdn mdd idn idd need sing ndeg n ntd ndn smne sh rs subn subd (fold_left emplace_set v zdn) zdd gni gdi cni cdi cpni cpdi it))
    | ZERO_DEGS_DEN => obind (parse_vector_32 line (-1)) (fun '(v, _) => Ret (mk_ld cur seen cp tg dn mdn mdd idn idd need sing ndeg n ntd ndn smne sh rs subn subd zdn (fold_left emplace_set v zdd) gni gdi cni cdi cpni cpdi it))
    | G_NI => guard (vec (fun '(v, r) => obind (parse_rational_number r) (fun q => Ret (mk_ld cur seen cp tg dn mdn mdd idn idd need sing ndeg n ntd ndn smne sh rs subn subd zdn zdd (emplace gni v q) gdi cni cdi cpni cpdi it))))
    | G_DI => guard (vec (fun '(v, r) => obind (parse_rational_number r) (fun q => Ret (mk_ld cur seen cp tg dn mdn mdd idn idd need sing ndeg n ntd ndn smne sh rs subn subd zdn zdd gni (emplace gdi v q) cni cdi cpni cpdi it))))
    | COMBINED_NI => guard (vec (fun '(v, r) => obind (mpz_str r) (fun q => Ret (mk_ld cur seen cp tg dn mdn mdd idn idd need sing ndeg n ntd ndn smne sh rs subn subd zdn zdd gni gdi (emplace cni v q) cdi cpni cpdi it))))
    | COMBINED_DI => guard (vec (fun '(v, r) => obind (mpz_str r) (fun q => Ret (mk_ld cur seen cp tg dn mdn mdd idn idd need sing ndeg n ntd ndn smne sh rs subn subd zdn zdd gni gdi cni (emplace cdi v q) cpni cpdi it))))
    | COMBINED_PRIMES_NI => guard (vec (fun '(v, r) => obind (mpz_str r) (fun q => Ret (mk_ld cur seen cp tg dn mdn mdd idn idd need sing ndeg n ntd ndn smne sh rs subn subd zdn zdd gni gdi cni cdi (emplace cpni v q) cpdi it))))
    | COMBINED_PRIMES_DI => guard (vec (fun '(v, r) => obind (mpz_str r) (fun q => Ret (mk_ld cur seen cp tg dn mdn mdd idn idd need sing ndeg n ntd ndn smne sh rs subn subd zdn zdd gni gdi cni cdi cpni (emplace cpdi v q) it))))
    | INTERPOLATIONS => guard (obind (stoi32 line) (fun z => Ret (mk_ld cur seen cp tg dn mdn mdd idn idd need sing ndeg n ntd ndn smne sh rs subn subd zdn zdd gni gdi cni cdi cpni cpdi z)))
    end.
  Definition read_line (line : chars) (s : ld) : outcome ld :=
    match find_key keywords line with Some k => Ret (set_key k s) | None => read_value line s end.
  Fixpoint read_lines (ls : list chars) (s : ld) : outcome ld :=
    match ls with [] => Ret s | l :: r => obind (read_line l s) (read_lines r) end.
End Read.

(** a fresh object with n variables (RatReconst.hpp:380-460) and the statics; combined_prime is default constructed *)
Definition fresh (n : nat) (sing sh rs : list Z) : ld :=
  mk_ld COMBINED_PRIME [] 0 [] false (-1) (-1) [] [] false sing [] n true false 0 sh rs [] [] [] [] [] [] [] [] [] [] 1.

Inductive loaded :=
| LFull (s : ld) (bounds : list (Z * Z)) (prime : Z) (need_shift : bool)   (* a state after a prime *)
| LZero (is_done safe : bool) (zero_counter prime : Z) (tag : chars)        (* the zero function so far *)
| LInitial (tag : chars) (to_den : bool) (bounds : list (Z * Z)).           (* nothing but the tag *)

(** the entries of parsed_variables: all but the two degree bounds *)
Definition key_eq_dec (a b : key) : {a = b} + {a <> b}. Proof. decide equality. Defined.
Definition required : list key := COMBINED_PRIME :: filter (fun k => match k with INDIVIDUAL_DEGREES_NUM | INDIVIDUAL_DEGREES_DEN => false | _ => true end) (map snd keywords).
Fixpoint zip2 (a b : list Z) (n : nat) : outcome (list (Z * Z)) :=
  match n with
  | O => Ret []
  | S n => match a, b with x :: a, y :: b => obind (zip2 a b n) (fun r => Ret ((x, y) :: r)) | _, _ => UB end
  end.
(** RatReconst.cpp:2726-3153 start_from_saved_file; [name] is the name of an existing file with the content [file],
    [n0] the number of variables given to the constructor. Left out: the work lists computed from the loaded members
    at the end (3124-3145). Without any line the object stays as it is and the entries are missing. *)
Definition start_from_saved_file (p : Z) (n0 : nat) (sing sh rs : list Z) (name file : chars) : outcome loaded :=
  obind (parse_prime_number name) (fun pn =>
  let prime := wrap32 (pn + 1) in
  match getlines file [] with
  | [] => Exit
  | first :: rest =>
    if chars_eqb first (str "ZERO") then
      match rest with
      | [] => Exit                                   (* the loop ends, entries are missing *)
      | l :: rest' =>
          let tag := match rest' with t :: _ => t | [] => [] end in    (* a failed getline leaves an empty line *)
          Ret (if 2 <? prime then LZero true false 0 prime tag else LZero false (chars_eqb l (str "1")) prime prime tag)
      end
    else if chars_eqb first (str "tag_name") then
      match rest with
      | t :: _ :: b :: _ :: l :: rest' =>
          obind (stoi b) (fun z =>
          if chars_eqb l (str "individual_degrees_den") then Ret (LInitial t (negb (z =? 0)) [])
          else match rest' with
               | _ :: d :: _ => obind (parse_vector_32 l (-1)) (fun '(v, _) => obind (parse_vector_32 d (-1)) (fun '(w, _) =>
                                obind (zip2 v w n0) (fun b => Ret (LInitial t (negb (z =? 0)) b))))
               | _ => UB                             (* shortened file: not modelled further *)
               end)
      | _ => UB                                      (* shortened file: not modelled further *)
      end
    else if chars_eqb first (str "combined_prime") then
      obind (read_lines p prime rest (set_key COMBINED_PRIME (fresh n0 sing sh rs))) (fun s =>
      if forallb (fun k => if in_dec key_eq_dec k (l_seen s) then true else false) required then
        match l_idn s with
        | [] => Ret (LFull s [] prime (l_need s))
        | _ => obind (zip2 (l_idn s) (l_idd s) (l_n s)) (fun b => Ret (LFull s b prime (l_need s)))
        end
      else Exit)
    else Exit
  end).

(** RatReconst.cpp:2520-2528 save_zero_state *)
Definition save_zero_state (interpolations : Z) (tag_name : chars) : chars :=
  to_file [str "ZERO"; if 1 <? interpolations then str "1" else str "0"; tag_name].
(** RatReconst.cpp:2482-2517 set_tag_name: the file written at the beginning *)
Definition initial_file (tag_name : chars) (bounds : list (Z * Z)) : chars :=
  to_file ([str "tag_name"; tag_name; str "normalize_to_den"; str "1"; str "individual_degrees_num"] ++ set_line (map fst bounds) ++
           (str "individual_degrees_den" :: set_line (map snd bounds))).
(** names of the state and probe files (2485, 2538, 2715, 3683); [dir] ends in a slash *)
Definition file_name (dir tag : chars) (prime : Z) : chars := dir ++ tag ++ str "_" ++ print prime ++ str ".gz".

(** RatReconst.cpp:3690-3698 write_food_to_file: the lines of the probes (t, value, zi_order) *)
Definition probe_line (pr : Z * Z * list Z) : chars :=
  let '(t, v, ord) := pr in flat_map num_sp ord ++ num_sp t ++ num_sp v.
Definition write_food (prs : list (Z * Z * list Z)) : chars := to_file (map probe_line prs).
(** RatReconst.cpp:3711-3726 read_in_probes: the probes in the file for an object of [n] variables (with the matching
    prime); tmp_probe[1] beyond the end is undefined *)
Definition read_probe (p : Z) (n : nat) (line : chars) : outcome (Z * Z * list Z) :=
  obind (if (1 <? n)%nat then parse_vector_32 line (Z.of_nat n - 1) else Ret ([], line)) (fun '(ord, rest) =>
  obind (parse_vector_FFInt p rest 2) (fun '(tv, _) => match tv with t :: v :: _ => Ret (t, v, ord) | _ => UB end)).
Definition read_in_probes (p : Z) (n : nat) (file : chars) : outcome (list (Z * Z * list Z)) :=
  oseq (map (read_probe p n) (getlines file [])).

(** Property theorems C27-C30: the parser of rational functions. The language, the spelling of a tree ([show_e]), its
    value in Z/p ([den_e]) and the admissible inputs ([good], [point]) are defined in SYGrammar.v. *)
From Coq Require Import Ascii String ZArith Znumtheory Lia.
From Verif Require Import Machine FFInt FFVec SYParse SYGrammar SYParseProofs SYValidateProofs SYEval SYEvalProofs SYPreProofs SYTreeProofs SYObj SYObjProofs SYTrimProofs SYExitProofs
  NumTheory Primes Props_Primes.
From Coq Require Import List.
Import ListNotations.
Open Scope nat_scope.

(** ---- concrete functions used in the examples ---- *)
Notation str := list_ascii_of_string.
Definition P0 : Z := 9223372036854775783.
Definition P1 : Z := 9223372036854775643.
Lemma P0_prime : prime P0. Proof. apply C36_every_entry_is_prime. left. reflexivity. Qed.
Lemma P1_prime : prime P1. Proof. apply C36_every_entry_is_prime. right. left. reflexivity. Qed.
Definition at_ (s : string) : base := Atom (str s).
Definition f_ (b : base) : factor := Fac b XNone.
Definition t_ (s : string) : term := TFac (f_ (at_ s)).
Definition e_ (t : term) : expr := ELead SNone t.
(** (x+y*3)/(z^2+x), the first example of README.md:170 *)
Definition ex1 : expr :=
  e_ (TDiv (TFac (f_ (Par (EBin (e_ (t_ "x")) OAdd (TMul (t_ "y") (f_ (at_ "3")))))))
           (f_ (Par (EBin (e_ (TFac (Fac (at_ "z") (XPow (str "2"))))) OAdd (t_ "x"))))).
(** (12132132323213213212/33*x+12*3-x^100*y^2)/(3*y^5), the second *)
Definition ex2 : expr :=
  e_ (TDiv (TFac (f_ (Par (EBin (EBin (e_ (TMul (TDiv (t_ "12132132323213213212") (f_ (at_ "33"))) (f_ (at_ "x")))) OAdd (TMul (t_ "12") (f_ (at_ "3"))))
                                OSub (TMul (TFac (Fac (at_ "x") (XPow (str "100")))) (Fac (at_ "y") (XPow (str "2"))))))))
           (f_ (Par (e_ (TMul (t_ "3") (Fac (at_ "y") (XPow (str "5")))))))).
(** -x^(-10)+-((y)) *)
Definition ex3 : expr :=
  EBin (ELead SMinus (TFac (Fac (at_ "x") (XNeg (str "10"))))) OAddSub (TFac (f_ (Par (e_ (TFac (f_ (Par (e_ (t_ "y"))))))))).
Definition xyz : list chars := [str "x"; str "y"; str "z"].
Example ex_spelling : map show_e [ex1; ex2; ex3] = [str "(x+y*3)/(z^2+x)"; str "(12132132323213213212/33*x+12*3-x^100*y^2)/(3*y^5)"; str "-x^(-10)+-((y))"].
Proof. reflexivity. Qed.
Lemma not_in_xyz w : match w with [c] => (c =?c "x") || (c =?c "y") || (c =?c "z") | _ => false end = false -> ~ In w xyz.
Proof. intros H [E|[E|[E|[]]]]; subst w; discriminate. Qed.
Lemma lit_xyz w : wf_num w -> (length w < 18 \/ hd "0"%char w <> "0"%char) -> match w with [c] => (c =?c "x") || (c =?c "y") || (c =?c "z") | _ => false end = false -> literal xyz w.
Proof. intros A B C. split; [exact A|]. split; [apply not_in_xyz; exact C|exact B]. Qed.
Ltac lit := apply lit_xyz; [split; [discriminate|reflexivity]|first [left; cbn; lia|right; discriminate]|reflexivity].
Ltac tree := cbv beta iota delta [wf_e wf_t wf_f wf_b wf_x ok_e ok_t ok_f ok_b ok_x nq_e nq_t nq_f nq_b quot_f quot_e quot_t lone_f lone_t lone_e cst_f cst_t cst_e nn_e nn_t nn_f nn_b nn_x ex1 ex2 ex3 e_ t_ f_ at_];
  repeat match goal with |- _ /\ _ => split | |- True => exact I end;
  try match goal with |- wf_word _ => split; [discriminate|reflexivity] | |- wf_num _ => split; [discriminate|reflexivity] | |- literal _ _ => lit
    | |- ok_word _ _ => first [left; split; [cbn; tauto|cbn; lia]|right; lit] | |- _ = false => reflexivity end.
Lemma xyz_names v : In v xyz -> ~ wf_num v.
Proof. intros [<-|[<-|[<-|[]]]] [_ H]; discriminate. Qed.
Lemma ex_good p : prime p -> (2 ^ 62 < p < 2 ^ 63)%Z -> good p xyz [ex1; ex2; ex3].
Proof.
  intros Hp Hb. constructor; [exact Hp|lia|exact xyz_names|].
  assert (B : forall n, (n < 2 ^ 61)%Z -> (n < p - 1)%Z /\ (n < p)%Z) by (intros n Hn; lia).
  repeat (apply Forall_cons; [|]); [..|apply Forall_nil]; tree; try (apply B; reflexivity); reflexivity.
Qed.
Lemma ex_point p v : (2 ^ 62 < p)%Z -> Forall (fun x => 0 <= x < p)%Z v -> length v = 3 -> point p xyz v (env_of p xyz v).
Proof. intros Hp H L. split; [apply env_of_ok; rewrite L; cbn; lia|exact H]. Qed.
Lemma P0_range : (2 ^ 62 < P0 < 2 ^ 63)%Z. Proof. split; reflexivity. Qed.
Lemma P1_range : (2 ^ 62 < P1 < 2 ^ 63)%Z. Proof. split; reflexivity. Qed.
Lemma xyz_point p : (2 ^ 62 < p)%Z -> point p xyz [2; 3; 5]%Z (env_of p xyz [2; 3; 5]%Z).
Proof. intros H. apply ex_point; [exact H| |reflexivity]. repeat constructor; lia. Qed.

Lemma kpos_length {A} keep (l : list A) : forall i j, length (kept keep i l) = length (kpos keep i j (length l)).
Proof. induction l as [|a l IH]; intros i j; cbn [kept kpos length]; [reflexivity|]. destruct (keep i); cbn [length]; [f_equal|]; apply IH. Qed.

(** ---- C27: strings to values ---- *)
(** The functions of the documented language, spelled in any way the language allows, evaluate to their value. *)
Theorem C27_constructor_then_evaluate_pre : forall p vars es keep, good p vars es ->
  exists o, (forall pA c1 c2, construct p pA (map show_e es) vars false keep c1 c2 = Ret o) /\
  forall values env, point p vars values env -> evaluate_pre p o values = Ret (map (den_e p env) es).
Proof.
  intros p vars es keep G. exists (built p vars es false keep []). split; [intros pA c1 c2; apply construct_plain; exact G|].
  intros values env H. exact (evaluate_plain p vars es G keep [] values env H).
Qed.
Print Assumptions C27_constructor_then_evaluate_pre.
Example C27_hypotheses_met : good P0 xyz [ex1; ex2; ex3] /\ point P0 xyz [2; 3; 5]%Z (env_of P0 xyz [2; 3; 5]%Z) /\
  exists v1 v2 v3, obind (construct P0 P1 (map show_e [ex1; ex2; ex3]) xyz false false [] []) (fun o => evaluate_pre P0 o [2; 3; 5]%Z) = Ret [v1; v2; v3] /\
  (v1 * 27 mod P0 = 11)%Z.
Proof. split; [apply ex_good; [exact P0_prime|exact P0_range]|]. split; [apply xyz_point; reflexivity|]. eexists _, _, _. split; [vm_compute; reflexivity|vm_compute; reflexivity]. Qed.

(** A file: every function is followed by a semicolon; blanks, tabs and line breaks may stand anywhere. *)
Theorem C27_functions_of_a_file : forall es ls tail, Forall wf_e es -> Forall2 (fun e l => spaced (show_e e) l) es ls -> spaced [] tail ->
  file_functions (flat_map (fun l => l ++ [";"%char]) ls ++ tail) = map show_e es.
Proof. exact file_spaced. Qed.
Print Assumptions C27_functions_of_a_file.
Example C27_file_hypotheses_met : exists l, length l = 20 /\ Forall2 (fun e l => spaced (show_e e) l) [ex1] [l].
Proof.
  exists ("010"%char :: "009"%char :: str "(x + y*3)/(z^2+x) "). split; [reflexivity|]. constructor; [|constructor].
  apply Sp_white; [right; right; reflexivity|]. apply Sp_white; [right; left; reflexivity|]. apply Sp_char, Sp_char, Sp_white; [left; reflexivity|]. apply Sp_char, Sp_white; [left; reflexivity|].
  do 12 apply Sp_char. apply Sp_white; [left; reflexivity|]. apply Sp_end.
Qed.

(** Parentheses: for every string whatsoever the program exits if and only if they do not match. *)
Theorem C27_parentheses : forall s, (balanced 0 s = true -> exists r, validate s = Ret r) /\ (balanced 0 s = false -> validate s = Exit).
Proof. exact validate_balanced. Qed.
Print Assumptions C27_parentheses.
Theorem C27_mismatch_exits : forall p pA vars es s rest keep c1 c2, good p vars es -> balanced 0 s = false ->
  construct p pA (map show_e es ++ s :: rest) vars false keep c1 c2 = Exit.
Proof.
  intros p pA vars es s rest keep c1 c2 G B. unfold construct.
  assert (R : forall l o, read_all p pA o (map show_e l ++ s :: rest) = obind (read_all p pA o (map show_e l)) (fun o' => read_all p pA o' (s :: rest))).
  { induction l as [|e l IH]; intros o; [reflexivity|]. cbn [map app read_all]. destruct (read_fun p pA o (show_e e)); try reflexivity. cbn [obind]. apply IH. }
  rewrite R. rewrite (read_all_plain p vars pA es (wf_all p vars es G) [] keep). cbn [obind read_all]. unfold read_fun at 1. rewrite (proj2 (validate_balanced s) B). reflexivity.
Qed.
Print Assumptions C27_mismatch_exits.
Example C27_mismatch_hypotheses_met : balanced 0 (str "(x+1))*(2") = false /\ balanced 0 (str "((x+1)*2") = false /\ balanced 0 (str "((x+1)*2)") = true.
Proof. repeat split. Qed.

Definition atom_e (w : chars) : expr := ELead SNone (TFac (Fac (Atom w) XNone)).
Lemma map_nil' {A B} (f : A -> B) : map f [] = []. Proof. reflexivity. Qed.
Lemma atom_show w : show_e (atom_e w) = w. Proof. apply app_nil_r. Qed.
Lemma atom_rpn w : rpn_of (atom_e w) = [w]. Proof. reflexivity. Qed.
Lemma precompute_undeclared p vars w : wf_word w -> is_alpha (hd nul w) = true -> length w <= 18 -> ~ In w vars -> precompute p vars [w] = Exit.
Proof.
  intros W A L N. unfold precompute. cbn [pre_loop pre1].
  destruct w as [|c w]; [destruct W; congruence|]. cbn [hd] in A.
  assert (O : is_op (c :: w) = false).
  { destruct w; [|reflexivity]. unfold is_op. destruct (Ascii.eqb_spec c "+") as [->|_]; [discriminate A|]. destruct (Ascii.eqb_spec c "-") as [->|_]; [discriminate A|].
    destruct (Ascii.eqb_spec c "*") as [->|_]; [discriminate A|]. destruct (Ascii.eqb_spec c "/") as [->|_]; [discriminate A|]. destruct (Ascii.eqb_spec c "^") as [->|_]; [discriminate A|].
    destruct (Ascii.eqb_spec c "!") as [->|_]; [discriminate A|]. destruct (Ascii.eqb_spec c "~") as [->|_]; [discriminate A|]. destruct (Ascii.eqb_spec c ";") as [->|_]; [discriminate A|]. reflexivity. }
  rewrite O. destruct (Nat.ltb_spec 18 (length (c :: w))) as [X|_]; [lia|]. cbn [hd].
  destruct (Ascii.eqb_spec c "-") as [->|_]; [discriminate A|]. destruct (Ascii.eqb_spec c "+") as [->|_]; [discriminate A|].
  unfold pre_name. rewrite (var_index_none vars _ N). cbn [hd].
  assert (D : is_digit c = false).
  { clear - A. destruct (is_digit c) eqn:Dg; [|reflexivity]. unfold is_alpha, is_digit in *. generalize dependent (nat_of_ascii c). intros n A Dg.
    rewrite ?Bool.orb_true_iff, ?Bool.andb_true_iff, ?Nat.leb_le in *. lia. }
  rewrite D. reflexivity.
Qed.
(** A name that was not declared: the program exits. *)
Theorem C27_undeclared_name_exits : forall p pA vars w keep c1 c2, (1 < p)%Z -> wf_word w -> is_alpha (hd nul w) = true -> length w <= 18 -> ~ In w vars ->
  construct p pA [w] vars false keep c1 c2 = Exit.
Proof.
  intros p pA vars w keep c1 c2 P W A L N. unfold construct.
  pose proof (read_all_plain p vars pA [atom_e w]) as R. rewrite map_cons, map_nil', atom_show in R.
  rewrite R by (constructor; [split; [exact W|exact I]|constructor]). rewrite map_cons, map_nil', atom_rpn. clear R. rewrite obind_Ret. unfold precompute_tokens, precompute_all.
  destruct (Z.eqb_spec p 0) as [E|_]; [lia|]. cbn [andb negb orb app omap]. rewrite (precompute_undeclared p vars w W A L N). reflexivity.
Qed.
Print Assumptions C27_undeclared_name_exits.
Example C27_undeclared_hypotheses_met : wf_word (str "zeta3") /\ is_alpha (hd nul (str "zeta3")) = true /\ length (str "zeta3") <= 18 /\ ~ In (str "zeta3") xyz.
Proof. split; [split; [discriminate|reflexivity]|]. split; [reflexivity|]. split; [cbn; lia|]. intros [E|[E|[E|[]]]]; discriminate. Qed.

(** Refuted: a literal of more than 18 characters with a leading zero is read in base 8 (mpz_class with base 0), or throws. *)
Theorem C27_leading_zero_refuted : exists w v, wf_num w /\ dec w = 10%Z /\
  obind (construct P0 P1 [w] [] false false [] []) (fun o => evaluate_pre P0 o []) = Ret [v] /\ v <> (dec w mod P0)%Z.
Proof. exists (str "0000000000000000010"), 8%Z. split; [split; [discriminate|reflexivity]|]. split; [reflexivity|]. split; [vm_compute; reflexivity|vm_compute; discriminate]. Qed.
Print Assumptions C27_leading_zero_refuted.
Theorem C27_leading_zero_throws_refuted : exists w, wf_num w /\ dec w = 9%Z /\ construct P0 P1 [w] [] false false [] [] = Throw.
Proof. exists (str "0000000000000000009"). split; [split; [discriminate|reflexivity]|]. (split; [vm_compute; reflexivity|vm_compute; reflexivity]). Qed.
Print Assumptions C27_leading_zero_throws_refuted.
(** Refuted: an exponent is reduced modulo p instead of p - 1: 2^p evaluates to 1. *)
Theorem C27_large_exponent_refuted : exists w, wf_num w /\ dec w = P0 /\
  obind (construct P0 P1 [str "x^" ++ w] [str "x"] false false [] []) (fun o => evaluate_pre P0 o [2%Z]) = Ret [1%Z] /\ (2 ^ P0 mod P0 = 2)%Z.
Proof.
  exists (str "9223372036854775783"). split; [split; [discriminate|reflexivity]|]. split; [reflexivity|]. split; [vm_compute; reflexivity|].
  replace P0 with (Z.succ (P0 - 1)) at 1 by reflexivity. rewrite Z.pow_succ_r by (vm_compute; discriminate). rewrite Zmult_mod, fermat; [reflexivity|exact P0_prime|vm_compute; discriminate].
Qed.
Print Assumptions C27_large_exponent_refuted.
(** Refuted: a negative exponent of 2^32 + 1 is taken as 1 (conversion to int). *)
Theorem C27_large_negative_exponent_refuted :
  obind (construct P0 P1 [str "x^(-4294967297)"] [str "x"] false false [] []) (fun o => evaluate_pre P0 o [2%Z]) =
  obind (construct P0 P1 [str "x^(-1)"] [str "x"] false false [] []) (fun o => evaluate_pre P0 o [2%Z]) /\
  exists v, obind (construct P0 P1 [str "x^(-1)"] [str "x"] false false [] []) (fun o => evaluate_pre P0 o [2%Z]) = Ret [v] /\ (v * 2 mod P0 = 1)%Z.
Proof. split; [vm_compute; reflexivity|]. exists 4611686018427387892%Z. split; [vm_compute; reflexivity|reflexivity]. Qed.
Print Assumptions C27_large_negative_exponent_refuted.
(** Refuted: an undeclared name that begins with a digit does not exit, the digits are taken as a number ("3x" is 3). *)
Theorem C27_undeclared_digit_name_refuted : exists w, wf_word w /\ ~ wf_num w /\ ~ In w [str "x"] /\
  obind (construct P0 P1 [w] [str "x"] false false [] []) (fun o => evaluate_pre P0 o [5%Z]) = Ret [3%Z].
Proof.
  exists (str "3x"). split; [split; [discriminate|reflexivity]|]. split; [intros [_ H]; discriminate|]. split; [intros [E|[]]; discriminate|]. vm_compute. reflexivity.
Qed.
Print Assumptions C27_undeclared_digit_name_refuted.
(** Refuted: the constructor from a list of strings does not remove blanks: "( -x)" is accepted and its evaluation reads
    beyond the stack, although it is accepted and right in a file. *)
Theorem C27_blank_in_string_refuted : exists o, construct P0 P1 [str "( -x)"] [str "x"] false false [] [] = Ret o /\ evaluate_pre P0 o [5%Z] = UB /\
  exists o', construct P0 P1 (file_functions (str "( -x);")) [str "x"] false false [] [] = Ret o' /\ evaluate_pre P0 o' [5%Z] = Ret [(P0 - 5)%Z].
Proof. eexists. split; [vm_compute; reflexivity|]. split; [vm_compute; reflexivity|]. eexists. (split; [vm_compute; reflexivity|vm_compute; reflexivity]). Qed.
Print Assumptions C27_blank_in_string_refuted.

(** ---- C28: precomputed tokens ---- *)
(** For every token list on which the evaluation of the notation returns a value, the precomputed tokens return it too. *)
Theorem C28_precomputed_equals_direct : forall p vars values ts v, prime p -> (p < 2 ^ 63)%Z -> Forall (fun x => 0 <= x < p)%Z values ->
  evaluate1 p vars values ts = Ret v -> exists toks parts, precompute p vars ts = Ret (toks, parts) /\ eval_pre1 p values toks = Ret v.
Proof. intros p vars values ts v Hp Hb Hv. exact (precompute_correct p vars Hp Hb values Hv ts v). Qed.
Print Assumptions C28_precomputed_equals_direct.
Example C28_hypotheses_met : evaluate1 P0 [str "x"] [6%Z] [str "x"; str "2"; str "3"; str "/"; str "*"; str "7"; str "+"] = Ret 11%Z.
Proof. vm_compute. reflexivity. Qed.

(** After any history of prime changes, each followed by precompute_tokens, the value is that in the current field, unless
    a single variable is divided by a quotient of numbers in parentheses ([nq_e]; that case is refuted below). *)
Theorem C28_prime_changes : forall p vars es keep ps, Forall (fun q => good q vars es) (p :: ps) -> Forall nq_e es ->
  exists o, (forall pA c1 c2, obind (construct p pA (map show_e es) vars false keep c1 c2) (switch_primes ps) = Ret o) /\
  forall values env, point (last ps p) vars values env -> evaluate_pre (last ps p) o values = Ret (map (den_e (last ps p) env) es).
Proof.
  intros p vars es keep ps G Q. inversion G as [|? ? G1 Gs]; subst. exists (built (last ps p) vars es false keep []). split.
  - intros pA c1 c2. rewrite (construct_plain p vars es G1). cbn [obind]. apply switch_built; assumption.
  - intros values env H. apply (evaluate_plain _ vars es); [|exact H]. clear - G. assert (In (last ps p) (p :: ps)) as I.
    { clear. induction ps as [|q ps IH]; [left; reflexivity|]. destruct ps as [|r ps]; [right; left; reflexivity|]. change (last (q :: r :: ps) p) with (last (r :: ps) p).
      destruct IH as [E|E]; [left; exact E|right; right; exact E]. }
    rewrite Forall_forall in G. exact (G _ I).
Qed.
Print Assumptions C28_prime_changes.
Example C28_changes_hypotheses_met : Forall (fun q => good q xyz [ex1; ex2; ex3]) [P0; P1; P0] /\ Forall nq_e [ex1; ex2; ex3].
Proof.
  split; [repeat (apply Forall_cons; [|]); [..|apply Forall_nil]; apply ex_good; first [exact P0_prime|exact P1_prime|exact P0_range|exact P1_range]|].
  repeat (apply Forall_cons; [|]); [..|apply Forall_nil]; tree.
Qed.
(** Refuted without that restriction: x/(2/3) becomes x/2 after a change of the prime. *)
Theorem C28_nested_quotient_refuted : exists e o o', show_e e = str "x/(2/3)" /\ construct P0 P1 [show_e e] [str "x"] false false [] [] = Ret o /\
  evaluate_pre P0 o [4%Z] = Ret [6%Z] /\ precompute_tokens P1 false o = Ret o' /\ evaluate_pre P1 o' [4%Z] = Ret [2%Z].
Proof.
  exists (e_ (TDiv (t_ "x") (f_ (Par (e_ (TDiv (t_ "2") (f_ (at_ "3")))))))). eexists _, _. split; [reflexivity|]. split; [vm_compute; reflexivity|].
  split; [vm_compute; reflexivity|]. (split; [vm_compute; reflexivity|vm_compute; reflexivity]).
Qed.
Print Assumptions C28_nested_quotient_refuted.
(** Refuted: precompute_tokens() over an unchanged prime ignores functions that were added since. *)
Theorem C28_added_function_ignored_refuted : exists o o1 o2, construct P0 P1 [str "x"] [str "x"] false true [] [] = Ret o /\
  add_otf P0 P1 (str "x+1") false o = Ret (o1, 1) /\ precompute_tokens P0 false o1 = Ret o2 /\ get_size o2 = 2 /\ evaluate_pre P0 o2 [4%Z] = Ret [4%Z].
Proof. eexists _, _, _. repeat (split; [vm_compute; reflexivity|]). vm_compute; reflexivity. Qed.
Print Assumptions C28_added_function_ignored_refuted.
(** Refuted: with the default keep_rpn = false, forcing the precomputation loses the functions parsed before. *)
Theorem C28_forced_precompute_loses_functions_refuted : exists o o1 o2, construct P0 P1 [str "x"] [str "x"] false false [] [] = Ret o /\
  add_otf P0 P1 (str "x+1") false o = Ret (o1, 0) /\ precompute_tokens P0 true o1 = Ret o2 /\ evaluate_pre P0 o2 [4%Z] = Ret [5%Z].
Proof. eexists _, _, _. repeat (split; [vm_compute; reflexivity|]). vm_compute; reflexivity. Qed.
Print Assumptions C28_forced_precompute_loses_functions_refuted.
(** evaluate_pre_2 agrees with evaluate_pre unless a function is a single variable or a quotient of numbers ... *)
Theorem C28_evaluate_pre_2 : forall p pA vars es keep c1 c2 o, good p vars es -> Forall (fun e => lone_e e = false /\ cst_e e = false) es ->
  construct p pA (map show_e es) vars false keep c1 c2 = Ret o ->
  forall values env, point p vars values env -> evaluate_pre_2 p o values = Ret (map (den_e p env) es) /\ evaluate_pre_2 p o values = evaluate_pre p o values.
Proof.
  intros p pA vars es keep c1 c2 o G L C values env H. rewrite (construct_plain p vars es G) in C. injection C as <-.
  assert (X : evaluate_pre_2 p (built p vars es false keep []) values = Ret (map (den_e p env) es)).
  { apply evaluate_pre_2_ok; [exact G|exact H|]. exact (pre_2_ok p vars es G false keep L). }
  split; [exact X|]. rewrite X. symmetry. exact (evaluate_plain p vars es G keep [] values env H).
Qed.
Print Assumptions C28_evaluate_pre_2.
Example C28_evaluate_pre_2_hypotheses_met : good P0 xyz [ex1; ex2; ex3] /\ Forall (fun e => lone_e e = false /\ cst_e e = false) [ex1; ex2; ex3].
Proof.
  split; [apply ex_good; [exact P0_prime|exact P0_range]|]. repeat (apply Forall_cons; [split; reflexivity|]). apply Forall_nil.
Qed.
(** ... and writes beyond its stack whenever a function of the collection is a single variable or number. *)
Theorem C28_evaluate_pre_2_overflow_refuted : forall p pA vars es keep c1 c2 o w, good p vars es -> In (ELead SNone (TFac (Fac (Atom w) XNone))) es ->
  construct p pA (map show_e es) vars false keep c1 c2 = Ret o ->
  forall values env, point p vars values env -> evaluate_pre_2 p o values = UB /\ evaluate_pre p o values = Ret (map (den_e p env) es).
Proof.
  intros p pA vars es keep c1 c2 o w G I C values env H. rewrite (construct_plain p vars es G) in C. injection C as <-.
  split; [exact (pre_2_overflow p vars es G w keep values env I H)|exact (evaluate_plain p vars es G keep [] values env H)].
Qed.
Print Assumptions C28_evaluate_pre_2_overflow_refuted.
Example C28_evaluate_pre_2_overflow_hypotheses_met : good P0 xyz [e_ (t_ "x"); ex1].
Proof.
  constructor; [exact P0_prime|reflexivity|exact xyz_names|]. apply Forall_cons; [tree|]. apply Forall_cons; [|apply Forall_nil].
  pose proof (g_funs _ _ _ (ex_good P0 P0_prime P0_range)) as F. inversion F; assumption.
Qed.

(** ---- C29: the public evaluate ---- *)
(** The names of the variables are at least not the parser's internal operators. Then evaluate() returns the values if no
    exponent is negative, and otherwise the program exits. *)
Theorem C29_evaluate : forall p vars es, good p vars es -> ~ In (str "~") vars -> ~ In (str ";") vars ->
  exists o, (forall pA c1 c2, construct p pA (map show_e es) vars false true c1 c2 = Ret o) /\
  forall values env, point p vars values env ->
  (Forall nn_e es -> evaluate p o values = Ret (map (den_e p env) es)) /\ (~ Forall nn_e es -> evaluate p o values = Exit).
Proof.
  intros p vars es G N1 N2. exists (built p vars es false true []). split; [intros pA c1 c2; apply construct_plain; exact G|].
  intros values env H. split; intros N.
  - exact (evaluate_pub p vars es G [] values env N H).
  - exact (evaluate_pub_exit p vars es G N1 N2 [] values env N H).
Qed.
Print Assumptions C29_evaluate.
Example C29_hypotheses_met : good P0 xyz [ex1; ex2] /\ Forall nn_e [ex1; ex2] /\ good P0 xyz [ex1; ex2; ex3] /\ ~ Forall nn_e [ex1; ex2; ex3] /\
  ~ In (str "~") xyz /\ ~ In (str ";") xyz.
Proof.
  split; [|split; [|split; [|split; [|split]]]].
  - apply (good_incl _ _ [ex1; ex2; ex3]); [apply ex_good; [exact P0_prime|exact P0_range]|]. intros e [H|[H|[]]]; [left; exact H|right; left; exact H].
  - repeat (apply Forall_cons; [|]); [..|apply Forall_nil]; tree.
  - apply ex_good; [exact P0_prime|exact P0_range].
  - intros F. inversion F as [|? ? _ F1]; subst. inversion F1 as [|? ? _ F2]; subst. inversion F2 as [|? ? F3 _]; subst. destruct F3 as [F3 _]. exact (proj2 F3).
  - intros [E|[E|[E|[]]]]; discriminate.
  - intros [E|[E|[E|[]]]]; discriminate.
Qed.
(** Refuted as documented (README.md:165, 184): with the default constructor the result of evaluate is empty, and so is the parser. *)
Theorem C29_default_constructor_refuted : forall p pA vars es c1 c2, good p vars es ->
  exists o, construct p pA (map show_e es) vars false false c1 c2 = Ret o /\ parser_empty o = true /\ get_size o = 0 /\ forall values, evaluate p o values = Ret [].
Proof.
  intros p pA vars es c1 c2 G. exists (built p vars es false false []). split; [apply construct_plain; exact G|]. split; [reflexivity|]. split; [reflexivity|]. intros values. reflexivity.
Qed.
Print Assumptions C29_default_constructor_refuted.
(** ... and with check_is_equal it reads beyond the end of an empty vector. *)
Theorem C29_default_constructor_check_refuted : exists o, construct P0 P1 [str "x"] [str "x"] true false [3%Z] [4%Z] = Ret o /\ evaluate P0 o [5%Z] = UB.
Proof. eexists. (split; [vm_compute; reflexivity|vm_compute; reflexivity]). Qed.
Print Assumptions C29_default_constructor_check_refuted.
(** Refuted: evaluate exits on a negative exponent. *)
Theorem C29_negative_exponent_refuted : exists o v, construct P0 P1 [str "x^(-1)"] [str "x"] false true [] [] = Ret o /\ evaluate P0 o [2%Z] = Exit /\
  evaluate_pre P0 o [2%Z] = Ret [v] /\ (v * 2 mod P0 = 1)%Z.
Proof. eexists _, 4611686018427387892%Z. repeat (split; [vm_compute; reflexivity|]). vm_compute; reflexivity. Qed.
Print Assumptions C29_negative_exponent_refuted.

(** ---- C30: equal functions and trimming ---- *)
(** Two functions have the same fingerprint if they agree at the two check points. *)
Definition same_fingerprint (p pA : Z) (env1 env2 : chars -> Z) (e d : expr) : Prop := den_e pA env1 e = den_e pA env1 d /\ den_e p env2 e = den_e p env2 d.
(** With check_is_equal there is one result per function, in order, namely the value of some function of the collection
    with the same fingerprint. *)
Theorem C30_one_result_per_function : forall p pA vars es keep c1 c2 env1 env2, good p vars es -> good pA vars es -> point pA vars c1 env1 -> point p vars c2 env2 ->
  exists o, construct p pA (map show_e es) vars true keep c1 c2 = Ret o /\
  exists rep, (forall e, In e es -> In (rep e) es /\ same_fingerprint p pA env1 env2 e (rep e)) /\
  forall values env, point p vars values env -> evaluate_pre p o values = Ret (map (fun e => den_e p env (rep e)) es).
Proof.
  intros p pA vars es keep c1 c2 env1 env2 G GA H1 H2. destruct (construct_check p pA vars es G GA c1 c2 env1 env2 H1 H2 keep) as [D [ep [Hd E]]].
  exists (built p vars D true keep ep). split; [exact E|].
  exists (fun e => match same p pA env1 env2 es e with Some d => d | None => e end). split.
  - intros e I. unfold same. destruct (find _ es) as [d|] eqn:Ef; [|split; [exact I|split; reflexivity]].
    apply find_some in Ef. destruct Ef as [Id Ed]. split; [exact Id|]. apply fp_eqb_eq in Ed. injection Ed as A B. split; assumption.
  - intros values env H. rewrite (evaluate_check p pA vars es G GA env1 env2 D ep keep values env Hd H). f_equal. apply map_ext_in. intros e I. unfold value_as, same.
    destruct (find _ es) as [d|] eqn:Ef; [reflexivity|]. pose proof (find_none _ _ Ef e I) as X. cbn beta in X. rewrite (proj2 (fp_eqb_eq _ _) eq_refl) in X. discriminate.
Qed.
Print Assumptions C30_one_result_per_function.
(** In particular every function gets its own value if functions with the same fingerprint are equal. *)
Theorem C30_own_values : forall p pA vars es keep c1 c2 env1 env2, good p vars es -> good pA vars es -> point pA vars c1 env1 -> point p vars c2 env2 ->
  exists o, construct p pA (map show_e es) vars true keep c1 c2 = Ret o /\
  forall values env, point p vars values env -> (forall e d, In e es -> In d es -> same_fingerprint p pA env1 env2 e d -> den_e p env e = den_e p env d) ->
  evaluate_pre p o values = Ret (map (den_e p env) es).
Proof.
  intros p pA vars es keep c1 c2 env1 env2 G GA H1 H2. destruct (C30_one_result_per_function p pA vars es keep c1 c2 env1 env2 G GA H1 H2) as [o [E [rep [R V]]]].
  exists o. split; [exact E|]. intros values env H Q. rewrite (V values env H). f_equal. apply map_ext_in. intros e I. destruct (R e I) as [I' F]. symmetry. exact (Q e (rep e) I I' F).
Qed.
Print Assumptions C30_own_values.
Example C30_hypotheses_met : good P0 xyz [ex1; ex2; ex3] /\ good P1 xyz [ex1; ex2; ex3] /\ point P1 xyz [2; 3; 5]%Z (env_of P1 xyz [2; 3; 5]%Z) /\
  point P0 xyz [2; 3; 5]%Z (env_of P0 xyz [2; 3; 5]%Z) /\
  obind (construct P0 P1 [str "x*y"; str "y*x"; str "x+1"] xyz true false [2; 3; 5]%Z [2; 3; 5]%Z) (fun o => evaluate_pre P0 o [7; 8; 9]%Z) = Ret [56; 56; 8]%Z.
Proof.
  split; [apply ex_good; [exact P0_prime|exact P0_range]|]. split; [apply ex_good; [exact P1_prime|exact P1_range]|].
  split; [apply xyz_point; reflexivity|]. split; [apply xyz_point; reflexivity|]. vm_compute. reflexivity.
Qed.
(** Refuted for unequal functions that agree at the check points: with the check point x = 5 the functions x and 5 are merged. *)
Theorem C30_collision_refuted : obind (construct P0 P1 [str "x"; str "5"] [str "x"] true false [5%Z] [5%Z]) (fun o => evaluate_pre P0 o [7%Z]) = Ret [7; 7]%Z.
Proof. vm_compute. reflexivity. Qed.
Print Assumptions C30_collision_refuted.
(** Refuted: add_otf after the construction uses the cleared check points. *)
Theorem C30_add_otf_after_construction_refuted : exists o, construct P0 P1 [str "x"] [str "x"] true true [3%Z] [4%Z] = Ret o /\ add_otf P0 P1 (str "x+1") false o = UB.
Proof. eexists. (split; [vm_compute; reflexivity|vm_compute; reflexivity]). Qed.
Print Assumptions C30_add_otf_after_construction_refuted.

(** trim of a parser that keeps the notation: the results of the kept functions in order, and the map tells where they are *)
Theorem C30_trim : forall p vars es keep, good p vars es ->
  exists o o' pos, (forall pA c1 c2, construct p pA (map show_e es) vars false true c1 c2 = Ret o) /\ trim keep o = Ret (o', pos) /\
  forall values env, point p vars values env ->
  exists old new, evaluate_pre p o values = Ret old /\ evaluate_pre p o' values = Ret new /\ map_ok keep old new pos /\ length new = length pos.
Proof.
  intros p vars es keep G. destruct (trim_plain_ok p vars es G keep []) as [o' [pos [T [V E]]]]. exists (built p vars es false true []), o', pos.
  split; [intros pA c1 c2; apply construct_plain; exact G|]. split; [exact T|]. intros values env H.
  exists (map (den_e p env) es), (kept keep 0 (map (den_e p env) es)). split; [apply evaluate_plain; assumption|]. split; [exact (V values env H)|].
  subst pos. rewrite <- (map_length (den_e p env) es). split; [apply kpos_map_ok|apply kpos_length].
Qed.
Print Assumptions C30_trim.
Theorem C30_trim_with_check : forall p pA vars es keep c1 c2 env1 env2, good p vars es -> good pA vars es -> point pA vars c1 env1 -> point p vars c2 env2 ->
  exists o o' pos, construct p pA (map show_e es) vars true true c1 c2 = Ret o /\ trim keep o = Ret (o', pos) /\
  forall values env, point p vars values env ->
  exists old new, evaluate_pre p o values = Ret old /\ evaluate_pre p o' values = Ret new /\ map_ok keep old new pos /\ length new = length pos.
Proof.
  intros p pA vars es keep c1 c2 env1 env2 G GA H1 H2. destruct (construct_check p pA vars es G GA c1 c2 env1 env2 H1 H2 true) as [D [ep [Hd E]]].
  destruct (omap_check p pA es env1 env2 D ep env1 Hd) as [_ [Hl HL]].
  destruct (trim_check_ok p vars es G D (proj1 Hd) keep ep Hl) as [o' [pos [T [V P]]]].
  exists (built p vars D true true ep), o', pos. split; [exact E|]. split; [exact T|]. intros values env H.
  destruct (omap_check p pA es env1 env2 D ep env Hd) as [O _].
  exists (map (value_as p pA es env1 env2 env) es), (kept keep 0 (map (value_as p pA es env1 env2 env) es)).
  split; [exact (evaluate_check p pA vars es G GA env1 env2 D ep true values env Hd H)|]. split; [exact (V values env _ H O)|].
  subst pos. rewrite <- HL, <- (map_length (value_as p pA es env1 env2 env) es). split; [apply kpos_map_ok|apply kpos_length].
Qed.
Print Assumptions C30_trim_with_check.
Example C30_trim_example : exists o o', construct P0 P1 [str "x"; str "x+1"; str "1+x"; str "x*7"] [str "x"] true true [3%Z] [4%Z] = Ret o /\
  trim (fun i => negb (i =? 1)) o = Ret (o', [(0, 0); (2, 1); (3, 2)]) /\ evaluate_pre P0 o' [5%Z] = Ret [5; 6; 35]%Z.
Proof. eexists _, _. repeat (split; [vm_compute; reflexivity|]). vm_compute; reflexivity. Qed.
(** Refuted: after trim a change of the prime writes the numbers of the removed functions into the kept ones. *)
Theorem C30_trim_then_prime_change_refuted : exists o o' pos o2, construct P0 P1 [str "x+1"; str "x*7"] [str "x"] false true [] [] = Ret o /\
  trim (fun i => i =? 1) o = Ret (o', pos) /\ evaluate_pre P0 o' [5%Z] = Ret [35%Z] /\ precompute_tokens P1 false o' = Ret o2 /\ evaluate_pre P1 o2 [5%Z] = Ret [5%Z].
Proof. eexists _, _, _, _. repeat (split; [vm_compute; reflexivity|]). vm_compute; reflexivity. Qed.
Print Assumptions C30_trim_then_prime_change_refuted.
(** Refuted: trim of a parser built with the defaults (keep_rpn = false) removes everything. *)
Theorem C30_trim_default_refuted : forall p pA vars es keep c1 c2, good p vars es -> exists o o', construct p pA (map show_e es) vars false false c1 c2 = Ret o /\
  trim keep o = Ret (o', []) /\ forall values, evaluate_pre p o' values = Ret [].
Proof.
  intros p pA vars es keep c1 c2 G. eexists (built p vars es false false []), _. split; [apply construct_plain; exact G|]. split; [reflexivity|]. intros values. reflexivity.
Qed.
Print Assumptions C30_trim_default_refuted.

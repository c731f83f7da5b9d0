(** Property theorems C50: insertion of replacement rules (class AmplitudeParser, program ff_insert). The input format and
    the meaning of the insertion are defined in AmplitudeSpec.v, coefficients and their values in SYGrammar.v. *)
From Coq Require Import Ascii String Znumtheory.
From Verif Require Import Machine FFInt FFVec SYParse SYGrammar SYEval SYObj SYObjProofs Amplitude AmplitudeSpec AmplitudeText AmplitudeParse AmplitudeState AmplitudeValue AmplitudeMain Props_Parser.
From Coq Require Import List ListDec Lia Arith ZArith Permutation.
Import ListNotations.
Open Scope nat_scope.

Lemma filter_names A l : filter (in_names (names_from [] A)) l = filter (fun n => if in_dec (list_eq_dec ascii_dec) n (map s_name A) then true else false) l.
Proof.
  apply filter_ext. intros n. unfold in_names. pose proof (names_from_in A [] n) as H.
  destruct (in_dec_name n (names_from [] A)) as [I|I], (in_dec (list_eq_dec ascii_dec) n (map s_name A)) as [J|J]; try reflexivity; exfalso; cbn [In] in H; tauto.
Qed.
Lemma coefs_at_ne A n : In n (names_from [] A) -> coefs_at A n <> [].
Proof.
  intros I. apply names_from_in in I as [[]|I]. apply in_map_iff in I as [s [E I]]. intros X. unfold coefs_at in X. apply map_eq_nil in X.
  assert (Y : In s (filter (fun s => if name_dec (s_name s) n then true else false) A)) by (apply filter_In; split; [exact I|]; destruct (name_dec (s_name s) n); congruence).
  rewrite X in Y. destruct Y.
Qed.
Lemma final_basis A R m : (exists n, In n (names_from [] A) /\ In m (map fst (final_of R n))) <-> basis A R m.
Proof.
  unfold basis. split.
  - intros [n [I H]]. apply names_from_in in I as [[]|I]. apply in_map_iff in I as [s [E I]]. exists s. split; [exact I|]. rewrite E. unfold final_of in H.
    destruct (rule_for R n) as [r|]; [rewrite map_map in H; exact H|]. destruct H as [H|[]]. symmetry. exact H.
  - intros [s [I H]]. exists (s_name s). split; [apply names_from_in; right; apply in_map; exact I|]. unfold final_of. destruct (rule_for R (s_name s)) as [r|]; [rewrite map_map; exact H|]. left. symmetry. exact H.
Qed.

(** ---- the insertion ---- *)
(** An expression and tables of rules are read, in any order of the functions. Then: as many basis functions are reported as
    stand in the expression with the rules inserted, each once; and the black box that is built for one of them over a prime p,
    and kept through changes to further primes ps, returns at every point its coefficient in the expression with the rules
    inserted. [order]: the order in which a hash table is traversed. *)
Theorem C50_insertion : forall vars fams A T atext ttexts, input_ok fams A T -> text_of_sum A atext -> Forall2 text_of_table T ttexts ->
  exists st1 st2, parse_amplitude_string (new_amplitude vars fams) atext = Ret st1 /\ parse_tables st1 ttexts = Ret st2 /\
  forall order, Permutation order (integrals st2) -> forall st M, check_for_unreplaced_masters order st2 = (st, M) ->
  exists names, length names = M /\ NoDup names /\ (forall m, In m names <-> basis A (concat T) m) /\
  forall i m, nth_error names i = Some m -> get_master st i = Ret m /\
  forall p ps, Forall (fun q => good q vars (coef_trees A T)) (p :: ps) -> Forall nq_e (coef_trees A T) ->
  forall pA, exists o, obind (build_black_box p pA st i) (switch_primes ps) = Ret o /\
  forall values env, point (last ps p) vars values env ->
    evaluate_pre (last ps p) o values = Ret [(inserted_coef (last ps p) env A (concat T) m mod last ps p)%Z].
Proof.
  intros vars fams A T atext ttexts [FO HA HT HO] TA TT.
  destruct (amplitude_text vars fams FO A atext HA TA) as [st1 [E1 I1]]. exists st1.
  rewrite <- filter_names in HO.
  destruct (tables_text vars fams FO (names_from [] A) (coefs_at A) T [] [] [] st1 ttexts I1) as [st2 [Ms2 [rep2 [E2 [I2 R2]]]]]; [cbn; tauto|exact HT|exact TT|exact HO|].
  cbn [app] in I2, R2. exists st2. split; [exact E1|]. split; [exact E2|]. intros order PO st M EC.
  destruct (check_inv vars fams (names_from [] A) (coefs_at A) (concat T) Ms2 rep2 st2 order R2 I2 PO) as [Ms [I3 L3]]. rewrite EC in I3, L3. cbn [fst snd] in I3, L3.
  exists Ms. split; [symmetry; exact L3|]. split; [exact (iv_mnd _ _ _ _ _ _ _ _ I3)|]. split; [intros m; rewrite (iv_min _ _ _ _ _ _ _ _ I3 m); apply final_basis|].
  intros i m Hi. split; [exact (masters_nth _ _ _ _ _ _ _ _ I3 i m Hi)|]. intros p ps G Q pA.
  pose proof (coef_text _ _ _ _ _ _ _ _ I3 (coefs_at_ne A) i m Hi) as [NE ET]. set (tr := terms_tree (coef_terms (coefs_at A) (final_of (concat T)) m (names_from [] A))) in *.
  assert (G' : Forall (fun q => good q vars [tr]) (p :: ps)) by (eapply Forall_impl; [|exact G]; intros q Gq; apply good_tree; exact Gq).
  assert (Q' : Forall nq_e [tr]) by (apply nq_tree; unfold coef_trees in Q; rewrite Forall_map in Q; exact Q).
  destruct (C28_prime_changes p vars [tr] false ps G' Q') as [o [Eo Ho]]. exists o. split.
  - unfold build_black_box. rewrite ET. cbn [obind]. rewrite (iv_vars _ _ _ _ _ _ _ _ I3). exact (Eo pA [] []).
  - intros values env PT. rewrite (Ho values env PT). cbn [map]. do 2 f_equal.
    assert (IL : In (last ps p) (p :: ps)).
    { clear. induction ps as [|q ps IH]; [left; reflexivity|]. destruct ps as [|r ps]; [right; left; reflexivity|]. change (last (q :: r :: ps) p) with (last (r :: ps) p).
      destruct IH as [E|E]; [left; exact E|right; right; exact E]. }
    rewrite Forall_forall in G. pose proof (G _ IL) as GL. pose proof (prime_ge_2 _ (g_prime _ _ _ GL)) as P2.
    apply coef_value; [lia| |exact (iv_nd _ _ _ _ _ _ _ _ I3)| |exact NE].
    + destruct PT as [[_ PE] _]. rewrite PE; [apply Z.mod_small; cbn; lia|split; [discriminate|reflexivity]|]. exact (one_not_var vars _ _ GL).
    + intros n. rewrite names_from_in. cbn [In]. tauto.
Qed.
Print Assumptions C50_insertion.

(** Whatever values the functions have, the value of the expression with the rules inserted is the sum of the reported basis
    functions times these coefficients. *)
Theorem C50_sum_of_basis_functions : forall p env A R V names, NoDup names -> (forall m, In m names <-> basis A R m) ->
  inserted_val p env V A R = sumZ (fun m => inserted_coef p env A R m * V m)%Z names.
Proof. intros p env A R V names ND H. apply inserted_sum; [exact ND|]. intros m Hm. apply H. exact Hm. Qed.
Print Assumptions C50_sum_of_basis_functions.
(** And if every rule holds for these values, that is the value of the expression. *)
Theorem C50_value_preserved : forall p env A R V names, NoDup names -> (forall m, In m names <-> basis A R m) ->
  Forall (fun r => V (r_name r) = sum_val p env V (r_rhs r)) R -> sum_val p env V A = sumZ (fun m => inserted_coef p env A R m * V m)%Z names.
Proof.
  intros p env A R V names ND H HR. rewrite <- (C50_sum_of_basis_functions p env A R V names ND H). unfold inserted_val, sum_val at 1 2. apply sumZ_ext_eq. intros s _. f_equal.
  destruct (rule_for R (s_name s)) as [r|] eqn:E; [|reflexivity]. apply rule_for_some in E as [I <-]. rewrite Forall_forall in HR. exact (HR r I).
Qed.
Print Assumptions C50_value_preserved.

(** ---- files ---- *)
Lemma before_app c s rest : ~ In c s -> before c (s ++ c :: rest) = s.
Proof.
  induction s as [|d s IH]; intros H; cbn [app before]; [destruct (ascii_dec c c); [|congruence]; rewrite (proj2 (Ascii.eqb_eq c c) eq_refl); reflexivity|].
  rewrite (proj2 (Ascii.eqb_neq d c)) by (intros ->; apply H; left; reflexivity). f_equal. apply IH. intros I. apply H. right. exact I.
Qed.
Lemma before_id c s : ~ In c s -> before c s = s.
Proof.
  induction s as [|d s IH]; intros H; cbn [before]; [reflexivity|].
  rewrite (proj2 (Ascii.eqb_neq d c)) by (intros ->; apply H; left; reflexivity). f_equal. apply IH. intros I. apply H. right. exact I.
Qed.
(** A file with an expression is read up to the first semicolon, a file with rules completely. *)
Theorem C50_files : forall st s, (forall rest, ~ In ";"%char s -> parse_amplitude_file st (s ++ ";"%char :: rest) = parse_amplitude_string st s) /\
  (s <> [] -> ~ In ";"%char s -> parse_amplitude_file st s = parse_amplitude_string st s) /\
  (s <> [] -> ~ In nul s -> parse_ibp_table_file st s = parse_ibp_table_string st s).
Proof.
  intros st s. unfold parse_amplitude_file, parse_ibp_table_file. split; [|split].
  - intros rest H. destruct (s ++ ";"%char :: rest) eqn:E; [destruct s; discriminate|]. rewrite <- E, before_app by exact H. reflexivity.
  - intros N H. rewrite before_id by exact H. destruct s; [congruence|reflexivity].
  - intros N H. rewrite before_id by exact H. destruct s; [congruence|reflexivity].
Qed.
Print Assumptions C50_files.

(** ---- two rules for one function of the expression: the program exits ---- *)
Theorem C50_two_rules_exit : forall vars fams A T atext ttexts, families_ok fams -> Forall (summand_ok fams) A -> Forall (fun t => t <> [] /\ Forall (rule_ok fams) t) T ->
  text_of_sum A atext -> Forall2 text_of_table T ttexts ->
  (exists n R1 r1 R2 r2 R3, concat T = R1 ++ r1 :: R2 ++ r2 :: R3 /\ r_name r1 = n /\ r_name r2 = n /\ In n (map s_name A)) ->
  obind (parse_amplitude_string (new_amplitude vars fams) atext) (fun st => parse_tables st ttexts) = Exit.
Proof.
  intros vars fams A T atext ttexts FO HA HT TA TT [n [R1 [r1 [R2 [r2 [R3 [EC [N1 [N2 IA]]]]]]]]].
  destruct (amplitude_text vars fams FO A atext HA TA) as [st1 [E1 I1]]. rewrite E1. cbn [obind].
  apply (tables_exit vars fams FO (names_from [] A) (coefs_at A) T [] [] [] st1 ttexts I1); [cbn; tauto|exact HT|exact TT|constructor|].
  cbn [app]. rewrite EC. rewrite map_app, filter_app. cbn [map]. rewrite map_app. cbn [map]. rewrite N1, N2.
  assert (In_ : in_names (names_from [] A) n = true). { unfold in_names. destruct (in_dec_name n (names_from [] A)) as [_|X]; [reflexivity|]. exfalso. apply X. apply names_from_in. right. exact IA. }
  cbn [filter]. rewrite In_, filter_app. cbn [filter]. rewrite In_. intros ND. apply NoDup_remove_2 in ND. apply ND. apply in_or_app. right. apply in_or_app. right. left. reflexivity.
Qed.
Print Assumptions C50_two_rules_exit.

(** ---- /repo/examples/ff_insert ---- *)
Lemma spaced_strip s : spaced (strip_white s) s.
Proof.
  induction s as [|c s IH]; [apply Sp_end|]. unfold strip_white, remove_char in *. cbn [filter].
  destruct (Ascii.eqb_spec c " ") as [E1|E1]; cbn [negb]; [apply Sp_white; [left; exact E1|exact IH]|]. cbn [filter].
  destruct (Ascii.eqb_spec c "009") as [E2|E2]; cbn [negb]; [apply Sp_white; [right; left; exact E2|exact IH]|]. cbn [filter].
  destruct (Ascii.eqb_spec c "010") as [E3|E3]; cbn [negb]; [apply Sp_white; [right; right; exact E3|exact IH]|]. apply Sp_char. exact IH.
Qed.
Lemma not_occurs f s : finds f s = None -> ~ occurs f s.
Proof.
  intros H [a [b ->]]. revert H. induction a as [|c a IH]; cbn [app]; intros H; rewrite finds_unfold in H.
  - rewrite (proj2 (starts_spec f (f ++ b))) in H; [discriminate|]. exists b. reflexivity.
  - destruct (starts f (c :: a ++ f ++ b)); [discriminate|]. apply IH. destruct (finds f (a ++ f ++ b)); [discriminate|reflexivity].
Qed.
Definition std : list chars := [str "s"; str "t"; str "d"].
Definition ex_fams : list chars := [str "INT"; str "F1"; str "F1x12"].
Definition pow_ (v n : string) : factor := Fac (at_ v) (XPow (str n)).
Definition par (e : expr) : factor := f_ (Par e).
(** s^2+d*t^2 *)
Definition ex_den : factor := par (EBin (e_ (TFac (pow_ "s" "2"))) OAdd (TMul (t_ "d") (pow_ "t" "2"))).
(** expression/in.m *)
Definition ex_sum : list summand := [
  mk_sm false (str "INT") (str """F1"",4,432,4,0,{0,0,0,0,1,1,0,1,1}") (Some (t_ "s"));
  mk_sm false (str "F1") (str "input,{1,2,3,4}")
    (Some (TDiv (TFac (par (EBin (EBin (e_ (TMul (TDiv (t_ "33") (f_ (at_ "12"))) (f_ (at_ "s")))) OSub (TMul (t_ "42") (f_ (at_ "t")))) OAdd (TMul (TFac (par (EBin (e_ (t_ "d")) OSub (t_ "2")))) (f_ (at_ "s")))))) ex_den));
  mk_sm false (str "F1x12") (str "input,{1,2,3,4}") (Some (TDiv (TFac (pow_ "s" "2")) (pow_ "t" "3")));
  mk_sm false (str "F1") (str "input") (Some (TFac (pow_ "s" "3")));
  mk_sm false (str "F1") (str "input2") (Some (TFac (pow_ "d" "2")))].
(** replacements/rep1.m and rep2.m *)
Definition ex_rules : list (list rule) := [
  [mk_rule (str "INT") (str """F1"",4,432,4,0,{0,0,0,0,1,1,0,1,1}") false [mk_sm false (str "INT") (str """F1"",2,432,4,0,{0,0,0,0,0,0,0,1,1}") (Some (TMul (TMul (t_ "s") (f_ (at_ "t"))) (f_ (at_ "d"))))];
   mk_rule (str "F1") (str "input,{1,2,3,4}") false [mk_sm false (str "F1") (str "master") (Some (t_ "12"))];
   mk_rule (str "F1") (str "input,{1,2,3,5}") false [mk_sm false (str "F1") (str "master") (Some (TDiv (t_ "1") (f_ (at_ "s"))))]];
  [mk_rule (str "F1") (str "input2") false [mk_sm false (str "F1") (str "input") None];
   mk_rule (str "F1x12") (str "input,{1,2,3,4}") false [mk_sm false (str "F1") (str "master")
     (Some (TDiv (TMul (t_ "12") (par (ELead SMinus (TMul (TDiv (TMul (TDiv (TFac (pow_ "t" "3")) (pow_ "s" "2")) (f_ (at_ "33"))) (f_ (at_ "12"))) (f_ (at_ "s")))))) ex_den))]]].
(** the files as they are in the repository *)
Definition ex_in_m : chars := str "+ INT[""F1"", 4, 432, 4, 0, {0, 0, 0, 0, 1, 1, 0, 1, 1}]*s
    + F1[input,{1,2,3,4}]*(33/12*s-42*t+(d-2)*s)/(s^2+d*t^2)
    + F1x12[input,{1,2,3,4}]*s^2/t^3
    + F1[input]*s^3
    + F1[input2]*d^2".
Definition ex_rep1 : chars := str "{
    INT[""F1"", 4, 432, 4, 0, {0, 0, 0, 0, 1, 1, 0, 1, 1}] -> INT[""F1"", 2, 432, 4, 0, {0, 0, 0, 0, 0, 0, 0, 1, 1}]*s*t*d,
    F1[input,{1,2,3,4}] -> F1[master]*12,
    F1[input,{1,2,3,5}] -> F1[master]*1/s
}".
Definition ex_rep2 : chars := str "{
    F1[input2] -> F1[input],
    F1x12[input,{1,2,3,4}] -> F1[master]*12*(-t^3/s^2*33/12*s)/(s^2+d*t^2)
}".
Lemma ex_texts : text_of_sum ex_sum ex_in_m /\ Forall2 text_of_table ex_rules [ex_rep1; ex_rep2].
Proof.
  split; [|constructor; [|constructor; [|constructor]]].
  - exists true, false, false. replace (braced _ _ _) with (strip_white ex_in_m) by reflexivity. apply spaced_strip.
  - exists true, true. replace (braced _ _ _) with (strip_white ex_rep1) by reflexivity. apply spaced_strip.
  - exists true, true. replace (braced _ _ _) with (strip_white ex_rep2) by reflexivity. apply spaced_strip.
Qed.
Ltac litS := split; [split; [discriminate|reflexivity]|split; [let H := fresh in intros H; repeat (destruct H as [H|H]; [discriminate|]); exact H|first [left; cbn; lia|right; discriminate]]].
Ltac treeS := cbv beta iota delta [wf_e wf_t wf_f wf_b wf_x ok_e ok_t ok_f ok_b ok_x nq_e nq_t nq_f nq_b quot_f quot_e quot_t lone_f lone_t lone_e cst_f cst_t cst_e e_ t_ f_ at_ par pow_ ex_den];
  repeat match goal with |- _ /\ _ => split | |- True => exact I end;
  try match goal with |- wf_word _ => split; [discriminate|reflexivity] | |- wf_num _ => split; [discriminate|reflexivity] | |- literal _ _ => litS
    | |- ok_word _ _ => first [left; split; [cbn; tauto|cbn; lia]|right; litS] | |- _ = false => reflexivity end.
Ltac idxT := repeat (apply Forall_cons; [repeat split; try discriminate; intros [?|[?|?]]; discriminate|]); apply Forall_nil.
Ltac occT := repeat (apply Forall_cons; [apply not_occurs; reflexivity|]); apply Forall_nil.
Ltac smT := split; [cbn; tauto|]; split; [idxT|]; first [exact I|split; [treeS|occT]].
Lemma ex_families : families_ok ex_fams.
Proof.
  split; [repeat constructor; discriminate|]. intros l f r E.
  assert (N : ~ occurs (str "INT") (str "F1") /\ ~ occurs (str "INT") (str "F1x12") /\ ~ occurs (str "F1x12") (str "F1") /\ ~ occurs (str "F1") (str "INT") /\ ~ occurs (str "F1x12") (str "INT")) by (repeat split; apply not_occurs; reflexivity).
  destruct N as [N1 [N2 [N3 [N4 N5]]]].
  destruct l as [|a l]; [injection E as <- <-; split; [repeat constructor; assumption|constructor]|]. injection E as <- E.
  destruct l as [|a l]; [injection E as <- <-; split; [repeat constructor; assumption|constructor; [intros O; contradiction|constructor]]|]. injection E as <- E.
  destruct l as [|a l]; [injection E as <- <-; split; [constructor|constructor; [intros O; contradiction|constructor; [intros _; exists (str "x12"); reflexivity|constructor]]]|]. injection E as <- E.
  destruct l; discriminate.
Qed.
Lemma ex_input : input_ok ex_fams ex_sum ex_rules.
Proof.
  constructor; [exact ex_families| | |].
  - repeat (apply Forall_cons; [smT|]). apply Forall_nil.
  - repeat (apply Forall_cons; [split; [discriminate|repeat (apply Forall_cons; [split; [cbn; tauto|split; [idxT|repeat (apply Forall_cons; [smT|]); apply Forall_nil]]|]); apply Forall_nil]|]). apply Forall_nil.
  - vm_compute. repeat (constructor; [intros H; repeat (destruct H as [H|H]; [discriminate|]); exact H|]). constructor.
Qed.
Lemma ex_coefs_good p : prime p -> (2 ^ 62 < p < 2 ^ 63)%Z -> good p std (coef_trees ex_sum ex_rules).
Proof.
  intros Hp Hb. constructor; [exact Hp|lia| |].
  - intros v [<-|[<-|[<-|[]]]] [_ H]; discriminate.
  - assert (B : forall n, (n < 2 ^ 61)%Z -> (n < p - 1)%Z /\ (n < p)%Z) by (intros n Hn; lia).
    unfold coef_trees. cbn [coefs_of ex_sum ex_rules flat_map concat map s_cf r_rhs app].
    repeat (apply Forall_cons; [|]); [..|apply Forall_nil]; treeS; try (apply B; reflexivity); reflexivity.
Qed.
Lemma ex_nq : Forall nq_e (coef_trees ex_sum ex_rules).
Proof. unfold coef_trees. cbn [coefs_of ex_sum ex_rules flat_map concat map s_cf r_rhs app]. repeat (apply Forall_cons; [|]); [..|apply Forall_nil]; treeS. Qed.
(** The hypotheses of the theorem hold for the files of the example, and the coefficient of F1[master] at (s,t,d) = (2,3,5)
    after a change of the prime is (s(12d-24)-504t)/(s^2+dt^2) = -1440/49, as in expression/out.m. *)
Example C50_hypotheses_met : input_ok ex_fams ex_sum ex_rules /\ text_of_sum ex_sum ex_in_m /\ Forall2 text_of_table ex_rules [ex_rep1; ex_rep2] /\
  Forall (fun q => good q std (coef_trees ex_sum ex_rules)) [P0; P1] /\ Forall nq_e (coef_trees ex_sum ex_rules) /\ point P1 std [2; 3; 5]%Z (env_of P1 std [2; 3; 5]%Z) /\
  exists st v, obind (parse_amplitude_file (new_amplitude std ex_fams) (ex_in_m ++ str ";")) (fun st => parse_table_files st [ex_rep1; ex_rep2]) = Ret st /\
    map (fun i => match get_master (fst (check_for_unreplaced_masters (integrals st) st)) i with Ret a => string_of_list_ascii a | _ => ""%string end) (seq 0 (snd (check_for_unreplaced_masters (integrals st) st))) =
      ["INT[""F1"",2,432,4,0,{0,0,0,0,0,0,0,1,1}]"; "F1[master]"; "F1[input]"]%string /\
    obind (obind (build_black_box P0 P0 (fst (check_for_unreplaced_masters (integrals st) st)) 1) (switch_primes [P1])) (fun o => evaluate_pre P1 o [2; 3; 5]%Z) = Ret [v] /\
    ((v * 49) mod P1 = (-1440) mod P1)%Z.
Proof.
  split; [exact ex_input|]. split; [apply ex_texts|]. split; [apply ex_texts|].
  split; [repeat (apply Forall_cons; [|]); [..|apply Forall_nil]; apply ex_coefs_good; first [exact P0_prime|exact P1_prime|exact P0_range|exact P1_range]|]. split; [exact ex_nq|].
  split; [split; [apply env_of_ok; cbn; lia|repeat (apply Forall_cons; [split; [discriminate|reflexivity]|]); apply Forall_nil]|].
  eexists _, _. split; [vm_compute; reflexivity|]. split; [vm_compute; reflexivity|]. split; [vm_compute; reflexivity|]. vm_compute. reflexivity.
Qed.
Print Assumptions C50_hypotheses_met.

(** ---- an expression that starts with an unknown function: the program exits ---- *)
Lemma strip_app a b : strip_white (a ++ b) = strip_white a ++ strip_white b.
Proof. unfold strip_white, remove_char. rewrite !filter_app. reflexivity. Qed.
Lemma strip_id s : Forall (fun c => ~ white c) s -> strip_white s = s.
Proof.
  induction s as [|c s IH]; intros H; [reflexivity|]. change (c :: s) with ([c] ++ s) at 1. rewrite strip_app, IH by exact (Forall_inv_tail H).
  pose proof (Forall_inv H) as W. unfold strip_white, remove_char. cbn [filter].
  destruct (Ascii.eqb_spec c " "); [exfalso; apply W; left; assumption|]. cbn [negb filter].
  destruct (Ascii.eqb_spec c "009"); [exfalso; apply W; right; left; assumption|]. cbn [negb filter].
  destruct (Ascii.eqb_spec c "010"); [exfalso; apply W; right; right; assumption|]. reflexivity.
Qed.
Lemma first_family_none fams s : Forall (fun f => ~ occurs f s) fams -> first_family fams s = None.
Proof. induction fams as [|f l IH]; intros H; [reflexivity|]. cbn [first_family]. rewrite (finds_none f s (Forall_inv H)). apply IH. exact (Forall_inv_tail H). Qed.
Theorem C50_unknown_function_exits : forall vars fams name idx rest, Forall (fun c => c <> "["%char /\ c <> "]"%char /\ c <> "{"%char /\ ~ white c) name -> name <> [] -> idx_ok idx ->
  Forall (fun f => ~ occurs f name) fams -> parse_amplitude_string (new_amplitude vars fams) (fname name idx ++ rest) = Exit.
Proof.
  intros vars fams name idx rest Hn Nn Hi Hf. unfold parse_amplitude_string, parse_string.
  assert (W : Forall (fun c => ~ white c) (fname name idx)).
  { unfold fname. apply Forall_app. split; [eapply Forall_impl; [|exact Hn]; cbn; tauto|]. constructor; [intros [X|[X|X]]; discriminate|]. apply Forall_app. split; [eapply Forall_impl; [|exact Hi]; cbn; tauto|]. constructor; [intros [X|[X|X]]; discriminate|constructor]. }
  rewrite strip_app, (strip_id _ W). set (rw := strip_white rest).
  assert (S : exists r2, strip_braces (fname name idx ++ rw) = Ret (fname name idx ++ r2)).
  { unfold strip_braces. replace (hd nul (fname name idx ++ rw) =?c "{") with false.
    2:{ symmetry. apply Ascii.eqb_neq. destruct name as [|c name]; [congruence|]. cbn. apply (Forall_inv Hn). }
    destruct (fname name idx ++ rw) eqn:E; [unfold fname in E; destruct name; discriminate|]. rewrite <- E. destruct rw as [|c r].
    - exists []. rewrite app_nil_r. replace (last (fname name idx) nul =?c "}") with false; [reflexivity|]. symmetry. apply Ascii.eqb_neq. unfold fname.
      change ("["%char :: idx ++ ["]"%char]) with (("["%char :: idx) ++ ["]"%char]). rewrite app_assoc, last_last. discriminate.
    - destruct (last (fname name idx ++ c :: r) nul =?c "}"); [|exists (c :: r); reflexivity]. exists (removelast (c :: r)). rewrite removelast_app by discriminate. reflexivity. }
  destruct S as [r2 ->]. cbn [obind a_fams new_amplitude]. unfold parse_body.
  assert (Ft : fname name idx ++ r2 = (name ++ "["%char :: idx) ++ "]"%char :: r2) by (unfold fname; rewrite <- !app_assoc; cbn [app]; rewrite <- app_assoc; reflexivity).
  assert (Fp : findc_from "]" (fname name idx ++ r2) 0 = Some (length (name ++ "["%char :: idx))).
  { unfold findc_from. cbn [skipn]. rewrite Ft, findc_app; [cbn [option_map]; f_equal|]. intros I. apply in_app_or in I as [I|[I|I]]; [|discriminate|].
    - rewrite Forall_forall in Hn. exact (proj1 (proj2 (Hn _ I)) eq_refl).
    - unfold idx_ok in Hi. rewrite Forall_forall in Hi. exact (proj1 (proj2 (Hi _ I)) eq_refl). }
  assert (P1 : forall found, found = length (name ++ "["%char :: idx) -> parse_one fams (fname name idx ++ r2) 0 found = Exit).
  { intros found ->. unfold parse_one. replace (length (name ++ "["%char :: idx) + 1 - 0) with (length (fname name idx)) by (unfold fname; rewrite !app_length; cbn [length]; rewrite app_length; cbn [length]; lia).
    pose proof (substr_pre [] (fname name idx) r2) as X. cbn [app length] in X. rewrite X. cbn [obind].
    assert (Y : findc "[" (fname name idx) = Some (length name)) by (unfold fname; apply findc_app; intros I; rewrite Forall_forall in Hn; exact (proj1 (Hn _ I) eq_refl)).
    rewrite Y. unfold fname at 1. rewrite firstn_pre, first_family_none by exact Hf. reflexivity. }
  destruct (fname name idx ++ r2) eqn:E; [unfold fname in E; destruct name; discriminate|]. cbn [length parse_loop]. rewrite Fp, (P1 _ eq_refl). reflexivity.
Qed.
Print Assumptions C50_unknown_function_exits.
Example C50_unknown_hypotheses_met : parse_amplitude_string (new_amplitude std ex_fams) (str "G2[1,{2}]*s + F1[2]") = Exit /\ Forall (fun f => ~ occurs f (str "G2")) ex_fams.
Proof. split; [reflexivity|]. occT. Qed.
Example C50_two_rules_hypotheses_met : obind (parse_amplitude_string (new_amplitude std ex_fams) (str "F1[1]*s")) (fun st => parse_tables st [str "{F1[1] -> F1[2]}"; str "{F1[1] -> F1[3]}"]) = Exit.
Proof. reflexivity. Qed.

(** ---- refuted without the assumptions ---- *)
(** the basis functions and their coefficients as texts *)
Definition report (r : outcome amplitude) : outcome (list (string * string)) :=
  obind r (fun st => let (st, M) := check_for_unreplaced_masters (integrals st) st in
  Ret (map (fun i => match get_master st i, get_unsimplified_coef st i with Ret a, Ret b => (string_of_list_ascii a, string_of_list_ascii b) | _, _ => ("", "")%string end) (seq 0 M))).
(** A second expression for the same object: the coefficients are mixed up. *)
Theorem C50_second_expression_refuted :
  report (obind (parse_amplitude_string (new_amplitude [str "x"] [str "F"]) (str "F[1]*x")) (fun st => parse_amplitude_string st (str "F[2]*x^2"))) =
  Ret [("F[1]", "+((x))*((x^2))"); ("F[2]", "+((x))*((1))")]%string.
Proof. vm_compute. reflexivity. Qed.
Print Assumptions C50_second_expression_refuted.
(** A second call of check_for_unreplaced_masters doubles the coefficients of functions without a rule. *)
Theorem C50_second_check_refuted :
  report (obind (parse_amplitude_string (new_amplitude [str "x"] [str "F"]) (str "F[1]*x")) (fun st => Ret (fst (check_for_unreplaced_masters (integrals st) st)))) =
  Ret [("F[1]", "+((x))*((1)+(1))")]%string.
Proof. vm_compute. reflexivity. Qed.
Print Assumptions C50_second_check_refuted.
(** The name of a later function in a coefficient: the coefficient of F[1] becomes s+F. *)
Theorem C50_function_name_in_coefficient_refuted :
  report (parse_amplitude_string (new_amplitude [str "s"] [str "F"; str "s"]) (str "F[1]*s+F[2]")) = Ret [("F[1]", "+((s+F))*((1))"); ("F[2]", "+((1))*((1))")]%string.
Proof. vm_compute. reflexivity. Qed.
Print Assumptions C50_function_name_in_coefficient_refuted.
(** A quotient without a product: F[1]/x is read as F[1]. A summand without a function: F[1]*x+1 is read as F[1]*(x+1). *)
Theorem C50_other_input_refuted :
  report (parse_amplitude_string (new_amplitude [str "x"] [str "F"]) (str "F[1]/x+F[2]")) = Ret [("F[1]", "+((1))*((1))"); ("F[2]", "+((1))*((1))")]%string /\
  report (parse_amplitude_string (new_amplitude [str "x"] [str "F"]) (str "F[1]*x+1")) = Ret [("F[1]", "+((x+1))*((1))")]%string.
Proof. split; vm_compute; reflexivity. Qed.
Print Assumptions C50_other_input_refuted.
(** The longer of two names first: the program exits although all functions are listed. *)
Theorem C50_order_of_functions_refuted :
  report (parse_amplitude_string (new_amplitude [str "x"] [str "F1x12"; str "F1"]) (str "F1[1]*x-F1x12[2]*x")) = Exit /\
  report (parse_amplitude_string (new_amplitude [str "x"] [str "F1"; str "F1x12"]) (str "F1[1]*x-F1x12[2]*x")) = Ret [("F1[1]", "+((x))*((1))"); ("F1x12[2]", "+((-(x)))*((1))")]%string.
Proof. split; vm_compute; reflexivity. Qed.
Print Assumptions C50_order_of_functions_refuted.
(** An expression without characters: instead of the error message a read outside the string. *)
Theorem C50_empty_expression_refuted : parse_amplitude_string (new_amplitude [str "x"] [str "F"]) [] = UB /\ parse_amplitude_string (new_amplitude [str "x"] [str "F"]) (str " {} ") = Exit.
Proof. split; reflexivity. Qed.
Print Assumptions C50_empty_expression_refuted.

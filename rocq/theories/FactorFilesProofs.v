(** Proofs for C54 *)
From Coq Require Import Ascii String ZArith Permutation Lia.
From Verif Require Import Machine FFInt RatNum SYParse SYEval SYObj DecPrint StateFile StateSpec StateFileProofs Printers PrintSpec PrintProofs Results ResultsSpec ResultsProofs ResultsText Props_Results PrecompProofs FactorFiles FactorFilesSpec.
From Coq Require Import List.
Import ListNotations.
Open Scope Z_scope.

(** ---- order of the variables ---- *)
Definition order_line (o : list (nat * nat)) (i : nat) : chars := num_sp (Z.of_nat i) ++ num_sp (Z.of_nat (order_at o i)).
Lemma put_order_new i j o : ~ In i (map fst o) -> put_order i j o = o ++ [(i, j)].
Proof. induction o as [|[k v] o IH]; intros N; [reflexivity|]. cbn [map fst In put_order app] in *. destruct (Nat.eqb_spec k i); [tauto|]. rewrite IH by tauto. reflexivity. Qed.
Lemma order_line_parse o i : Z.of_nat i < 2 ^ 31 -> Z.of_nat (order_at o i) < 2 ^ 31 -> parse_vector_32 (order_line o i) 2 = Ret ([Z.of_nat i; Z.of_nat (order_at o i)], []).
Proof.
  intros A B. pose proof (parse32_lim [Z.of_nat i; Z.of_nat (order_at o i)] []) as H. cbn [flat_map length] in H. rewrite !app_nil_r in H. change (Z.of_nat 2) with 2 in H. apply H; [|discriminate].
  repeat constructor; unfold two31; try lia.
Qed.
Lemma read_order_ok o is : forall m, NoDup (map fst m ++ is) -> Forall (fun i => Z.of_nat i < 2 ^ 31 /\ Z.of_nat (order_at o i) < 2 ^ 31) is ->
  read_order_lines (map (order_line o) is) m = Ret (m ++ map (fun i => (i, order_at o i)) is).
Proof.
  induction is as [|i is IH]; intros m N F; [cbn; rewrite app_nil_r; reflexivity|]. apply Forall_cons_iff in F as [[A B] F]. cbn [map read_order_lines]. rewrite order_line_parse by assumption. cbn [obind fst].
  rewrite !Nat2Z.id. rewrite put_order_new.
  - rewrite IH; [rewrite <- app_assoc; reflexivity|rewrite map_app, <- app_assoc; exact N|exact F].
  - intros I. apply NoDup_remove_2 in N. apply N, in_or_app. left. exact I.
Qed.
Lemma order_lines_no_nl o is : Forall no_nl (map (order_line o) is).
Proof. apply Forall_map, Forall_forall. intros i _. apply data_no_nl, data_app; apply data_num_sp. Qed.

(** ---- factors as rational functions ---- *)
Definition rline (e : list Z * rn) : chars := flat_map num_sp (fst e) ++ print (num (snd e)) ++ sp :: print (den (snd e)).
Definition side_fit (m : pmap rn) : Prop := Forall (fun e => exists z, fst e = [z] /\ small z) m /\ NoDup (map fst m) /\ Forall (fun e => rn_ok (snd e)) m.
Lemma rline_data e : data_line (rline e).
Proof. apply data_app; [apply data_entries|]. apply data_app; [apply data_print|]. change (sp :: print (den (snd e))) with ([sp] ++ print (den (snd e))). apply data_app; [reflexivity|apply data_print]. Qed.
Lemma side_lines_ok q : side_fit (coefs q) -> side_lines q = Ret (map rline (coefs q)).
Proof.
  intros [A _]. unfold side_lines. apply oseq_map. intros e I. rewrite Forall_forall in A. destruct (A e I) as [z [E _]]. unfold term_line, rline. rewrite E. cbn [flat_map]. rewrite app_nil_r. reflexivity.
Qed.
Lemma data_not_word l w c r : data_line l -> w = c :: r -> data_char c = false -> chars_eqb l w = false.
Proof.
  intros D -> H. destruct l as [|x l]; [reflexivity|]. unfold data_line in D. cbn [forallb] in D. apply andb_true_iff in D as [D _]. cbn [chars_eqb].
  destruct (Ascii.eqb_spec x c) as [->|]; [congruence|reflexivity].
Qed.
Section RF.
  Variable ord : forall A : Type, list A -> list A.
  Hypothesis Hord : forall A (l : list A), Permutation (ord A l) l.
  Lemma step_data l s : data_line l -> r_isvar s = false -> rf_step ord l s = obind (parse_vector_32 l 1) (fun vl => obind (parse_rational_number (snd vl)) (fun q =>
     if r_isnum s then Ret (mk_rfs (emplace (r_num s) (fst vl) q) (r_den s) true false (r_pos s) (r_out s)) else Ret (mk_rfs (r_num s) (emplace (r_den s) (fst vl) q) false false (r_pos s) (r_out s)))).
  Proof.
    intros D V. unfold rf_step. rewrite (data_not_word l (str "var") "v"%char (str "ar") D eq_refl eq_refl), (data_not_word l (str "numerator") "n"%char (str "umerator") D eq_refl eq_refl), (data_not_word l (str "denominator") "d"%char (str "enominator") D eq_refl eq_refl), V. reflexivity.
  Qed.
  Lemma rline_parse e : (exists z, fst e = [z] /\ small z) -> rn_ok (snd e) -> parse_vector_32 (rline e) 1 = Ret (fst e, print (num (snd e)) ++ sp :: print (den (snd e))) /\ parse_rational_number (print (num (snd e)) ++ sp :: print (den (snd e))) = Ret (snd e).
  Proof.
    intros [z [E S]] R. split.
    - unfold rline. rewrite E. change 1 with (Z.of_nat (length [z])). apply parse32_lim; [constructor; [exact S|constructor]|discriminate].
    - apply parse_rat. exact R.
  Qed.
  Lemma steps_app a : forall b s, rf_steps ord (a ++ b) s = obind (rf_steps ord a s) (rf_steps ord b).
  Proof. induction a as [|l a IH]; intros b s; [reflexivity|]. cbn [app rf_steps]. destruct (rf_step ord l s); cbn [obind]; try reflexivity. apply IH. Qed.
  Lemma steps_num m : forall nu de v out, side_fit (nu ++ m) -> rf_steps ord (map rline m) (mk_rfs nu de true false v out) = Ret (mk_rfs (nu ++ m) de true false v out).
  Proof.
    induction m as [|e m IH]; intros nu de v out H; [rewrite app_nil_r; reflexivity|]. destruct H as [A [N R]]. pose proof (proj1 (Forall_forall _ _) A e ltac:(apply in_or_app; right; left; reflexivity)) as Ae. pose proof (proj1 (Forall_forall _ _) R e ltac:(apply in_or_app; right; left; reflexivity)) as Re.
    cbn [map rf_steps]. rewrite step_data by (apply rline_data || reflexivity). destruct (rline_parse e Ae Re) as [P1 P2]. rewrite P1. cbn [obind fst snd]. rewrite P2. cbn [obind r_isnum r_num r_den r_pos r_out].
    unfold emplace. destruct (memk (fst e) nu) eqn:M.
    - exfalso. apply memk_In in M. rewrite map_app in N. cbn [map] in N. apply NoDup_remove_2 in N. apply N, in_or_app. left. exact M.
    - destruct e as [ke ce]. cbn [fst snd] in *. rewrite IH; [rewrite <- app_assoc; reflexivity|]. rewrite <- app_assoc. split; [exact A|split; assumption].
  Qed.
  Lemma steps_den m : forall nu de v out, side_fit (de ++ m) -> rf_steps ord (map rline m) (mk_rfs nu de false false v out) = Ret (mk_rfs nu (de ++ m) false false v out).
  Proof.
    induction m as [|e m IH]; intros nu de v out H; [rewrite app_nil_r; reflexivity|]. destruct H as [A [N R]]. pose proof (proj1 (Forall_forall _ _) A e ltac:(apply in_or_app; right; left; reflexivity)) as Ae. pose proof (proj1 (Forall_forall _ _) R e ltac:(apply in_or_app; right; left; reflexivity)) as Re.
    cbn [map rf_steps]. rewrite step_data by (apply rline_data || reflexivity). destruct (rline_parse e Ae Re) as [P1 P2]. rewrite P1. cbn [obind fst snd]. rewrite P2. cbn [obind r_isnum r_num r_den r_pos r_out].
    unfold emplace. destruct (memk (fst e) de) eqn:M.
    - exfalso. apply memk_In in M. rewrite map_app in N. cbn [map] in N. apply NoDup_remove_2 in N. apply N, in_or_app. left. exact M.
    - destruct e as [ke ce]. cbn [fst snd] in *. rewrite IH; [rewrite <- app_assoc; reflexivity|]. rewrite <- app_assoc. split; [exact A|split; assumption].
  Qed.
  Definition ff_fit (f : found_factor) : Prop := Z.of_nat (ff_var f) < 2 ^ 31 /\ side_fit (ff_num f) /\ side_fit (ff_den f) /\ (ff_num f <> [] \/ ff_den f <> []).
  Definition f_lines (f : found_factor) : list chars := [str "var"; print (Z.of_nat (ff_var f)); str "numerator"] ++ map rline (ff_num f) ++ [str "denominator"] ++ map rline (ff_den f).
  Lemma side_coefs v m : coefs (side_poly v m) = m. Proof. destruct m; reflexivity. Qed.
  Lemma rf_lines_ok f : ff_fit f -> rf_lines (factor_entry f) = Ret (f_lines f).
  Proof.
    intros [A [B [C D]]]. unfold rf_lines, factor_entry. cbn [fst snd]. rewrite !side_lines_ok by (rewrite side_coefs; assumption). cbn [obind]. rewrite !side_coefs. unfold f_lines.
    replace (if var_pos (side_poly (ff_var f) (ff_num f)) =? -1 then var_pos (side_poly (ff_var f) (ff_den f)) else var_pos (side_poly (ff_var f) (ff_num f))) with (Z.of_nat (ff_var f)); [reflexivity|].
    destruct (ff_num f) eqn:E; cbn [side_poly var_pos].
    - cbn. destruct (ff_den f); [destruct D; congruence|reflexivity].
    - destruct (Z.eqb_spec (Z.of_nat (ff_var f)) (-1)); [lia|reflexivity].
  Qed.
  Lemma f_steps f s : ff_fit f -> rf_steps ord (f_lines f) s = Ret (mk_rfs (ff_num f) (ff_den f) false false (Z.of_nat (ff_var f)) (flush ord s)).
  Proof.
    intros [A [B [C D]]]. unfold f_lines. cbn [app rf_steps]. unfold rf_step at 1. change (chars_eqb (str "var") (str "var")) with true. cbv iota. cbn [obind].
    unfold rf_step at 1. pose proof (data_print (Z.of_nat (ff_var f))) as DP. rewrite (data_not_word _ (str "var") "v"%char (str "ar") DP eq_refl eq_refl), (data_not_word _ (str "numerator") "n"%char (str "umerator") DP eq_refl eq_refl), (data_not_word _ (str "denominator") "d"%char (str "enominator") DP eq_refl eq_refl).
    cbn [r_isvar]. rewrite stoi_print by (unfold two31; lia). cbn [obind r_num r_den r_isnum r_out].
    unfold rf_step at 1. change (chars_eqb (str "numerator") (str "var")) with false. change (chars_eqb (str "numerator") (str "numerator")) with true. cbv iota. cbn [obind r_num r_den r_isvar r_pos r_out].
    rewrite steps_app, (steps_num (ff_num f) [] []) by exact B. cbn [obind app rf_steps]. unfold rf_step at 1. change (chars_eqb (str "denominator") (str "var")) with false. change (chars_eqb (str "denominator") (str "numerator")) with false. change (chars_eqb (str "denominator") (str "denominator")) with true. cbv iota. cbn [obind r_num r_den r_isvar r_pos r_out].
    rewrite (steps_den (ff_den f) (ff_num f) []) by exact C. reflexivity.
  Qed.
  Definition restored (f : found_factor) : poly * poly := (poly_of ord (ff_num f) (Z.of_nat (ff_var f)), poly_of ord (ff_den f) (Z.of_nat (ff_var f))).
  Lemma all_steps fs : Forall ff_fit fs -> forall s, exists s', rf_steps ord (concat (map f_lines fs)) s = Ret s' /\ flush ord s' = flush ord s ++ map restored fs.
  Proof.
    induction 1 as [|f fs Hf F IH]; intros s; [exists s; split; [reflexivity|rewrite app_nil_r; reflexivity]|]. cbn [map concat]. rewrite steps_app, (f_steps f s Hf). cbn [obind].
    destruct (IH (mk_rfs (ff_num f) (ff_den f) false false (Z.of_nat (ff_var f)) (flush ord s))) as [s' [E1 E2]]. exists s'. split; [exact E1|]. rewrite E2. unfold flush at 1. cbn [r_num r_den r_out r_pos].
    destruct Hf as [_ [_ [_ D]]]. change (restored f :: map restored fs) with ([restored f] ++ map restored fs). rewrite app_assoc. f_equal. unfold restored. destruct (ff_num f); [destruct (ff_den f); [destruct D; congruence|reflexivity]|reflexivity].
  Qed.
  Lemma number_name_ok k : Z.of_nat k < 2 ^ 31 -> name_number (number_name k) = Ret k.
  Proof.
    intros H. unfold name_number, number_name. change (str ".gz") with ("."%char :: str "gz"). rewrite upto_app.
    - rewrite stoi_print by (unfold two31; lia). cbn [obind]. rewrite Nat2Z.id. reflexivity.
    - intros x I. pose proof (proj2 (print_chars (Z.of_nat k))) as N. rewrite forallb_forall in N. specialize (N x I). destruct (Ascii.eqb_spec x "."%char) as [->|]; [discriminate N|reflexivity].
  Qed.
  Definition fe_fit (e : nat * list found_factor) : Prop := Z.of_nat (fst e) < 2 ^ 31 /\ snd e <> [] /\ Forall ff_fit (snd e).
  Definition entry_of (e : nat * list found_factor) : nat * list (poly * poly) := (fst e, map factor_entry (snd e)).
  Definition e_file (e : nat * list found_factor) : chars * chars := (number_name (fst e), to_file (concat (map f_lines (snd e)))).
  Lemma files_ok found : Forall fe_fit found -> write_factors_rf (map entry_of found) = Ret (map e_file found).
  Proof.
    intros F. unfold write_factors_rf. rewrite map_map. apply oseq_map. intros e I. rewrite Forall_forall in F. destruct (F e I) as [_ [_ G]]. unfold rf_file, entry_of. cbn [fst snd]. rewrite map_map.
    rewrite (oseq_map _ f_lines); [reflexivity|]. intros f J. rewrite Forall_forall in G. apply rf_lines_ok, G. exact J.
  Qed.
  Lemma f_lines_nl f : Forall no_nl (f_lines f).
  Proof.
    unfold f_lines. cbn [app]. repeat constructor; try (apply str_no_nl_bool; reflexivity); [apply data_no_nl, data_print|]. apply Forall_app. split; [|constructor; [apply str_no_nl_bool; reflexivity|]]; apply Forall_map, Forall_forall; intros e _; apply data_no_nl, rline_data.
  Qed.
  Lemma put_rf_new k fs m : ~ In k (map fst m) -> put_rf k fs m = m ++ [(k, fs)].
  Proof. induction m as [|[j l] m IH]; intros N; [reflexivity|]. cbn [map fst In put_rf app] in *. destruct (Nat.eqb_spec j k); [tauto|]. rewrite IH by tauto. reflexivity. Qed.
  Definition restored_entry (e : nat * list found_factor) : nat * list (poly * poly) := (fst e, map restored (snd e)).
  Lemma read_ok found : forall m, Forall fe_fit found -> NoDup (map fst m ++ map fst found) -> read_factors_rf ord (map e_file found) m = Ret (m ++ map restored_entry found).
  Proof.
    induction found as [|e found IH]; intros m F N; [cbn; rewrite app_nil_r; reflexivity|]. apply Forall_cons_iff in F as [[A [B C]] F]. cbn [map read_factors_rf e_file]. rewrite getlines_file.
    - destruct (all_steps (snd e) C (mk_rfs [] [] false true (-1) [])) as [s [E1 E2]]. rewrite E1. cbn [obind]. cbn [flush r_num r_den r_out app] in E2. rewrite E2. rewrite number_name_ok by exact A.
      destruct (map restored (snd e)) as [|g gs] eqn:M; [destruct (snd e); [congruence|discriminate M]|]. cbn [obind]. rewrite put_rf_new.
      + rewrite IH; [|exact F|rewrite map_app, <- app_assoc; exact N]. rewrite <- app_assoc. cbn [app map restored_entry fst snd]. unfold restored_entry at 2. rewrite M. reflexivity.
      + cbn [map] in N. apply NoDup_remove_2 in N. intros I. apply N, in_or_app. left. exact I.
    - apply Forall_concat, Forall_map, Forall_forall. intros f _. apply f_lines_nl.
  Qed.
  Lemma restored_same f : ff_fit f -> same_factor (factor_entry f) (restored f).
  Proof.
    intros [_ [A [B _]]]. assert (G : forall m, side_fit m -> same_side (side_poly (ff_var f) m) (poly_of ord m (Z.of_nat (ff_var f)))).
    { intros m [S _]. unfold same_side, poly_of. cbn [coefs pn var_pos]. rewrite side_coefs. split; [apply Permutation_sym, Hord|]. intros Ne. destruct m as [|x m]; [congruence|]. cbn [side_poly pn var_pos]. split; [|reflexivity].
      destruct (ord _ (x :: m)) as [|y l] eqn:O; [pose proof (Hord _ (x :: m)) as P; rewrite O in P; apply Permutation_nil in P; discriminate P|].
      assert (I : In y (x :: m)) by (apply (Permutation_in _ (Hord _ (x :: m))); rewrite O; left; reflexivity). rewrite Forall_forall in S. destruct (S y I) as [z [-> _]]. reflexivity. }
    split; apply G; assumption.
  Qed.
End RF.
Lemma poly_val_perm {C} (cv : C -> Z) (a b : pmap C) xs : Permutation a b -> poly_val cv a xs = poly_val cv b xs.
Proof. induction 1; cbn [poly_val fold_right] in *; unfold poly_val in *; try lia. Qed.
Lemma same_part p a b xs : same_side a b -> part_at p a xs = part_at p b xs.
Proof.
  intros [P V]. unfold part_at. destruct (coefs a) as [|e l] eqn:A.
  - apply Permutation_nil in P. rewrite P. reflexivity.
  - destruct (coefs b) as [|e' l'] eqn:B; [apply Permutation_sym, Permutation_nil in P; discriminate P|]. unfold poly_at. destruct (V ltac:(discriminate)) as [_ W]. rewrite W, A, B. apply poly_val_perm. exact P.
Qed.
Lemma same_value p (f g : ratfun) xs : rnum f = rnum g -> rden f = rden g -> order_map f = order_map g -> Forall2 same_factor (factors f) (factors g) -> ratfun_val p f xs = ratfun_val p g xs.
Proof.
  intros A B C D. unfold ratfun_val. rewrite A, B, C.
  assert (E : fold_right (fun fd acc => part_at p (fst fd) xs * acc) 1 (factors f) = fold_right (fun fd acc => part_at p (fst fd) xs * acc) 1 (factors g) /\ fold_right (fun fd acc => part_at p (snd fd) xs * acc) 1 (factors f) = fold_right (fun fd acc => part_at p (snd fd) xs * acc) 1 (factors g)).
  { induction D as [|x y l m [H1 H2] D [I1 I2]]; [split; reflexivity|]. cbn [fold_right]. rewrite I1, I2, (same_part p _ _ xs H1), (same_part p _ _ xs H2). split; reflexivity. }
  destruct E as [-> ->]. reflexivity.
Qed.
Lemma found_fit n b f : Z.of_nat n < 2 ^ 31 -> b < 2 ^ 31 -> found_ok n b f -> ff_fit f.
Proof.
  intros Hn Hb [A [B [C D]]]. assert (G : forall m, m = [] \/ univariate b m -> side_fit m).
  { intros m [->|[[K N] [R _]]]; [split; [constructor|split; constructor]|]. split; [|split; assumption]. eapply Forall_impl; [|exact K]. intros e [L F]. destruct (fst e) as [|z [|]]; try discriminate L. exists z. split; [reflexivity|]. apply Forall_cons_iff in F as [F _]. unfold small, two31. lia. }
  split; [lia|]. split; [apply G; exact B|]. split; [apply G; exact C|exact D].
Qed.

(** ---- factors as texts ---- *)
Lemma nl_app a b : no_nl a -> no_nl b -> no_nl (a ++ b). Proof. intros A B I. apply in_app_or in I as [I|I]; contradiction. Qed.
Lemma nl_removelast a : no_nl a -> no_nl (removelast a).
Proof. intros A I. apply A. clear A. induction a as [|x a IH]; [destruct I|]. cbn [removelast] in I. destruct a as [|y a]; [destruct I|]. destruct I as [I|I]; [left; exact I|right; apply IH; exact I]. Qed.
Lemma nl_print z : no_nl (print z). Proof. apply data_no_nl, data_print. Qed.
Lemma nl_lit l : existsb (fun c => Ascii.eqb c nl) l = false -> no_nl l. Proof. apply str_no_nl_bool. Qed.
Lemma nl_cons c l : Ascii.eqb c nl = false -> no_nl l -> no_nl (c :: l). Proof. intros H N [E|I]; [rewrite E in H; discriminate H|exact (N I)]. Qed.
Ltac nl_auto := repeat first [assumption | apply nl_print | apply nl_lit; reflexivity | apply nl_app | apply nl_cons; [reflexivity|]].
Ltac nl_done := solve [nl_auto].
Lemma nl_rn r : no_nl (rn_string r). Proof. unfold rn_string. destruct (den r =? 1), (num r <? 1); nl_auto. Qed.
Lemma nl_power vars : Forall no_nl vars -> forall e s, power_pieces vars e = Ret s -> no_nl s.
Proof.
  intros F e. revert vars F. induction e as [|z e IH]; intros vars F s H; [cbn in H; injection H as <-; intros []|]. cbn [power_pieces] in H. destruct (z =? 0).
  - apply (IH (tl vars)); [destruct vars; [constructor|apply Forall_cons_iff in F; apply F]|exact H].
  - destruct vars as [|v vs]; [discriminate H|]. apply Forall_cons_iff in F as [F1 F2]. destruct (power_pieces vs e) as [t| | | |] eqn:Q; try discriminate H. cbn [obind] in H. injection H as <-. pose proof (IH vs F2 t Q). destruct (1 <? z); nl_auto.
Qed.
Lemma nl_monos vars : Forall no_nl vars -> forall ms acc s, no_nl acc -> monos_string rn_string rn_is_one vars acc ms = Ret s -> no_nl s.
Proof.
  intros F. induction ms as [|m ms IH]; intros acc s A H; [cbn in H; injection H as <-; exact A|]. cbn [monos_string] in H. destruct (mono_pieces rn_string rn_is_one vars m) as [q| | | |] eqn:Q; try discriminate H. cbn [obind] in H.
  apply (IH _ _) in H; [exact H|]. apply nl_app; [|apply nl_lit; reflexivity]. apply nl_removelast, nl_app; [exact A|]. unfold mono_pieces in Q. destruct (power_pieces vars (fst m)) as [t| | | |] eqn:P; try discriminate Q. cbn [obind] in Q. injection Q as <-.
  pose proof (nl_power vars F _ _ P). pose proof (nl_rn (snd m)). apply nl_app; [|assumption]. destruct (negb _ && negb _); [nl_auto|]. destruct (_ =? 0); nl_auto; intros [].
Qed.
Lemma nl_side v m s : side_text v m = Ret s -> no_nl s.
Proof.
  intros H. unfold side_text, poly_to_string in H. cbn [coefs pn] in H. destruct m as [|e m0] eqn:M; [injection H as <-; apply nl_lit; reflexivity|]. rewrite <- M in *. cbn [length Nat.eqb negb andb] in H. unfold vars_c in H. change (var_pos (mk_poly m 1 (-1)) =? -1) with true in H. cbn [obind] in H.
  destruct (monos_string rn_string rn_is_one [x_name v] [] m) as [q| | | |] eqn:Q; try discriminate H. cbn [obind] in H. injection H as <-. apply nl_removelast. apply (nl_monos [x_name v]) in Q; [exact Q| |intros []]. constructor; [|constructor]. unfold x_name. nl_auto.
Qed.
Lemma nl_sides l : forall ss, side_texts l = Ret ss -> Forall no_nl ss.
Proof.
  induction l as [|[v m] l IH]; intros ss H; [cbn in H; injection H as <-; constructor|]. cbn [side_texts] in H. destruct m as [|e m0] eqn:M; [apply IH; exact H|]. rewrite <- M in H.
  destruct (side_text v m) as [s| | | |] eqn:S; try discriminate H. cbn [obind] in H. destruct (side_texts l) as [t| | | |]; try discriminate H. cbn [obind] in H. injection H as <-. constructor; [apply (nl_side _ _ _ S)|apply IH; reflexivity].
Qed.
Lemma nl_bracket l : Forall no_nl l -> no_nl (bracket l).
Proof.
  intros F. unfold bracket. apply nl_app; [apply nl_lit; reflexivity|]. apply nl_app; [|apply nl_lit; reflexivity]. apply nl_removelast. induction F as [|s l S F IH]; [intros []|]. cbn [map concat]. apply nl_app; [|exact IH]. nl_auto.
Qed.
Lemma nl_text a b : Forall no_nl a -> Forall no_nl b -> no_nl (factor_text a b).
Proof.
  intros A B. pose proof (nl_bracket a A). pose proof (nl_bracket b B). unfold factor_text. destruct a, b; cbv iota; rewrite ?app_nil_r; nl_auto; intros [].
Qed.
Lemma read_text ord p n found : (forall A (l : list A), Permutation (ord A l) l) -> forall parsed files, Forall (fun e => Z.of_nat (fst e) < 2 ^ 31) found ->
  Forall2 (fun e q => fst q = fst e /\ parsed_factor ord p n (snd e) = Ret (snd q)) found parsed -> Forall2 (fun e f => factor_file ord e = Ret f) found files -> read_factors p n files = Ret parsed.
Proof.
  intros Ho. induction found as [|e found IH]; intros parsed files K P F; inversion P as [|? q ? parsed' [P1 P2] P3]; subst; inversion F as [|? f ? files' F1 F2]; subst; [reflexivity|]. apply Forall_cons_iff in K as [K1 K2].
  unfold factor_file in F1. unfold parsed_factor in P2. destruct (side_texts (map (fun f => (ff_var f, ff_num f)) (snd e))) as [nums| | | |] eqn:N; try discriminate F1. destruct (side_texts (map (fun f => (ff_var f, ff_den f)) (snd e))) as [dens| | | |] eqn:D; try discriminate F1.
  cbn [obind] in F1, P2. injection F1 as <-. unfold text_file. cbn [read_factors fst snd]. set (t := factor_text (ord _ nums) (ord _ dens)) in *.
  assert (T : no_nl t). { apply nl_text; (eapply Permutation_Forall; [apply Permutation_sym, Ho|]); [exact (nl_sides _ _ N)|exact (nl_sides _ _ D)]. }
  replace (t ++ str ";" ++ [nl]) with (to_file [t ++ str ";"]) by (unfold to_file; cbn [flat_map]; rewrite app_nil_r, <- app_assoc; reflexivity). rewrite getlines_file by (constructor; [apply nl_app; [exact T|apply nl_lit; reflexivity]|constructor]).
  destruct (t ++ str ";") as [|c r] eqn:Q; [apply (f_equal (@List.length ascii)) in Q; rewrite app_length in Q; cbn in Q; lia|]. rewrite <- Q. change (str ";") with [";"%char]. rewrite removelast_last, P2. cbn [obind]. rewrite number_name_ok by exact K1. cbn [obind].
  rewrite (IH parsed' files' K2 P3 F2). cbn [obind]. do 2 f_equal. destruct q; cbn [fst snd] in *; congruence.
Qed.

(** ---- validation ---- *)
Lemma val_lines values probe : getlines (write_validation values probe) [] = flat_map num_sp values :: map print probe.
Proof. apply getlines_file. constructor; [apply data_no_nl, data_entries|]. apply Forall_map, Forall_forall. intros z _. apply nl_print. Qed.
Lemma compare_ok probe : Forall (fun v => 0 <= v < two64) probe -> forall r,
  compare_entries (map print probe) r = match r with _ => if list_eq_dec Z.eq_dec (firstn (length probe) r) (firstn (length r) probe) then (if (length probe <=? length r)%nat then Ret (skipn (length probe) r) else UB) else Exit end.
Proof.
  induction 1 as [|v probe V F IH]; intros r.
  - cbn [map compare_entries length firstn skipn Nat.leb]. rewrite firstn_nil. destruct (list_eq_dec Z.eq_dec [] []); [reflexivity|congruence].
  - cbn [map compare_entries]. rewrite stoul_print by exact V. cbn [obind]. destruct r as [|w r]; cbn [length firstn skipn Nat.leb].
    + destruct (list_eq_dec Z.eq_dec [] []); [reflexivity|congruence].
    + destruct (Z.eqb_spec v w) as [->|N].
      * rewrite IH. destruct (list_eq_dec Z.eq_dec (firstn (length probe) r) (firstn (length r) probe)) as [E|E].
        -- rewrite E. destruct (list_eq_dec Z.eq_dec _ _); [reflexivity|congruence].
        -- destruct (list_eq_dec Z.eq_dec _ _) as [X|X]; [congruence|reflexivity].
      * destruct (list_eq_dec Z.eq_dec _ _) as [X|X]; [congruence|reflexivity].
Qed.
Lemma validate_ok p bb parsed values probe r : 0 < p <= two64 -> Forall (fun v => 0 <= v < p) values -> Forall (fun v => 0 <= v < two64) probe -> divide_at p parsed values (bb values) = Ret r ->
  validate p bb parsed (write_validation values probe) = if list_eq_dec Z.eq_dec (firstn (length probe) r) (firstn (length r) probe) then (if (length probe <? length r)%nat then Exit else if (length probe =? length r)%nat then Ret tt else UB) else Exit.
Proof.
  intros Hp V F D. unfold validate. rewrite val_lines. rewrite parseFF_line by assumption. cbn [obind fst]. rewrite D. cbn [obind]. rewrite compare_ok by exact F.
  destruct (list_eq_dec Z.eq_dec _ _) as [E|E]; [|reflexivity]. destruct (Nat.leb_spec (length probe) (length r)) as [L|L]; cbn [obind].
  - destruct (skipn (length probe) r) as [|x s] eqn:S; apply (f_equal (@List.length Z)) in S; rewrite skipn_length in S; cbn [length] in S.
    + destruct (Nat.ltb_spec (length probe) (length r)); [lia|]. destruct (Nat.eqb_spec (length probe) (length r)); [reflexivity|lia].
    + destruct (Nat.ltb_spec (length probe) (length r)); [reflexivity|lia].
  - destruct (Nat.ltb_spec (length probe) (length r)); [lia|]. destruct (Nat.eqb_spec (length probe) (length r)); [lia|reflexivity].
Qed.
(** dividing entry by entry gives what compute_probe gives, in every order of the factors *)
Definition quot (p : Z) (values : list Z) (parsed : list (nat * parser)) (i : nat) (v : Z) : outcome Z :=
  match nat_find i parsed with Some o => obind (evaluate_pre p o values) (fun res => match res with f :: _ => Ret (ff_div_assign p v f) | [] => UB end) | None => Ret v end.
Lemma upd_error {A} (l : list A) i a : forall j, (i < length l)%nat -> nth_error (upd_l l i a) j = if (i =? j)%nat then Some a else nth_error l j.
Proof. revert i. induction l as [|x l IH]; intros i j Hi; [cbn in Hi; lia|]. destruct i as [|i], j as [|j]; cbn [upd_l nth_error Nat.eqb]; try reflexivity. apply IH. cbn [length] in Hi. lia. Qed.
Lemma divide_factors_ok p parsed values : forall probe k ws, divide_factors p parsed values k probe = Ret ws -> length ws = length probe /\ forall i v, nth_error probe i = Some v -> exists w, quot p values parsed (k + i) v = Ret w /\ nth_error ws i = Some w.
Proof.
  induction probe as [|v probe IH]; intros k ws H; cbn [divide_factors] in H; [injection H as <-; split; [reflexivity|intros [|i] w X; discriminate X]|]. fold (quot p values parsed k v) in H.
  destruct (quot p values parsed k v) as [w| | | |] eqn:Q; try discriminate H. cbn [obind] in H. destruct (divide_factors p parsed values (S k) probe) as [ws'| | | |] eqn:D; try discriminate H. cbn [obind] in H. injection H as <-.
  destruct (IH (S k) ws' D) as [L1 L2]. split; [cbn [length]; lia|]. intros [|i] x X; cbn [nth_error] in *.
  - injection X as <-. exists w. rewrite Nat.add_0_r. split; [exact Q|reflexivity].
  - destruct (L2 i x X) as [y [Y1 Y2]]. exists y. split; [replace (k + S i)%nat with (S k + i)%nat by lia; exact Y1|exact Y2].
Qed.
Lemma divide_at_ok p values parsed : forall result, NoDup (map fst parsed) -> (forall i o, In (i, o) parsed -> exists v w, nth_error result i = Some v /\ quot p values parsed i v = Ret w) ->
  exists r, divide_at p parsed values result = Ret r /\ length r = length result /\ forall i v, nth_error result i = Some v -> exists w, quot p values parsed i v = Ret w /\ nth_error r i = Some w.
Proof.
  induction parsed as [|[i o] parsed IH]; intros result N H.
  - exists result. split; [reflexivity|]. split; [reflexivity|]. intros i v E. exists v. split; [reflexivity|exact E].
  - cbn [map fst] in N. apply NoDup_cons_iff in N as [N1 N2]. destruct (H i o (or_introl eq_refl)) as [v [w [E Q]]]. unfold quot in Q. cbn [nat_find] in Q. rewrite Nat.eqb_refl in Q.
    cbn [divide_at]. destruct (evaluate_pre p o values) as [[|f res]| | | |] eqn:Ev; try discriminate Q. cbn [obind] in *. rewrite E. assert (Li : (i < length result)%nat) by (apply nth_error_Some; congruence).
    assert (Hq : forall j x, j <> i -> quot p values ((i, o) :: parsed) j x = quot p values parsed j x). { intros j x J. unfold quot. cbn [nat_find]. destruct (Nat.eqb_spec i j); [congruence|reflexivity]. }
    assert (Hi : forall x, quot p values parsed i x = Ret x). { intros x. unfold quot. rewrite (nat_find_out parsed i N1). reflexivity. }
    destruct (IH (upd_l result i (ff_div_assign p v f)) N2) as [r [R1 [R2 R3]]].
    + intros j o' I. assert (J : j <> i) by (intros ->; apply N1; change i with (fst (i, o')); apply in_map; exact I). destruct (H j o' (or_intror I)) as [v' [w' [E' Q']]]. exists v', w'. rewrite Hq in Q' by exact J. split; [|exact Q']. rewrite upd_error by exact Li. destruct (Nat.eqb_spec i j); [congruence|exact E'].
    + exists r. split; [exact R1|]. split; [rewrite R2; apply upd_length|]. intros j x X. destruct (Nat.eq_dec j i) as [->|J].
      * rewrite E in X. injection X as <-. destruct (R3 i (ff_div_assign p v f)) as [y [Y1 Y2]]; [rewrite upd_error, Nat.eqb_refl by exact Li; reflexivity|]. rewrite Hi in Y1. injection Y1 as <-. exists (ff_div_assign p v f). split; [|exact Y2]. unfold quot. cbn [nat_find]. rewrite Nat.eqb_refl, Ev. reflexivity.
      * rewrite Hq by exact J. apply R3. rewrite upd_error by exact Li. destruct (Nat.eqb_spec i j); [congruence|exact X].
Qed.
Lemma nat_find_perm {A} (l l' : list (nat * A)) i : Permutation l l' -> NoDup (map fst l) -> nat_find i l = nat_find i l'.
Proof.
  intros P N. assert (N' : NoDup (map fst l')) by (apply (Permutation_NoDup (Permutation_map fst P) N)). destruct (in_dec Nat.eq_dec i (map fst l)) as [I|I].
  - apply in_map_iff in I as [[j a] [E I]]. cbn [fst] in E. subst j. rewrite (nat_find_in l i a N I), (nat_find_in l' i a N'); [reflexivity|apply (Permutation_in _ P); exact I].
  - rewrite (nat_find_out l i I), (nat_find_out l' i); [reflexivity|]. intros X. apply I. apply (Permutation_in _ (Permutation_sym (Permutation_map fst P))). exact X.
Qed.
Lemma divide_same p bb parsed parsed' values r : NoDup (map fst parsed) -> Permutation parsed' parsed -> (forall i, In i (map fst parsed) -> (i < length (bb values))%nat) -> compute_probe p bb parsed values = Ret r -> divide_at p parsed' values (bb values) = Ret r.
Proof.
  intros N P K C. unfold compute_probe in C. destruct (divide_factors_ok p parsed values (bb values) 0%nat r C) as [L H]. cbn [Nat.add] in H.
  assert (N' : NoDup (map fst parsed')) by (apply (Permutation_NoDup (Permutation_map fst (Permutation_sym P)) N)).
  assert (Q : forall i v, quot p values parsed' i v = quot p values parsed i v) by (intros i v; unfold quot; rewrite (nat_find_perm parsed' parsed i P N'); reflexivity).
  destruct (divide_at_ok p values parsed' (bb values) N') as [s [S1 [S2 S3]]].
  - intros i o I. assert (Li : (i < length (bb values))%nat) by (apply K; apply (Permutation_in _ (Permutation_map fst P)); change i with (fst (i, o)); apply in_map; exact I).
    destruct (nth_error (bb values) i) as [v|] eqn:E; [|apply nth_error_None in E; lia]. destruct (H i v E) as [w [W _]]. exists v, w. split; [reflexivity|]. rewrite Q. exact W.
  - rewrite S1. f_equal. apply (nth_ext s r 0 0); [lia|]. intros i Hi. rewrite S2 in Hi. destruct (nth_error (bb values) i) as [v|] eqn:E; [|apply nth_error_None in E; lia]. destruct (H i v E) as [w [W1 W2]]. destruct (S3 i v E) as [w' [W3 W4]]. rewrite Q in W3. rewrite (nth_error_nth _ _ _ W2), (nth_error_nth _ _ _ W4). congruence.
Qed.

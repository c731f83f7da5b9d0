(** Property theorems C54: the files of the order of the variables, of the factors and of the validation point. *)
From Coq Require Import Ascii String ZArith Znumtheory Permutation Lia.
From Verif Require Import Machine FFInt RatNum SYParse SYEval SYObj DecPrint StateFile StateSpec StateFileProofs Printers PrintSpec PrintProofs Primes Props_Primes Props_Parser Props_Printers Results ResultsSpec ResultsProofs ResultsText Props_Results FactorFiles FactorFilesSpec FactorFilesProofs.
From Coq Require Import List.
Import ListNotations.
Open Scope Z_scope.

(** ---- order of the variables ---- *)
(** After a restart the order of the variables is changed iff it was changed before, and then every position goes to the same variable (so that every later
    probe is taken at the same point, C52_probe_points, and the result is printed in the same variables). *)
Theorem C54_order_survives : forall n o, Z.of_nat n < 2 ^ 31 -> renumbering n o -> let change := change_var_order o in
  exists o' change', read_order n (write_order n change o) = Ret (o', change') /\ change' = change /\ (change = true -> renumbering n o' /\ forall i, (i < n)%nat -> image o' i = image o i).
Proof.
  intros n o Hn [R1 [R2 [R3 R4]]] change. unfold write_order, read_order. destruct change eqn:C; [|exists [], false; split; [reflexivity|split; [reflexivity|discriminate]]].
  assert (At : forall i, (i < n)%nat -> order_at o i = image o i /\ In (i, order_at o i) o).
  { intros i Hi. assert (I : In i (map fst o)) by (apply R2; exact Hi). pose proof (image_in o i R1 I) as J. unfold order_at. rewrite (nat_find_in o i _ R1 J). split; [reflexivity|exact J]. }
  assert (B : forall i, (i < n)%nat -> (order_at o i < n)%nat) by (intros i Hi; apply R4; destruct (At i Hi) as [_ J]; apply (in_map snd) in J; exact J).
  set (o' := map (fun i => (i, order_at o i)) (seq 0 n)).
  assert (F' : map fst o' = seq 0 n) by (unfold o'; rewrite map_map; apply map_id).
  assert (N' : NoDup (map fst o')) by (rewrite F'; apply seq_NoDup).
  assert (At' : forall i, (i < n)%nat -> order_at o' i = order_at o i /\ image o' i = order_at o i).
  { intros i Hi. assert (J : In (i, order_at o i) o') by (apply in_map_iff; exists i; split; [reflexivity|apply in_seq; lia]). split; [unfold order_at at 1; rewrite (nat_find_in o' i _ N' J); reflexivity|].
    pose proof (image_in o' i N') as K. rewrite F' in K. specialize (K ltac:(apply in_seq; lia)). pose proof (nat_find_in o' i _ N' K) as K1. rewrite (nat_find_in o' i _ N' J) in K1. congruence. }
  change (fun i => num_sp (Z.of_nat i) ++ num_sp (Z.of_nat (order_at o i))) with (order_line o). rewrite getlines_file by apply order_lines_no_nl.
  rewrite (read_order_ok o (seq 0 n) []) by (try apply seq_NoDup; apply Forall_forall; intros i I; apply in_seq in I; pose proof (B i ltac:(lia)); lia). cbn [obind app]. fold o'.
  exists o', true. split; [|split; [reflexivity|intros _; split]].
  - do 2 f_equal. apply existsb_exists. unfold change, change_var_order in C. apply existsb_exists in C as [[i j] [I X]]. cbn [fst snd] in X. assert (Hi : (i < n)%nat) by (apply R2; change i with (fst (i, j)); apply in_map; exact I).
    exists i. split; [apply in_seq; lia|]. rewrite (proj1 (At' i Hi)). unfold order_at. rewrite (nat_find_in o i j R1 I). exact X.
  - split; [exact N'|]. split; [intros i; rewrite F', in_seq; lia|]. split.
    + unfold o'. rewrite map_map. cbn [snd]. apply NoDup_nth with (d := 0%nat). rewrite map_length, seq_length. intros i j Hi Hj E.
      assert (G : forall k, (k < n)%nat -> nth k (map (order_at o) (seq 0 n)) 0%nat = order_at o k).
      { intros k Hk. apply nth_error_nth. rewrite nth_error_map. rewrite nth_error_nth' with (d := 0%nat) by (rewrite seq_length; exact Hk). rewrite seq_nth by exact Hk. reflexivity. }
      assert (E2 : order_at o i = order_at o j) by (rewrite <- (G i Hi), <- (G j Hj); exact E). clear E. rename E2 into E. destruct (At i Hi) as [_ I1]. destruct (At j Hj) as [_ I2]. rewrite <- E in I2. revert R3 I1 I2. generalize (order_at o i). clear. intros w R3 I1 I2. induction o as [|[x y] o IH]; [destruct I1|]. cbn [map snd] in R3. apply NoDup_cons_iff in R3 as [N R3].
      destruct I1 as [I1|I1], I2 as [I2|I2]; [congruence| | |apply IH; assumption]; exfalso; apply N.
      * apply (in_map snd) in I2. cbn [snd] in I2. injection I1 as _ ->. exact I2.
      * apply (in_map snd) in I1. cbn [snd] in I1. injection I2 as _ ->. exact I1.
    + intros j I. unfold o' in I. rewrite map_map in I. apply in_map_iff in I as [i [<- I]]. apply in_seq in I. apply B. lia.
  - intros i Hi. rewrite (proj2 (At' i Hi)). apply At. exact Hi.
Qed.
Print Assumptions C54_order_survives.
Example C54_order_example : renumbering 3 (optimal_var_order (fun i => nth i [2; 7; 9]%nat 0%nat) 3) /\ exists f, write_order 3 true (optimal_var_order (fun i => nth i [2; 7; 9]%nat 0%nat) 3) = Some f /\ f = str "0 2 " ++ [nl] ++ str "1 1 " ++ [nl] ++ str "2 0 " ++ [nl] /\ read_order 3 (Some f) = Ret ([(0, 2); (1, 1); (2, 0)]%nat, true).
Proof. split; [apply order_renumbers|]. eexists. split; [vm_compute; reflexivity|]. split; vm_compute; reflexivity. Qed.

(** ---- factors ---- *)
(** All files of factors together, listed by the directory in any order: after a restart the same functions have factors, and these are the same (up to the order
    of their terms); every function completed with the restored factors has the same values as with the original ones. *)
Theorem C54_factors_survive : forall ord n b found, (forall A (l : list A), Permutation (ord A l) l) -> Z.of_nat n < 2 ^ 31 -> b < 2 ^ 31 -> NoDup (map fst found) ->
  Forall (fun e => Z.of_nat (fst e) < 2 ^ 31 /\ snd e <> [] /\ Forall (found_ok n b) (snd e)) found ->
  let frf := map (fun e => (fst e, map factor_entry (snd e))) found in
  exists files, write_factors_rf frf = Ret files /\ forall dir, Permutation dir files -> exists frf', read_factors_rf ord dir [] = Ret frf' /\
  NoDup (map fst frf') /\ (forall k, In k (map fst frf') <-> In k (map fst found)) /\ (forall k l l', In (k, l) frf -> In (k, l') frf' -> Forall2 same_factor l l') /\
  forall p change order k f xs, ratfun_val p (with_factors change order frf' k f) xs = ratfun_val p (with_factors change order frf k f) xs.
Proof.
  intros ord n b found Ho Hn Hb Nf Hf frf.
  assert (Fit : Forall fe_fit found). { eapply Forall_impl; [|exact Hf]. intros e [A [B C]]. split; [exact A|]. split; [exact B|]. eapply Forall_impl; [|exact C]. intros f. apply (found_fit n b f Hn Hb). }
  exists (map e_file found). split; [exact (files_ok found Fit)|]. intros dir P. apply Permutation_map_inv in P as [found' [-> P]].
  assert (Fit' : Forall fe_fit found') by (apply (Permutation_Forall P Fit)). assert (N' : NoDup (map fst found')) by (apply (Permutation_NoDup (Permutation_map fst P) Nf)).
  exists (map (restored_entry ord) found'). split; [exact (read_ok ord found' [] Fit' N')|].
  assert (K : map fst (map (restored_entry ord) found') = map fst found') by (rewrite map_map; reflexivity). assert (K0 : map fst frf = map fst found) by (unfold frf; rewrite map_map; reflexivity).
  assert (Same : forall k l l', In (k, l) frf -> In (k, l') (map (restored_entry ord) found') -> Forall2 same_factor l l').
  { intros k l l' I I'. apply in_map_iff in I as [e [E I]]. apply in_map_iff in I' as [e' [E' I']]. injection E as E1 <-. injection E' as E2 <-. apply (Permutation_in _ (Permutation_sym P)) in I'.
    assert (e = e'). { destruct e as [a x], e' as [a' x']. cbn [fst] in *. subst a a'. f_equal. pose proof (nat_find_in found k x Nf I) as Q1. pose proof (nat_find_in found k x' Nf I') as Q2. congruence. } subst e'.
    rewrite Forall_forall in Fit. destruct (Fit e I) as [_ [_ Fe]]. clear - Fe Ho. induction Fe as [|f fs A F IH]; cbn [map]; constructor; [apply restored_same; assumption|exact IH]. }
  split; [rewrite K; exact N'|]. split; [intros k; rewrite K; split; apply Permutation_in; apply Permutation_map; [apply Permutation_sym|]; exact P|]. split; [exact Same|].
  intros p change order k f xs. symmetry. apply same_value; try reflexivity. cbn [with_factors factors].
  assert (Rf : forall g, same_factor g g) by (intros g; split; (split; [apply Permutation_refl|split; reflexivity])).
  apply Forall2_app; [induction (factors f); constructor; [apply Rf|assumption]|]. destruct (in_dec Nat.eq_dec k (map fst found)) as [I|I].
  - assert (I' : In k (map fst (map (restored_entry ord) found'))) by (rewrite K; apply (Permutation_in _ (Permutation_map fst P)); exact I). rewrite <- K0 in I. apply in_map_iff in I as [[j l] [E I]]. cbn [fst] in E. subst j. apply in_map_iff in I' as [[j l'] [E I']]. cbn [fst] in E. subst j.
    rewrite (nat_find_in frf k l) by (try exact I; rewrite K0; exact Nf). rewrite (nat_find_in _ k l') by (try exact I'; rewrite K; exact N'). apply (Same k); assumption.
  - rewrite (nat_find_out frf k) by (rewrite K0; exact I). rewrite (nat_find_out _ k) by (rewrite K; intros X; apply I; apply (Permutation_in _ (Permutation_sym (Permutation_map fst P))); exact X). constructor.
Qed.
Print Assumptions C54_factors_survive.
(** The parsers that divide the probes are restored exactly, in some order. *)
Theorem C54_factor_parsers_survive : forall ord p b n found, (forall A (l : list A), Permutation (ord A l) l) -> prime_ok b p -> Z.of_nat n < 2 ^ 15 ->
  Forall (fun e => Z.of_nat (fst e) < 2 ^ 31 /\ snd e <> [] /\ Forall (found_ok n b) (snd e)) found ->
  exists parsed files, Forall2 (fun e q => fst q = fst e /\ parsed_factor ord p n (snd e) = Ret (snd q)) found parsed /\ write_factors ord found = Ret files /\
  forall dir, Permutation dir files -> exists parsed', read_factors p n dir = Ret parsed' /\ Permutation parsed' parsed.
Proof.
  intros ord p b n found Ho Hp Hn Hf.
  assert (Each : Forall (fun e => exists q f, parsed_factor ord p n (snd e) = Ret q /\ factor_file ord e = Ret f) found).
  { eapply Forall_impl; [|exact Hf]. intros e [_ [B C]]. destruct (parsed_factor_ok ord p [] b n (snd e) Ho ltac:(constructor; [exact Hp|constructor]) Hn B C) as [q [_ [Q _]]]. exists q. unfold parsed_factor in Q. unfold factor_file.
    destruct (side_texts (map (fun f => (ff_var f, ff_num f)) (snd e))) as [nums| | | |] eqn:N; try discriminate Q. destruct (side_texts (map (fun f => (ff_var f, ff_den f)) (snd e))) as [dens| | | |] eqn:D; try discriminate Q.
    eexists. split; [unfold parsed_factor; rewrite N, D; exact Q|reflexivity]. }
  assert (All : exists parsed files, Forall2 (fun e q => fst q = fst e /\ parsed_factor ord p n (snd e) = Ret (snd q)) found parsed /\ Forall2 (fun e f => factor_file ord e = Ret f) found files).
  { clear - Each. induction Each as [|e found [q [f [Q F]]] _ [ps [fs [P1 P2]]]]; [exists [], []; split; constructor|]. exists ((fst e, q) :: ps), (f :: fs). split; constructor; try assumption. split; [reflexivity|exact Q]. }
  destruct All as [parsed [files [P1 P2]]]. exists parsed, files. split; [exact P1|]. split.
  - unfold write_factors. clear - P2. induction P2 as [|e f l m E _ IH]; [reflexivity|]. cbn [map oseq]. rewrite E, IH. reflexivity.
  - intros dir P. assert (Q : exists pairs, map fst pairs = files /\ map snd pairs = parsed /\ Forall2 (fun e x => factor_file ord e = Ret (fst x) /\ fst (snd x) = fst e /\ parsed_factor ord p n (snd e) = Ret (snd (snd x))) found pairs).
    { clear - P1 P2. revert files P2. induction P1 as [|e q l m [E1 E2] _ IH]; intros files P2; inversion P2 as [|? f ? fs F1 F2]; subst; [exists []; repeat split; constructor|]. destruct (IH fs F2) as [ps [A [B C]]]. exists ((f, q) :: ps). cbn [map fst snd]. rewrite A, B. split; [reflexivity|]. split; [reflexivity|]. constructor; [cbn [fst snd]; tauto|exact C]. }
    destruct Q as [pairs [<- [<- Q]]]. apply Permutation_map_inv in P as [pairs' [-> P]]. exists (map snd pairs'). split; [|apply Permutation_map, Permutation_sym; exact P].
    assert (Sw : Forall2 (fun x e => factor_file ord e = Ret (fst x) /\ fst (snd x) = fst e /\ parsed_factor ord p n (snd e) = Ret (snd (snd x))) pairs found) by (clear - Q; induction Q; constructor; assumption).
    destruct (forall2_perm _ _ _ P _ Sw) as [found' [Pf F]].
    apply (read_text ord p n found' Ho).
    + apply (Permutation_Forall Pf). eapply Forall_impl; [|exact Hf]. intros e H. apply H.
    + clear - F. induction F as [|x e l m H _ IH]; cbn [map]; constructor; [split; apply H|exact IH].
    + clear - F. induction F as [|x e l m H _ IH]; cbn [map]; constructor; [apply H|exact IH].
Qed.
Print Assumptions C54_factor_parsers_survive.
Definition ex_found : list (nat * list found_factor) := [(0%nat, ex_fs); (12%nat, ex_f1)].
Example C54_factors_hypotheses_met : NoDup (map fst ex_found) /\ Forall (fun e => Z.of_nat (fst e) < 2 ^ 31 /\ snd e <> [] /\ Forall (found_ok 3 100) (snd e)) ex_found.
Proof.
  split; [constructor; [intros [H|[]]; discriminate H|constructor; [intros []|constructor]]|]. constructor; [split; [reflexivity|split; [discriminate|apply C52_factor_hypotheses_met]]|]. constructor; [|constructor]. split; [reflexivity|]. split; [discriminate|].
  constructor; [|constructor]. split; [cbn; lia|]. split; [right|split; [left; reflexivity|left; discriminate]]. split; [apply keys_check; vm_compute; reflexivity|]. split; [constructor; [split; [cbn; lia|reflexivity]|constructor]|]. exists 1, (mk_rn 1 1). split; [left; reflexivity|lia].
Qed.
Example C54_factors_example : exists f1 f2, write_factors_rf (map (fun e => (fst e, map factor_entry (snd e))) ex_found) = Ret [f1; f2] /\ fst f2 = str "12.gz" /\
  getlines (snd f2) [] = [str "var"; str "1"; str "numerator"; str "1 1 1"; str "denominator"] /\ exists m, read_factors_rf ex_ord [f2; f1] [] = Ret m /\ map fst m = [12; 0]%nat /\ map (fun e => length (snd e)) m = [1; 3]%nat.
Proof. eexists _, _. split; [vm_compute; reflexivity|]. split; [vm_compute; reflexivity|]. split; [vm_compute; reflexivity|]. eexists. split; [vm_compute; reflexivity|]. split; vm_compute; reflexivity. Qed.
Example C54_parsers_example : exists f, write_factors ex_ord [(7%nat, ex_fs)] = Ret [f] /\ f = (str "7.gz", str "((x3)*(x2^2+(-1/2)))/((x1+5)*(3*x2));" ++ [nl]) /\ exists o, read_factors P0 3 [f] = Ret [(7%nat, o)] /\ parsed_factor ex_ord P0 3 ex_fs = Ret o.
Proof. eexists. split; [vm_compute; reflexivity|]. split; [vm_compute; reflexivity|]. eexists. split; vm_compute; reflexivity. Qed.

(** ---- validation ---- *)
(** The saved states are accepted by a black box iff its values at the saved point, divided by the factors, are the saved ones; otherwise the program ends, except
    that more saved entries than functions are read beyond the end if those that are there agree. *)
Theorem C54_validation : forall p bb parsed parsed' values probe r, 0 < p < 2 ^ 63 -> Forall (fun v => 0 <= v < p) values -> Forall (fun v => 0 <= v < 2 ^ 64) probe ->
  NoDup (map fst parsed) -> Permutation parsed' parsed -> (forall i, In i (map fst parsed) -> (i < length (bb values))%nat) -> compute_probe p bb parsed values = Ret r ->
  let answer := validate p bb parsed' (write_validation values probe) in
  (answer = Ret tt <-> r = probe) /\ ((length probe <= length r)%nat -> r <> probe -> answer = Exit) /\ (answer = UB <-> exists more, more <> [] /\ probe = r ++ more).
Proof.
  intros p bb parsed parsed' values probe r Hp V F N P K C answer.
  assert (A : answer = if list_eq_dec Z.eq_dec (firstn (length probe) r) (firstn (length r) probe) then (if (length probe <? length r)%nat then Exit else if (length probe =? length r)%nat then Ret tt else UB) else Exit).
  { apply validate_ok; [unfold two64; lia|exact V|exact F|]. apply (divide_same p bb parsed parsed' values r N P K C). }
  clear - A. rewrite A. clear A answer. destruct (list_eq_dec Z.eq_dec _ _) as [E|E].
  - destruct (Nat.ltb_spec (length probe) (length r)) as [L|L]; [|destruct (Nat.eqb_spec (length probe) (length r)) as [L2|L2]].
    + split; [split; [discriminate|intros ->; lia]|]. split; [reflexivity|]. split; [discriminate|]. intros [more [M ->]]. rewrite app_length in L. lia.
    + rewrite L2, firstn_all in E. rewrite <- L2, firstn_all in E. split; [tauto|]. split; [congruence|]. split; [discriminate|]. intros [more [M ->]]. apply (f_equal (@List.length Z)) in E. rewrite app_length in E. destruct more; [congruence|cbn in E; lia].
    + rewrite firstn_all2 in E by lia. split; [split; [discriminate|intros ->; lia]|]. split; [lia|]. split; [|reflexivity]. intros _. exists (skipn (length r) probe). split; [intros X; apply (f_equal (@List.length Z)) in X; rewrite skipn_length in X; cbn in X; lia|]. rewrite E at 1. symmetry. apply firstn_skipn.
  - split; [split; [discriminate|intros ->; congruence]|]. split; [reflexivity|]. split; [discriminate|]. intros [more [M ->]]. exfalso. apply E. rewrite firstn_all2 by (rewrite app_length; lia). rewrite firstn_app, firstn_all, Nat.sub_diag, firstn_O, app_nil_r. reflexivity.
Qed.
Print Assumptions C54_validation.
Example C54_validation_example : exists o, parsed_factor ex_ord P0 2 ex_f1 = Ret o /\ compute_probe P0 ex_bb [(0%nat, o)] [5; 7] = Ret [8] /\
  validate P0 ex_bb [(0%nat, o)] (write_validation [5; 7] [8]) = Ret tt /\ validate P0 ex_bb [(0%nat, o)] (write_validation [5; 7] [9]) = Exit /\ validate P0 ex_bb [(0%nat, o)] (write_validation [5; 7] []) = Exit /\ validate P0 ex_bb [(0%nat, o)] (write_validation [5; 7] [8; 1]) = UB.
Proof. eexists. split; [vm_compute; reflexivity|]. repeat split; vm_compute; reflexivity. Qed.

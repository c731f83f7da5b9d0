(** Property theorems C52: order of the variables, factors, points of the probes and results fit together. *)
From Coq Require Import Ascii String ZArith Znumtheory Zpow_facts Permutation Sorted Lia.
From Verif Require Import Machine NumTheory FFInt FFIntProofs RatNum SYGrammar SYObj SYEvalProofs DecPrint Printers PrintSpec PrintProofs PrintReads Primes Props_Primes Props_Parser Props_Printers Results ResultsSpec ResultsProofs ResultsText.
From Coq Require Import List.
Import ListNotations.
Open Scope Z_scope.

(** ---- the order of the variables ---- *)
(** Every variable gets one position; a variable of higher degree stands before one of lower degree, variables of equal degree keep their order; the order
    counts as changed iff a variable moves. *)
Theorem C52_variable_order : forall deg n, let o := optimal_var_order deg n in
  renumbering n o /\ (forall i j, (i < j < n)%nat -> (deg (image o j) < deg (image o i))%nat \/ (deg (image o i) = deg (image o j) /\ image o i < image o j)%nat) /\
  (change_var_order o = false <-> forall i, (i < n)%nat -> image o i = i).
Proof.
  intros deg n o. pose proof (order_renumbers deg n) as R. fold o in R. split; [exact R|]. destruct (sort_ok deg n) as [P S]. set (l := sort_indices deg n) in *.
  assert (L : length l = n) by (rewrite (Permutation_length P); apply seq_length).
  assert (Im : forall i, (i < n)%nat -> image o i = nth i l 0%nat).
  { intros i Hi. destruct R as [R1 [R2 _]]. pose proof (image_in o i R1 (proj2 (R2 i) Hi)) as I. unfold o, optimal_var_order in I. fold l in I.
    apply (In_nth _ _ (0%nat, 0%nat)) in I as [k [Hk E]]. rewrite combine_nth in E by (rewrite seq_length; lia). rewrite combine_length, seq_length in Hk. rewrite seq_nth in E by lia. injection E as E1 E2. unfold o, optimal_var_order. fold l. rewrite <- E2. f_equal. lia. }
  split.
  - intros i j [Hij Hj]. rewrite !Im by lia. clear - S L Hij Hj. assert (G : before deg (nth i l 0%nat) (nth j l 0%nat)).
    { rewrite <- L in Hj. clear L. revert i j Hij Hj. induction S as [|a l Sl IH Fl]; intros i j Hij Hj; [cbn in Hj; lia|]. destruct j as [|j]; [lia|]. cbn [length] in Hj. destruct i as [|i].
      - cbn [nth]. rewrite Forall_forall in Fl. apply Fl. apply nth_In. lia.
      - cbn [nth]. apply IH; lia. }
    destruct G as [G|[G1 G2]]; [left; exact G|right; split; assumption].
  - unfold change_var_order. split.
    + intros H i Hi. destruct R as [R1 [R2 _]]. pose proof (image_in o i R1 (proj2 (R2 i) Hi)) as I. destruct (Nat.eqb_spec (image o i) i) as [E|E]; [exact E|]. exfalso.
      assert (X : existsb (fun e => negb (snd e =? fst e)%nat) o = true) by (apply existsb_exists; exists (i, image o i); split; [exact I|]; cbn; apply negb_true_iff, Nat.eqb_neq; exact E). congruence.
    + intros H. destruct (existsb _ o) eqn:X; [|reflexivity]. exfalso. apply existsb_exists in X as [[a c] [I X]]. cbn in X. apply negb_true_iff, Nat.eqb_neq in X. apply X. destruct R as [R1 [R2 _]].
      assert (Ha : (a < n)%nat) by (apply R2; change a with (fst (a, c)); apply in_map; exact I). rewrite <- (H a Ha) at 1. pose proof (image_in o a R1 (proj2 (R2 a) Ha)) as I2.
      clear - R1 I I2. induction o as [|[x z] o IH]; [destruct I|]. cbn [map fst] in R1. apply NoDup_cons_iff in R1 as [N R1]. destruct I as [I|I], I2 as [I2|I2].
      * congruence.
      * injection I as -> ->. exfalso. apply N. change a with (fst (a, image ((a, c) :: o) a)). apply in_map. exact I2.
      * injection I2 as -> E. exfalso. apply N. change a with (fst (a, c)). apply in_map. exact I.
      * specialize (IH R1 I). assert (Q : image ((x, z) :: o) a = image o a). { unfold image. cbn [find fst]. destruct (Nat.eqb_spec x a) as [->|]; [|reflexivity]. exfalso. apply N. change a with (fst (a, c)). apply in_map. exact I. }
        rewrite Q in *. apply IH. exact I2.
Qed.
Print Assumptions C52_variable_order.
Example C52_order_example : optimal_var_order (fun i => nth i [2; 7; 2; 9]%nat 0%nat) 4 = [(0, 3); (1, 1); (2, 0); (3, 2)]%nat /\ change_var_order (optimal_var_order (fun i => nth i [9; 7; 7; 1]%nat 0%nat) 4) = false.
Proof. split; vm_compute; reflexivity. Qed.

(** ---- the points of the probes ---- *)
(** The point of a probe has canonical coordinates, and read in the changed order of the variables it is the point of the ray. *)
Theorem C52_probe_points : forall p n (change : bool) order t y s, 0 < p < 2 ^ 63 -> 0 <= t < p -> Forall (fun v => 0 <= v < p) y -> Forall (fun v => 0 <= v < p) s ->
  length s = n -> S (length y) = n -> (change = true -> renumbering n order) ->
  exists values, probe_point p n change order y s t = Ret values /\ canonical_point p n values /\ reorder 0 (if change then order else []) values = ray p n t y s.
Proof. intros p n change order t y s Hp. apply point_ok. exact Hp. Qed.
Print Assumptions C52_probe_points.
Example C52_probe_point_example : probe_point 101 4 true (optimal_var_order (fun i => nth i [2; 7; 2; 9]%nat 0%nat) 4) [10; 20; 30] [1; 2; 3; 0] 5 = Ret [2; 52; 49; 6] /\ ray 101 4 5 [10; 20; 30] [1; 2; 3; 0] = [6; 52; 2; 49].
Proof. split; vm_compute; reflexivity. Qed.

(** For every sequence of calls of queue_probes (powers of the anchor points, number of probes) and as long as the random numbers suffice: the probes get the
    indices 0, 1, 2, ...; no two probes of the same powers have the same t; the requested points are the points of the rays. *)
Theorem C52_points_distinct : forall p n (change : bool) order shift rz rnd fuel calls, let total := fold_right (fun c acc => (snd c + acc)%nat) 0%nat calls in
  0 < p < 2 ^ 63 -> (change = true -> renumbering n order) -> length shift = n -> Forall (fun v => 0 <= v < p) shift ->
  (forall zi, S (length (rz zi)) = n /\ Forall (fun v => 0 <= v < p) (rz zi)) -> (forall i, 0 <= rnd i < p) ->
  (forall used k, (length used < total)%nat -> exists j, (j < fuel)%nat /\ ~ In (rnd (k + j)%nat) used) ->
  exists q, queue_all p n change order shift rz rnd fuel calls empty_queue = Ret q /\
  map fst (q_index q) = seq 0 total /\ map (fun e => snd (snd e)) (q_index q) = flat_map (fun c => repeat (snd (fst c)) (snd c)) calls /\ NoDup (map snd (q_index q)) /\
  Permutation (map fst (q_requested q)) (seq 0 total) /\
  forall i values, In (i, values) (q_requested q) -> exists t zi, In (i, (t, zi)) (q_index q) /\ canonical_point p n values /\ reorder 0 (if change then order else []) values = ray p n t (rz zi) shift.
Proof.
  intros p n change order shift rz rnd fuel calls total Hp Ho Ls Fs Hrz Hr Hrnd.
  assert (Hpt : forall zi i, exists values, probe_point p n change order (rz zi) shift (rnd i) = Ret values).
  { intros zi i. destruct (Hrz zi) as [L F]. destruct (point_ok p n change order (rnd i) (rz zi) shift Hp (Hr i) F Fs Ls L Ho) as [v [V _]]. exists v. exact V. }
  destruct (queue_all_ok p n change order shift rz rnd fuel total Hpt Hrnd calls empty_queue 0%nat) as [q [E [[Q1 [Q2 [Q3 [Q4 [Q5 Q6]]]]] R]]]; [unfold total; apply le_n|apply empty_inv|].
  exists q. split; [exact E|]. change (0 + total_calls calls)%nat with total in *. split; [exact Q2|]. split; [exact R|]. split; [exact Q3|]. split.
  - rewrite <- Q2. apply (Permutation_map fst) in Q5. rewrite !map_map in Q5. cbn [fst] in Q5. exact Q5.
  - intros i values I. assert (I2 : In (i, Ret values) (map (as_requested p n change order shift rz) (q_index q))) by (eapply Permutation_in; [exact Q5|]; apply (in_map (fun r : nat * list Z => (fst r, Ret (snd r)))) in I; exact I).
    apply in_map_iff in I2 as [[i' [t zi]] [E2 I2]]. unfold as_requested in E2. cbn [fst snd] in E2. injection E2 as -> E2. exists t, zi. split; [exact I2|]. destruct (Q6 _ I2) as [k Hk]. cbn [fst snd] in Hk. subst t. destruct (Hrz zi) as [L F].
    destruct (point_ok p n change order (rnd k) (rz zi) shift Hp (Hr k) F Fs Ls L Ho) as [v [V1 V2]]. rewrite V1 in E2. injection E2 as <-. exact V2.
Qed.
Print Assumptions C52_points_distinct.
Definition ex_rnd (i : nat) : Z := nth i [5; 5; 7; 7; 5; 9; 5; 7; 9; 11; 13; 15] (Z.of_nat i).
Example C52_queue_example : exists q, queue_all 101 2 true [(0, 1); (1, 0)]%nat [3; 4] (fun zi => map (fun k => 2 ^ Z.of_nat k mod 101) zi) ex_rnd 10 [(false, [1]%nat, 2%nat); (true, [2]%nat, 2%nat); (false, [1]%nat, 1%nat)] empty_queue = Ret q /\
  q_index q = [(0%nat, (5, [1%nat])); (1%nat, (7, [1%nat])); (2%nat, (7, [2%nat])); (3%nat, (5, [2%nat])); (4%nat, (9, [1%nat]))] /\ map fst (q_requested q) = [3; 2; 0; 1; 4]%nat /\ nth 2 (q_requested q) (0%nat, []) = (0%nat, [14; 8]).
Proof. eexists. split; [vm_compute; reflexivity|]. split; [vm_compute; reflexivity|]. split; vm_compute; reflexivity. Qed.

(** ---- the factors ---- *)
(** The text built from the factors that were found is accepted by the parser, and the parser returns, also after any changes of the prime, the product of the
    numerators divided by the product of the denominators - the factors with which the result is completed. *)
Theorem C52_factor_text : forall ord p ps b n fs, (forall A (l : list A), Permutation (ord A l) l) -> Forall (prime_ok b) (p :: ps) -> Z.of_nat n < 2 ^ 15 -> fs <> [] -> Forall (found_ok n b) fs ->
  exists o0 o, parsed_factor ord p n fs = Ret o0 /\ change_primes ps o0 = Ret o /\
  forall xs, canonical_point (last ps p) n xs ->
  evaluate_pre (last ps p) o xs = Ret [(numerators (last ps p) (map factor_entry fs) xs * inv_p (last ps p) (denominators (last ps p) (map factor_entry fs) xs mod last ps p)) mod last ps p].
Proof. intros ord p ps b n fs Ho. apply (parsed_factor_ok ord p ps b n fs Ho). Qed.
Print Assumptions C52_factor_text.
Definition ex_fs : list found_factor := [mk_found 1 [([2], mk_rn 1 1); ([0], mk_rn (-1) 2)] [([1], mk_rn 3 1)]; mk_found 0 [] [([1], mk_rn 1 1); ([0], mk_rn 5 1)]; mk_found 2 [([1], mk_rn 1 1)] []].
Example C52_factor_hypotheses_met : Forall (prime_ok 100) [P0; P1] /\ ex_fs <> [] /\ Forall (found_ok 3 100) ex_fs /\
  (exists nums dens, side_texts (map (fun f => (ff_var f, ff_num f)) ex_fs) = Ret nums /\ side_texts (map (fun f => (ff_var f, ff_den f)) ex_fs) = Ret dens /\ factor_text nums dens = lit "((x2^2+(-1/2))*(x3))/((3*x2)*(x1+5))").
Proof.
  split; [constructor; [exact P0_ok|constructor; [exact P1_ok|constructor]]|]. split; [discriminate|]. split; [|eexists _, _; repeat split; vm_compute; reflexivity].
  assert (U : forall m z c, all_le 1 100 m = true -> distinct (map fst m) = true -> forallb (fun e => (0 <? den (snd e)) && (Z.gcd (num (snd e)) (den (snd e)) =? 1)) m = true -> In ([z], c) m -> z <> 0 -> univariate 100 m).
  { intros m z c A B C I N. split; [apply keys_check; assumption|]. split; [|exists z, c; split; assumption]. apply Forall_forall. intros e J. rewrite forallb_forall in C. specialize (C e J). apply andb_true_iff in C as [C1 C2]. split; lia. }
  apply Forall_cons; [|apply Forall_cons; [|apply Forall_cons; [|apply Forall_nil]]].
  - split; [cbn; lia|]. split; [right; apply (U _ 2 (mk_rn 1 1)); [vm_compute; reflexivity..|left; reflexivity|lia]|]. split; [right; apply (U _ 1 (mk_rn 3 1)); [vm_compute; reflexivity..|left; reflexivity|lia]|left; discriminate].
  - split; [cbn; lia|]. split; [left; reflexivity|]. split; [right; apply (U _ 1 (mk_rn 1 1)); [vm_compute; reflexivity..|left; reflexivity|lia]|right; discriminate].
  - split; [cbn; lia|]. split; [right; apply (U _ 1 (mk_rn 1 1)); [vm_compute; reflexivity..|left; reflexivity|lia]|]. split; [left; reflexivity|left; discriminate].
Qed.

(** ---- reporting ---- *)
Definition no_ratfun : ratfun := mk_ratfun (mk_poly [] 0 0) (mk_poly [] 0 0) [] [].
Lemma nat_find_in {A} (l : list (nat * A)) i a : NoDup (map fst l) -> In (i, a) l -> nat_find i l = Some a.
Proof.
  induction l as [|[j c] l IH]; intros N I; [destruct I|]. cbn [map fst] in N. apply NoDup_cons_iff in N as [N1 N2]. cbn [nat_find]. destruct I as [I|I]; [injection I as -> ->; rewrite Nat.eqb_refl; reflexivity|].
  destruct (Nat.eqb_spec j i) as [->|]; [exfalso; apply N1; change i with (fst (i, a)); apply in_map; exact I|]. apply IH; assumption.
Qed.
Lemma nat_find_out {A} (l : list (nat * A)) i : ~ In i (map fst l) -> nat_find i l = None.
Proof. induction l as [|[j c] l IH]; intros N; [reflexivity|]. cbn [map fst In nat_find] in *. destruct (Nat.eqb_spec j i) as [->|]; [tauto|]. apply IH. tauto. Qed.
Lemma with_completed change order frf i f : NoDup (map fst frf) -> completed change order frf i f (with_factors change order frf i f).
Proof.
  intros N. split; [reflexivity|]. split; [reflexivity|]. split; [reflexivity|]. cbn [with_factors factors]. split; [intros l I; rewrite (nat_find_in _ _ _ N I); reflexivity|intros H; rewrite (nat_find_out _ _ H); apply app_nil_r].
Qed.
(** For every history of functions that become ready, calls of get_early_results and clean-ups: each function is reported at most once, only after it is ready,
    under its own number and with its own factors; a function that is ready has been reported or is still kept, with its result. *)
Theorem C52_early_results_once : forall change order frf results evs, NoDup (map fst frf) ->
  let out := run_events change order frf evs (start_entries results) in
  exists rep : list (list nat),
    Forall2 (Forall2 (fun i r => fst r = print (Z.of_nat i) /\ completed change order frf i (nth i results no_ratfun) (snd r))) rep (fst out) /\
    NoDup (concat rep) /\ (forall i, In i (concat rep) -> (i < length results)%nat /\ In (Finish i) evs) /\
    (forall i, (i < length results)%nat -> In (Finish i) evs -> In i (concat rep) \/ exists e, In e (snd out) /\ en_index e = i /\ en_status e = Done /\ en_result e = nth i results no_ratfun).
Proof.
  intros change order frf results evs Nf out. destruct (start_inv results) as [I0 [I1 I2]]. destruct (events_ok change order frf results evs _ I0) as [rep [R1 [R2 [R3 [R4 [R5 R6]]]]]]. fold out in R1, R2, R3, R4.
  assert (O0 : open_done (start_entries results) = []).
  { unfold open_done. clear - I2. induction (start_entries results) as [|e l IH]; [reflexivity|]. apply Forall_cons_iff in I2 as [E F]. cbn [filter]. unfold is_done at 1. rewrite E. apply IH. exact F. }
  assert (Ru0 : running (start_entries results) = seq 0 (length results)).
  { rewrite <- I1. unfold running. clear - I2. induction (start_entries results) as [|e l IH]; [reflexivity|]. apply Forall_cons_iff in I2 as [E F]. cbn [filter]. unfold is_reconstructing at 1. rewrite E. cbn [map]. f_equal. apply IH. exact F. }
  rewrite O0, Ru0 in R3. cbn [app] in R3. rewrite Ru0 in R4.
  assert (ND : NoDup (concat rep ++ open_done (snd out) ++ running (snd out))) by (apply (Permutation_NoDup (Permutation_sym R3)), seq_NoDup).
  exists rep. split; [|split; [|split]].
  - rewrite R1. clear - Nf. induction rep as [|l rep IH]; constructor; [|exact IH]. induction l as [|i l IHl]; constructor; [|exact IHl]. cbn [fst snd]. split; [reflexivity|apply with_completed; exact Nf].
  - clear - ND. revert ND. generalize (open_done (snd out) ++ running (snd out)). intros m. induction (concat rep) as [|i l IH]; intros N; [constructor|]. cbn [app] in N. apply NoDup_cons_iff in N as [N1 N2]. constructor; [|apply IH; exact N2]. intros I. apply N1, in_or_app. left. exact I.
  - intros i I. assert (B : (i < length results)%nat) by (assert (X : In i (seq 0 (length results))) by (apply (Permutation_in _ R3), in_or_app; left; exact I); apply in_seq in X; lia).
    split; [exact B|]. assert (D : {In (Finish i) evs} + {~ In (Finish i) evs}) by (apply in_dec; intros [a| |] [c| |]; try (right; discriminate); try (left; reflexivity); destruct (Nat.eq_dec a c); [left; congruence|right; congruence]).
    destruct D as [D|D]; [exact D|]. exfalso. assert (X : In i (running (snd out))) by (apply R4; split; [apply in_seq; lia|exact D]).
    clear - ND I X. induction (concat rep) as [|j l IH]; [destruct I|]. cbn [app] in ND. apply NoDup_cons_iff in ND as [N1 N2]. destruct I as [->|I]; [apply N1, in_or_app; right; apply in_or_app; right; exact X|apply IH; assumption].
  - intros i B F. assert (X : In i (concat rep ++ open_done (snd out) ++ running (snd out))) by (apply (Permutation_in _ (Permutation_sym R3)), in_seq; lia).
    apply in_app_or in X as [X|X]; [left; exact X|]. apply in_app_or in X as [X|X]; [right|exfalso; apply R4 in X as [_ X]; apply X; exact F].
    unfold open_done in X. apply in_map_iff in X as [e [E X]]. apply filter_In in X as [X1 X2]. exists e. split; [exact X1|]. split; [exact E|]. split; [unfold is_done in X2; destruct (en_status e); try discriminate X2; reflexivity|].
    destruct R2 as [_ R2]. rewrite Forall_forall in R2. destruct (R2 e X1) as [_ Y]. rewrite Y, E. reflexivity.
Qed.
Print Assumptions C52_early_results_once.
(** get_result returns all functions in their order, each with its own factors, if all are ready and get_early_results has not been called. *)
Theorem C52_result_complete : forall change order frf results evs, NoDup (map fst frf) -> ~ In Early evs -> (forall i, (i < length results)%nat -> In (Finish i) evs) ->
  Forall2 (fun i g => completed change order frf i (nth i results no_ratfun) g) (seq 0 (length results)) (get_result change order frf 0 (snd (run_events change order frf evs (start_entries results)))).
Proof.
  intros change order frf results evs Nf Ne Hf. destruct (start_inv results) as [I0 [I1 I2]]. destruct (events_ok change order frf results evs _ I0) as [rep [R1 [R2 [R3 [R4 [R5 R6]]]]]]. set (out := run_events change order frf evs (start_entries results)) in *.
  rewrite (R5 Ne) in R3. cbn [concat app] in R3.
  assert (O0 : open_done (start_entries results) = []).
  { unfold open_done. clear - I2. induction (start_entries results) as [|e l IH]; [reflexivity|]. apply Forall_cons_iff in I2 as [E F]. cbn [filter]. unfold is_done at 1. rewrite E. apply IH. exact F. }
  assert (Ru0 : running (start_entries results) = seq 0 (length results)).
  { rewrite <- I1. unfold running. clear - I2. induction (start_entries results) as [|e l IH]; [reflexivity|]. apply Forall_cons_iff in I2 as [E F]. cbn [filter]. unfold is_reconstructing at 1. rewrite E. cbn [map]. f_equal. apply IH. exact F. }
  rewrite O0, Ru0 in R3. rewrite Ru0 in R4. cbn [app] in R3.
  assert (Rn : running (snd out) = []). { destruct (running (snd out)) as [|i l] eqn:Q; [reflexivity|]. exfalso. destruct (proj1 (R4 i) (or_introl eq_refl)) as [A B]. apply in_seq in A. apply B. apply Hf. lia. }
  rewrite Rn, app_nil_r in R3.
  assert (Od : open_done (snd out) = seq 0 (length results)).
  { assert (Ss : StronglySorted lt (open_done (snd out))).
    { destruct R2 as [Sl _]. unfold open_done. clear - Sl. induction (snd out) as [|e l IH]; [constructor|]. cbn [map] in Sl. inversion Sl as [|x r Sr Fr]; subst. cbn [filter]. destruct (is_done e); [|apply IH; exact Sr]. cbn [map]. constructor; [apply IH; exact Sr|].
      apply Forall_forall. intros x X. apply in_map_iff in X as [y [<- X]]. apply filter_In in X as [X _]. rewrite Forall_forall in Fr. apply Fr, in_map. exact X. }
    assert (S2 : StronglySorted lt (seq 0 (length results))). { clear. generalize 0%nat. induction (length results) as [|k IHk]; intros a; constructor; [apply IHk|]. apply Forall_forall. intros x X. apply in_seq in X. lia. }
    clear - R3 Ss S2. revert R3 Ss S2. generalize (open_done (snd out)) (seq 0 (length results)). clear. induction l as [|a l IH]; intros m P Sa Sb; [apply Permutation_nil in P; symmetry; exact P|].
    destruct m as [|c m]; [apply Permutation_sym, Permutation_nil in P; discriminate P|]. inversion Sa as [|? ? Sa1 Sa2]; subst. inversion Sb as [|? ? Sb1 Sb2]; subst.
    assert (a = c). { rewrite Forall_forall in Sa2, Sb2. pose proof (Permutation_in a P (or_introl eq_refl)) as A. pose proof (Permutation_in c (Permutation_sym P) (or_introl eq_refl)) as C. destruct A as [A|A]; [congruence|]. destruct C as [C|C]; [congruence|]. specialize (Sa2 c C). specialize (Sb2 a A). lia. }
    subst c. f_equal. apply IH; try assumption. apply (Permutation_cons_inv P). }
  rewrite (get_result_ok change order frf results _ 0%nat R2), Od. rewrite seq_length. clear - Nf. generalize 0%nat. induction (length results) as [|k IHk]; intros a; cbn [seq combine map]; constructor; [cbn [fst snd]; apply with_completed; exact Nf|]. apply IHk.
Qed.
Print Assumptions C52_result_complete.
Definition ex_r (k : Z) : ratfun := mk_ratfun (mk_poly [([1; 0], mk_rn k 1)] 2 (-1)) (mk_poly [([0; 0], mk_rn 1 1)] 2 (-1)) [] [].
Definition ex_frf : list (nat * list (poly * poly)) := [(2%nat, [factor_entry (mk_found 1 [([1], mk_rn 1 1)] [])])].
Example C52_reporting_example : NoDup (map fst ex_frf) /\ length (get_result false [] ex_frf 0 (snd (run_events false [] ex_frf [Finish 2; Clean; Finish 0; Finish 1] (start_entries [ex_r 1; ex_r 2; ex_r 3])))) = 3%nat /\
  map (map fst) (fst (run_events false [] ex_frf [Finish 2; Early; Finish 0; Early; Clean; Finish 1; Early; Early] (start_entries [ex_r 1; ex_r 2; ex_r 3]))) = [[lit "2"]; [lit "0"]; [lit "1"]; []].
Proof. split; [constructor; [intros []|constructor]|]. split; vm_compute; reflexivity. Qed.
(** Refuted after get_early_results: get_result numbers the functions that are left from zero, so that a function gets the factors of another one or loses its own. *)
Theorem C52_get_result_after_early_refuted : exists results evs, (forall i, (i < length results)%nat -> In (Finish i) evs) /\
  exists g, get_result false [] ex_frf 0 (snd (run_events false [] ex_frf evs (start_entries results))) = [g] /\ rnum g = rnum (nth 2 results no_ratfun) /\ ~ completed false [] ex_frf 2 (nth 2 results no_ratfun) g.
Proof.
  exists [ex_r 1; ex_r 2; ex_r 3], [Finish 0; Finish 1; Early; Finish 2]. split.
  - intros i Hi. cbn in Hi. destruct i as [|[|[|i]]]; [left|right; left|right; right; right; left|lia]; reflexivity.
  - exists (ex_r 3). split; [vm_compute; reflexivity|]. split; [reflexivity|]. intros [_ [_ [_ [H _]]]]. specialize (H _ (or_introl eq_refl)). vm_compute in H. discriminate H.
Qed.
Print Assumptions C52_get_result_after_early_refuted.

(** ---- the printed result ---- *)
Lemma inv_p_ok p a : prime p -> a mod p <> 0 -> (a * inv_p p (a mod p)) mod p = 1.
Proof.
  intros P N. assert (P2 : 2 <= p) by (apply prime_ge_2; exact P). unfold inv_p. destruct (Z.eqb_spec (a mod p) 0); [contradiction|]. rewrite <- Zmult_mod_idemp_l, Zmult_mod_idemp_r.
  rewrite <- Z.pow_succ_r by lia. replace (Z.succ (p - 2)) with (p - 1) by lia. apply (fermat p (a mod p) P). rewrite Z.mod_mod by lia. exact N.
Qed.
Lemma inv_p_mul p a c : prime p -> inv_p p ((a * c) mod p) mod p = (inv_p p (a mod p) * inv_p p (c mod p)) mod p.
Proof.
  intros P. assert (P2 : 2 <= p) by (apply prime_ge_2; exact P). unfold inv_p at 2 3. destruct (Z.eqb_spec (a mod p) 0) as [A|A]; [rewrite <- Zmult_mod_idemp_l, A; unfold inv_p; rewrite Z.mul_0_l, Z.mod_0_l by lia; reflexivity|].
  destruct (Z.eqb_spec (c mod p) 0) as [C|C]; [rewrite <- Zmult_mod_idemp_r, C; unfold inv_p; rewrite Z.mul_0_r, Z.mod_0_l by lia; cbn; rewrite Z.mul_0_r, Z.mod_0_l by lia; reflexivity|].
  unfold inv_p. destruct (Z.eqb_spec ((a * c) mod p) 0) as [Q|Q].
  - exfalso. apply Z.mod_divide in Q; [|lia]. apply prime_mult in Q; [|exact P]. destruct Q as [Q|Q]; apply Z.mod_divide in Q; try lia; contradiction.
  - rewrite Z.mod_mod by lia. rewrite <- Zpower_mod by lia. rewrite Z.pow_mul_l. rewrite Zmult_mod. rewrite (Zpower_mod a), (Zpower_mod c) by lia. reflexivity.
Qed.

(** a side that is absent is not printed, whatever its number of variables *)
Definition tidy (q : poly) : poly := match coefs q with [] => mk_poly [] 1 0 | _ => q end.
Lemma tidy_strings pr l : factor_strings pr (map tidy l) = factor_strings pr l.
Proof.
  induction l as [|q l IH]; [reflexivity|]. cbn [map factor_strings]. rewrite IH. destruct (coefs q) as [|e m] eqn:C.
  - replace (tidy q) with (mk_poly [] 1 0) by (unfold tidy; rewrite C; reflexivity). reflexivity.
  - replace (tidy q) with q by (unfold tidy; rewrite C; reflexivity). rewrite C. reflexivity.
Qed.
Lemma tidy_part p q xs : part_at p (tidy q) xs = part_at p q xs.
Proof. unfold part_at. destruct (coefs q) eqn:C; unfold tidy; rewrite C; [reflexivity|]. rewrite C. reflexivity. Qed.
Definition tidy2 (fd : poly * poly) : poly * poly := (tidy (fst fd), tidy (snd fd)).
Definition tidy_f (g : ratfun) : ratfun := mk_ratfun (rnum g) (rden g) (map tidy2 (factors g)) (order_map g).
Lemma tidy_string pr g vars : ratfun_string pr (tidy_f g) vars = ratfun_string pr g vars.
Proof.
  unfold ratfun_string. cbn [tidy_f rnum rden factors order_map]. destruct (vars_ordered (order_map g) vars) as [vo| | | |]; try reflexivity. cbn [obind]. destruct (factors g) as [|fd fs]; [reflexivity|].
  change (map tidy2 (fd :: fs)) with (tidy2 fd :: map tidy2 fs). cbv beta iota. change (tidy2 fd :: map tidy2 fs) with (map tidy2 (fd :: fs)).
  rewrite !map_map. change (map (fun x => fst (tidy2 x)) (fd :: fs)) with (map (fun x => tidy (fst x)) (fd :: fs)). change (map (fun x => snd (tidy2 x)) (fd :: fs)) with (map (fun x => tidy (snd x)) (fd :: fs)).
  rewrite <- (map_map fst tidy), <- (map_map snd tidy), !tidy_strings. reflexivity.
Qed.
Lemma tidy_products p g xs : fold_right (fun fd acc => part_at p (fst fd) xs * acc) 1 (map tidy2 g) = numerators p g xs /\ fold_right (fun fd acc => part_at p (snd fd) xs * acc) 1 (map tidy2 g) = denominators p g xs.
Proof. induction g as [|fd g [IH1 IH2]]; [split; reflexivity|]. unfold numerators, denominators in *. cbn [map fold_right tidy2 fst snd]. rewrite IH1, IH2, !tidy_part. split; reflexivity. Qed.
Lemma tidy_ok n b g fs change order : (change = true -> renumbering n order) -> poly_ok n b (rnum g) -> poly_ok n b (rden g) -> factors g = map factor_entry fs -> order_map g = (if change then order else []) -> Forall (found_ok n b) fs -> ratfun_ok n b (tidy_f g).
Proof.
  intros Ho H1 H2 Ff Fo Hf. split; [exact H1|]. split; [exact H2|]. cbn [tidy_f factors order_map]. rewrite Ff, Fo. split.
  - apply Forall_map, Forall_map. eapply Forall_impl; [|exact Hf]. intros [v nu de] [A [B [C _]]]. cbn [ff_var ff_num ff_den] in *.
    assert (S : forall m, m = [] \/ univariate b m -> poly_ok n b (tidy (side_poly v m))).
    { intros m U. destruct m as [|e m0] eqn:M.
      - split; [constructor|]. right. split; [cbn; lia|split; constructor].
      - rewrite <- M in *. destruct U as [U|[K [R _]]]; [congruence|]. replace (tidy (side_poly v m)) with (mk_poly m 1 (Z.of_nat v)) by (subst m; reflexivity). split; [exact R|]. right. split; [cbn; lia|exact K]. }
    split; [apply (S _ B)|apply (S _ C)].
  - destruct change; [|left; reflexivity]. right. destruct (Ho eq_refl) as [A [B [C D]]]. split; [exact A|]. split; [exact B|]. apply Forall_forall. intros e I. apply D. apply in_map. exact I.
Qed.
Lemma divided p parsed xs : forall probe k ws i, divide_factors p parsed xs k probe = Ret ws -> (i < length probe)%nat ->
  match nat_find (k + i) parsed with Some o => exists f r, evaluate_pre p o xs = Ret (f :: r) /\ nth i ws 0 = ff_div_assign p (nth i probe 0) f | None => nth i ws 0 = nth i probe 0 end.
Proof.
  induction probe as [|v probe IH]; intros k ws i H Hi; [cbn in Hi; lia|]. cbn [divide_factors] in H.
  destruct (match nat_find k parsed with Some o => obind (evaluate_pre p o xs) (fun res => match res with f :: _ => Ret (ff_div_assign p v f) | [] => UB end) | None => Ret v end) as [w| | | |] eqn:W; try discriminate H. cbn [obind] in H.
  destruct (divide_factors p parsed xs (S k) probe) as [ws'| | | |] eqn:D; try discriminate H. cbn [obind] in H. injection H as <-. destruct i as [|i].
  - rewrite Nat.add_0_r. cbn [nth]. destruct (nat_find k parsed) as [o|]; [|injection W as W; congruence]. destruct (evaluate_pre p o xs) as [[|f r]| | | |] eqn:Ev; try discriminate W. cbn [obind] in W. injection W as W. exists f, r. split; [reflexivity|congruence].
  - cbn [nth]. replace (k + S i)%nat with (S k + i)%nat by lia. apply (IH (S k) ws' i D). cbn [length] in Hi. lia.
Qed.
(** Function number i of the black box has been divided by its factors and interpolated in the changed order of the variables.  If the interpolated function f
    has the values of the probes (wherever the factors do not vanish), then the printed result, completed with the factors and the order, is accepted by the
    parser, and the parser returns the values of the black box at the user's point. *)
Theorem C52_printed_result_is_the_black_box : forall ord p ps b n (change : bool) order i fs parsed bb f g vars, let q := last ps p in
  (forall A (l : list A), Permutation (ord A l) l) -> Forall (prime_ok b) (p :: ps) -> Z.of_nat n < 2 ^ 15 -> (change = true -> renumbering n order) -> Forall (found_ok n b) fs ->
  match fs with [] => nat_find i parsed = None | _ => exists o0 o, parsed_factor ord p n fs = Ret o0 /\ change_primes ps o0 = Ret o /\ nat_find i parsed = Some o end ->
  poly_ok n b (rnum f) -> poly_ok n b (rden f) -> rnum g = rnum f -> rden g = rden f -> factors g = map factor_entry fs -> order_map g = (if change then order else []) ->
  names_ok vars -> length vars = n -> (forall xs, canonical_point q n xs -> (i < length (bb xs))%nat /\ 0 <= nth i (bb xs) 0 < q) ->
  let fine xs := canonical_point q n xs /\ numerators q (map factor_entry fs) xs mod q <> 0 /\ denominators q (map factor_entry fs) xs mod q <> 0 in
  (forall xs ws, fine xs -> compute_probe q bb parsed xs = Ret ws -> nth i ws 0 = quotient_at q f (reorder 0 (if change then order else []) xs)) ->
  exists s, ratfun_string poly_to_string g vars = Ret s /\ forall keep pA c1 c2, exists o, construct q pA [s] vars false keep c1 c2 = Ret o /\
  forall xs ws, fine xs -> compute_probe q bb parsed xs = Ret ws -> evaluate_pre q o xs = Ret [nth i (bb xs) 0].
Proof.
  intros ord p ps b n change order i fs parsed bb f g vars q Ho Hps Hn Hr Hf Hpar F1 F2 G1 G2 G3 G4 HV Lv Hbb fine Hrec.
  assert (Hp2 : (fs = [] /\ nat_find i parsed = None) \/ (fs <> [] /\ exists o0 o, parsed_factor ord p n fs = Ret o0 /\ change_primes ps o0 = Ret o /\ nat_find i parsed = Some o)) by (destruct fs; [left; split; [reflexivity|exact Hpar]|right; split; [discriminate|exact Hpar]]). clear Hpar.
  assert (Hq : prime_ok b q) by (rewrite Forall_forall in Hps; apply Hps; apply last_in). destruct Hq as [Pq [Bq Eq]]. pose proof (prime_ge_2 _ Pq) as Q2.
  assert (Ok : ratfun_ok n b (tidy_f g)) by (apply (tidy_ok n b g fs change order Hr); [rewrite G1; exact F1|rewrite G2; exact F2|exact G3|exact G4|exact Hf]).
  rewrite <- Lv in Ok. destruct (C37_rational_function_to_string q b vars (tidy_f g) (conj Pq (conj Bq Eq)) HV Ok) as [s [S1 S2]]. rewrite tidy_string in S1. exists s. split; [exact S1|].
  intros keep pA c1 c2. destruct (S2 keep pA c1 c2) as [o [O1 O2]]. cbn [last change_primes] in O1, O2. exists o. split; [destruct (construct q pA [s] vars false keep c1 c2); cbn [obind] in O1; exact O1|].
  intros xs ws [[Lx Fx] [HN HD]] Hw. rewrite (O2 xs ltac:(lia) Fx). do 2 f_equal. pose proof (Hrec xs ws (conj (conj Lx Fx) (conj HN HD)) Hw) as R. destruct (Hbb xs (conj Lx Fx)) as [Li Vi].
  unfold compute_probe in Hw. pose proof (divided q parsed xs (bb xs) 0%nat ws i Hw Li) as D. cbn [Nat.add] in D. unfold ratfun_val. cbn [tidy_f factors rnum rden order_map]. rewrite G1, G2, G3, G4.
  destruct (tidy_products q (map factor_entry fs) xs) as [T1 T2]. rewrite T1, T2. set (N := numerators q (map factor_entry fs) xs) in *. set (De := denominators q (map factor_entry fs) xs) in *.
  unfold quotient_at in R. set (ys := reorder 0 (if change then order else []) xs) in *. set (a := poly_at q (rnum f) ys) in *. set (d := part_at q (rden f) ys) in *. set (v := nth i (bb xs) 0) in *.
  assert (Dv : nth i ws 0 = (v * inv_p q ((N * inv_p q (De mod q)) mod q)) mod q).
  { destruct Hp2 as [[Efs Hpar]|[Efs Hpar]].
    - rewrite Hpar in D. rewrite D. unfold N, De, numerators, denominators. rewrite Efs. cbn [map fold_right]. rewrite inv_one by lia. rewrite Z.mul_1_l, inv_one by lia. rewrite Z.mul_1_r. symmetry. apply Z.mod_small. exact Vi.
    - destruct Hpar as [o0 [o1 [E1 [E2 E3]]]]. rewrite E3 in D. destruct D as [fv [r [Ev D]]].
      destruct (C52_factor_text ord p ps b n fs Ho Hps Hn Efs Hf) as [o0' [o1' [X1 [X2 X3]]]]. rewrite E1 in X1. injection X1 as <-. rewrite E2 in X2. injection X2 as <-.
      fold q in X3. rewrite (X3 xs (conj Lx Fx)) in Ev. fold N De in Ev. injection Ev as Ev _. rewrite D, <- Ev. apply inv_div; [exact Pq|exact Bq|apply Z.mod_pos_bound; lia|exact Vi]. }
  rewrite R in Dv. set (X := N * inv_p q (De mod q)) in *.
  assert (NX : X mod q <> 0).
  { intros Z0. apply HN. replace (N mod q) with ((X * De) mod q); [rewrite <- Zmult_mod_idemp_l, Z0; reflexivity|]. unfold X. rewrite <- Z.mul_assoc, (Z.mul_comm (inv_p q (De mod q))), <- Zmult_mod_idemp_r, (inv_p_ok q De Pq HD), Z.mul_1_r. reflexivity. }
  assert (Step : (N * a * inv_p q ((De * d) mod q)) mod q = (X * (a * inv_p q (d mod q))) mod q).
  { rewrite <- Zmult_mod_idemp_r, (inv_p_mul q De d Pq), Zmult_mod_idemp_r. unfold X. f_equal. ring. }
  rewrite Step, <- Zmult_mod_idemp_r, Dv, Zmult_mod_idemp_r. replace (X * (v * inv_p q (X mod q))) with (v * (X * inv_p q (X mod q))) by ring. rewrite <- Zmult_mod_idemp_r, (inv_p_ok q X Pq NX), Z.mul_1_r. apply Z.mod_small. exact Vi.
Qed.
Print Assumptions C52_printed_result_is_the_black_box.
(** x2 (x1 + 3) with the factor x2 and the order (x2, x1): every hypothesis holds, for all points *)
Definition ex_ord (A : Type) (l : list A) : list A := rev l.
Definition ex_f1 : list found_factor := [mk_found 1 [([1], mk_rn 1 1)] []].
Definition ex_bb (xs : list Z) : list Z := [(nth 1 xs 0 * (nth 0 xs 0 + 3)) mod P0].
Definition ex_inner : ratfun := mk_ratfun (mk_poly [([0; 1], mk_rn 1 1); ([0; 0], mk_rn 3 1)] 2 (-1)) (mk_poly [] 2 (-1)) [] [].
Definition ex_outer : ratfun := mk_ratfun (rnum ex_inner) (rden ex_inner) (map factor_entry ex_f1) [(0, 1); (1, 0)]%nat.
Definition ab : list chars := [lit "a"; lit "b"].
Example C52_printed_hypotheses_met : exists o0, parsed_factor ex_ord P0 2 ex_f1 = Ret o0 /\ Forall (found_ok 2 100) ex_f1 /\ renumbering 2 [(0, 1); (1, 0)]%nat /\ names_ok ab /\ poly_ok 2 100 (rnum ex_inner) /\ poly_ok 2 100 (rden ex_inner) /\
  (forall xs ws, canonical_point P0 2 xs /\ numerators P0 (map factor_entry ex_f1) xs mod P0 <> 0 /\ denominators P0 (map factor_entry ex_f1) xs mod P0 <> 0 -> compute_probe P0 ex_bb [(0%nat, o0)] xs = Ret ws -> nth 0 ws 0 = quotient_at P0 ex_inner (reorder 0 [(0, 1); (1, 0)]%nat xs)) /\
  ratfun_string poly_to_string ex_outer ab = Ret (lit "((b)*(a+3))/((1))").
Proof.
  assert (U : univariate 100 [([1], mk_rn 1 1)]). { split; [apply keys_check; vm_compute; reflexivity|]. split; [constructor; [split; [cbn; lia|reflexivity]|constructor]|]. exists 1, (mk_rn 1 1). split; [left; reflexivity|lia]. }
  assert (Ff : Forall (found_ok 2 100) ex_f1). { constructor; [|constructor]. split; [cbn; lia|]. split; [right; exact U|]. split; [left; reflexivity|left; discriminate]. }
  assert (Ho : forall A (l : list A), Permutation (ex_ord A l) l) by (intros A l; apply Permutation_sym, Permutation_rev).
  assert (Hp : Forall (prime_ok 100) [P0]) by (constructor; [exact P0_ok|constructor]).
  destruct (C52_factor_text ex_ord P0 [] 100 2 ex_f1 Ho Hp ltac:(cbn; lia) ltac:(discriminate) Ff) as [o0 [o [E1 [E2 E3]]]]. cbn [change_primes] in E2. injection E2 as <-. cbn [last] in E3.
  exists o0. split; [exact E1|]. split; [exact Ff|]. split; [|split; [|split; [|split; [|split]]]].
  - split; [constructor; [intros [H|[]]; discriminate H|constructor; [intros []|constructor]]|]. split; [intros i; cbn [map fst In]; lia|]. split; [constructor; [intros [H|[]]; discriminate H|constructor; [intros []|constructor]]|]. intros j [<-|[<-|[]]]; cbn [snd]; lia.
  - split.
    + repeat (apply Forall_cons; [split; [split; [discriminate|reflexivity]|split; [cbn; lia|intros [_ H]; discriminate H]]|]). apply Forall_nil.
    + repeat (constructor; [intros H; repeat (destruct H as [H|H]; [discriminate H|]); destruct H|]). constructor.
  - split; [repeat (apply Forall_cons; [split; [cbn; lia|reflexivity]|]); apply Forall_nil|]. left. split; [reflexivity|]. split; [reflexivity|]. apply keys_check; vm_compute; reflexivity.
  - split; [constructor|]. left. split; [reflexivity|]. split; [reflexivity|]. split; constructor.
  - intros xs ws [[Lx Fx] [HN HD]] Hw. destruct P0_ok as [Pp [Pb _]]. pose proof (prime_ge_2 _ Pp) as P2. pose proof (divided P0 [(0%nat, o0)] xs (ex_bb xs) 0%nat ws 0%nat Hw ltac:(cbn; lia)) as D. cbn [Nat.add nat_find Nat.eqb] in D.
    destruct D as [fv [r [Ev D]]]. rewrite (E3 xs (conj Lx Fx)) in Ev. apply (f_equal (fun o => match o with Ret (z :: _) => z | _ => 0 end)) in Ev; cbv beta iota in Ev. destruct xs as [|x1 [|x2 [|]]]; try discriminate Lx. apply Forall_cons_iff in Fx as [X1 Fx]. apply Forall_cons_iff in Fx as [X2 _].
    assert (I1 : inv_p P0 (1 mod P0) = 1) by (apply inv_one; lia).
    assert (Nv : numerators P0 (map factor_entry ex_f1) [x1; x2] = x2).
    { unfold numerators, ex_f1, factor_entry, side_poly, part_at, poly_at, rn_val. cbn [map fold_right fst snd ff_num ff_var ff_den coefs poly_val mono_val var_pos num den]. rewrite I1. change (nth (Z.to_nat (Z.of_nat 1)) [x1; x2] 0) with x2. change (Z.of_nat 1 =? -1) with false. cbv iota. cbn [mono_val tl]. rewrite Z.pow_1_r. ring. }
    assert (Dv : denominators P0 (map factor_entry ex_f1) [x1; x2] = 1) by reflexivity.
    rewrite Nv, Dv, I1, Z.mul_1_r in Ev. rewrite Nv in HN. rewrite D. unfold ex_bb. cbn [nth]. rewrite <- Ev. rewrite (inv_div P0 Pp Pb) by (apply Z.mod_pos_bound; lia).
    unfold quotient_at, ex_inner, part_at, poly_at. cbn [rnum rden coefs var_pos]. change (-1 =? -1) with true. cbv iota. rewrite I1, Z.mul_1_r. change (reorder 0 [(0%nat, 1%nat); (1%nat, 0%nat)] [x1; x2]) with [x2; x1].
    unfold poly_val, rn_val. cbn [fold_right fst snd mono_val num den]. rewrite I1. rewrite Z.pow_1_r, !Z.pow_0_r. rewrite Zmult_mod_idemp_l.
    replace (x2 * (x1 + 3) * inv_p P0 (x2 mod P0)) with ((x1 + 3) * (x2 * inv_p P0 (x2 mod P0))) by ring. rewrite <- Zmult_mod_idemp_r, (inv_p_ok P0 x2 Pp HN). f_equal. ring.
  - vm_compute. reflexivity.
Qed.
Example C52_probe_divided : obind (parsed_factor ex_ord P0 2 ex_f1) (fun o => compute_probe P0 ex_bb [(0%nat, o)] [5; 7]) = Ret [8].
Proof. vm_compute. reflexivity. Qed.

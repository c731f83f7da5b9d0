(** Proofs for C53 *)
From Coq Require Import Ascii String.
From Verif Require Import Machine FFInt FFIntProofs SYGrammar SYParse SYEval SYEvalProofs DecPrint StateFile StateSpec StateFileProofs PrintSpec Results ResultsSpec ResultsProofs Precomp PrecompSpec.
From Coq Require Import List Permutation.
Import ListNotations.
Open Scope Z_scope.

(** ---- words ---- *)
Lemma vec_loop_map conv (g : Z -> Z) v : forall fuel left rest, (forall x, In x v -> conv (print x) = Ret (g x)) -> cut rest = None ->
  left <= 0 -> (length v <= fuel)%nat -> vec_loop conv fuel left (flat_map num_sp v ++ rest) = Ret (map g v, rest).
Proof.
  induction v as [|x v IH]; intros fuel left rest Hc Hr Hl Hf; rewrite vec_loop_eq; cbn [flat_map app map].
  - rewrite Hr. reflexivity.
  - rewrite <- app_assoc, cut_num, (Hc x (or_introl eq_refl)). cbn [obind]. destruct (Z.eqb_spec (left - 1) 0); [lia|].
    cbn [length] in Hf. destruct fuel as [|f]; [lia|]. rewrite IH; [reflexivity| |assumption|lia|lia]. intros y Hy. apply Hc. right. exact Hy.
Qed.
Lemma parseFF_mod p v : 0 < p <= two64 -> Forall (fun x => 0 <= x < two64) v -> parse_vector_FFInt p (flat_map num_sp v) (-1) = Ret (map (fun x => x mod p) v, []).
Proof.
  intros Hp H. rewrite <- (app_nil_r (flat_map num_sp v)). unfold parse_vector_FFInt. apply vec_loop_map; [|reflexivity|lia|apply len_entries].
  intros x Hx. rewrite Forall_forall in H. specialize (H x Hx). rewrite stoul_print by lia. cbn [obind]. rewrite ff_ctor_nonneg by lia. reflexivity.
Qed.
Lemma print_nobar z : ~ In bar (print z).
Proof. intros I. pose proof (proj2 (print_chars z)) as F. rewrite forallb_forall in F. specialize (F _ I). discriminate F. Qed.
Lemma find_bar_ok a rest : ~ In bar a -> find_bar (a ++ sp :: bar :: sp :: rest) = Some (a, rest).
Proof.
  induction a as [|c a IH]; intros H; [reflexivity|].
  assert (E : at_bar ((c :: a) ++ sp :: bar :: sp :: rest) = None).
  { destruct a as [|d a]; cbn [app at_bar]; [destruct (Ascii.eqb c sp); reflexivity|]. destruct (Ascii.eqb_spec d bar) as [->|N]; [exfalso; apply H; right; left; reflexivity|].
    destruct a as [|e a]; cbn [app]; rewrite andb_false_r; reflexivity. }
  assert (F : find_bar ((c :: a) ++ sp :: bar :: sp :: rest) = option_map (fun '(x, y) => (c :: x, y)) (find_bar (a ++ sp :: bar :: sp :: rest))).
  { change ((c :: a) ++ sp :: bar :: sp :: rest) with (c :: (a ++ sp :: bar :: sp :: rest)) in *. cbn [find_bar]. rewrite E. reflexivity. }
  rewrite F, IH; [reflexivity|]. intros I. apply H. right. exact I.
Qed.
Definition words (r : list Z) : chars := concat (map (fun v => sp :: print v) r).
Definition zwords (zi : list nat) : chars := concat (map (fun z => print (Z.of_nat z) ++ [sp]) zi).
Lemma words_nobar r : ~ In bar (words r).
Proof. induction r as [|v r IH]; [intros []|]. unfold words in *. cbn [map concat]. intros I. apply in_app_or in I. destruct I as [[I|I]|I]; [discriminate I|exact (print_nobar v I)|exact (IH I)]. Qed.
Lemma zwords_nobar zi : ~ In bar (zwords zi).
Proof. induction zi as [|v r IH]; [intros []|]. unfold zwords in *. cbn [map concat]. intros I. apply in_app_or in I. destruct I as [I|I]; [|exact (IH I)]. apply in_app_or in I. destruct I as [I|[I|[]]]; [exact (print_nobar _ I)|discriminate I]. Qed.
Lemma zwords_entries zi : zwords zi = flat_map num_sp (map Z.of_nat zi).
Proof. unfold zwords. induction zi as [|z zi IH]; [reflexivity|]. cbn [map concat flat_map]. rewrite IH. reflexivity. Qed.
Lemma zwords_last zi : zi <> [] -> exists b, zwords zi = b ++ [sp] /\ ~ In bar b.
Proof.
  intros H. destruct (exists_last H) as [l [z E]]. exists (zwords l ++ print (Z.of_nat z)). subst zi. split.
  - unfold zwords. rewrite map_app, concat_app. cbn [map concat]. rewrite app_nil_r, app_assoc. reflexivity.
  - intros I. apply in_app_or in I. destruct I as [I|I]; [exact (zwords_nobar l I)|exact (print_nobar _ I)].
Qed.
Lemma words_shift v r : print v ++ words r ++ [sp] = flat_map num_sp (v :: r).
Proof.
  revert v. induction r as [|w r IH]; intros v; [cbn [flat_map]; rewrite app_nil_r; reflexivity|]. change (words (w :: r)) with (sp :: print w ++ words r). cbn [app]. rewrite <- app_assoc, IH.
  change (flat_map num_sp (v :: w :: r)) with ((print v ++ [sp]) ++ flat_map num_sp (w :: r)). rewrite <- app_assoc. reflexivity.
Qed.
Lemma print_last v : exists y c, print v = y ++ [c] /\ num_char c = true.
Proof.
  pose proof (proj1 (print_chars v)) as N.
  destruct (exists_last N) as [y [c E]]. exists y, c. split; [exact E|]. pose proof (proj2 (print_chars v)) as F. rewrite forallb_forall in F. apply F. rewrite E. apply in_or_app. right. left. reflexivity.
Qed.
Lemma words_last v r : exists y c, print v ++ words r = y ++ [c] /\ num_char c = true.
Proof.
  revert v. induction r as [|w r IH]; intros v.
  - unfold words. cbn [map concat]. rewrite app_nil_r. apply print_last.
  - destruct (IH w) as [y [c [E N]]]. exists (print v ++ sp :: y), c. split; [|exact N]. change (words (w :: r)) with (sp :: print w ++ words r). rewrite E, <- app_assoc. reflexivity.
Qed.

(** ---- one line ---- *)
Lemma load_line_ok p n x line : (2 <= n)%nat -> 0 < p <= two64 -> supplied_ok n x -> supplied_text x line -> load_line p n line = Ret (reduced p x).
Proof.
  destruct x as [[t zi] r]. intros Hn Hp [Ht [Lz [Fz [Nr Fr]]]] [blank [Hb ->]]. unfold load_line.
  assert (Nz : zi <> []) by (intros ->; cbn [length] in Lz; lia).
  destruct (zwords_last zi Nz) as [b [Eb Nb]]. change (concat (map (fun z : nat => print (Z.of_nat z) ++ [" "%char]) zi)) with (zwords zi).
  change (concat (map (fun v : Z => " "%char :: print v) r)) with (words r). rewrite Eb.
  destruct r as [|v r]; [contradiction|].
  replace ((b ++ [sp]) ++ ["|"; " "]%char ++ print t ++ [" "; "|"]%char ++ words (v :: r) ++ blank)
    with (b ++ sp :: bar :: sp :: (print t ++ sp :: bar :: sp :: ((print v ++ words r) ++ blank))).
  2:{ change (words (v :: r)) with (sp :: print v ++ words r). rewrite <- !app_assoc. cbn [app]. rewrite <- !app_assoc. reflexivity. }
  rewrite (find_bar_ok b _ Nb). rewrite (find_bar_ok (print t) _ (print_nobar t)). rewrite stoul_print by exact Ht. cbn [obind].
  rewrite <- Eb, zwords_entries.
  replace (Z.of_nat n - 1) with (Z.of_nat (length (map Z.of_nat zi))) by (rewrite map_length; lia).
  pose proof (parse32_lim (map Z.of_nat zi) []) as P. rewrite app_nil_r in P. rewrite P.
  2:{ apply Forall_map. apply Forall_impl with (2 := Fz). intros z Hz. unfold small, two31. lia. }
  2:{ intros E. apply Nz. destruct zi; [reflexivity|discriminate E]. }
  cbn [obind fst]. rewrite map_length. replace (length zi =? n - 1)%nat with true by (symmetry; apply Nat.eqb_eq; lia).
  assert (Q : forall (s : chars) c, (exists y, s = y ++ [c]) -> (exists y, rev s = c :: y)) by (intros s c [y ->]; rewrite rev_app_distr; exists (rev y); reflexivity).
  assert (Pz : map Z.to_nat (map Z.of_nat zi) = zi) by (rewrite map_map; rewrite (map_ext _ (fun x => x)) by (intros; apply Nat2Z.id); apply map_id).
  destruct Hb as [->| ->].
  - rewrite app_nil_r. destruct (words_last v r) as [y [c [E N]]]. destruct (Q _ c (ex_intro _ y E)) as [y' R]. rewrite R. rewrite (num_not_sp c N). rewrite <- app_assoc, words_shift.
    rewrite parseFF_mod by assumption. cbn [obind fst]. rewrite Pz, ff_ctor_nonneg by lia. reflexivity.
  - destruct (Q ((print v ++ words r) ++ [" "%char]) " "%char (ex_intro _ _ eq_refl)) as [y' R]. rewrite R. change (Ascii.eqb " " sp) with true. cbv iota. change [" "%char] with [sp]. rewrite <- app_assoc, words_shift.
    rewrite parseFF_mod by assumption. cbn [obind fst]. rewrite Pz, ff_ctor_nonneg by lia. reflexivity.
Qed.
Lemma supplied_no_nl x line : supplied_text x line -> no_nl line.
Proof.
  destruct x as [[t zi] r]. intros [blank [Hb ->]]. change (concat (map (fun z : nat => print (Z.of_nat z) ++ [" "%char]) zi)) with (zwords zi). change (concat (map (fun v : Z => " "%char :: print v) r)) with (words r).
  assert (Pn : forall z, ~ In nl (print z)). { intros z I. pose proof (proj2 (print_chars z)) as F. rewrite forallb_forall in F. specialize (F _ I). discriminate F. }
  assert (Zn : ~ In nl (zwords zi)). { rewrite zwords_entries. apply data_no_nl, data_entries. }
  assert (Wn : ~ In nl (words r)). { clear - Pn. induction r as [|v r IH]; [intros []|]. change (words (v :: r)) with (sp :: print v ++ words r). intros [I|I]; [discriminate I|]. apply in_app_or in I. destruct I as [I|I]; [exact (Pn v I)|exact (IH I)]. }
  intros I. apply in_app_or in I. destruct I as [I|I]; [exact (Zn I)|]. destruct I as [I|[I|I]]; try discriminate I. change (In nl (print t ++ [" "; "|"]%char ++ words r ++ blank)) in I. apply in_app_or in I. destruct I as [I|I]; [exact (Pn t I)|].
  destruct I as [I|[I|I]]; try discriminate I. change (In nl (words r ++ blank)) in I. apply in_app_or in I. destruct I as [I|I]; [exact (Wn I)|]. destruct Hb as [->| ->]; [destruct I|]. destruct I as [I|[]]. discriminate I.
Qed.
Definition add_all (xs : list supplied) (s : pstate) : pstate := fold_left (fun s x => add_probe x s) xs s.
Lemma load_lines_ok p n xs : forall lines s, (2 <= n)%nat -> 0 < p <= two64 -> Forall (supplied_ok n) xs -> Forall2 supplied_text xs lines ->
  load_lines p n lines s = Ret (add_all (map (reduced p) xs) s).
Proof.
  induction xs as [|x xs IH]; intros lines s Hn Hp F F2; inversion F2; subst; [reflexivity|]. inversion F; subst. cbn [load_lines]. rewrite (load_line_ok p n x y) by assumption. cbn [obind].
  rewrite IH by assumption. reflexivity.
Qed.
Lemma load_probes_ok p n xs file s : (2 <= n)%nat -> 0 < p <= two64 -> Forall (supplied_ok n) xs -> supplied_file xs file -> load_probes p n (Some file) s = Ret (add_all (map (reduced p) xs) s).
Proof.
  intros Hn Hp F [lines [F2 ->]]. unfold load_probes. replace (concat (map (fun l : chars => l ++ ["010"%char]) lines)) with (to_file lines) by (unfold to_file; rewrite flat_map_concat_map; reflexivity).
  rewrite getlines_file; [apply load_lines_ok; assumption|]. clear - F2. induction F2; constructor; [apply (supplied_no_nl x); assumption|assumption].
Qed.
Lemma add_all_effect xs : forall s, let q := pc_queue s in let s' := add_all xs s in
  q_requested (pc_queue s') = q_requested q /\ q_chosen (pc_queue s') = q_chosen q /\ q_drawn (pc_queue s') = q_drawn q /\ q_ind (pc_queue s') = (q_ind q + length xs)%nat /\ pc_fed s' = pc_fed s /\
  pc_queued s' = pc_queued s + Z.of_nat (length xs) /\ q_index (pc_queue s') = q_index q ++ combine (seq (q_ind q) (length xs)) (map fst xs) /\ pc_computed s' = pc_computed s ++ combine (seq (q_ind q) (length xs)) (map snd xs).
Proof.
  induction xs as [|[[t zi] r] xs IH]; intros s; cbv zeta.
  - unfold add_all. cbn [fold_left length seq map combine]. rewrite !app_nil_r. repeat split; lia.
  - change (add_all ((t, zi, r) :: xs) s) with (add_all xs (add_probe (t, zi, r) s)). destruct (IH (add_probe (t, zi, r) s)) as [A1 [A2 [A3 [A4 [A5 [A6 [A7 A8]]]]]]]. rewrite A1, A2, A3, A4, A5, A6, A7, A8.
    destruct s as [q c qd f]. cbn [add_probe pc_queue pc_computed pc_queued pc_fed q_requested q_chosen q_drawn q_ind q_index length map fst snd seq combine]. rewrite <- !app_assoc. repeat split; try lia; reflexivity.
Qed.

(** ---- one variable: no line is accepted ---- *)
Lemma cut_length s : forall a b, cut s = Some (a, b) -> (length b < length s)%nat.
Proof.
  induction s as [|c s IH]; intros a b H; [discriminate H|]. cbn [cut] in H. destruct (Ascii.eqb c sp); [injection H as <- <-; cbn [length]; lia|].
  destruct (cut s) as [[x y]|] eqn:E; [|discriminate H]. cbn [option_map] in H. injection H as <- <-. specialize (IH x y eq_refl). cbn [length]. lia.
Qed.
Definition plain {A} (o : outcome A) : Prop := o = Throw \/ exists a, o = Ret a.
Lemma stoi32_plain s : plain (stoi32 s).
Proof.
  unfold stoi32, stoi. destruct (split_sign (skip_space s)) as [neg s2]. destruct s2 as [|c s2]; [left; reflexivity|]. destruct (is_digit c); [|left; reflexivity].
  cbv zeta. match goal with |- plain (obind (if ?b then _ else _) _) => destruct b end; [right; eexists; reflexivity|left; reflexivity].
Qed.
Lemma stoul_plain s : plain (stoul s).
Proof.
  unfold stoul. destruct (split_sign (skip_space s)) as [neg s2]. destruct s2 as [|c s2]; [left; reflexivity|]. destruct (is_digit c); [|left; reflexivity].
  cbv zeta. match goal with |- plain (if ?b then _ else _) => destruct b end; [right; eexists; reflexivity|left; reflexivity].
Qed.
Lemma vec_loop_plain conv : (forall s, plain (conv s)) -> forall fuel left line, (length line <= fuel)%nat -> plain (vec_loop conv fuel left line).
Proof.
  intros Hc. induction fuel as [|f IH]; intros left line L; rewrite vec_loop_eq; destruct (cut line) as [[w rest]|] eqn:E; try (right; eexists; reflexivity).
  - apply cut_length in E. lia.
  - destruct (Hc w) as [->|[v ->]]; [left; reflexivity|]. cbn [obind]. destruct (left - 1 =? 0); [right; eexists; reflexivity|]. apply cut_length in E.
    destruct (IH (left - 1) rest ltac:(lia)) as [->|[[vs l] ->]]; [left; reflexivity|right; eexists; reflexivity].
Qed.
Lemma cut_blank a : exists w r, cut (a ++ [sp]) = Some (w, r).
Proof.
  induction a as [|c a [w [r IH]]]; [exists [], []; reflexivity|]. cbn [app cut]. destruct (Ascii.eqb c sp); [eexists; eexists; reflexivity|]. rewrite IH. cbn [option_map]. eexists; eexists; reflexivity.
Qed.
Lemma one_variable_throws p line : load_line p 1 line = Throw.
Proof.
  unfold load_line. destruct (find_bar line) as [[b rm]|]; [|reflexivity]. destruct (find_bar rm) as [[ts ps]|]; [|reflexivity].
  destruct (stoul_plain ts) as [->|[t ->]]; [reflexivity|]. cbn [obind].
  assert (Q : parse_vector_32 (b ++ [sp]) (Z.of_nat 1 - 1) = Throw \/ exists v vs l, parse_vector_32 (b ++ [sp]) (Z.of_nat 1 - 1) = Ret (v :: vs, l)).
  { unfold parse_vector_32. destruct (vec_loop_plain stoi32 stoi32_plain (length (b ++ [sp])) (Z.of_nat 1 - 1) (b ++ [sp]) (le_n _)) as [P|[[vs l] P]]; [left; exact P|right].
    rewrite P. rewrite vec_loop_eq in P. destruct (cut_blank b) as [w [r C]]. rewrite C in P. destruct (stoi32 w) as [v| | | |]; cbn [obind] in P; try discriminate P.
    destruct (Z.of_nat 1 - 1 - 1 =? 0); [injection P as <- <-; eexists; eexists; eexists; reflexivity|]. destruct (length (b ++ [sp])); [discriminate P|].
    match type of P with obind ?x _ = _ => destruct x as [[us k]| | | |] end; cbn [obind] in P; try discriminate P. injection P as <- <-. eexists; eexists; eexists; reflexivity. }
  destruct Q as [->|[v [vs [l ->]]]]; [reflexivity|]. cbn [obind fst length]. change (1 - 1)%nat with 0%nat. reflexivity.
Qed.

(** ---- histories ---- *)
Lemma nfind_in {A} (l : list (nat * A)) i a : NoDup (map fst l) -> In (i, a) l -> nat_find i l = Some a.
Proof.
  induction l as [|[j b] l IH]; intros N I; [destruct I|]. cbn [map fst] in N. apply NoDup_cons_iff in N. destruct N as [N1 N2]. cbn [nat_find]. destruct I as [E|I].
  - injection E as -> ->. rewrite Nat.eqb_refl. reflexivity.
  - destruct (Nat.eqb_spec j i) as [->|Ne]; [exfalso; apply N1; apply (in_map fst) in I; exact I|apply IH; assumption].
Qed.
Lemma new_t_ret fuel rnd used : forall k t k', new_t fuel rnd used k = Ret (t, k') -> ~ In t used /\ exists i, t = rnd i.
Proof.
  induction fuel as [|fuel IH]; intros k t k' H; [discriminate H|]. cbn [new_t] in H. destruct (existsb (Z.eqb (rnd k)) used) eqn:E; [exact (IH _ _ _ H)|].
  injection H as <- <-. split; [|exists k; reflexivity]. intros I. assert (X : existsb (Z.eqb (rnd k)) used = true) by (apply existsb_exists; exists (rnd k); split; [exact I|apply Z.eqb_refl]). congruence.
Qed.
(** the queue of the requests *)
Section History.
  Variables (p : Z) (n : nat) (change : bool) (order : list (nat * nat)) (shift : list Z) (rz : list nat -> list Z) (rnd : nat -> Z) (fuel : nat).
  Definition asked (index : list (nat * (Z * list nat))) (e : nat * list Z) (r : Z * list nat * list Z) : Prop :=
    In (fst e, (fst (fst r), snd (fst r))) index /\ snd e = snd r /\ probe_point p n change order (rz (snd (fst r))) shift (fst (fst r)) = Ret (snd r) /\ exists i, fst (fst r) = rnd i.
  Record hinv (zis : list (list nat)) (xs : list supplied) (reqs : list (Z * list nat * list Z)) (s : pstate) : Prop := {
    h_keys : forall i e, In (i, e) (q_index (pc_queue s)) -> (i < q_ind (pc_queue s))%nat;
    h_nodup : NoDup (map fst (q_index (pc_queue s)));
    h_req : Forall2 (asked (q_index (pc_queue s))) (q_requested (pc_queue s)) reqs;
    h_zis : Permutation (map (fun r => snd (fst r)) reqs) zis;
    h_once : NoDup (map fst reqs);
    h_used : forall t zi, In (t, zi) (map fst reqs) -> In t (used_for zi (q_chosen (pc_queue s)));
    h_wait : exists rest, waiting (q_index (pc_queue s)) (pc_computed s) rest /\ pc_fed s ++ rest = xs;
    h_apart : NoDup (map fst (q_requested (pc_queue s)) ++ map fst (pc_computed s));
    h_bound : forall i, In i (map fst (q_requested (pc_queue s)) ++ map fst (pc_computed s)) -> (i < q_ind (pc_queue s))%nat;
    h_count : pc_queued s = Z.of_nat (length (q_requested (pc_queue s)) + length (pc_computed s)) }.
  Lemma hinv_empty : hinv [] [] [] empty_ps.
  Proof.
    split; cbn [empty_ps empty_queue pc_queue pc_computed pc_queued pc_fed q_index q_requested q_chosen q_ind map app length].
    - intros i e [].
    - apply NoDup_nil.
    - apply Forall2_nil.
    - apply perm_nil.
    - apply NoDup_nil.
    - intros t zi [].
    - exists []. split; [apply Forall2_nil|reflexivity].
    - apply NoDup_nil.
    - intros i [].
    - reflexivity.
  Qed.
  Lemma asked_more index index' e r : (forall x, In x index -> In x index') -> asked index e r -> asked index' e r.
  Proof. intros H [A B]. split; [apply H; exact A|exact B]. Qed.
  Lemma waiting_more index index' c xs : (forall x, In x index -> In x index') -> waiting index c xs -> waiting index' c xs.
  Proof. intros H W. unfold waiting in *. induction W as [|e x c xs [A B] W IH]; constructor; [split; [apply H; exact A|exact B]|exact IH]. Qed.
  Lemma perm_front {A} (l : list A) x y : Permutation (x :: l) y -> Permutation (l ++ [x]) y.
  Proof. intros P. rewrite <- P. symmetry. apply Permutation_cons_append. Qed.
  Lemma step_queue ones zi zis xs reqs s q : hinv zis xs reqs s -> queue_one p n change order shift rz rnd fuel ones zi (pc_queue s) = Ret q ->
    exists reqs', hinv (zi :: zis) xs reqs' (mk_ps q (pc_computed s) (pc_queued s + 1) (pc_fed s)).
  Proof.
    intros [K ND Rq Z1 On Us Wt Ap Bd Ct] H. unfold queue_one in H. change (match chosen_for zi (q_chosen (pc_queue s)) with Some ts => ts | None => [] end) with (used_for zi (q_chosen (pc_queue s))) in H.
    destruct (new_t fuel rnd (used_for zi (q_chosen (pc_queue s))) (q_drawn (pc_queue s))) as [[t k']| | | |] eqn:E; cbn [obind fst snd] in H; try discriminate H.
    destruct (probe_point p n change order (rz zi) shift t) as [values| | | |] eqn:V; cbn [obind] in H; try discriminate H.
    destruct (new_t_ret _ _ _ _ _ _ E) as [Nt Ri].
    assert (Hq : q = mk_queue (put_chosen zi t (q_chosen (pc_queue s))) (S (q_ind (pc_queue s))) (if ones then (q_ind (pc_queue s), values) :: q_requested (pc_queue s) else q_requested (pc_queue s) ++ [(q_ind (pc_queue s), values)]) (q_index (pc_queue s) ++ [(q_ind (pc_queue s), (t, zi))]) k') by congruence.
    clear H. subst q. destruct s as [[ch ind req index dr] comp qd fed]. cbn [pc_queue pc_computed pc_queued pc_fed q_index q_requested q_chosen q_ind q_drawn] in *.
    exists (if ones then (t, zi, values) :: reqs else reqs ++ [(t, zi, values)]).
    assert (Nn : ~ In ind (map fst index)). { intros I. apply in_map_iff in I as [[i e] [Ei I]]. cbn [fst] in Ei. subst i. specialize (K _ _ I). lia. }
    assert (Nx : ~ In (t, zi) (map fst reqs)). { intros I. apply Nt. apply Us. exact I. }
    assert (Mo : forall x, In x index -> In x (index ++ [(ind, (t, zi))])) by (intros x I; apply in_or_app; left; exact I).
    assert (As : asked (index ++ [(ind, (t, zi))]) (ind, values) (t, zi, values)). { split; [apply in_or_app; right; left; reflexivity|]. split; [reflexivity|]. split; [exact V|exact Ri]. }
    assert (Rq' : Forall2 (asked (index ++ [(ind, (t, zi))])) req reqs). { clear - Rq Mo. induction Rq; constructor; [apply (asked_more index); assumption|assumption]. }
    assert (Ni : ~ In ind (map fst req ++ map fst comp)). { intros I. specialize (Bd _ I). lia. }
    split; cbn [pc_queue pc_computed pc_queued pc_fed q_index q_requested q_chosen q_ind q_drawn].
    - intros i e I. apply in_app_or in I. destruct I as [I|[I|[]]]; [specialize (K _ _ I); lia|injection I as <- _; lia].
    - rewrite map_app. cbn [map fst]. apply (Permutation_NoDup (Permutation_cons_append _ _)). constructor; assumption.
    - destruct ones; [constructor; assumption|]. apply Forall2_app; [exact Rq'|constructor; [exact As|constructor]].
    - destruct ones; cbn [map fst snd]; [apply perm_skip; exact Z1|]. rewrite map_app. cbn [map fst snd]. apply perm_front. apply perm_skip. exact Z1.
    - destruct ones; cbn [map fst]; [constructor; assumption|]. rewrite map_app. cbn [map fst]. apply (Permutation_NoDup (Permutation_cons_append _ _)). constructor; assumption.
    - intros t0 z0 I. rewrite used_put. assert (J : (t0, z0) = (t, zi) \/ In (t0, z0) (map fst reqs)).
      { destruct ones; cbn [map fst] in I; [destruct I as [I|I]; [left; congruence|right; exact I]|]. rewrite map_app in I. apply in_app_or in I. destruct I as [I|[I|[]]]; [right; exact I|left; cbn [fst] in I; congruence]. }
      destruct J as [J|J].
      + injection J as -> ->. replace (same_order zi zi) with true by (symmetry; apply same_order_ok; reflexivity). left. reflexivity.
      + specialize (Us _ _ J). destruct (same_order zi z0); [right|]; exact Us.
    - destruct Wt as [rest [W F]]. exists rest. split; [apply (waiting_more index); assumption|exact F].
    - destruct ones; cbn [map fst app]; [constructor; assumption|]. rewrite map_app, <- app_assoc. cbn [map fst app]. apply (Permutation_NoDup (Permutation_middle _ _ _)). constructor; assumption.
    - intros i I. assert (J : i = ind \/ In i (map fst req ++ map fst comp)).
      { destruct ones; cbn [map fst app] in I; [destruct I as [I|I]; [left; congruence|right; exact I]|]. rewrite map_app, <- app_assoc in I. cbn [map fst app] in I.
        apply (Permutation_in _ (Permutation_sym (Permutation_middle _ _ _))) in I. destruct I as [I|I]; [left; congruence|right; exact I]. }
      destruct J as [->|J]; [lia|]. specialize (Bd _ J). lia.
    - destruct ones; [cbn [length]|rewrite app_length; cbn [length]]; lia.
  Qed.
  Lemma step_queues ones zi k : forall zis xs reqs s q, hinv zis xs reqs s -> queue_probes p n change order shift rz rnd fuel ones zi k (pc_queue s) = Ret q ->
    exists reqs', hinv (repeat zi k ++ zis) xs reqs' (mk_ps q (pc_computed s) (pc_queued s + Z.of_nat k) (pc_fed s)).
  Proof.
    induction k as [|k IH]; intros zis xs reqs s q H E; cbn [queue_probes] in E.
    - injection E as <-. exists reqs. cbn [repeat app]. rewrite Z.add_0_r. destruct s; exact H.
    - destruct (queue_one p n change order shift rz rnd fuel ones zi (pc_queue s)) as [q1| | | |] eqn:E1; cbn [obind] in E; try discriminate E.
      destruct (step_queue _ _ _ _ _ _ _ H E1) as [r1 H1]. destruct (IH _ _ _ _ q H1 E) as [r2 H2]. exists r2. cbn [pc_computed pc_queued pc_fed] in H2.
      replace (pc_queued s + 1 + Z.of_nat k) with (pc_queued s + Z.of_nat (S k)) in H2 by lia.
      destruct H2 as [K ND Rq Z1 On Us Wt Ap Bd Ct]. split; try assumption. rewrite Z1. cbn [repeat app]. symmetry. apply Permutation_middle.
  Qed.
  Lemma step_add zis xs reqs x s : hinv zis xs reqs s -> hinv zis (xs ++ [x]) reqs (add_probe x s).
  Proof.
    intros [K ND Rq Z1 On Us Wt Ap Bd Ct]. destruct x as [[t zi] r]. destruct s as [[ch ind req index dr] comp qd fed]. cbn [add_probe pc_queue pc_computed pc_queued pc_fed q_index q_requested q_chosen q_ind q_drawn] in *.
    assert (Nn : ~ In ind (map fst index)). { intros I. apply in_map_iff in I as [[i e] [Ei I]]. cbn [fst] in Ei. subst i. specialize (K _ _ I). lia. }
    assert (Ni : ~ In ind (map fst req ++ map fst comp)). { intros I. specialize (Bd _ I). lia. }
    assert (Mo : forall x, In x index -> In x (index ++ [(ind, (t, zi))])) by (intros x I; apply in_or_app; left; exact I).
    split; cbn [pc_queue pc_computed pc_queued pc_fed q_index q_requested q_chosen q_ind q_drawn]; try assumption.
    - intros i e I. apply in_app_or in I. destruct I as [I|[I|[]]]; [specialize (K _ _ I); lia|injection I as <- _; lia].
    - rewrite map_app. cbn [map fst]. apply (Permutation_NoDup (Permutation_cons_append _ _)). constructor; assumption.
    - clear - Rq Mo. induction Rq; constructor; [apply (asked_more index); assumption|assumption].
    - destruct Wt as [rest [W F]]. exists (rest ++ [(t, zi, r)]). split; [|rewrite app_assoc; exact (f_equal (fun l => l ++ [(t, zi, r)]) F)]. apply Forall2_app; [apply (waiting_more index); assumption|].
      constructor; [|constructor]. cbn [fst snd]. split; [apply in_or_app; right; left; reflexivity|reflexivity].
    - rewrite map_app. cbn [map fst]. rewrite app_assoc. apply (Permutation_NoDup (Permutation_cons_append _ _)). constructor; assumption.
    - intros i I. rewrite map_app, app_assoc in I. cbn [map fst] in I. apply in_app_or in I. destruct I as [I|[I|[]]]; [specialize (Bd _ I); lia|lia].
    - rewrite app_length. cbn [length]. lia.
  Qed.
  Lemma step_adds zis reqs ys : forall xs s, hinv zis xs reqs s -> hinv zis (xs ++ ys) reqs (add_all ys s).
  Proof.
    induction ys as [|y ys IH]; intros xs s H; [rewrite app_nil_r; exact H|]. change (add_all (y :: ys) s) with (add_all ys (add_probe y s)). replace (xs ++ y :: ys) with ((xs ++ [y]) ++ ys) by (rewrite <- app_assoc; reflexivity).
    apply IH. apply step_add. exact H.
  Qed.
  Lemma erase_other i index j e : j <> i -> In (j, e) index -> In (j, e) (erase_index i index).
  Proof. intros N I. apply filter_In. split; [exact I|]. cbn [fst]. destruct (Nat.eqb_spec j i); [contradiction|reflexivity]. Qed.
  Lemma step_feed zis xs reqs s s' : hinv zis xs reqs s -> feed_one s = Ret s' -> hinv zis xs reqs s'.
  Proof.
    intros [K ND Rq Z1 On Us Wt Ap Bd Ct] H. destruct s as [[ch ind req index dr] comp qd fed]. cbn [pc_queue pc_computed pc_queued pc_fed q_index q_requested q_chosen q_ind q_drawn] in *.
    unfold feed_one in H. cbn [pc_queue pc_computed pc_queued pc_fed q_index q_requested q_chosen q_ind q_drawn] in H. destruct comp as [|[i r] comp]; [discriminate H|].
    destruct Wt as [rest [W F]]. inversion W as [|? x ? rest' [A B] W' E1 E2]. subst. destruct x as [[t zi] r']. cbn [fst snd] in A, B. subst r'.
    rewrite (nfind_in _ _ _ ND A) in H. cbv zeta in H. apply (f_equal (fun o => match o with Ret a => a | _ => empty_ps end)) in H. cbv iota in H. subst s'.
    assert (Ai : ~ In i (map fst req ++ map fst comp)). { cbn [map fst] in Ap. apply NoDup_remove in Ap. apply Ap. }
    assert (Ap' : NoDup (map fst req ++ map fst comp)). { cbn [map fst] in Ap. apply NoDup_remove in Ap. apply Ap. }
    assert (Fl : forall x, In x (erase_index i index) -> In x index) by (intros x I; apply filter_In in I; apply I).
    split; cbn [pc_queue pc_computed pc_queued pc_fed q_index q_requested q_chosen q_ind q_drawn]; try assumption.
    - intros j e I. apply (K j e), Fl, I.
    - clear - ND. unfold erase_index. induction index as [|e l IH]; [constructor|]. cbn [map] in ND. apply NoDup_cons_iff in ND. destruct ND as [N1 N2]. cbn [filter]. destruct (negb (fst e =? i)%nat); [|apply IH; exact N2].
      cbn [map]. constructor; [|apply IH; exact N2]. intros I. apply N1. apply in_map_iff in I as [y [E I]]. apply filter_In in I. rewrite <- E. apply in_map. apply I.
    - assert (Q : forall e, In e req -> fst e <> i) by (intros e I E; apply Ai, in_or_app; left; rewrite <- E; apply in_map; exact I).
      clear - Rq Q. induction Rq as [|e x l l' [A B] Rq IH]; constructor.
      + split; [apply erase_other; [apply Q; left; reflexivity|exact A]|exact B].
      + apply IH. intros y I. apply Q. right. exact I.
    - exists rest'. split; [|rewrite <- app_assoc; reflexivity]. assert (Q : forall e, In e comp -> fst e <> i) by (intros e I E; apply Ai, in_or_app; right; rewrite <- E; apply in_map; exact I).
      clear - W' Q. unfold waiting in *. induction W' as [|e x l l' [A B] W IH]; constructor.
      + split; [apply erase_other; [apply Q; left; reflexivity|exact A]|exact B].
      + apply IH. intros y I. apply Q. right. exact I.
    - intros j I. apply Bd. apply in_app_or in I. apply in_or_app. destruct I as [I|I]; [left; exact I|right; right; exact I].
    - cbn [length]. lia.
  Qed.
  (** what the events of a history supply and ask for *)
  Definition loads (es : list pevent) : list chars := flat_map (fun e => match e with PLoad f => [f] | _ => [] end) es.
  Definition queued (es : list pevent) : list (list nat) := flat_map (fun e => match e with PQueue _ zi k => repeat zi k | _ => [] end) es.
  Lemma history_ok es : forall zis xs reqs s s' xss, (2 <= n)%nat -> 0 < p <= two64 -> hinv zis xs reqs s -> prun p n change order shift rz rnd fuel es s = Ret s' ->
    Forall2 (fun ys f => Forall (supplied_ok n) ys /\ supplied_file ys f) xss (loads es) ->
    exists zis' reqs', hinv zis' (xs ++ map (reduced p) (concat xss)) reqs' s' /\ Permutation zis' (zis ++ queued es).
  Proof.
    induction es as [|e es IH]; intros zis xs reqs s s' xss Hn Hp H E F; cbn [prun] in E.
    - injection E as <-. cbn [loads flat_map] in F. inversion F; subst. exists zis, reqs. cbn [concat map queued flat_map]. rewrite !app_nil_r. split; [exact H|reflexivity].
    - destruct (pstep p n change order shift rz rnd fuel e s) as [s1| | | |] eqn:E1; cbn [obind] in E; try discriminate E. destruct e as [ones zi k|f|]; cbn [pstep] in E1.
      + destruct (queue_probes p n change order shift rz rnd fuel ones zi k (pc_queue s)) as [q| | | |] eqn:Eq; cbn [obind] in E1; try discriminate E1.
        apply (f_equal (fun o => match o with Ret a => a | _ => empty_ps end)) in E1. cbv iota in E1. subst s1. destruct (step_queues _ _ _ _ _ _ _ _ H Eq) as [r1 H1].
        destruct (IH _ _ _ _ _ xss Hn Hp H1 E F) as [z2 [r2 [H2 P2]]]. exists z2, r2. split; [exact H2|]. rewrite P2. cbn [queued flat_map]. rewrite <- app_assoc. rewrite (app_assoc zis). rewrite (app_assoc (repeat zi k)).
        apply Permutation_app_tail. apply Permutation_app_comm.
      + cbn [loads flat_map app] in F. inversion F as [|ys ? xss' ? [Fo Ff] F' A1 A2]. subst. rewrite (load_probes_ok p n ys f s Hn Hp Fo Ff) in E1. apply (f_equal (fun o => match o with Ret a => a | _ => empty_ps end)) in E1. cbv iota in E1. subst s1.
        destruct (IH _ _ _ _ _ xss' Hn Hp (step_adds _ _ _ _ _ H) E F') as [z2 [r2 [H2 P2]]]. exists z2, r2. split; [|exact P2]. cbn [concat]. rewrite map_app, app_assoc. exact H2.
      + destruct (IH _ _ _ _ _ xss Hn Hp (step_feed _ _ _ _ _ H E1) E F) as [z2 [r2 [H2 P2]]]. exists z2, r2. split; [exact H2|exact P2].
  Qed.
  Lemma request_lines_ok index : NoDup (map fst index) -> forall req reqs, Forall2 (asked index) req reqs -> request_lines index req = Ret (map (fun r => request_line (fst (fst r)) (snd (fst r)) (snd r)) reqs).
  Proof.
    intros ND req reqs F. induction F as [|[i v] [[t zi] w] req reqs [A [B C]] F IH]; [reflexivity|]. cbn [request_lines]. cbn [fst snd] in A, B. subst w. rewrite (nfind_in _ _ _ ND A), IH. reflexivity.
  Qed.
End History.

(** ---- the answers ---- *)
Lemma request_text t zi values : supplied_text (t, zi, values) (request_line t zi values).
Proof. exists []. split; [left; reflexivity|]. unfold request_line. rewrite app_nil_r, !flat_map_concat_map. reflexivity. Qed.
Lemma bar_split (a a' b b' : chars) : ~ In bar a -> ~ In bar a' -> a ++ bar :: b = a' ++ bar :: b' -> a = a' /\ b = b'.
Proof.
  revert a'. induction a as [|c a IH]; intros a' N N' E; destruct a' as [|c' a']; cbn [app] in E.
  - injection E as <-. split; reflexivity.
  - injection E as E1 E2. exfalso. apply N'. left. symmetry. exact E1.
  - injection E as E1 E2. exfalso. apply N. left. exact E1.
  - injection E as E1 E2. subst c'. destruct (IH a' ltac:(intros I; apply N; right; exact I) ltac:(intros I; apply N'; right; exact I) E2) as [-> ->]. split; reflexivity.
Qed.
Lemma answered_text t zi values r line' : answered (request_line t zi values) r line' -> supplied_text (t, zi, r) line'.
Proof.
  intros [a [b [c [blank [Na [Nb [Hb [E ->]]]]]]]]. exists blank. split; [exact Hb|]. unfold request_line in E. rewrite !flat_map_concat_map in E.
  change (concat (map (fun z : nat => print (Z.of_nat z) ++ [sp]) zi)) with (zwords zi) in E. change (str "| ") with [bar; sp] in E. change (str " |") with [sp; bar] in E.
  assert (E' : zwords zi ++ bar :: ((sp :: print t ++ [sp]) ++ bar :: concat (map (fun v => sp :: print v) values)) = a ++ bar :: b ++ bar :: c).
  { etransitivity; [|exact E]. cbn [app]. rewrite <- !app_assoc. reflexivity. }
  destruct (bar_split _ _ _ _ (zwords_nobar zi) Na E') as [A1 A2].
  assert (Nt : ~ In bar (sp :: print t ++ [sp])). { intros [I|I]; [discriminate I|]. apply in_app_or in I. destruct I as [I|[I|[]]]; [exact (print_nobar t I)|discriminate I]. }
  destruct (bar_split _ _ _ _ Nt Nb A2) as [B1 _]. rewrite <- A1, <- B1. change (concat (map (fun z : nat => print (Z.of_nat z) ++ [" "%char]) zi)) with (zwords zi). cbn [app]. rewrite <- !app_assoc. reflexivity.
Qed.

(** Proofs about the saved states (StateFile.v). *)
From Coq Require Import Ascii String.
From Verif Require Import Machine FFInt FFIntProofs RatNum RatNumProofs SYGrammar SYEval SYEvalProofs DecPrint StateFile StateSpec.
From Coq Require Import List.
Import ListNotations.
Open Scope Z_scope.

(** ---- words and blanks ---- *)
Lemma num_not_sp c : num_char c = true -> Ascii.eqb c sp = false.
Proof. intros H. destruct (Ascii.eqb_spec c sp) as [->|]; [discriminate H|reflexivity]. Qed.
Lemma cut_word w rest : forallb num_char w = true -> cut (w ++ sp :: rest) = Some (w, rest).
Proof.
  induction w as [|c w IH]; intros H; cbn [app cut].
  - change (Ascii.eqb sp sp) with true. reflexivity.
  - cbn [forallb] in H. apply andb_true_iff in H. destruct H as [A B]. rewrite (num_not_sp c A), (IH B). reflexivity.
Qed.
Lemma cut_none w : forallb num_char w = true -> cut w = None.
Proof.
  induction w as [|c w IH]; intros H; [reflexivity|]. cbn [cut forallb] in *. apply andb_true_iff in H. destruct H as [A B]. rewrite (num_not_sp c A), (IH B). reflexivity.
Qed.
Lemma cut_num z rest : cut (num_sp z ++ rest) = Some (print z, rest).
Proof. unfold num_sp. rewrite <- app_assoc. apply cut_word. apply print_chars. Qed.
Lemma vec_loop_eq conv fuel left line : vec_loop conv fuel left line =
  match cut line with
  | None => Ret ([], line)
  | Some (w, rest) =>
      obind (conv w) (fun v =>
      if left - 1 =? 0 then Ret ([v], rest)
      else match fuel with
           | O => Diverge
           | S f => obind (vec_loop conv f (left - 1) rest) (fun '(vs, l) => Ret (v :: vs, l))
           end)
  end.
Proof. destruct fuel; reflexivity. Qed.
(** without a limit: up to the last blank *)
Lemma vec_loop_all conv v : forall fuel left rest, (forall x, In x v -> conv (print x) = Ret x) -> cut rest = None ->
  left <= 0 -> (length v <= fuel)%nat -> vec_loop conv fuel left (flat_map num_sp v ++ rest) = Ret (v, rest).
Proof.
  induction v as [|x v IH]; intros fuel left rest Hc Hr Hl Hf; rewrite vec_loop_eq; cbn [flat_map app].
  - rewrite Hr. reflexivity.
  - rewrite <- app_assoc, cut_num, (Hc x (or_introl eq_refl)). cbn [obind]. destruct (Z.eqb_spec (left - 1) 0); [lia|].
    cbn [length] in Hf. destruct fuel as [|f]; [lia|]. rewrite IH; [reflexivity| |assumption|lia|lia]. intros y Hy. apply Hc. right. exact Hy.
Qed.
(** with a limit *)
Lemma vec_loop_lim conv v : forall fuel rest, (forall x, In x v -> conv (print x) = Ret x) -> v <> [] -> (length v <= fuel)%nat ->
  vec_loop conv fuel (Z.of_nat (length v)) (flat_map num_sp v ++ rest) = Ret (v, rest).
Proof.
  induction v as [|x v IH]; intros fuel rest Hc Hn Hf; [contradiction|]. rewrite vec_loop_eq. cbn [flat_map].
  rewrite <- app_assoc, cut_num, (Hc x (or_introl eq_refl)). cbn [obind]. cbn [length] in *. destruct v as [|y v].
  - cbn [length flat_map app]. change (Z.of_nat 1 - 1 =? 0) with true. reflexivity.
  - destruct (Z.eqb_spec (Z.of_nat (S (length (y :: v))) - 1) 0) as [E|E]; [cbn [length] in E; lia|]. destruct fuel as [|f]; [lia|].
    replace (Z.of_nat (S (length (y :: v))) - 1) with (Z.of_nat (length (y :: v))) by lia.
    rewrite IH; [reflexivity| |discriminate|lia]. intros z Hz. apply Hc. right. exact Hz.
Qed.
Lemma len_entries v rest : (length v <= length (flat_map num_sp v ++ rest))%nat.
Proof.
  induction v as [|x v IH]; [cbn; lia|]. cbn [flat_map]. rewrite <- app_assoc, app_length. unfold num_sp at 1. rewrite app_length. cbn [length] in *. lia.
Qed.
Lemma stoi32_print z : small z -> stoi32 (print z) = Ret z.
Proof.
  intros H. unfold small, two31 in H. unfold stoi32. rewrite stoi_print by (unfold two31; lia). cbn [obind]. rewrite wrap32_small; [reflexivity|unfold two32; lia].
Qed.
Lemma parse32_all v rest : Forall small v -> cut rest = None -> parse_vector_32 (flat_map num_sp v ++ rest) (-1) = Ret (v, rest).
Proof.
  intros H Hr. apply vec_loop_all; [|exact Hr|lia|apply len_entries]. intros x Hx. rewrite Forall_forall in H. apply stoi32_print, H, Hx.
Qed.
Lemma parse32_lim v rest : Forall small v -> v <> [] -> parse_vector_32 (flat_map num_sp v ++ rest) (Z.of_nat (length v)) = Ret (v, rest).
Proof.
  intros H Hn. apply vec_loop_lim; [|exact Hn|apply len_entries]. intros x Hx. rewrite Forall_forall in H. apply stoi32_print, H, Hx.
Qed.
Lemma parse32_line v : Forall small v -> parse_vector_32 (flat_map num_sp v) (-1) = Ret (v, []).
Proof. intros H. rewrite <- (app_nil_r (flat_map num_sp v)). apply parse32_all; [exact H|reflexivity]. Qed.
Lemma parseFF_lim p v rest : 0 < p <= two64 -> Forall (fun x => 0 <= x < p) v -> v <> [] ->
  parse_vector_FFInt p (flat_map num_sp v ++ rest) (Z.of_nat (length v)) = Ret (v, rest).
Proof.
  intros Hp H Hn. apply vec_loop_lim; [|exact Hn|apply len_entries]. intros x Hx. rewrite Forall_forall in H. specialize (H x Hx).
  rewrite stoul_print by lia. cbn [obind]. rewrite ff_ctor_canon by lia. reflexivity.
Qed.
Lemma parseFF_line p v : 0 < p <= two64 -> Forall (fun x => 0 <= x < p) v ->
  parse_vector_FFInt p (flat_map num_sp v) (-1) = Ret (v, []).
Proof.
  intros Hp H. rewrite <- (app_nil_r (flat_map num_sp v)). apply vec_loop_all; [|reflexivity|lia|apply len_entries].
  intros x Hx. rewrite Forall_forall in H. specialize (H x Hx). rewrite stoul_print by lia. cbn [obind]. rewrite ff_ctor_canon by lia. reflexivity.
Qed.
Lemma parse_rat r : rn_wf r -> parse_rational_number (print (num r) ++ sp :: print (den r)) = Ret r.
Proof.
  intros [Hd Hg]. unfold parse_rational_number. rewrite cut_word by apply print_chars. rewrite !mpz_print. cbn [obind].
  rewrite rn_make_exact by assumption. destruct r; reflexivity.
Qed.

(** ---- file names ---- *)
Lemma upto_app c a b : (forall x, In x a -> Ascii.eqb x c = false) -> upto c (a ++ c :: b) = a.
Proof.
  induction a as [|x a IH]; intros H; cbn [app upto].
  - rewrite Ascii.eqb_refl. reflexivity.
  - rewrite (H x (or_introl eq_refl)), IH; [reflexivity|]. intros y Hy. apply H. right. exact Hy.
Qed.
Lemma num_not_us x : num_char x = true -> Ascii.eqb x "_"%char = false.
Proof. intros H. destruct (Ascii.eqb_spec x "_"%char) as [->|]; [discriminate H|reflexivity]. Qed.
Lemma parse_file_name dir tag k : small k -> parse_prime_number (file_name dir tag k) = Ret k.
Proof.
  intros H. unfold parse_prime_number, file_name. replace (dir ++ tag ++ str "_" ++ print k ++ str ".gz") with ((dir ++ tag) ++ ["_"%char] ++ print k ++ ["."; "g"; "z"]%char)
    by (rewrite <- app_assoc; reflexivity).
  rewrite !rev_app_distr. cbn [rev app skipn]. rewrite <- app_assoc. cbn [app]. rewrite upto_app.
  - rewrite rev_involutive. apply stoi32_print. exact H.
  - intros x Hx. apply in_rev in Hx. apply num_not_us. pose proof (proj2 (print_chars k)) as Q. rewrite forallb_forall in Q. apply Q. exact Hx.
Qed.

(** ---- lines ---- *)
Lemma getlines_line l rest : no_nl l -> forall acc, getlines (l ++ nl :: rest) acc = (acc ++ l) :: getlines rest [].
Proof.
  intros H. induction l as [|c l IH]; intros acc; cbn [app getlines].
  - change (Ascii.eqb nl nl) with true. cbv iota. rewrite app_nil_r. reflexivity.
  - destruct (Ascii.eqb_spec c nl) as [->|N]; [exfalso; apply H; left; reflexivity|]. rewrite IH; [|intros X; apply H; right; exact X].
    rewrite <- app_assoc. reflexivity.
Qed.
Lemma getlines_file ls : Forall no_nl ls -> getlines (to_file ls) [] = ls.
Proof.
  induction ls as [|l ls IH]; intros H; [reflexivity|]. unfold to_file in *. cbn [flat_map]. rewrite <- app_assoc. cbn [app].
  inversion H; subst. rewrite getlines_line by assumption. cbn [app]. rewrite IH by assumption. reflexivity.
Qed.
(** data lines: digits, minus signs and blanks; they do not announce a variable *)
Definition data_char (c : ascii) : bool := num_char c || Ascii.eqb c sp.
Definition data_line (l : chars) : Prop := forallb data_char l = true.
Lemma data_no_nl l : data_line l -> no_nl l.
Proof. unfold data_line, no_nl. intros H X. rewrite forallb_forall in H. specialize (H _ X). discriminate H. Qed.
Lemma data_app a b : data_line a -> data_line b -> data_line (a ++ b).
Proof. unfold data_line. intros A B. rewrite forallb_app, A, B. reflexivity. Qed.
Lemma data_num w : forallb num_char w = true -> data_line w.
Proof.
  unfold data_line. induction w as [|c w IH]; intros H; [reflexivity|]. cbn [forallb] in *. apply andb_true_iff in H. destruct H as [A B]. unfold data_char at 1. rewrite A. cbn [orb andb]. exact (IH B).
Qed.
Lemma data_print z : data_line (print z). Proof. apply data_num, print_chars. Qed.
Lemma data_num_sp z : data_line (num_sp z). Proof. apply data_app; [apply data_print|reflexivity]. Qed.
Lemma data_entries v : data_line (flat_map num_sp v).
Proof. induction v as [|x v IH]; [reflexivity|]. cbn [flat_map]. apply data_app; [apply data_num_sp|exact IH]. Qed.
Lemma data_bit b : data_line (bit b). Proof. destruct b; reflexivity. Qed.
Lemma find_key_data l : data_line l -> find_key keywords l = None.
Proof.
  intros H. assert (Q : forall ks, forallb (fun kv => match fst kv : chars with c :: _ => negb (data_char c) | [] => false end) ks = true -> find_key ks l = None).
  { induction ks as [|[k v] ks IH]; intros Hk; [reflexivity|]. cbn [forallb fst] in Hk. apply andb_true_iff in Hk. destruct Hk as [A B].
    cbn [find_key]. destruct k as [|c k]; [discriminate|]. destruct l as [|x l].
    - cbn [chars_eqb]. apply IH, B.
    - cbn [chars_eqb]. unfold data_line in H. cbn [forallb] in H. apply andb_true_iff in H. destruct H as [H1 _].
      destruct (Ascii.eqb_spec c x) as [->|N]; [rewrite H1 in A; discriminate|]. cbn [andb]. apply IH, B. }
  apply Q. vm_compute. reflexivity.
Qed.
Lemma str_no_nl_bool l : existsb (fun c => Ascii.eqb c nl) l = false -> no_nl l.
Proof. intros H X. apply Bool.not_true_iff_false in H. apply H. apply existsb_exists. exists nl. split; [exact X|reflexivity]. Qed.
Lemma read_lines_app p pr a : forall b s, read_lines p pr (a ++ b) s = obind (read_lines p pr a s) (read_lines p pr b).
Proof.
  induction a as [|l a IH]; intros b s; [reflexivity|]. cbn [app read_lines]. destruct (read_line p pr l s) as [s'| | | |]; cbn [obind]; [apply IH|reflexivity..].
Qed.
Lemma read_data p pr l s : data_line l -> read_line p pr l s = read_value p pr l s.
Proof. intros H. unfold read_line. rewrite (find_key_data l H). reflexivity. Qed.
Lemma entries_ok n v : length v = n -> entries n v = Ret (flat_map num_sp v).
Proof. intros <-. unfold entries. rewrite Nat.ltb_irrefl, firstn_all. reflexivity. Qed.
Lemma oseq_map {A B} (f : A -> outcome B) (g : A -> B) l : (forall x, In x l -> f x = Ret (g x)) -> oseq (map f l) = Ret (map g l).
Proof.
  induction l as [|x l IH]; intros H; [reflexivity|]. cbn [map oseq]. rewrite (H x (or_introl eq_refl)). cbn [obind]. rewrite IH; [reflexivity|]. intros y Hy. apply H. right. exact Hy.
Qed.

(** ---- containers ---- *)
Lemma zlist_eqb_eq a : forall b, zlist_eqb a b = true <-> a = b.
Proof.
  induction a as [|x a IH]; intros [|y b]; cbn [zlist_eqb]; try (split; [discriminate|discriminate]); [split; reflexivity|].
  rewrite andb_true_iff, IH, Z.eqb_eq. split; [intros [-> ->]; reflexivity|intros X; injection X; auto].
Qed.
Lemma memk_In {A} v (m : list (mono * A)) : memk v m = true <-> In v (map fst m).
Proof.
  induction m as [|[k a] m IH]; cbn [memk map fst In]; [split; [discriminate|contradiction]|]. rewrite orb_true_iff, IH, zlist_eqb_eq. tauto.
Qed.
Definition put {A} (m : list (mono * A)) (e : mono * A) : list (mono * A) := emplace m (fst e) (snd e).
Lemma put_all {A} (l : list (mono * A)) : forall m, NoDup (map fst (m ++ l)) -> fold_left put l m = m ++ l.
Proof.
  induction l as [|[v a] l IH]; intros m H; cbn [fold_left]; [rewrite app_nil_r; reflexivity|]. unfold put at 2, emplace. cbn [fst snd].
  destruct (memk v m) eqn:E.
  - exfalso. apply memk_In in E. rewrite map_app in H. cbn [map fst] in H. apply NoDup_remove_2 in H. apply H. apply in_or_app. left. exact E.
  - rewrite IH; rewrite <- app_assoc; [reflexivity|exact H].
Qed.
Lemma put_all_nil {A} (l : list (mono * A)) : NoDup (map fst l) -> fold_left put l [] = l. Proof. intros H. apply put_all. exact H. Qed.
Lemma set_all l : forall m, NoDup (m ++ l) -> fold_left emplace_set l m = m ++ l.
Proof.
  induction l as [|z l IH]; intros m H; cbn [fold_left]; [rewrite app_nil_r; reflexivity|]. unfold emplace_set at 2.
  destruct (existsb (Z.eqb z) m) eqn:E.
  - exfalso. apply existsb_exists in E. destruct E as [x [Hx E]]. apply Z.eqb_eq in E. subst. apply NoDup_remove_2 in H. apply H. apply in_or_app. left. exact Hx.
  - rewrite IH; rewrite <- app_assoc; [reflexivity|exact H].
Qed.
Lemma set_all_nil l : NoDup l -> fold_left emplace_set l [] = l. Proof. intros H. apply set_all. exact H. Qed.

Definition subpairs (sub : list (Z * list (mono * Z))) : list (Z * mono) :=
  flat_map (fun '(d, m) => flat_map (fun '(v, c) => if c =? 0 then [] else [(d, v)]) m) sub.
Lemma subpairs_In sub d v : In (d, v) (subpairs sub) <-> exists c, c <> 0 /\ term_of sub d v c.
Proof.
  unfold subpairs, term_of. rewrite in_flat_map. split.
  - intros [[d' m] [H1 H2]]. apply in_flat_map in H2. destruct H2 as [[v' c] [H3 H4]]. destruct (Z.eqb_spec c 0); [destruct H4|].
    destruct H4 as [H4|[]]. injection H4 as -> ->. exists c. split; [assumption|]. exists m. split; assumption.
  - intros [c [Hc [m [H1 H2]]]]. exists (d, m). split; [exact H1|]. apply in_flat_map. exists (v, c). split; [exact H2|]. destruct (Z.eqb_spec c 0); [contradiction|]. left. reflexivity.
Qed.
Definition sub_put (p : Z) (s : list (Z * list (mono * Z))) (e : Z * mono) := sub_add p s (fst e) (snd e).
Lemma pol_add1_new p m v : 1 < p -> (forall c, ~ In (v, c) m) -> pol_add1 p m v = m ++ [(v, 1)].
Proof.
  intros Hp. assert (E1 : ff_ctor p 1 = 1) by (apply ff_ctor_canon; lia). induction m as [|[k c] m IH]; intros H; cbn [pol_add1 app]; [rewrite E1; reflexivity|].
  destruct (zlist_eqb k v) eqn:E; [apply zlist_eqb_eq in E; subst; exfalso; apply (H c); left; reflexivity|].
  rewrite IH; [reflexivity|]. intros c' X. apply (H c'). right. exact X.
Qed.
Lemma sub_add_term p s d v : 1 < p -> (forall c, ~ term_of s d v c) ->
  forall d' v' c', term_of (sub_add p s d v) d' v' c' <-> term_of s d' v' c' \/ (d' = d /\ v' = v /\ c' = 1).
Proof.
  intros Hp. assert (E1 : ff_ctor p 1 = 1) by (apply ff_ctor_canon; lia). induction s as [|[e m] s IH]; intros H d' v' c'; cbn [sub_add].
  - rewrite E1. unfold term_of. split.
    + intros [m [[X|[]] Y]]. injection X as -> <-. destruct Y as [Y|[]]. injection Y as -> ->. right. repeat split.
    + intros [[m [[] _]]|[-> [-> ->]]]. exists [(v, 1)]. split; left; reflexivity.
  - destruct (Z.eqb_spec e d) as [->|N].
    + rewrite pol_add1_new; [|exact Hp|intros c X; apply (H c); exists m; split; [left; reflexivity|exact X]]. unfold term_of. split.
      * intros [m' [[X|X] Y]].
        -- injection X as -> <-. apply in_app_or in Y. destruct Y as [Y|[Y|[]]]; [left; exists m; split; [left; reflexivity|exact Y]|]. injection Y as -> ->. right. repeat split.
        -- left. exists m'. split; [right; exact X|exact Y].
      * intros [[m' [[X|X] Y]]|[-> [-> ->]]].
        -- injection X as -> ->. eexists. split; [left; reflexivity|]. apply in_or_app. left. exact Y.
        -- exists m'. split; [right; exact X|exact Y].
        -- eexists. split; [left; reflexivity|]. apply in_or_app. right. left. reflexivity.
    + assert (H' : forall c, ~ term_of s d v c) by (intros c [m' [X Y]]; apply (H c); exists m'; split; [right; exact X|exact Y]).
      specialize (IH H' d' v' c'). unfold term_of in *. split.
      * intros [m' [[X|X] Y]]; [left; exists m'; split; [left; exact X|exact Y]|].
        destruct (proj1 IH (ex_intro _ m' (conj X Y))) as [[m2 [P Q]]|Q]; [left; exists m2; split; [right; exact P|exact Q]|right; exact Q].
      * intros [[m' [[X|X] Y]]|Q]; [exists m'; split; [left; exact X|exact Y]| |].
        -- destruct (proj2 IH (or_introl (ex_intro _ m' (conj X Y)))) as [m2 [P Q]]. exists m2. split; [right; exact P|exact Q].
        -- destruct (proj2 IH (or_intror Q)) as [m2 [P Q2]]. exists m2. split; [right; exact P|exact Q2].
Qed.
Lemma sub_add_fst p s d v : map fst (sub_add p s d v) = map fst s \/ (~ In d (map fst s) /\ map fst (sub_add p s d v) = map fst s ++ [d]).
Proof.
  induction s as [|[e m] s IH]; cbn [sub_add map fst]; [right; split; [intros []|reflexivity]|]. destruct (Z.eqb_spec e d) as [->|N]; [left; reflexivity|].
  cbn [map fst]. destruct IH as [E|[X E]]; rewrite E; [left; reflexivity|]. right. split; [intros [Y|Y]; [contradiction|exact (X Y)]|reflexivity].
Qed.
Lemma NoDup_snoc {A} (l : list A) x : NoDup l -> ~ In x l -> NoDup (l ++ [x]).
Proof. intros H N. apply NoDup_rev in H. rewrite <- (rev_involutive (l ++ [x])). apply NoDup_rev. rewrite rev_app_distr. cbn. constructor; [|exact H]. rewrite <- in_rev. exact N. Qed.
Lemma sub_all p l : 1 < p -> forall s, NoDup l -> NoDup (map fst s) -> (forall d v, In (d, v) l -> forall c, ~ term_of s d v c) ->
  NoDup (map fst (fold_left (sub_put p) l s)) /\
  forall d v c, term_of (fold_left (sub_put p) l s) d v c <-> term_of s d v c \/ (c = 1 /\ In (d, v) l).
Proof.
  intros Hp. induction l as [|[d0 v0] l IH]; intros s Hn Hs H; cbn [fold_left].
  - split; [exact Hs|]. intros d v c. cbn [In]. tauto.
  - inversion Hn; subst. unfold sub_put at 2 4. cbn [fst snd].
    pose proof (sub_add_term p s d0 v0 Hp (H d0 v0 (or_introl eq_refl))) as T. destruct (IH (sub_add p s d0 v0)) as [A B]; [assumption| |..].
    + destruct (sub_add_fst p s d0 v0) as [E|[X E]]; rewrite E; [exact Hs|apply NoDup_snoc; assumption].
    + intros d v Hd c X. apply T in X. destruct X as [X|[-> [-> _]]]; [revert X; apply H; right; exact Hd|contradiction].
    + split; [exact A|]. intros d v c. rewrite B, T. cbn [In]. split.
      * intros [[X|[-> [-> ->]]]|[-> X]]; [left; exact X|right; split; [reflexivity|left; reflexivity]|right; split; [reflexivity|right; exact X]].
      * intros [X|[-> [X|X]]]; [left; left; exact X|injection X as -> ->; left; right; repeat split|right; split; [reflexivity|exact X]].
Qed.
Definition sub_line (e : Z * mono) : chars := num_sp (fst e) ++ flat_map num_sp (snd e) ++ [sp].
Lemma pol_zero_none m : pol_zero m = true -> forall (d : Z), flat_map (fun '(v, c) => if c =? 0 then [] else [(d, v : mono)]) m = [].
Proof.
  destruct m as [|[v c] [|? ?]]; cbn [pol_zero]; intros H d; [reflexivity| |discriminate H]. cbn [flat_map]. rewrite H. reflexivity.
Qed.
Lemma oseq_app {A} (a b : list (outcome A)) x y : oseq a = Ret x -> oseq b = Ret y -> oseq (a ++ b) = Ret (x ++ y).
Proof.
  revert x. induction a as [|u a IH]; intros x Ha Hb; [injection Ha as <-; exact Hb|]. cbn [app oseq] in *.
  destruct u as [u| | | |]; cbn [obind] in *; try discriminate Ha. destruct (oseq a) as [w| | | |]; cbn [obind] in *; try discriminate Ha. injection Ha as <-.
  rewrite (IH w eq_refl Hb). reflexivity.
Qed.
Lemma subpairs_nodup sub : NoDup (map fst sub) -> (forall d m, In (d, m) sub -> NoDup (map fst m)) -> NoDup (subpairs sub).
Proof.
  assert (Q : forall d (m : list (mono * Z)), NoDup (map fst m) -> NoDup (flat_map (fun '(v, c) => if c =? 0 then [] else [(d : Z, v : mono)]) m)).
  { intros d m. induction m as [|[v c] m IH]; intros H; [constructor|]. cbn [map fst flat_map] in *. inversion H as [|? ? H1 H2]; subst. destruct (c =? 0); [exact (IH H2)|].
    cbn [app]. constructor; [|exact (IH H2)]. intros X. apply in_flat_map in X. destruct X as [[v' c'] [X1 X2]]. destruct (c' =? 0); [destruct X2|]. destruct X2 as [X2|[]].
    injection X2 as ->. apply H1. change v with (fst (v, c')). apply in_map. exact X1. }
  unfold subpairs. induction sub as [|[d m] sub IH]; intros H1 H2; [constructor|]. cbn [map fst flat_map] in *. inversion H1 as [|? ? N1 N2]; subst.
  assert (A := Q d m (H2 d m (or_introl eq_refl))). assert (B := IH N2 (fun d' m' X => H2 d' m' (or_intror X))).
  assert (D : forall x, In x (flat_map (fun '(v, c) => if c =? 0 then [] else [(d : Z, v : mono)]) m) -> fst x = d).
  { intros [d' v'] X. apply in_flat_map in X. destruct X as [[v c] [_ X]]. destruct (c =? 0); [destruct X|]. destruct X as [X|[]]. injection X as -> _. reflexivity. }
  revert A D. generalize (flat_map (fun '(v, c) => if c =? 0 then [] else [(d : Z, v : mono)]) m). intros l A D. induction l as [|x l IHl]; [exact B|].
  inversion A; subst. cbn [app]. constructor; [|apply IHl; [assumption|intros y Y; apply D; right; exact Y]]. intros X. apply in_app_or in X. destruct X as [X|X]; [contradiction|].
  apply N1. rewrite <- (D x (or_introl eq_refl)). apply in_flat_map in X. destruct X as [[d' m'] [X1 X2]]. apply in_flat_map in X2. destruct X2 as [[v c] [_ X2]].
  destruct (c =? 0); [destruct X2|]. destruct X2 as [<-|[]]. cbn [fst]. change d' with (fst (d', m')). apply in_map. exact X1.
Qed.
Lemma sub_lines_ok n sub : Forall (fun e => length (snd e) = n) (subpairs sub) -> sub_lines n sub = Ret (map sub_line (subpairs sub)).
Proof.
  unfold sub_lines, subpairs. induction sub as [|[d m] sub IH]; intros H; [reflexivity|]. cbn [flat_map] in *. apply Forall_app in H. destruct H as [H1 H2].
  rewrite map_app. apply oseq_app; [|exact (IH H2)]. destruct (pol_zero m) eqn:E.
  - rewrite (pol_zero_none m E). reflexivity.
  - clear E IH H2. induction m as [|[v c] m IH]; [reflexivity|]. cbn [flat_map] in *. apply Forall_app in H1. destruct H1 as [H1 H2].
    rewrite map_app. apply oseq_app; [|exact (IH H2)]. destruct (c =? 0); [reflexivity|]. inversion H1; subst. cbn [snd] in *. cbn [oseq map]. rewrite entries_ok by reflexivity. reflexivity.
Qed.

(** ---- reading the blocks of a file ---- *)
Fixpoint read_values (p pr : Z) (ls : list chars) (s : ld) : outcome ld :=
  match ls with [] => Ret s | l :: r => obind (read_value p pr l s) (read_values p pr r) end.
Lemma read_data_lines p pr ls : forall s, Forall data_line ls -> read_lines p pr ls s = read_values p pr ls s.
Proof.
  induction ls as [|l ls IH]; intros s H; [reflexivity|]. inversion H; subst. cbn [read_lines read_values]. rewrite read_data by assumption.
  destruct (read_value p pr l s); cbn [obind]; [apply IH; assumption|reflexivity..].
Qed.
Lemma block p pr kw K ls s : find_key keywords kw = Some K -> Forall data_line ls -> read_lines p pr (kw :: ls) s = read_values p pr ls (set_key K s).
Proof. intros H Hd. cbn [read_lines]. unfold read_line at 1. rewrite H. cbn [obind]. apply read_data_lines. exact Hd. Qed.
Lemma data1 l : data_line l -> Forall data_line [l]. Proof. intros H. constructor; [exact H|constructor]. Qed.
Lemma stoi_bit b : stoi (bit b) = Ret (if b then 1 else 0). Proof. destruct b; reflexivity. Qed.
Lemma bit_back (b : bool) : negb ((if b then 1 else 0) =? 0) = b. Proof. destruct b; reflexivity. Qed.
Lemma Forall_map_data {A} (f : A -> chars) l : (forall x, In x l -> data_line (f x)) -> Forall data_line (map f l).
Proof. intros H. apply Forall_forall. intros x Hx. apply in_map_iff in Hx. destruct Hx as [y [<- Hy]]. apply H. exact Hy. Qed.
Lemma set_line_data l : Forall data_line (set_line l).
Proof. destruct l; [constructor|apply data1, data_entries]. Qed.
Definition rat_line (e : mono * rn) : chars := flat_map num_sp (fst e) ++ print (num (snd e)) ++ sp :: print (den (snd e)).
Definition mpz_line (e : mono * Z) : chars := flat_map num_sp (fst e) ++ print (snd e).
Lemma rat_line_data e : data_line (rat_line e).
Proof. apply data_app; [apply data_entries|]. apply data_app; [apply data_print|]. apply (data_app [sp]); [reflexivity|apply data_print]. Qed.
Lemma mpz_line_data e : data_line (mpz_line e). Proof. apply data_app; [apply data_entries|apply data_print]. Qed.
Lemma sub_line_data e : data_line (sub_line e).
Proof. apply data_app; [apply data_num_sp|]. apply data_app; [apply data_entries|reflexivity]. Qed.
Lemma rat_lines_ok n g : Forall (fun e => mono_ok n (fst e)) g -> rat_lines n g = Ret (map rat_line g).
Proof.
  intros H. rewrite Forall_forall in H. apply oseq_map. intros [v r] Hx. destruct (H _ Hx) as [L _]. cbn [fst] in L. rewrite entries_ok by exact L. reflexivity.
Qed.
Lemma mpz_lines_ok n g : Forall (fun e => mono_ok n (fst e)) g -> mpz_lines n g = Ret (map mpz_line g).
Proof.
  intros H. rewrite Forall_forall in H. apply oseq_map. intros [v r] Hx. destruct (H _ Hx) as [L _]. cbn [fst] in L. rewrite entries_ok by exact L. reflexivity.
Qed.
Lemma mono_parse n v rest : (0 < n)%nat -> mono_ok n v -> parse_vector_32 (flat_map num_sp v ++ rest) (Z.of_nat n) = Ret (v, rest).
Proof. intros Hn [<- H]. apply parse32_lim; [exact H|]. intros ->. cbn in Hn. lia. Qed.

Section Blocks.
  Context (p pr : Z) (cur : key) (seen : list key) (cp : Z) (tg : chars) (dn : bool) (mdn mdd : Z) (idn idd : list Z) (need : bool) (sing : list Z)
    (ndeg : mono) (n : nat) (ntd ndn : bool) (smne : Z) (sh rs : list Z) (subn subd : list (Z * list (mono * Z))) (zdn zdd : list Z)
    (gni gdi : list (mono * rn)) (cni cdi cpni cpdi : list (mono * Z)) (it : Z).
  Notation S0 := (mk_ld cur seen cp tg dn mdn mdd idn idd need sing ndeg n ntd ndn smne sh rs subn subd zdn zdd gni gdi cni cdi cpni cpdi it).

  Lemma blk_tag t : no_nl t -> find_key keywords t = None -> read_lines p pr [str "tag_name"; t] S0 =
    Ret (mk_ld TAG_NAME (TAG_NAME :: seen) cp t dn mdn mdd idn idd need sing ndeg n ntd ndn smne sh rs subn subd zdn zdd gni gdi cni cdi cpni cpdi it).
  Proof.
    intros _ H. change [str "tag_name"; t] with ([str "tag_name"] ++ [t]). rewrite read_lines_app. rewrite (block _ _ _ TAG_NAME) by (reflexivity || constructor).
    cbn [read_values obind read_lines]. unfold read_line. rewrite H. cbn [obind set_key read_value]. reflexivity.
  Qed.
  Lemma blk_done b : read_lines p pr [str "is_done"; bit b] S0 =
    Ret (mk_ld IS_DONE (IS_DONE :: seen) cp tg b mdn mdd idn idd need sing ndeg n ntd ndn smne sh rs subn subd zdn zdd gni gdi cni cdi cpni cpdi it).
  Proof. rewrite (block _ _ _ IS_DONE); [|reflexivity|apply data1, data_bit]. cbn [read_values set_key read_value]. rewrite stoi_bit. cbn [obind]. rewrite bit_back. reflexivity. Qed.
  Lemma blk_mdn z : - two31 <= z < two31 -> read_lines p pr [str "max_deg_num"; print z] S0 =
    Ret (mk_ld MAX_DEG_NUM (MAX_DEG_NUM :: seen) cp tg dn z mdd idn idd need sing ndeg n ntd ndn smne sh rs subn subd zdn zdd gni gdi cni cdi cpni cpdi it).
  Proof. intros H. rewrite (block _ _ _ MAX_DEG_NUM); [|reflexivity|apply data1, data_print]. cbn [read_values set_key read_value]. rewrite stoi_print by exact H. reflexivity. Qed.
  Lemma blk_mdd z : - two31 <= z < two31 -> read_lines p pr [str "max_deg_den"; print z] S0 =
    Ret (mk_ld MAX_DEG_DEN (MAX_DEG_DEN :: seen) cp tg dn mdn z idn idd need sing ndeg n ntd ndn smne sh rs subn subd zdn zdd gni gdi cni cdi cpni cpdi it).
  Proof. intros H. rewrite (block _ _ _ MAX_DEG_DEN); [|reflexivity|apply data1, data_print]. cbn [read_values set_key read_value]. rewrite stoi_print by exact H. reflexivity. Qed.
  Lemma blk_idn v : Forall small v -> (v = [] -> idn = []) -> read_lines p pr (str "individual_degrees_num" :: set_line v) S0 =
    Ret (mk_ld INDIVIDUAL_DEGREES_NUM seen cp tg dn mdn mdd v idd need sing ndeg n ntd ndn smne sh rs subn subd zdn zdd gni gdi cni cdi cpni cpdi it).
  Proof.
    intros H E. rewrite (block _ _ _ INDIVIDUAL_DEGREES_NUM); [|reflexivity|apply set_line_data]. destruct v as [|x v]; [rewrite E by reflexivity; reflexivity|].
    cbn [set_line read_values set_key read_value]. rewrite parse32_line by exact H. reflexivity.
  Qed.
  Lemma blk_idd v : Forall small v -> (v = [] -> idd = []) -> read_lines p pr (str "individual_degrees_den" :: set_line v) S0 =
    Ret (mk_ld INDIVIDUAL_DEGREES_DEN seen cp tg dn mdn mdd idn v need sing ndeg n ntd ndn smne sh rs subn subd zdn zdd gni gdi cni cdi cpni cpdi it).
  Proof.
    intros H E. rewrite (block _ _ _ INDIVIDUAL_DEGREES_DEN); [|reflexivity|apply set_line_data]. destruct v as [|x v]; [rewrite E by reflexivity; reflexivity|].
    cbn [set_line read_values set_key read_value]. rewrite parse32_line by exact H. reflexivity.
  Qed.
  Lemma blk_need b : read_lines p pr [str "need_prime_shift"; bit b] S0 =
    Ret (mk_ld NEED_PRIME_SHIFT (NEED_PRIME_SHIFT :: seen) cp tg dn mdn mdd idn idd b (if negb dn && b then emplace_set sing pr else sing) ndeg n ntd ndn smne sh rs subn subd zdn zdd gni gdi cni cdi cpni cpdi it).
  Proof. rewrite (block _ _ _ NEED_PRIME_SHIFT); [|reflexivity|apply data1, data_bit]. cbn [read_values set_key read_value]. rewrite stoi_bit. cbn [obind]. rewrite bit_back. reflexivity. Qed.
  Lemma blk_ndeg v : Forall small v -> read_lines p pr [str "normalizer_deg"; flat_map num_sp v] S0 =
    Ret (mk_ld NORMALIZER_DEG (NORMALIZER_DEG :: seen) cp tg dn mdn mdd idn idd need sing v (length v) ntd ndn smne sh rs subn subd zdn zdd gni gdi cni cdi cpni cpdi it).
  Proof. intros H. rewrite (block _ _ _ NORMALIZER_DEG); [|reflexivity|apply data1, data_entries]. cbn [read_values set_key read_value]. rewrite parse32_line by exact H. reflexivity. Qed.
  Lemma blk_ntd b : read_lines p pr [str "normalize_to_den"; bit b] S0 =
    Ret (mk_ld NORMALIZE_TO_DEN (NORMALIZE_TO_DEN :: seen) cp tg dn mdn mdd idn idd need sing ndeg n b ndn smne sh rs subn subd zdn zdd gni gdi cni cdi cpni cpdi it).
  Proof. rewrite (block _ _ _ NORMALIZE_TO_DEN); [|reflexivity|apply data1, data_bit]. cbn [read_values set_key read_value]. rewrite stoi_bit. cbn [obind]. rewrite bit_back. reflexivity. Qed.
  Lemma blk_ndn b : read_lines p pr [str "normalizer_den_num"; bit b] S0 =
    Ret (mk_ld NORMALIZER_DEN_NUM (NORMALIZER_DEN_NUM :: seen) cp tg dn mdn mdd idn idd need sing ndeg n ntd b smne sh rs subn subd zdn zdd gni gdi cni cdi cpni cpdi it).
  Proof. rewrite (block _ _ _ NORMALIZER_DEN_NUM); [|reflexivity|apply data1, data_bit]. cbn [read_values set_key read_value]. rewrite stoi_bit. cbn [obind]. rewrite bit_back. reflexivity. Qed.
  Lemma blk_smne z : small z -> read_lines p pr [str "shifted_max_num_eqn"; print z] S0 =
    Ret (mk_ld SHIFTED_MAX_NUM_EQN (SHIFTED_MAX_NUM_EQN :: seen) cp tg dn mdn mdd idn idd need sing ndeg n ntd ndn z sh rs subn subd zdn zdd gni gdi cni cdi cpni cpdi it).
  Proof. intros H. rewrite (block _ _ _ SHIFTED_MAX_NUM_EQN); [|reflexivity|apply data1, data_print]. cbn [read_values set_key read_value]. rewrite stoi32_print by exact H. reflexivity. Qed.
  Definition flag (x : Z) : Z := if x =? 0 then 0 else 1.
  Lemma flags_line v : flat_map (fun x => if x =? 0 then str "0 " else str "1 ") v = flat_map num_sp (map flag v).
  Proof. induction v as [|x v IH]; [reflexivity|]. cbn [flat_map map]. rewrite IH. f_equal. unfold flag. destruct (x =? 0); reflexivity. Qed.
  Lemma blk_shift v : read_lines p pr [str "shift"; flat_map (fun x => if x =? 0 then str "0 " else str "1 ") v] S0 =
    obind (if dn then Ret (sh, rs) else set_shift_flags p n (map flag v) sh rs) (fun '(sh', rs') =>
    Ret (mk_ld SHIFT (SHIFT :: seen) cp tg dn mdn mdd idn idd need sing ndeg n ntd ndn smne sh' rs' subn subd zdn zdd gni gdi cni cdi cpni cpdi it)).
  Proof.
    rewrite flags_line. rewrite (block _ _ _ SHIFT); [|reflexivity|apply data1, data_entries]. cbn [read_values set_key read_value]. destruct dn; [reflexivity|].
    rewrite parse32_line.
    - cbn [obind]. destruct (set_shift_flags p n (map flag v) sh rs) as [[a b]| | | |]; reflexivity.
    - apply Forall_forall. intros x Hx. apply in_map_iff in Hx. destruct Hx as [y [<- _]]. unfold flag, small, two31. destruct (y =? 0); lia.
  Qed.
  Definition pair_ok (e : Z * mono) : Prop := small (fst e) /\ mono_ok n (snd e).
  Lemma sub_parse {B} e (k : Z -> mono -> outcome B) : (0 < n)%nat -> pair_ok e ->
    obind (parse_vector_32 (sub_line e) 1) (fun '(ds, line') => match ds with [] => UB | d :: _ => obind (parse_vector_32 line' (Z.of_nat n)) (fun '(v, _) => k d v) end) = k (fst e) (snd e).
  Proof.
    intros Hn [H1 H2]. unfold sub_line. pose proof (parse32_lim [fst e] (flat_map num_sp (snd e) ++ [sp])) as Q. cbn [flat_map length] in Q. rewrite app_nil_r in Q.
    change (Z.of_nat 1) with 1 in Q. rewrite Q; [|constructor; [exact H1|constructor]|discriminate]. cbn [obind]. rewrite mono_parse by assumption. reflexivity.
  Qed.
  Lemma blk_zdn v : Forall small v -> read_lines p pr (str "zero_degs_num" :: set_line v) S0 =
    Ret (mk_ld ZERO_DEGS_NUM (ZERO_DEGS_NUM :: seen) cp tg dn mdn mdd idn idd need sing ndeg n ntd ndn smne sh rs subn subd (fold_left emplace_set v zdn) zdd gni gdi cni cdi cpni cpdi it).
  Proof.
    intros H. rewrite (block _ _ _ ZERO_DEGS_NUM); [|reflexivity|apply set_line_data]. destruct v as [|x v]; [reflexivity|].
    cbn [set_line read_values set_key read_value]. rewrite parse32_line by exact H. reflexivity.
  Qed.
  Lemma blk_zdd v : Forall small v -> read_lines p pr (str "zero_degs_den" :: set_line v) S0 =
    Ret (mk_ld ZERO_DEGS_DEN (ZERO_DEGS_DEN :: seen) cp tg dn mdn mdd idn idd need sing ndeg n ntd ndn smne sh rs subn subd zdn (fold_left emplace_set v zdd) gni gdi cni cdi cpni cpdi it).
  Proof.
    intros H. rewrite (block _ _ _ ZERO_DEGS_DEN); [|reflexivity|apply set_line_data]. destruct v as [|x v]; [reflexivity|].
    cbn [set_line read_values set_key read_value]. rewrite parse32_line by exact H. reflexivity.
  Qed.
  Lemma blk_interp z : (0 < n)%nat -> small z -> read_lines p pr [str "interpolations"; print z] S0 =
    Ret (mk_ld INTERPOLATIONS (INTERPOLATIONS :: seen) cp tg dn mdn mdd idn idd need sing ndeg n ntd ndn smne sh rs subn subd zdn zdd gni gdi cni cdi cpni cpdi z).
  Proof.
    intros Hn H. rewrite (block _ _ _ INTERPOLATIONS); [|reflexivity|apply data1, data_print]. cbn [read_values set_key read_value].
    replace (n =? 0)%nat with false by (symmetry; apply Nat.eqb_neq; lia). rewrite stoi32_print by exact H. reflexivity.
  Qed.
End Blocks.
Section Blocks2.
  Context (p pr : Z) (cur : key) (seen : list key) (cp : Z) (tg : chars) (dn : bool) (mdn mdd : Z) (idn idd : list Z) (need : bool) (sing : list Z)
    (ndeg : mono) (n : nat) (ntd ndn : bool) (smne : Z) (sh rs : list Z) (subn subd : list (Z * list (mono * Z))) (zdn zdd : list Z)
    (gni gdi : list (mono * rn)) (cni cdi cpni cpdi : list (mono * Z)) (it : Z) (Hn : (0 < n)%nat).
  Notation S0 := (mk_ld cur seen cp tg dn mdn mdd idn idd need sing ndeg n ntd ndn smne sh rs subn subd zdn zdd gni gdi cni cdi cpni cpdi it).
  Ltac start K D := rewrite (block _ _ _ K); [|reflexivity|apply Forall_map_data; intros; apply D]; cbn [set_key];
    match goal with |- context [K :: seen] => generalize (K :: seen); intros sn end.
  Ltac go := cbn [fold_left map read_values read_value]; replace (n =? 0)%nat with false by (symmetry; apply Nat.eqb_neq; clear - Hn; lia).
  Lemma blk_subn l : Forall (pair_ok n) l -> read_lines p pr (str "sub_num" :: map sub_line l) S0 =
    Ret (mk_ld SUB_NUM (SUB_NUM :: seen) cp tg dn mdn mdd idn idd need sing ndeg n ntd ndn smne sh rs (fold_left (sub_put p) l subn) subd zdn zdd gni gdi cni cdi cpni cpdi it).
  Proof.
    start SUB_NUM sub_line_data. revert subn. induction l as [|e l IH]; intros m H; [reflexivity|]. inversion H; subst. go.
    rewrite (sub_parse n e) by assumption. cbn [obind]. apply IH. assumption.
  Qed.
  Lemma blk_subd l : Forall (pair_ok n) l -> read_lines p pr (str "sub_den" :: map sub_line l) S0 =
    Ret (mk_ld SUB_DEN (SUB_DEN :: seen) cp tg dn mdn mdd idn idd need sing ndeg n ntd ndn smne sh rs subn (fold_left (sub_put p) l subd) zdn zdd gni gdi cni cdi cpni cpdi it).
  Proof.
    start SUB_DEN sub_line_data. revert subd. induction l as [|e l IH]; intros m H; [reflexivity|]. inversion H; subst. go.
    rewrite (sub_parse n e) by assumption. cbn [obind]. apply IH. assumption.
  Qed.
  Lemma blk_gni l : Forall (fun e => mono_ok n (fst e) /\ rn_wf (snd e)) l -> read_lines p pr (str "g_ni" :: map rat_line l) S0 =
    Ret (mk_ld G_NI (G_NI :: seen) cp tg dn mdn mdd idn idd need sing ndeg n ntd ndn smne sh rs subn subd zdn zdd (fold_left put l gni) gdi cni cdi cpni cpdi it).
  Proof.
    start G_NI rat_line_data. revert gni. induction l as [|e l IH]; intros m H; [reflexivity|]. inversion H as [|? ? [? ?] ?]; subst. go.
    unfold rat_line at 1. rewrite mono_parse by assumption. cbn [obind]. rewrite parse_rat by assumption. cbn [obind]. apply IH. assumption.
  Qed.
  Lemma blk_gdi l : Forall (fun e => mono_ok n (fst e) /\ rn_wf (snd e)) l -> read_lines p pr (str "g_di" :: map rat_line l) S0 =
    Ret (mk_ld G_DI (G_DI :: seen) cp tg dn mdn mdd idn idd need sing ndeg n ntd ndn smne sh rs subn subd zdn zdd gni (fold_left put l gdi) cni cdi cpni cpdi it).
  Proof.
    start G_DI rat_line_data. revert gdi. induction l as [|e l IH]; intros m H; [reflexivity|]. inversion H as [|? ? [? ?] ?]; subst. go.
    unfold rat_line at 1. rewrite mono_parse by assumption. cbn [obind]. rewrite parse_rat by assumption. cbn [obind]. apply IH. assumption.
  Qed.
  Lemma blk_cni l : Forall (fun e => mono_ok n (fst e)) l -> read_lines p pr (str "combined_ni" :: map mpz_line l) S0 =
    Ret (mk_ld COMBINED_NI (COMBINED_NI :: seen) cp tg dn mdn mdd idn idd need sing ndeg n ntd ndn smne sh rs subn subd zdn zdd gni gdi (fold_left put l cni) cdi cpni cpdi it).
  Proof.
    start COMBINED_NI mpz_line_data. revert cni. induction l as [|e l IH]; intros m H; [reflexivity|]. inversion H; subst. go.
    unfold mpz_line at 1. rewrite mono_parse by assumption. cbn [obind]. rewrite mpz_print. cbn [obind]. apply IH. assumption.
  Qed.
  Lemma blk_cdi l : Forall (fun e => mono_ok n (fst e)) l -> read_lines p pr (str "combined_di" :: map mpz_line l) S0 =
    Ret (mk_ld COMBINED_DI (COMBINED_DI :: seen) cp tg dn mdn mdd idn idd need sing ndeg n ntd ndn smne sh rs subn subd zdn zdd gni gdi cni (fold_left put l cdi) cpni cpdi it).
  Proof.
    start COMBINED_DI mpz_line_data. revert cdi. induction l as [|e l IH]; intros m H; [reflexivity|]. inversion H; subst. go.
    unfold mpz_line at 1. rewrite mono_parse by assumption. cbn [obind]. rewrite mpz_print. cbn [obind]. apply IH. assumption.
  Qed.
  Lemma blk_cpni l : Forall (fun e => mono_ok n (fst e)) l -> read_lines p pr (str "combined_primes_ni" :: map mpz_line l) S0 =
    Ret (mk_ld COMBINED_PRIMES_NI (COMBINED_PRIMES_NI :: seen) cp tg dn mdn mdd idn idd need sing ndeg n ntd ndn smne sh rs subn subd zdn zdd gni gdi cni cdi (fold_left put l cpni) cpdi it).
  Proof.
    start COMBINED_PRIMES_NI mpz_line_data. revert cpni. induction l as [|e l IH]; intros m H; [reflexivity|]. inversion H; subst. go.
    unfold mpz_line at 1. rewrite mono_parse by assumption. cbn [obind]. rewrite mpz_print. cbn [obind]. apply IH. assumption.
  Qed.
  Lemma blk_cpdi l : Forall (fun e => mono_ok n (fst e)) l -> read_lines p pr (str "combined_primes_di" :: map mpz_line l) S0 =
    Ret (mk_ld COMBINED_PRIMES_DI (COMBINED_PRIMES_DI :: seen) cp tg dn mdn mdd idn idd need sing ndeg n ntd ndn smne sh rs subn subd zdn zdd gni gdi cni cdi cpni (fold_left put l cpdi) it).
  Proof.
    start COMBINED_PRIMES_DI mpz_line_data. revert cpdi. induction l as [|e l IH]; intros m H; [reflexivity|]. inversion H; subst. go.
    unfold mpz_line at 1. rewrite mono_parse by assumption. cbn [obind]. rewrite mpz_print. cbn [obind]. apply IH. assumption.
  Qed.
End Blocks2.

(** ---- the shift ---- *)
Lemma shift_flags_ok p n : 0 < p -> forall sv sh rs, length sv = n -> (n <= length sh)%nat -> (n <= length rs)%nat -> Forall (fun r => 0 <= r /\ r mod p <> 0) rs ->
  exists sh' rs', set_shift_flags p n (map flag sv) sh rs = Ret (sh', rs') /\ length sh' = length sh /\ skipn n sh' = skipn n sh /\
    Forall2 (fun a b => a = 0 <-> b = 0) (firstn n sh') sv.
Proof.
  intros Hp. induction n as [|n IH]; intros sv sh rs Hl H1 H2 Hr.
  - destruct sv; [|discriminate]. exists sh, rs. repeat split; [reflexivity..|]. cbn [firstn]. constructor.
  - destruct sv as [|f sv]; [discriminate|]. destruct sh as [|x sh]; [cbn in H1; lia|]. destruct rs as [|r rs]; [cbn in H2; lia|]. cbn [length] in *.
    cbn [map set_shift_flags]. inversion Hr as [|? ? [Hr1 Hr2] Hr3]; subst.
    destruct (negb (flag f =? 0) && (x =? 0)) eqn:E.
    + apply andb_true_iff in E. destruct E as [E1 E2]. destruct (IH sv sh rs) as [sh' [rs' [E [L [Sk F]]]]]; [lia|lia|lia|exact Hr3|]. rewrite E. cbn [obind].
      exists (ff_ctor p r :: sh'), rs'. split; [reflexivity|]. split; [cbn [length]; lia|]. split; [exact Sk|]. cbn [firstn]. constructor; [|exact F].
      rewrite ff_ctor_nonneg by assumption. unfold flag in E1. destruct (Z.eqb_spec f 0); [discriminate|]. tauto.
    + destruct (IH sv sh (r :: rs)) as [sh' [rs' [E' [L [Sk F]]]]]; [lia|lia|cbn [length]; lia|exact Hr|]. rewrite E'. cbn [obind].
      eexists _, rs'. split; [reflexivity|]. split; [cbn [length]; lia|]. split; [exact Sk|]. cbn [firstn]. constructor; [|exact F].
      unfold flag in *. destruct (Z.eqb_spec f 0) as [->|N]; destruct (Z.eqb_spec x 0) as [->|M]; cbn in *; try discriminate; tauto.
Qed.

(** ---- the whole file ---- *)
Lemma find_key_none l w : ~ In w (map fst l) -> find_key l w = None.
Proof.
  induction l as [|[k v] l IH]; intros H; [reflexivity|]. cbn [map fst In] in H. cbn [find_key]. destruct (chars_eqb k w) eqn:E; [apply chars_eqb_eq in E; tauto|]. apply IH. tauto.
Qed.
Lemma sub_ok_pairs n sub : sub_ok n sub -> Forall (pair_ok n) (subpairs sub) /\ NoDup (subpairs sub).
Proof.
  intros [H1 H2]. split.
  - apply Forall_forall. intros [d v] X. apply subpairs_In in X. destruct X as [c [Hc [m [X1 X2]]]]. destruct (H2 d m X1) as [_ H]. destruct (H v c X2 Hc). split; assumption.
  - apply subpairs_nodup; [exact H1|]. intros d m X. apply (H2 d m X).
Qed.
Definition rest_lines (st : rstate) : list chars :=
    [print (combined_prime st)] ++
    [str "tag_name"; tag_name st] ++
    [str "is_done"; bit (done st)] ++
    [str "max_deg_num"; print (max_deg_num st)] ++
    [str "max_deg_den"; print (max_deg_den st)] ++
    (str "individual_degrees_num" :: set_line (map fst (degree_bounds st))) ++
    (str "individual_degrees_den" :: set_line (map snd (degree_bounds st))) ++
    [str "need_prime_shift"; bit (need_shift st)] ++
    [str "normalizer_deg"; flat_map num_sp (normalizer_deg st)] ++
    [str "normalize_to_den"; bit (normalize_to_den st)] ++
    [str "normalizer_den_num"; bit (normalizer_den_num st)] ++
    [str "shifted_max_num_eqn"; print (shifted_max_num_eqn st)] ++
    [str "shift"; flat_map (fun x => if x =? 0 then str "0 " else str "1 ") (firstn (n_ st) (shift st))] ++
    (str "sub_num" :: map sub_line (subpairs (sub_num st))) ++ (str "sub_den" :: map sub_line (subpairs (sub_den st))) ++
    (str "zero_degs_num" :: set_line (zero_degs_num st)) ++ (str "zero_degs_den" :: set_line (zero_degs_den st)) ++
    (str "g_ni" :: map rat_line (g_ni st)) ++ (str "g_di" :: map rat_line (g_di st)) ++
    (str "combined_ni" :: map mpz_line (combined_ni st)) ++ (str "combined_di" :: map mpz_line (combined_di st)) ++
    (str "combined_primes_ni" :: map mpz_line (combined_primes_ni st)) ++ (str "combined_primes_di" :: map mpz_line (combined_primes_di st)) ++
    [str "interpolations"; print (interpolations st)].
Definition state_lines (st : rstate) : list chars := str "combined_prime" :: rest_lines st.
Lemma Forall_fst {A B} (P : A -> Prop) (Q : A * B -> Prop) l : (forall e, Q e -> P (fst e)) -> Forall Q l -> Forall (fun e => P (fst e)) l.
Proof. intros H. apply Forall_impl. exact H. Qed.
Lemma save_lines_ok st : savable st -> save_lines st = Ret (state_lines st).
Proof.
  intros H. destruct H as [Hn _ _ _ _ [Nd _] Hs [Sn0 Sd0] _ [Gn [Gd _]] Hc]. destruct (sub_ok_pairs _ _ Sn0) as [Sn _]. destruct (sub_ok_pairs _ _ Sd0) as [Sd _]. unfold save_lines. cbv zeta.
  rewrite entries_ok by exact Nd. cbn [obind]. replace (length (shift st) <? n_ st)%nat with false by (symmetry; apply Nat.ltb_ge; exact Hs).
  rewrite !sub_lines_ok; [|apply Forall_impl with (2 := Sd); intros e [_ [L _]]; exact L|apply Forall_impl with (2 := Sn); intros e [_ [L _]]; exact L].
  cbn [obind]. rewrite !rat_lines_ok; [|apply Forall_impl with (2 := Gd); intros e [L _]; exact L|apply Forall_impl with (2 := Gn); intros e [L _]; exact L]. cbn [obind].
  inversion Hc as [|? ? [C1 _] Hc1]; subst. inversion Hc1 as [|? ? [C2 _] Hc2]; subst. inversion Hc2 as [|? ? [C3 _] Hc3]; subst. inversion Hc3 as [|? ? [C4 _] _]; subst.
  rewrite !mpz_lines_ok by assumption. cbn [obind]. unfold state_lines, rest_lines, need_shift. destruct (interpolations st =? 1); reflexivity.
Qed.
Lemma data_lines_no_nl ls : Forall data_line ls -> Forall no_nl ls. Proof. apply Forall_impl. exact data_no_nl. Qed.
Lemma state_lines_no_nl st : no_nl (tag_name st) -> Forall no_nl (state_lines st).
Proof.
  intros Ht. assert (K : forall k, existsb (fun c => Ascii.eqb c nl) k = false -> no_nl k) by exact str_no_nl_bool.
  unfold state_lines. apply Forall_cons; [apply K; reflexivity|]. unfold rest_lines. apply Forall_app. split; [apply data_lines_no_nl, data1, data_print|].
  repeat (apply Forall_app; split); (apply Forall_cons; [apply K; reflexivity|]);
    try (apply Forall_cons; [|apply Forall_nil]); try exact Ht; try (apply data_no_nl; (apply data_print || apply data_bit || apply data_entries)).
  all: try (apply data_lines_no_nl; (apply set_line_data || (apply Forall_map_data; intros; (apply sub_line_data || apply rat_line_data || apply mpz_line_data)))).
  apply data_no_nl. rewrite flags_line. apply data_entries.
Qed.
Lemma zip2_split l : zip2 (map fst l) (map snd l) (length l) = Ret l.
Proof. induction l as [|[a b] l IH]; [reflexivity|]. cbn [map fst snd length zip2]. rewrite IH. reflexivity. Qed.

Lemma state_file_ok p st dir tag k n0 sing sh rs : 1 < p -> savable st -> small (k + 1) -> 0 <= k ->
  (n_ st <= length sh)%nat -> (n_ st <= length rs)%nat -> Forall (fun r => 0 <= r /\ r mod p <> 0) rs ->
  exists file, save_state st = Ret file /\
  exists s, start_from_saved_file p n0 sing sh rs (file_name dir tag k) file = Ret (LFull s (degree_bounds st) (k + 1) (need_shift st)) /\
    restored st (k + 1) sing sh s (degree_bounds st).
Proof.
  intros Hp H Hk Hk0 H1 H2 H3. unfold save_state. rewrite (save_lines_ok st H). cbn [obind]. eexists. split; [reflexivity|].
  destruct H as [Hn [T1 T2] [D1 D2] [B1 B2] [I1 I2] [Nd1 Nd2] Hs [Sn0 Sd0] [Z1 [Z2 [Z1' Z2']]] [Gn [Gd [Gn' Gd']]] Hc].
  apply find_key_none in T2. destruct (sub_ok_pairs _ _ Sn0) as [Sn Sn']. destruct (sub_ok_pairs _ _ Sd0) as [Sd Sd'].
  unfold start_from_saved_file. rewrite parse_file_name by (unfold small in *; lia). cbn [obind]. rewrite getlines_file by (apply state_lines_no_nl; exact T1).
  rewrite wrap32_small by (unfold small, two31, two32 in *; lia). cbv zeta. unfold state_lines.
  change (chars_eqb (str "combined_prime") (str "ZERO")) with false. change (chars_eqb (str "combined_prime") (str "tag_name")) with false.
  change (chars_eqb (str "combined_prime") (str "combined_prime")) with true. cbv iota.
  inversion Hc as [|? ? [C1 C1'] Hc1]; subst. inversion Hc1 as [|? ? [C2 C2'] Hc2]; subst. inversion Hc2 as [|? ? [C3 C3'] Hc3]; subst. inversion Hc3 as [|? ? [C4 C4'] _]; subst.
  unfold rest_lines. rewrite read_lines_app. rewrite (read_data_lines _ _ [print (combined_prime st)]) by (apply data1, data_print).
  unfold fresh. cbn [read_values set_key read_value]. rewrite mpz_print. cbn [obind].
  assert (Bn : Forall small (map fst (degree_bounds st))) by (apply Forall_map; apply Forall_impl with (2 := B2); intros b [X _]; exact X).
  assert (Bd : Forall small (map snd (degree_bounds st))) by (apply Forall_map; apply Forall_impl with (2 := B2); intros b [_ X]; exact X).
  rewrite read_lines_app, blk_tag by assumption. cbn [obind]. rewrite read_lines_app, blk_done. cbn [obind].
  rewrite read_lines_app, blk_mdn by assumption. cbn [obind]. rewrite read_lines_app, blk_mdd by assumption. cbn [obind].
  rewrite read_lines_app, blk_idn by (exact Bn || reflexivity). cbn [obind]. rewrite read_lines_app, blk_idd by (exact Bd || reflexivity). cbn [obind].
  rewrite read_lines_app, blk_need. cbn [obind]. rewrite read_lines_app, blk_ndeg by assumption. cbn [obind].
  rewrite read_lines_app, blk_ntd. cbn [obind]. rewrite read_lines_app, blk_ndn. cbn [obind]. rewrite read_lines_app, blk_smne by assumption. cbn [obind].
  rewrite Nd1. rewrite read_lines_app, blk_shift.
  assert (Q : exists sh' rs', (if done st then Ret (sh, rs) else set_shift_flags p (n_ st) (map flag (firstn (n_ st) (shift st))) sh rs) = Ret (sh', rs') /\
    if done st then sh' = sh else length sh' = length sh /\ skipn (n_ st) sh' = skipn (n_ st) sh /\ Forall2 (fun a b => a = 0 <-> b = 0) (firstn (n_ st) sh') (firstn (n_ st) (shift st))).
  { destruct (done st); [exists sh, rs; split; reflexivity|].
    destruct (shift_flags_ok p (n_ st) ltac:(lia) (firstn (n_ st) (shift st)) sh rs) as [sh' [rs' [E [L [Sk F]]]]]; [rewrite firstn_length; lia|assumption..|].
    exists sh', rs'. split; [exact E|]. split; [exact L|]. split; [exact Sk|exact F]. }
  destruct Q as [sh' [rs' [Q1 Q2]]]. rewrite Q1. cbn [obind].
  rewrite read_lines_app, blk_subn by assumption. cbn [obind]. rewrite read_lines_app, blk_subd by assumption. cbn [obind].
  rewrite read_lines_app, blk_zdn by assumption. cbn [obind]. rewrite read_lines_app, blk_zdd by assumption. cbn [obind].
  rewrite !set_all_nil by assumption.
  rewrite read_lines_app, blk_gni by assumption. cbn [obind]. rewrite read_lines_app, blk_gdi by assumption. cbn [obind].
  rewrite read_lines_app, blk_cni by assumption. cbn [obind]. rewrite read_lines_app, blk_cdi by assumption. cbn [obind].
  rewrite read_lines_app, blk_cpni by assumption. cbn [obind]. rewrite read_lines_app, blk_cpdi by assumption. cbn [obind].
  rewrite blk_interp by assumption. cbn [obind]. rewrite !put_all_nil by assumption.
  cbn [l_seen l_idn l_idd l_n l_need].
  match goal with |- context [forallb ?f required] => replace (forallb f required) with true by (symmetry; vm_compute; reflexivity) end.
  match goal with |- exists s, match _ with [] => Ret (LFull ?s0 _ _ _) | _ => _ end = _ /\ _ => exists s0 end. split.
  - destruct B1 as [B1|B1].
    + rewrite B1. reflexivity.
    + rewrite <- B1, zip2_split. destruct (map fst (degree_bounds st)) eqn:E; [|reflexivity]. destruct (degree_bounds st); [reflexivity|discriminate E].
  - destruct (sub_all p (subpairs (sub_num st)) Hp [] Sn' (NoDup_nil _)) as [U1 U2]; [intros d v _ c [m [[] _]]|].
    destruct (sub_all p (subpairs (sub_den st)) Hp [] Sd' (NoDup_nil _)) as [V1 V2]; [intros d v _ c [m [[] _]]|].
    constructor; try reflexivity; try exact Nd1; try exact Q2.
    + split; [exact U1|]. intros d v c. cbn [l_subn]. rewrite U2, subpairs_In. split; [intros [[m [[] _]]|X]; exact X|intros X; right; exact X].
    + split; [exact V1|]. intros d v c. cbn [l_subd]. rewrite V2, subpairs_In. split; [intros [[m [[] _]]|X]; exact X|intros X; right; exact X].
Qed.

(** ---- the other files ---- *)
Lemma kw_no_nl w : existsb (fun c => Ascii.eqb c nl) (str w) = false -> no_nl (str w). Proof. apply str_no_nl_bool. Qed.
Lemma zero_file_ok p n0 sing sh rs dir tag k interp t : 0 <= k -> small (k + 1) -> no_nl t ->
  start_from_saved_file p n0 sing sh rs (file_name dir tag k) (save_zero_state interp t) =
  Ret (if 2 <=? k then LZero true false 0 (k + 1) t else LZero false (1 <? interp) (k + 1) (k + 1) t).
Proof.
  intros Hk Hk1 Ht. unfold start_from_saved_file. rewrite parse_file_name by (unfold small in *; lia). cbn [obind]. rewrite wrap32_small by (unfold small, two31, two32 in *; lia).
  cbv zeta. unfold save_zero_state. rewrite getlines_file.
  - change (chars_eqb (str "ZERO") (str "ZERO")) with true. cbv iota. destruct (Z.ltb_spec 2 (k + 1)); destruct (Z.leb_spec 2 k); try lia; [reflexivity|].
    destruct (1 <? interp); reflexivity.
  - apply Forall_cons; [apply kw_no_nl; reflexivity|]. apply Forall_cons; [destruct (1 <? interp); apply kw_no_nl; reflexivity|]. apply Forall_cons; [exact Ht|apply Forall_nil].
Qed.
Lemma data_not_kw l w : data_line l -> match str w with c :: _ => negb (data_char c) | [] => false end = true -> chars_eqb l (str w) = false.
Proof.
  intros H E. destruct (str w) as [|c r]; [discriminate|]. destruct l as [|x l]; [reflexivity|]. cbn [chars_eqb]. unfold data_line in H. cbn [forallb] in H. apply andb_true_iff in H. destruct H as [H _].
  destruct (Ascii.eqb_spec x c) as [->|N]; [rewrite H in E; discriminate|reflexivity].
Qed.
Lemma initial_file_ok p n0 sing sh rs dir tag k t b : small k -> no_nl t -> (b = [] \/ length b = n0) -> Forall (fun x => small (fst x) /\ small (snd x)) b ->
  start_from_saved_file p n0 sing sh rs (file_name dir tag k) (initial_file t b) = Ret (LInitial t true b).
Proof.
  intros Hk Ht Hb Hs. unfold start_from_saved_file. rewrite parse_file_name by exact Hk. cbn [obind]. cbv zeta. unfold initial_file. rewrite getlines_file.
  - cbn [app]. change (chars_eqb (str "tag_name") (str "ZERO")) with false. change (chars_eqb (str "tag_name") (str "tag_name")) with true. cbv iota.
    destruct b as [|e b]; [reflexivity|]. destruct Hb as [Hb|Hb]; [discriminate|].
    change (set_line (map fst (e :: b))) with [flat_map num_sp (map fst (e :: b))]. change (set_line (map snd (e :: b))) with [flat_map num_sp (map snd (e :: b))]. cbn [app].
    change (stoi (str "1")) with (Ret 1). cbn [obind]. rewrite data_not_kw by (apply data_entries || reflexivity).
    rewrite !parse32_line; [|apply Forall_map; apply Forall_impl with (2 := Hs); intros x [_ X]; exact X|apply Forall_map; apply Forall_impl with (2 := Hs); intros x [X _]; exact X].
    cbn [obind]. rewrite <- Hb, zip2_split. reflexivity.
  - cbn [app]. apply Forall_cons; [apply kw_no_nl; reflexivity|]. apply Forall_cons; [exact Ht|]. do 3 (apply Forall_cons; [apply kw_no_nl; reflexivity|]).
    apply Forall_app. split; [apply data_lines_no_nl, set_line_data|]. apply Forall_cons; [apply kw_no_nl; reflexivity|]. apply data_lines_no_nl, set_line_data.
Qed.
Lemma read_probe_ok p n pr : 0 < p <= two64 -> probe_ok p n pr -> read_probe p n (probe_line pr) = Ret pr.
Proof.
  intros Hp. destruct pr as [[t v] ord]. intros [Ht [Hv [Hl Ho]]]. unfold read_probe, probe_line.
  match goal with |- obind ?x _ = _ => assert (E : x = Ret (ord, num_sp t ++ num_sp v)) end.
  { destruct ord as [|x ord].
    - cbn [length] in Hl. subst. reflexivity.
    - replace (Z.of_nat n - 1) with (Z.of_nat (length (x :: ord))) by lia. replace (1 <? n)%nat with true by (symmetry; apply Nat.ltb_lt; cbn [length] in Hl; lia).
      apply parse32_lim; [exact Ho|discriminate]. }
  rewrite E. cbn [obind]. pose proof (parseFF_lim p [t; v] [] Hp) as Q. cbn [flat_map length] in Q. rewrite !app_nil_r in Q. change (Z.of_nat 2) with 2 in Q.
  rewrite Q; [reflexivity| |discriminate]. apply Forall_cons; [exact Ht|]. apply Forall_cons; [exact Hv|apply Forall_nil].
Qed.
Lemma probe_file_ok p n prs : 0 < p <= two64 -> Forall (probe_ok p n) prs -> read_in_probes p n (write_food prs) = Ret prs.
Proof.
  intros Hp H. unfold read_in_probes, write_food. rewrite getlines_file.
  - rewrite map_map. rewrite (oseq_map _ (fun x => x)); [rewrite map_id; reflexivity|]. intros x Hx. rewrite Forall_forall in H. apply read_probe_ok; [exact Hp|apply H, Hx].
  - apply Forall_map, Forall_forall. intros [[t v] ord] _. apply data_no_nl. unfold probe_line. apply data_app; [apply data_entries|]. apply data_app; apply data_num_sp.
Qed.
(** a component that does not fit into an int cannot be read *)
Lemma parse32_large v x w rest n : Forall small v -> two31 <= x -> (length v < n)%nat ->
  parse_vector_32 (flat_map num_sp (v ++ x :: w) ++ rest) (Z.of_nat n) = Throw.
Proof.
  intros Hv Hx Hn'. unfold parse_vector_32.
  pose proof (len_entries (v ++ x :: w) rest) as L. revert L. generalize (length (flat_map num_sp (v ++ x :: w) ++ rest)). intros fuel L.
  revert fuel n L Hn'. induction v as [|y v IH]; intros fuel n L Hl; rewrite vec_loop_eq; cbn [app flat_map]; rewrite <- app_assoc, cut_num.
  - unfold stoi32. rewrite stoi_large by exact Hx. reflexivity.
  - inversion Hv; subst. rewrite stoi32_print by assumption. cbn [obind length app] in *. destruct (Z.eqb_spec (Z.of_nat n - 1) 0); [lia|].
    destruct fuel as [|f]; [lia|]. replace (Z.of_nat n - 1) with (Z.of_nat (n - 1)) by lia. rewrite IH; [reflexivity|assumption|lia|lia].
Qed.

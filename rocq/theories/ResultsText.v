(** The texts of the factors found by scan_for_factors (Results.v) and the parsers made from them. *)
From Coq Require Import Ascii String Znumtheory Permutation.
From Verif Require Import Machine FFInt FFIntProofs RatNum SYParse SYGrammar SYParseProofs SYValidateProofs SYEval SYEvalProofs SYPreProofs SYObj SYObjProofs DecPrint Printers PrintSpec PrintProofs PrintReads NumTheory Results ResultsSpec.
From Coq Require Import List.
Import ListNotations.
Open Scope Z_scope.

(** ---- a quotient of numbers contains no letter ---- *)
Definition letter (s : chars) : Prop := Exists (fun c => is_alpha c = true) s.
Lemma digit_not_alpha c : is_digit c = true -> is_alpha c = false.
Proof. intros H. pose proof (alnum_cases (fun c => implb (is_digit c) (negb (is_alpha c))) ltac:(vm_compute; reflexivity) c) as X. unfold alnum in X. rewrite H in X. rewrite orb_true_r in X. specialize (X eq_refl). cbn in X. apply negb_true_iff in X. exact X. Qed.
Lemma letter_app a b : letter (a ++ b) <-> letter a \/ letter b. Proof. apply Exists_app. Qed.
Lemma letter_cons c b : letter (c :: b) <-> is_alpha c = true \/ letter b. Proof. apply Exists_cons. Qed.
Lemma letter_nil : ~ letter []. Proof. intros H. inversion H. Qed.
Lemma digits_no_letter w : forallb is_digit w = true -> ~ letter w.
Proof. intros H L. apply Exists_exists in L as [c [I A]]. rewrite forallb_forall in H. specialize (H c I). apply digit_not_alpha in H. congruence. Qed.
Lemma cst_no_letter : (forall b, match b with Par e => cst_e e = true -> ~ letter (show_e e) | Atom _ => True end) /\ (forall f, cst_f f = true -> ~ letter (show_f f)) /\
  (forall t, cst_t t = true -> ~ letter (show_t t)) /\ (forall e, cst_e e = true -> ~ letter (show_e e)).
Proof.
  apply syntax_ind.
  - intros w. exact I.
  - intros e H. exact H.
  - intros [w|e] H x C; destruct x; try discriminate C.
    + cbn [cst_f] in C. cbn [show_f show_b show_expo]. rewrite app_nil_r. apply digits_no_letter. exact C.
    + cbn [cst_f] in C. cbn [show_f show_b show_expo]. rewrite app_nil_r, letter_cons, letter_app, letter_cons. intros [L|[L|[L|L]]]; try discriminate L; [exact (H C L)|exact (letter_nil L)].
  - intros f H C. exact (H C).
  - intros t Ht f Hf C. discriminate C.
  - intros t Ht f Hf C. cbn [cst_t] in C. apply andb_true_iff in C as [C1 C2]. cbn [show_t]. rewrite letter_app, letter_cons. intros [L|[L|L]]; [exact (Ht C1 L)|discriminate L|exact (Hf C2 L)].
  - intros s t Ht C. cbn [cst_e] in C. cbn [show_e]. rewrite letter_app. intros [L|L]; [|exact (Ht C L)]. destruct s; cbn in L; rewrite ?letter_cons in L; repeat (destruct L as [L|L]; [discriminate L|]); exact (letter_nil L).
  - intros e He o t Ht C. discriminate C.
Qed.
(** ---- removing double parentheses does not change the notation ---- *)
Lemma core_rpn e : rpn_e (core e) = rpn_e e.
Proof. destruct e as [[] [[[w|e2] [|n|n|n]]| |]|]; try reflexivity. cbn [core rpn_e rpn_t rpn_f]. rewrite app_nil_r. reflexivity. Qed.
Lemma nf_head t : head_par (nf_t t) = head_par t.
Proof. induction t as [[[w|e] x]|t IH f|t IH f]; try reflexivity; exact IH. Qed.
Lemma nf_rpn : (forall b, plain_b b -> match b with Par e => rpn_e (nf_e e) = rpn_e e | Atom _ => True end) /\ (forall f, plain_f f -> forall sg, rpn_f sg (nf_f f) = rpn_f sg f) /\
  (forall t, plain_t t -> forall sg, rpn_t sg (nf_t t) = rpn_t sg t) /\ (forall e, plain_e e -> rpn_e (nf_e e) = rpn_e e).
Proof.
  apply syntax_ind.
  - intros w P. exact I.
  - intros e H P. exact (H P).
  - intros [w|e] H x P sg; [reflexivity|]. cbn [nf_f nf_b rpn_f]. rewrite core_rpn, (H P). reflexivity.
  - intros f H P sg. exact (H P sg).
  - intros t Ht f Hf [P1 P2] sg. cbn [nf_t rpn_t]. rewrite (Ht P1), (Hf P2). reflexivity.
  - intros t Ht f Hf [P1 P2] sg. cbn [nf_t rpn_t]. rewrite (Ht P1), (Hf P2). reflexivity.
  - intros s t Ht [Ps Pt]. cbn [nf_e rpn_e]. destruct s; cbn [nf_sign plain_sign] in *; try contradiction; cbn [rpn_e]; rewrite ?nf_head, ?(Ht Pt); reflexivity.
  - intros e He o t Ht [P1 [P2 P3]]. cbn [nf_e rpn_e]. rewrite (He P1), (Ht P3). destruct o; try contradiction; reflexivity.
Qed.
Lemma relead_rpn e : plain_e e -> rpn_e (relead (nf_e e)) = rpn_e (relead e).
Proof.
  induction e as [s t|e IH o t]; intros P.
  - cbn [nf_e relead]. rewrite nf_head. destruct P as [Ps Pt]. pose proof (proj1 (proj2 (proj2 nf_rpn)) t Pt) as N. destruct (head_par t) eqn:Hh.
    + destruct s; cbn [nf_sign plain_sign] in *; try contradiction; cbn [rpn_e]; rewrite ?N; reflexivity.
    + destruct s; cbn [nf_sign plain_sign] in *; try contradiction; cbn [rpn_e]; rewrite ?nf_head, ?N; reflexivity.
  - destruct P as [P1 [P2 P3]]. cbn [nf_e relead rpn_e]. rewrite (IH P1), (proj1 (proj2 (proj2 nf_rpn)) t P3). destruct o; try contradiction; reflexivity.
Qed.
(** ---- the parser made from a text ---- *)
Lemma parse_one_reads p ps b vars s f g : Forall (prime_ok b) (p :: ps) -> names_ok vars -> EXPR (fun q => In q (p :: ps)) vars true s f -> (forall env : world, f env = g (wp env) (map env vars)) ->
  exists o0 o, parse_one p s vars = Ret o0 /\ change_primes ps o0 = Ret o /\
  forall xs, canonical_point (last ps p) (length vars) xs -> evaluate_pre (last ps p) o xs = Ret [g (last ps p) xs mod last ps p].
Proof.
  intros Hps HV [t [S [T F]]] Fg. pose proof (expr_good p ps b vars Hps HV true t T) as G. inversion G as [|? ? G1 Gs]; subst.
  destruct T as [W [O [Pl [N L]]]]. exists (built p vars [t] false false []), (built (last ps p) vars [t] false false []).
  split; [|split].
  - unfold parse_one. rewrite (parse_show t W Pl). cbn [obind]. apply (precompute_built p vars [t] G1 [rpn_e (relead t)]). cbn [map]. unfold rpn_of. rewrite (relead_rpn t Pl). reflexivity.
  - rewrite change_switch. apply switch_built; [exact Gs|]. constructor; [|constructor]. apply N. reflexivity.
  - intros xs [Lx Fx]. pose proof (last_in ps p) as Il. rewrite Forall_forall in G. pose proof (G _ Il) as Gl. rewrite Forall_forall in Hps. pose proof (Hps _ Il) as Hl.
    destruct (env_point _ b vars xs Hl HV Lx Fx (fun q => In q (p :: ps)) Il) as [Pt Ev]. rewrite (evaluate_plain _ vars [t] Gl false [] xs _ Pt). cbn [map]. do 2 f_equal.
    pose proof (F _ Ev) as Fv. rewrite Fg in Fv. cbn [wp wenv] in Fv. rewrite Fv. cbn [wp wenv]. rewrite env_values; [reflexivity|apply HV|exact Lx].
Qed.
(** ---- the names x1, x2, ... ---- *)
Lemma x_name_ok i : Z.of_nat i + 1 < 2 ^ 15 -> wf_word (x_name i) /\ (length (x_name i) <= 16)%nat /\ ~ wf_num (x_name i).
Proof.
  intros H. unfold x_name. replace (Z.of_nat i + 1) with (Z.of_nat (S i)) in * by lia. pose proof (a_name_ok (S i) H) as [A [B C]]. destruct A as [_ A]. split; [|split].
  - split; [discriminate|]. cbn [app list_ascii_of_string forallb] in *. apply andb_true_iff in A as [_ A]. rewrite A. reflexivity.
  - exact B.
  - intros [_ Q]. discriminate Q.
Qed.
Lemma x_names_ok n : Z.of_nat n < 2 ^ 15 -> names_ok (map x_name (seq 0 n)).
Proof.
  intros H. split.
  - apply Forall_forall. intros v I. apply in_map_iff in I. destruct I as [i [<- I]]. apply in_seq in I. apply x_name_ok. lia.
  - apply FinFun.Injective_map_NoDup; [|apply seq_NoDup]. intros i j Q. apply app_inv_head in Q.
    assert (X : forall k, print (Z.of_nat k + 1) = print_abs (Z.of_nat k + 1)) by (intros k; unfold print; destruct (Z.ltb_spec (Z.of_nat k + 1) 0); [lia|reflexivity]). rewrite !X in Q.
    destruct (print_abs_ok (Z.of_nat i + 1) ltac:(lia)) as [_ [D1 _]]. destruct (print_abs_ok (Z.of_nat j + 1) ltac:(lia)) as [_ [D2 _]]. rewrite Q in D1. lia.
Qed.
(** ---- letters in printed polynomials ---- *)
Lemma removelast_letter (a b : chars) c : is_alpha c = false -> letter (removelast (a ++ b ++ [c])) <-> letter a \/ letter b.
Proof. intros H. rewrite app_assoc, removelast_last. apply letter_app. Qed.
Lemma pieces_end {C} (cs : C -> chars) one v z c s : mono_pieces cs one [v] ([z], c) = Ret s -> letter v -> exists t, s = t ++ lit "*" /\ (z <> 0 -> letter t).
Proof.
  intros H Lv. unfold mono_pieces in H. cbn [fst snd power_pieces tl fold_left Z.add] in H. destruct (Z.eqb_spec z 0) as [->|N].
  - cbn [obind] in H. change (wrap32 0 =? 0) with true in H. cbn [negb andb] in H. rewrite app_nil_r in H. injection H as <-. exists (cs c). split; [reflexivity|congruence].
  - cbn [obind] in H. rewrite app_nil_r in H. match type of H with Ret (?x ++ _) = _ => set (pre := x) in H end. injection H as <-.
    destruct (1 <? z); [exists (pre ++ v ++ lit "^" ++ print z)|exists (pre ++ v)]; (split; [rewrite <- !app_assoc; reflexivity|intros _; rewrite !letter_app; tauto]).
Qed.
Lemma monos_letter {C} (cs : C -> chars) one v : letter v -> forall ms acc s, Forall (fun e => length (fst e) = 1%nat) ms -> monos_string cs one [v] acc ms = Ret s ->
  letter acc \/ (exists z c, In ([z], c) ms /\ z <> 0) -> letter s.
Proof.
  intros Lv. induction ms as [|[e c] ms IH]; intros acc s F H L; [cbn in H; injection H as <-; destruct L as [L|[z [c [[] _]]]]; exact L|].
  apply Forall_cons_iff in F as [F1 F2]. cbn [fst] in F1. destruct e as [|z [|]]; try discriminate F1. cbn [monos_string] in H. destruct (mono_pieces cs one [v] ([z], c)) as [q| | | |] eqn:Q; try discriminate H. cbn [obind] in H.
  destruct (pieces_end cs one v z c q Q Lv) as [t [-> T]]. apply (IH _ _ F2 H). rewrite letter_app. change (lit "*") with ["*"%char]. rewrite removelast_letter by reflexivity.
  destruct L as [L|[z' [c' [[I|I] Nz]]]]; [left; left; left; exact L|left; left; right; apply T; congruence|right; exists z', c'; split; assumption].
Qed.
Lemma monos_plus {C} (cs : C -> chars) one vs : forall ms acc s, ms <> [] -> monos_string cs one vs acc ms = Ret s -> exists s', s = s' ++ lit "+".
Proof.
  induction ms as [|m ms IH]; intros acc s N H; [congruence|]. cbn [monos_string] in H. destruct (mono_pieces cs one vs m) as [q| | | |]; try discriminate H. cbn [obind] in H.
  destruct ms as [|m' ms]; [cbn in H; injection H as <-; eexists; reflexivity|]. apply (IH _ _ ltac:(discriminate) H).
Qed.
Lemma side_letter b v m s : univariate b m -> side_text v m = Ret s -> letter s.
Proof.
  intros [[K _] [_ [z [c [I N]]]]] H. unfold side_text, poly_to_string in H. cbn [coefs pn] in H. destruct m as [|e m0] eqn:M; [destruct I|]. rewrite <- M in *. clear M e m0.
  cbn [length Nat.eqb negb andb] in H. unfold vars_c in H. change (var_pos (mk_poly m 1 (-1)) =? -1) with true in H. cbn [obind] in H.
  destruct (monos_string rn_string rn_is_one [x_name v] [] m) as [q| | | |] eqn:Q; try discriminate H. cbn [obind] in H. injection H as <-.
  assert (Lq : letter q). { apply (monos_letter rn_string rn_is_one (x_name v) ltac:(left; reflexivity) m [] q); [eapply Forall_impl; [|exact K]; intros a A; apply A|exact Q|right; exists z, c; split; assumption]. }
  destruct (monos_plus rn_string rn_is_one [x_name v] m [] q) as [q' ->]; [destruct m; [destruct I|discriminate]|exact Q|]. change (lit "+") with ["+"%char] in *. rewrite removelast_last. rewrite letter_app in Lq. destruct Lq as [L|L]; [exact L|]. apply letter_cons in L as [L|L]; [discriminate L|destruct (letter_nil L)].
Qed.

(** ---- values of texts ---- *)
Section Texts.
  Variables (PS : Z -> Prop) (b : Z) (n : nat).
  Hypothesis HPS : forall q, PS q -> prime q /\ b + 1 <= q - 1.
  Hypothesis Hn : Z.of_nat n < 2 ^ 15.
  Let V := map x_name (seq 0 n).
  Let HV : names_ok V := x_names_ok n Hn.
  Local Notation FAC := (FAC PS V true).
  Local Notation TERM := (TERM PS V true).
  Local Notation EXPR := (EXPR PS V true).
  Lemma T_div_letter a f s g : TERM a f -> FAC s g -> letter s -> TERM (a ++ lit "/" ++ s) (fun env => f env * inv_p (wp env) (g env mod wp env)).
  Proof.
    intros [t [A [C F]]] [u [A' [C' F']]] L. rewrite <- A, <- A'. apply (T_div_tree PS V true); try assumption. intros _.
    destruct (cst_f u) eqn:Q; [|rewrite andb_false_r; reflexivity]. exfalso. rewrite <- A' in L. exact (proj1 (proj2 cst_no_letter) u Q L).
  Qed.
  (** the value of one side *)
  Definition side_val (v : nat) (m : pmap rn) (env : world) : Z := poly_val (rn_val (wp env)) m [env (x_name v)].
  Lemma side_ok v m : (v < n)%nat -> univariate b m -> exists s, side_text v m = Ret s /\ letter s /\ EXPR s (side_val v m).
  Proof.
    intros Hv U. assert (P : poly_ok 1 b (mk_poly m 1 (-1))) by (destruct U as [K [R _]]; split; [exact R|left; split; [reflexivity|split; [reflexivity|exact K]]]).
    destruct (poly_string_ok PS (b + 1) V true HPS HV b ltac:(lia) 1 (mk_poly m 1 (-1)) [x_name v] P eq_refl) as [s [S1 S2]].
    { constructor; [|constructor]. apply in_map. apply in_seq. lia. }
    exists s. split; [exact S1|]. split; [exact (side_letter b v m s U S1)|exact S2].
  Qed.
  (** all sides that are there *)
  Definition sides_val (l : list (nat * pmap rn)) (env : world) : Z := fold_right (fun e acc => match snd e with [] => acc | _ => side_val (fst e) (snd e) env * acc end) 1 l.
  Definition side_fine (e : nat * pmap rn) : Prop := (fst e < n)%nat /\ (snd e = [] \/ univariate b (snd e)).
  Lemma sides_ok l : Forall side_fine l -> exists ss vs, side_texts l = Ret ss /\ Forall2 (fun s v => letter s /\ EXPR s v) ss vs /\ (forall env, sides_val l env = fold_right (fun v acc => v env * acc) 1 vs) /\
    (ss = [] <-> Forall (fun e => snd e = []) l).
  Proof.
    induction l as [|[v m] l IH]; intros F; [exists [], []; repeat split; constructor|]. apply Forall_cons_iff in F as [[Hv Hm] F]. cbn [fst snd] in *. destruct (IH F) as [ss [vs [E [A [B C]]]]]. cbn [side_texts].
    destruct m as [|e m0] eqn:M.
    - exists ss, vs. split; [exact E|]. split; [exact A|]. split; [exact B|]. rewrite C, Forall_cons_iff. cbn [snd]. tauto.
    - rewrite <- M in *. destruct Hm as [Hm|Hm]; [congruence|]. destruct (side_ok v m Hv Hm) as [s [S1 [S2 S3]]]. rewrite S1, E. cbn [obind]. exists (s :: ss), (side_val v m :: vs). split; [subst m; reflexivity|]. split; [constructor; auto|]. split.
      + intros env. unfold sides_val in *. cbn [fold_right fst snd]. rewrite B. subst m. reflexivity.
      + split; [discriminate|]. rewrite Forall_cons_iff. cbn [snd]. intros [Q _]. congruence.
  Qed.
  (** a bracket *)
  Lemma product_ok : forall ss vs, Forall2 (fun s v => letter s /\ EXPR s v) ss vs -> forall a f, TERM a f ->
    exists c, a ++ lit "*" ++ concat (map (fun s => lit "(" ++ s ++ lit ")*") ss) = c ++ lit "*" /\ TERM c (fun env => f env * fold_right (fun v acc => v env * acc) 1 vs) /\ (letter a -> letter c).
  Proof.
    induction 1 as [|s v ss vs [Ls Es] F IH]; intros a f T.
    - exists a. split; [rewrite app_nil_r; reflexivity|]. split; [|auto]. apply (TERM_eq PS V true _ _ _ _ T eq_refl). intros; cbn [fold_right]. f_equal. lia.
    - destruct (IH _ _ (T_mul PS V true _ _ _ _ T (F_par PS V true _ _ Es))) as [c [C1 [C2 C3]]]. exists c. split; [|split].
      + rewrite <- C1. cbn [map concat]. rewrite <- !app_assoc. reflexivity.
      + apply (TERM_eq PS V true _ _ _ _ C2 eq_refl). intros; cbn [fold_right]. f_equal. ring.
      + intros L. apply C3. rewrite letter_app. left. exact L.
  Qed.
  Lemma bracket_ok ss vs : ss <> [] -> Forall2 (fun s v => letter s /\ EXPR s v) ss vs -> letter (bracket ss) /\ FAC (bracket ss) (fun env => fold_right (fun v acc => v env * acc) 1 vs).
  Proof.
    intros N F. inversion F as [|s v ss' vs' [Ls Es] F' Q1 Q2]; subst; [congruence|]. unfold bracket.
    destruct (product_ok _ _ F' _ _ (T_fac PS V true _ _ (F_par PS V true _ _ Es))) as [c [C1 [C2 C3]]].
    assert (X : concat (map (fun s0 => lit "(" ++ s0 ++ lit ")*") (s :: ss')) = c ++ lit "*") by (rewrite <- C1; cbn [map concat]; rewrite <- !app_assoc; reflexivity).
    rewrite X. change (lit "*") with ["*"%char]. rewrite removelast_last. split; [rewrite !letter_app; right; left; apply C3; rewrite !letter_app; tauto|].
    apply F_par. apply E_term. exact C2.
  Qed.
  Lemma factor_text_ok nums dens vn vd : Forall2 (fun s v => letter s /\ EXPR s v) nums vn -> Forall2 (fun s v => letter s /\ EXPR s v) dens vd -> nums <> [] \/ dens <> [] ->
    EXPR (factor_text nums dens) (fun env => fold_right (fun v acc => v env * acc) 1 vn * inv_p (wp env) (fold_right (fun v acc => v env * acc) 1 vd mod wp env)).
  Proof.
    intros Fn Fd Ne. apply E_term. unfold factor_text.
    assert (One : forall env, E PS V env -> inv_p (wp env) (1 mod wp env) = 1) by (intros env X; apply inv_one; apply (E_pos PS (b + 1) V HPS env X)).
    destruct nums as [|s nums].
    - inversion Fn; subst. destruct dens as [|d dens]; [destruct Ne; congruence|]. destruct (bracket_ok (d :: dens) vd ltac:(discriminate) Fd) as [L F]. cbn [app].
      change (lit "1/" ++ bracket (d :: dens)) with (print 1 ++ lit "/" ++ bracket (d :: dens)). apply (T_div_letter (print 1) (fun _ => 1) _ _ (T_fac PS V true _ _ (F_num PS V true HV 1 ltac:(lia))) F L).
    - destruct (bracket_ok (s :: nums) vn ltac:(discriminate) Fn) as [L F]. destruct dens as [|d dens].
      + inversion Fd; subst. rewrite app_nil_r. apply (TERM_eq PS V true _ _ _ _ (T_fac PS V true _ _ F) eq_refl). intros env X. cbn [fold_right]. rewrite (One env X). f_equal. lia.
      + destruct (bracket_ok (d :: dens) vd ltac:(discriminate) Fd) as [L' F']. apply (T_div_letter _ _ _ _ (T_fac PS V true _ _ F) F' L').
  Qed.
End Texts.

Lemma product_perm (vs ws : list (world -> Z)) env : Permutation vs ws -> fold_right (fun v acc => v env * acc) 1 vs = fold_right (fun v acc => v env * acc) 1 ws.
Proof. induction 1; cbn [fold_right]; try congruence. ring. Qed.
Lemma forall2_perm {A B} (R : A -> B -> Prop) l l' : Permutation l l' -> forall m, Forall2 R l m -> exists m', Permutation m m' /\ Forall2 R l' m'.
Proof.
  induction 1 as [|a l l' P IH|a a' l|l l1 l2 P1 IH1 P2 IH2]; intros m F.
  - inversion F; subst. exists []. split; constructor.
  - inversion F as [|? b ? m' R1 R2]; subst. destruct (IH m' R2) as [q [Q1 Q2]]. exists (b :: q). split; constructor; assumption.
  - inversion F as [|? b ? m' R1 R2]; subst. inversion R2 as [|? b' ? m2 R3 R4]; subst. exists (b' :: b :: m2). split; [apply perm_swap|constructor; [assumption|constructor; assumption]].
  - destruct (IH1 m F) as [q [Q1 Q2]]. destruct (IH2 q Q2) as [r [R1 R2]]. exists r. split; [exact (Permutation_trans Q1 R1)|exact R2].
Qed.
Lemma poly_val_head {C} (cv : C -> Z) (m : pmap C) x xs ys : Forall (fun e => length (fst e) = 1%nat) m -> poly_val cv m (x :: xs) = poly_val cv m (x :: ys).
Proof. intros F. rewrite <- !(flat1_val cv m x _ F). reflexivity. Qed.
Lemma side_part n b v m p (env : chars -> Z) : (v < n)%nat -> (m = [] \/ univariate b m) ->
  part_at p (side_poly v m) (map env (map x_name (seq 0 n))) = match m with [] => 1 | _ => poly_val (rn_val p) m [env (x_name v)] end.
Proof.
  intros Hv U. destruct m as [|e m0] eqn:M; [reflexivity|]. rewrite <- M in *. destruct U as [U|U]; [congruence|]. assert (S : side_poly v m = mk_poly m 1 (Z.of_nat v)) by (subst m; reflexivity).
  rewrite S. unfold part_at. cbn [coefs]. unfold poly_at. cbn [coefs var_pos]. destruct (Z.eqb_spec (Z.of_nat v) (-1)); [lia|]. rewrite Nat2Z.id.
  assert (N : nth v (map env (map x_name (seq 0 n))) 0 = env (x_name v)).
  { apply nth_error_nth. rewrite !nth_error_map. replace (nth_error (seq 0 n) v) with (Some v); [reflexivity|]. symmetry. rewrite nth_error_nth' with (d := 0%nat) by (rewrite seq_length; exact Hv). rewrite seq_nth by exact Hv. reflexivity. }
  rewrite N. subst m. apply poly_val_head. destruct U as [[K _] _]. eapply Forall_impl; [|exact K]. intros a A. apply A.
Qed.
Lemma parsed_factor_ok (ord : forall A : Type, list A -> list A) p ps b n fs : (forall A l, Permutation (ord A l) l) -> Forall (prime_ok b) (p :: ps) -> Z.of_nat n < 2 ^ 15 -> fs <> [] -> Forall (found_ok n b) fs ->
  exists o0 o, parsed_factor ord p n fs = Ret o0 /\ change_primes ps o0 = Ret o /\
  forall xs, canonical_point (last ps p) n xs ->
  evaluate_pre (last ps p) o xs = Ret [(numerators (last ps p) (map factor_entry fs) xs * inv_p (last ps p) (denominators (last ps p) (map factor_entry fs) xs mod last ps p)) mod last ps p].
Proof.
  intros Ho Hp Hn Ne F. set (PS := fun q => In q (p :: ps)). pose proof (PS_ok p ps b Hp) as HPS.
  assert (Sf : forall pick : found_factor -> pmap rn, (forall f, In f fs -> pick f = [] \/ univariate b (pick f)) -> Forall (side_fine b n) (map (fun f => (ff_var f, pick f)) fs)).
  { intros pick Hpick. apply Forall_map, Forall_forall. intros f I. rewrite Forall_forall in F. split; [apply (F f I)|exact (Hpick f I)]. }
  assert (Hq1 : forall f, In f fs -> ff_num f = [] \/ univariate b (ff_num f)) by (intros f I; rewrite Forall_forall in F; apply (F f I)).
  assert (Hq2 : forall f, In f fs -> ff_den f = [] \/ univariate b (ff_den f)) by (intros f I; rewrite Forall_forall in F; apply (F f I)).
  destruct (sides_ok PS b n HPS Hn _ (Sf ff_num Hq1)) as [sn [vn [N1 [N2 [N3 N4]]]]]. destruct (sides_ok PS b n HPS Hn _ (Sf ff_den Hq2)) as [sd [vd [D1 [D2 [D3 D4]]]]].
  unfold parsed_factor. rewrite N1, D1. cbn [obind].
  destruct (forall2_perm _ _ _ (Permutation_sym (Ho _ sn)) _ N2) as [vn' [Pn Fn]]. destruct (forall2_perm _ _ _ (Permutation_sym (Ho _ sd)) _ D2) as [vd' [Pd Fd]].
  assert (Nn : ord _ sn <> [] \/ ord _ sd <> []).
  { destruct fs as [|f fs']; [congruence|]. apply Forall_cons_iff in F as [[_ [_ [_ [Q|Q]]]] _]; [left|right]; intros X.
    - apply Q. assert (Y : sn = []) by (apply Permutation_nil; rewrite <- X; apply Ho). apply N4 in Y. apply Forall_cons_iff in Y as [Y _]. exact Y.
    - apply Q. assert (Y : sd = []) by (apply Permutation_nil; rewrite <- X; apply Ho). apply D4 in Y. apply Forall_cons_iff in Y as [Y _]. exact Y. }
  pose proof (factor_text_ok PS b n HPS Hn _ _ _ _ Fn Fd Nn) as X.
  destruct (parse_one_reads p ps b (map x_name (seq 0 n)) _ _ (fun q xs => numerators q (map factor_entry fs) xs * inv_p q (denominators q (map factor_entry fs) xs mod q)) Hp (x_names_ok n Hn) X) as [o0 [o [E1 [E2 E3]]]].
  - intros env. rewrite <- (product_perm vn vn' env Pn), <- (product_perm vd vd' env Pd), <- N3, <- D3. f_equal; [|f_equal; f_equal].
    + unfold sides_val, numerators. clear - Hq1 F. induction fs as [|f fs IH]; [reflexivity|]. apply Forall_cons_iff in F as [F1 F2]. cbn [map fold_right fst snd factor_entry].
      rewrite (IH F2 (fun g I => Hq1 g (or_intror I))). rewrite (side_part n b (ff_var f) (ff_num f) (wp env) env); [|apply F1|apply Hq1; left; reflexivity]. destruct (ff_num f); [|reflexivity]. rewrite Z.mul_1_l. reflexivity.
    + unfold sides_val, denominators. clear - Hq2 F. induction fs as [|f fs IH]; [reflexivity|]. apply Forall_cons_iff in F as [F1 F2]. cbn [map fold_right fst snd factor_entry].
      rewrite (IH F2 (fun g I => Hq2 g (or_intror I))). rewrite (side_part n b (ff_var f) (ff_den f) (wp env) env); [|apply F1|apply Hq2; left; reflexivity]. destruct (ff_den f); [|reflexivity]. rewrite Z.mul_1_l. reflexivity.
  - exists o0, o. split; [exact E1|]. split; [exact E2|]. intros xs Hxs. apply E3. rewrite map_length, seq_length. exact Hxs.
Qed.

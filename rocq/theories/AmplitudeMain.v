(** Proofs for C50, part 5: from the texts to the coefficients. *)
From Coq Require Import Ascii String Znumtheory.
From Verif Require Import Machine FFInt FFVec SYParse SYGrammar SYEval SYObj SYObjProofs Amplitude AmplitudeSpec AmplitudeText AmplitudeParse AmplitudeState AmplitudeValue.
From Coq Require Import List ListDec Lia Arith ZArith Permutation.
Import ListNotations.
Open Scope nat_scope.

(** ---- the texts are tidy ---- *)
Definition tidy (s : chars) : Prop := s <> [] /\ hd nul s <> "{"%char /\ last s nul <> "}"%char /\ Forall (fun c => ~ white c) s.
Lemma white_alnum c : white c -> alnum c = false. Proof. intros [->|[->| ->]]; reflexivity. Qed.
Lemma last_app_ne {A} (a b : list A) d : b <> [] -> last (a ++ b) d = last b d.
Proof. intros H. induction a as [|x a IH]; [reflexivity|]. cbn [app]. destruct (a ++ b) eqn:E; [apply app_eq_nil in E as [_ E]; contradiction|]. rewrite <- IH. reflexivity. Qed.
Lemma plain_nonwhite s : forallb plain s = true -> Forall (fun c => ~ white c) s.
Proof. intros H. apply Forall_forall. intros c I W. rewrite forallb_forall in H. specialize (H c I). rewrite (white_plain c W) in H. discriminate. Qed.
Lemma plain_last s : s <> [] -> forallb plain s = true -> last s nul <> "}"%char.
Proof.
  intros N H E. destruct (exists_last N) as [u [x ->]]. rewrite last_last in E. subst x. rewrite forallb_app in H. apply Bool.andb_true_iff in H as [_ H]. discriminate.
Qed.
Section Tidy.
  Variable fams : list chars.
  Hypothesis FO : families_ok fams.
  Lemma fname_tidy fam idx : In fam fams -> idx_ok idx -> tidy (fname fam idx).
  Proof.
    intros If Hi. destruct (fam_word fams FO fam If) as [N W]. unfold fname. split; [destruct fam; discriminate|]. split; [|split].
    - destruct fam as [|c fam]; [congruence|]. cbn [app hd forallb] in *. intros ->. discriminate.
    - change ("["%char :: idx ++ ["]"%char]) with (("["%char :: idx) ++ ["]"%char]). rewrite app_assoc, last_last. discriminate.
    - apply Forall_app. split; [apply plain_nonwhite, word_plain; exact W|]. constructor; [intros [X|[X|X]]; discriminate|]. apply Forall_app. split.
      + unfold idx_ok in Hi. rewrite Forall_forall in *. intros c I. apply Hi. exact I.
      + repeat constructor. intros [X|[X|X]]; discriminate.
  Qed.
  Lemma body_tidy s : summand_ok fams s -> tidy (show_body s).
  Proof.
    intros [If [Hi Hc]]. destruct (fname_tidy _ _ If Hi) as [N [H [L W]]]. unfold show_body. destruct (s_cf s) as [t|]; [|rewrite app_nil_r; repeat split; assumption].
    destruct Hc as [Wt _]. pose proof (proj1 (proj2 (proj2 show_nonempty)) t Wt) as Nt. pose proof (proj1 (proj2 (proj2 show_plain)) t Wt) as Pt.
    unfold s_name. split; [|split; [|split]].
    - destruct (fname (s_fam s) (s_idx s)); [congruence|discriminate].
    - destruct (fname (s_fam s) (s_idx s)); [congruence|exact H].
    - rewrite last_app_ne by discriminate. change ("*"%char :: show_t t) with (["*"%char] ++ show_t t). rewrite last_app_ne by exact Nt. apply plain_last; assumption.
    - apply Forall_app. split; [exact W|]. constructor; [intros [X|[X|X]]; discriminate|]. apply plain_nonwhite. exact Pt.
  Qed.
  Lemma sg_nonwhite m : ~ white (show_sg m). Proof. destruct m; intros [X|[X|X]]; discriminate. Qed.
  Lemma rest_nonwhite r : Forall (summand_ok fams) r -> Forall (fun c => ~ white c) (show_rest r).
  Proof.
    induction r as [|s r IH]; intros H; [constructor|]. cbn [show_rest flat_map]. fold (show_rest r). apply Forall_app. split; [|apply IH; exact (Forall_inv_tail H)].
    constructor; [apply sg_nonwhite|]. apply body_tidy. exact (Forall_inv H).
  Qed.
  Lemma rest_last : forall r s, Forall (summand_ok fams) (s :: r) -> last (show_body s ++ show_rest r) nul <> "}"%char.
  Proof.
    induction r as [|s2 r IH]; intros s H; cbn [show_rest flat_map]; [rewrite app_nil_r; apply body_tidy; exact (Forall_inv H)|].
    fold (show_rest r). rewrite last_app_ne by discriminate. cbn [app]. pose proof (IH s2 (Forall_inv_tail H)) as X.
    destruct (body_tidy s2 (Forall_inv (Forall_inv_tail H))) as [N _]. destruct (show_body s2 ++ show_rest r) eqn:E; [apply app_eq_nil in E as [E _]; contradiction|exact X].
  Qed.
  Lemma sum_tidy plus l : Forall (summand_ok fams) l -> tidy (show_sum plus l).
  Proof.
    intros H. destruct l as [|s r]; cbn [show_sum]; [repeat split; try discriminate; repeat constructor; intros [X|[X|X]]; discriminate|].
    destruct (body_tidy s (Forall_inv H)) as [N [Hd [_ W]]].
    assert (W2 : Forall (fun c => ~ white c) (show_body s ++ show_rest r)) by (apply Forall_app; split; [exact W|apply rest_nonwhite; exact (Forall_inv_tail H)]).
    assert (N2 : show_body s ++ show_rest r <> []) by (destruct (show_body s); [congruence|discriminate]).
    split; [|split; [|split]].
    - destruct (s_minus s || plus); [discriminate|exact N2].
    - destruct (s_minus s || plus); [destruct (s_minus s); discriminate|]. cbn [app]. destruct (show_body s); [congruence|exact Hd].
    - rewrite last_app_ne by exact N2. apply rest_last. exact H.
    - apply Forall_app. split; [|exact W2]. destruct (s_minus s || plus); [|constructor]. constructor; [apply sg_nonwhite|constructor].
  Qed.
  Lemma rule_tidy r : rule_ok fams r -> tidy (show_rule r).
  Proof.
    intros [If [Hi Hs]]. destruct (fname_tidy _ _ If Hi) as [N [Hd [_ W]]]. destruct (sum_tidy (r_plus r) (r_rhs r) Hs) as [N2 [_ [L2 W2]]]. unfold show_rule, r_name. split; [|split; [|split]].
    - destruct (fname (r_fam r) (r_idx r)); [congruence|discriminate].
    - destruct (fname (r_fam r) (r_idx r)); [congruence|exact Hd].
    - rewrite last_app_ne by discriminate. change ("-"%char :: ">"%char :: show_sum (r_plus r) (r_rhs r)) with (["-"; ">"]%char ++ show_sum (r_plus r) (r_rhs r)). rewrite last_app_ne by exact N2. exact L2.
    - apply Forall_app. split; [exact W|]. constructor; [intros [X|[X|X]]; discriminate|]. constructor; [intros [X|[X|X]]; discriminate|]. exact W2.
  Qed.
  Lemma rules_tidy : forall l, l <> [] -> Forall (rule_ok fams) l -> tidy (show_rules l).
  Proof.
    induction l as [|r l IH]; intros N H; [congruence|]. pose proof (rule_tidy r (Forall_inv H)) as T. destruct l as [|r2 l]; [exact T|].
    destruct (IH ltac:(discriminate) (Forall_inv_tail H)) as [N2 [_ [L2 W2]]]. destruct T as [N1 [H1 [_ W1]]]. rewrite show_rules_cons. split; [|split; [|split]].
    - destruct (show_rule r); [congruence|discriminate].
    - destruct (show_rule r); [congruence|exact H1].
    - rewrite last_app_ne by discriminate. change (","%char :: show_rules (r2 :: l)) with ([","%char] ++ show_rules (r2 :: l)). rewrite last_app_ne by exact N2. exact L2.
    - apply Forall_app. split; [exact W1|]. constructor; [intros [X|[X|X]]; discriminate|]. exact W2.
  Qed.
  Lemma strip_text w s b1 b2 : tidy w -> spaced (braced b1 b2 w) s -> strip_braces (strip_white s) = Ret w.
  Proof.
    intros [N [H [L W]]] S. rewrite (strip_white_spaced _ _ S); [apply strip_braced; assumption|]. unfold braced. apply Forall_app. split.
    - destruct b1; repeat constructor. intros [X|[X|X]]; discriminate.
    - apply Forall_app. split; [exact W|]. destruct b2; repeat constructor. intros [X|[X|X]]; discriminate.
  Qed.
End Tidy.

Section Run.
  Variables vars fams : list chars.
  Hypothesis FO : families_ok fams.
  Lemma amplitude_text A s : Forall (summand_ok fams) A -> text_of_sum A s ->
    exists st, parse_amplitude_string (new_amplitude vars fams) s = Ret st /\ inv vars fams (names_from [] A) (coefs_at A) (repl_of []) [] [] st.
  Proof.
    intros HA [plus [b1 [b2 S]]]. unfold parse_amplitude_string, parse_string. rewrite (strip_text _ _ b1 b2 (sum_tidy fams FO plus A HA) S). cbn [obind].
    cbn [a_fams new_amplitude]. rewrite (parse_body_sum fams FO plus A HA). cbn [obind]. eexists. split; [reflexivity|].
    apply (inv_ext _ _ _ (coefs_at ([] ++ A)) (fun _ => [])); [reflexivity|reflexivity|]. apply (fold_inv_summand vars fams A [] []); [tauto|]. apply inv_new.
  Qed.
  Lemma table_text st t s : a_fams st = fams -> t <> [] -> Forall (rule_ok fams) t -> text_of_table t s -> parse_ibp_table_string st s = add_rules st t.
  Proof.
    intros E N H [b1 [b2 S]]. unfold parse_ibp_table_string. rewrite (strip_text _ _ b1 b2 (rules_tidy fams FO t N H) S). cbn [obind]. apply (table_ok fams FO); assumption.
  Qed.
  Lemma nodup_app_l {A} (a b : list A) : NoDup (a ++ b) -> NoDup a.
  Proof. induction a as [|x a IH]; intros H; [constructor|]. cbn [app] in H. inversion H; subst. constructor; [intros I; apply H2; apply in_or_app; left; exact I|apply IH; assumption]. Qed.
  Lemma tables_text N P : forall T R Ms rep st texts, inv vars fams N P (repl_of R) Ms rep st -> (forall n, In n rep <-> In n N /\ In n (map r_name R)) ->
    Forall (fun t => t <> [] /\ Forall (rule_ok fams) t) T -> Forall2 text_of_table T texts -> NoDup (filter (in_names N) (map r_name (R ++ concat T))) ->
    exists st' Ms' rep', parse_tables st texts = Ret st' /\ inv vars fams N P (repl_of (R ++ concat T)) Ms' rep' st' /\ (forall n, In n rep' <-> In n N /\ In n (map r_name (R ++ concat T))).
  Proof.
    induction T as [|t T IH]; intros R Ms rep st texts HI HR HT HX ND; inversion HX as [|? s ? texts' Ht HX']; subst; cbn [parse_tables concat].
    - rewrite app_nil_r. exists st, Ms, rep. split; [reflexivity|]. split; assumption.
    - destruct (Forall_inv HT) as [Nt Ot]. rewrite (table_text st t s (iv_fams _ _ _ _ _ _ _ _ HI) Nt Ot Ht).
      cbn [concat] in ND. rewrite app_assoc in ND |- *.
      destruct (add_rules_inv vars fams FO N P t R Ms rep st HI HR Ot) as [st1 [Ms1 [rep1 [E1 [HI1 HR1]]]]].
      { rewrite map_app, filter_app in ND. exact (nodup_app_l _ _ ND). }
      rewrite E1. cbn [obind]. exact (IH (R ++ t) Ms1 rep1 st1 texts' HI1 HR1 (Forall_inv_tail HT) HX' ND).
  Qed.
  (** two rules for one function *)
  Lemma add_rule_twice N P R Ms rep st r : inv vars fams N P (repl_of R) Ms rep st -> (forall n, In n rep <-> In n N /\ In n (map r_name R)) -> rule_ok fams r ->
    In (r_name r) N -> In (r_name r) (map r_name R) -> add_rule st (r_name r) (show_sum (r_plus r) (r_rhs r)) = Exit.
  Proof.
    intros HI HR [If [Hi Hs]] I J. unfold add_rule, parse_string. rewrite (iv_fams _ _ _ _ _ _ _ _ HI).
    pose proof (parse_body_lhs fams FO [] (r_fam r) (r_idx r) (or_introl eq_refl) If Hi) as P1. cbn [app] in P1. fold (r_name r) in P1. rewrite P1. cbn [obind].
    rewrite (iv_int _ _ _ _ _ _ _ _ HI). destruct (In_nth_error _ _ I) as [x Hx]. rewrite (sfind_combine_some N 0 _ x (iv_nd _ _ _ _ _ _ _ _ HI) Hx).
    rewrite (iv_rep _ _ _ _ _ _ _ _ HI), (proj2 (smem_spec (r_name r) rep)); [reflexivity|]. apply HR. split; assumption.
  Qed.
  Lemma add_rules_exit N P : forall l R Ms rep st, inv vars fams N P (repl_of R) Ms rep st -> (forall n, In n rep <-> In n N /\ In n (map r_name R)) -> Forall (rule_ok fams) l ->
    NoDup (filter (in_names N) (map r_name R)) -> ~ NoDup (filter (in_names N) (map r_name (R ++ l))) -> add_rules st l = Exit.
  Proof.
    induction l as [|r l IH]; intros R Ms rep st HI HR HL ND XD; [exfalso; apply XD; rewrite app_nil_r; exact ND|].
    replace (R ++ r :: l) with ((R ++ [r]) ++ l) in XD by (rewrite <- app_assoc; reflexivity). cbn [add_rules].
    destruct (in_dec_name (r_name r) N) as [I|I]; [destruct (in_dec_name (r_name r) (map r_name R)) as [J|J]|].
    - rewrite (add_rule_twice N P R Ms rep st r HI HR (Forall_inv HL) I J). reflexivity.
    - destruct (add_rule_inv vars fams FO N P R Ms rep st r HI HR (Forall_inv HL) (fun _ => J)) as [st1 [Ms1 [rep1 [E1 [HI1 HR1]]]]]. rewrite E1. cbn [obind].
      apply (IH (R ++ [r]) Ms1 rep1 st1 HI1 HR1 (Forall_inv_tail HL)); [|exact XD].
      rewrite map_app, filter_app. cbn [map filter]. unfold in_names at 2. destruct (in_dec_name (r_name r) N); [|contradiction]. apply nodup_snoc; [exact ND|]. intros X. apply filter_In in X as [X _]. contradiction.
    - destruct (add_rule_inv vars fams FO N P R Ms rep st r HI HR (Forall_inv HL) (fun i => False_ind _ (I i))) as [st1 [Ms1 [rep1 [E1 [HI1 HR1]]]]]. rewrite E1. cbn [obind].
      apply (IH (R ++ [r]) Ms1 rep1 st1 HI1 HR1 (Forall_inv_tail HL)); [|exact XD].
      rewrite map_app, filter_app. cbn [map filter]. unfold in_names at 2. destruct (in_dec_name (r_name r) N); [contradiction|]. rewrite app_nil_r. exact ND.
  Qed.
  Lemma tables_exit N P : forall T R Ms rep st texts, inv vars fams N P (repl_of R) Ms rep st -> (forall n, In n rep <-> In n N /\ In n (map r_name R)) ->
    Forall (fun t => t <> [] /\ Forall (rule_ok fams) t) T -> Forall2 text_of_table T texts -> NoDup (filter (in_names N) (map r_name R)) -> ~ NoDup (filter (in_names N) (map r_name (R ++ concat T))) ->
    parse_tables st texts = Exit.
  Proof.
    induction T as [|t T IH]; intros R Ms rep st texts HI HR HT HX ND XD; inversion HX as [|? s ? texts' Ht HX']; subst; cbn [parse_tables concat] in *.
    - rewrite app_nil_r in XD. contradiction.
    - destruct (Forall_inv HT) as [Nt Ot]. rewrite (table_text st t s (iv_fams _ _ _ _ _ _ _ _ HI) Nt Ot Ht). rewrite app_assoc in XD.
      destruct (ListDec.NoDup_dec name_dec (filter (in_names N) (map r_name (R ++ t)))) as [ND1|ND1].
      + destruct (add_rules_inv vars fams FO N P t R Ms rep st HI HR Ot ND1) as [st1 [Ms1 [rep1 [E1 [HI1 HR1]]]]]. rewrite E1. cbn [obind].
        exact (IH (R ++ t) Ms1 rep1 st1 texts' HI1 HR1 (Forall_inv_tail HT) HX' ND1 XD).
      + rewrite (add_rules_exit N P t R Ms rep st HI HR Ot ND ND1). reflexivity.
  Qed.
End Run.

(** ---- the coefficients are good functions ---- *)
Section Good.
  Variables (vars : list chars) (A : list summand) (R : list rule).
  Lemma coefs_of_in l s t : In s l -> s_cf s = Some t -> In t (coefs_of l).
  Proof. intros I E. unfold coefs_of. apply in_flat_map. exists s. split; [exact I|]. rewrite E. left. reflexivity. Qed.
  Section P.
    Variables (PE : expr -> Prop) (PT : term -> Prop) (PF : factor -> Prop).
    Hypothesis h_lead : forall s t, PT t -> PE (ELead s t).
    Hypothesis h_bin : forall e o t, PE e -> PT t -> PE (EBin e o t).
    Hypothesis h_fac : forall f, PF f -> PT (TFac f).
    Hypothesis h_mul : forall t f, PT t -> PF f -> PT (TMul t f).
    Hypothesis h_par : forall e, PE e -> PF (par_f e).
    Hypothesis h_one : PT one_t.
    Hypothesis h_coef : Forall PT (coefs_of A ++ coefs_of (flat_map r_rhs R)).
    Lemma ctree_P l s : (forall t, In t (coefs_of l) -> PT t) -> In s l -> PE (ctree s).
    Proof.
      intros H I. assert (B : PT (body_t s)) by (unfold body_t; destruct (s_cf s) as [t|] eqn:E; [apply H; exact (coefs_of_in l s t I E)|exact h_one]).
      unfold ctree. destruct (s_minus s); [apply h_lead, h_fac, h_par, h_lead; exact B|apply h_lead; exact B].
    Qed.
    Lemma tree_P N m : PE (terms_tree (coef_terms (coefs_at A) (final_of R) m N)).
    Proof.
      rewrite Forall_forall in h_coef. apply (coef_tree_P PE PT PF); try assumption; [apply h_lead; exact h_one| |].
      - intros n. apply Forall_forall. intros e I. unfold coefs_at in I. apply in_map_iff in I as [s [<- I]]. apply filter_In in I as [I _]. apply (ctree_P A); [|exact I]. intros t It. apply h_coef. apply in_or_app. left. exact It.
      - intros n. apply Forall_forall. intros e I. unfold final_of in I. destruct (rule_for R n) as [r|] eqn:Er; [|cbn in I; destruct I as [<-|[]]; apply h_lead; exact h_one].
        rewrite map_map in I. cbn [snd] in I. apply in_map_iff in I as [s [<- I]]. apply (ctree_P (r_rhs r)); [|exact I]. intros t It. apply h_coef. apply in_or_app. right.
        apply rule_for_some in Er as [Ir _]. unfold coefs_of in *. apply in_flat_map in It as [s' [Is It]]. apply in_flat_map. exists s'. split; [|exact It]. apply in_flat_map. exists r. split; assumption.
    Qed.
  End P.
  Lemma one_not_var q es : good q vars es -> ~ In ["1"%char] vars.
  Proof. intros G I. apply (g_names _ _ _ G _ I). split; [discriminate|reflexivity]. Qed.
  Lemma good_tree q N m : good q vars (map (ELead SNone) (coefs_of A ++ coefs_of (flat_map r_rhs R))) -> good q vars [terms_tree (coef_terms (coefs_at A) (final_of R) m N)].
  Proof.
    intros G. pose proof (one_not_var q _ G) as N1. pose proof G as [a b c d]. constructor; try assumption. constructor; [|constructor].
    apply (tree_P (fun e => wf_e e /\ ok_e q vars e) (fun t => wf_t t /\ ok_t q vars t) (fun f => wf_f f /\ ok_f q vars f)).
    - intros s t H. exact H.
    - intros e o t [H1 H2] [H3 H4]. cbn. tauto.
    - intros f H. exact H.
    - intros t f [H1 H2] [H3 H4]. cbn. tauto.
    - intros e [H1 H2]. cbn. tauto.
    - cbn. assert (W : wf_num ["1"%char]) by (split; [discriminate|reflexivity]). repeat split; try discriminate; try exact I.
      right. split; [exact W|]. split; [exact N1|]. left. cbn. lia.
    - rewrite Forall_forall in *. intros t It. apply (d (ELead SNone t)). apply in_map. exact It.
  Qed.
  Lemma nq_tree N m : Forall nq_t (coefs_of A ++ coefs_of (flat_map r_rhs R)) -> Forall nq_e [terms_tree (coef_terms (coefs_at A) (final_of R) m N)].
  Proof.
    intros G. constructor; [|constructor]. apply (tree_P nq_e nq_t nq_f); try exact G; cbn; tauto.
  Qed.
End Good.

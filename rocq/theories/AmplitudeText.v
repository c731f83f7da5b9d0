(** Proofs for C50, part 1: the text. *)
From Coq Require Import Ascii String.
From Verif Require Import Machine FFInt FFVec SYParse SYGrammar SYEval SYObj Amplitude AmplitudeSpec.
From Coq Require Import List Lia Arith.
Import ListNotations.
Open Scope nat_scope.

(** ---- strings ---- *)
Lemma ceqb_refl a : ceqb a a = true. Proof. unfold ceqb. destruct (list_eq_dec ascii_dec a a); congruence. Qed.
Lemma ceqb_neq a b : a <> b -> ceqb a b = false. Proof. unfold ceqb. destruct (list_eq_dec ascii_dec a b); congruence. Qed.
Lemma ceqb_eq a b : ceqb a b = true -> a = b. Proof. unfold ceqb. destruct (list_eq_dec ascii_dec a b); congruence. Qed.
Lemma aeqb_neq (a b : ascii) : a <> b -> (a =?c b) = false. Proof. intros H. apply Ascii.eqb_neq. exact H. Qed.
Lemma findc_none c s : ~ In c s -> findc c s = None.
Proof. induction s as [|d s IH]; intros H; [reflexivity|]. cbn [findc]. rewrite aeqb_neq by (intros ->; apply H; left; reflexivity). rewrite IH; [reflexivity|]. intros I; apply H; right; exact I. Qed.
Lemma findc_app c a b : ~ In c a -> findc c (a ++ c :: b) = Some (length a).
Proof.
  induction a as [|d a IH]; intros H; cbn [findc app length]; [rewrite Ascii.eqb_refl; reflexivity|].
  rewrite aeqb_neq by (intros ->; apply H; left; reflexivity). rewrite IH; [reflexivity|]. intros I; apply H; right; exact I.
Qed.
Lemma skipn_pre {A} (a b : list A) : skipn (length a) (a ++ b) = b. Proof. rewrite skipn_app, skipn_all, Nat.sub_diag. reflexivity. Qed.
Lemma firstn_pre {A} (a b : list A) : firstn (length a) (a ++ b) = a. Proof. rewrite firstn_app, firstn_all, Nat.sub_diag. apply app_nil_r. Qed.
Lemma findc_from_pre c pre a b : ~ In c a -> findc_from c (pre ++ a ++ c :: b) (length pre) = Some (length pre + length a).
Proof. intros H. unfold findc_from. rewrite skipn_pre, findc_app by exact H. reflexivity. Qed.
Lemma findc_from_none c pre a : ~ In c a -> findc_from c (pre ++ a) (length pre) = None.
Proof. intros H. unfold findc_from. rewrite skipn_pre, findc_none by exact H. reflexivity. Qed.
Lemma substr_pre a b c : substr (a ++ b ++ c) (length a) (length b) = Ret b.
Proof. unfold substr. destruct (Nat.ltb_spec (length (a ++ b ++ c)) (length a)) as [X|_]; [rewrite app_length in X; lia|]. rewrite skipn_pre, firstn_pre. reflexivity. Qed.
Lemma substr_end_pre a b : substr_end (a ++ b) (length a) = Ret b.
Proof. unfold substr_end. destruct (Nat.ltb_spec (length (a ++ b)) (length a)) as [X|_]; [rewrite app_length in X; lia|]. rewrite skipn_pre. reflexivity. Qed.
Lemma starts_spec f s : starts f s = true <-> exists b, s = f ++ b.
Proof.
  revert s. induction f as [|c f IH]; intros s; cbn [starts app]; [split; [intros _; exists s; reflexivity|reflexivity]|].
  destruct s as [|d s]; [split; [discriminate|intros [b E]; discriminate]|]. rewrite Bool.andb_true_iff, IH, Ascii.eqb_eq. split.
  - intros [-> [b ->]]. exists b. reflexivity.
  - intros [b E]. injection E as -> ->. split; [reflexivity|]. exists b. reflexivity.
Qed.
Lemma finds_unfold f s : finds f s = if starts f s then Some 0 else match s with [] => None | _ :: r => option_map S (finds f r) end.
Proof. destruct s; reflexivity. Qed.
Lemma finds_none f s : ~ occurs f s -> finds f s = None.
Proof.
  induction s as [|c s IH]; intros H; rewrite finds_unfold.
  - destruct (starts f []) eqn:E; [|reflexivity]. apply starts_spec in E as [b E]. exfalso. apply H. exists [], b. exact E.
  - destruct (starts f (c :: s)) eqn:E; [apply starts_spec in E as [b E]; exfalso; apply H; exists [], b; exact E|].
    rewrite IH; [reflexivity|]. intros [a [b X]]. apply H. exists (c :: a), b. rewrite X. reflexivity.
Qed.
Lemma rfinds_some f : forall s i, rfinds f s = Some i -> occurs f s.
Proof.
  assert (S : forall s, starts f s = true -> occurs f s) by (intros s H; apply starts_spec in H as [b H]; exists [], b; exact H).
  induction s as [|c s IH]; intros i; cbn [rfinds].
  - destruct (starts f []) eqn:E; [intros _; apply S; exact E|discriminate].
  - destruct (rfinds f s) as [j|] eqn:E.
    + intros _. destruct (IH j eq_refl) as [a [b X]]. exists (c :: a), b. rewrite X. reflexivity.
    + destruct (starts f (c :: s)) eqn:F; [intros _; apply S; exact F|discriminate].
Qed.
Lemma rfinds_none f s : ~ occurs f s -> rfinds f s = None.
Proof. intros H. destruct (rfinds f s) as [i|] eqn:E; [|reflexivity]. exfalso. exact (H (rfinds_some f s i E)). Qed.
Lemma occurs_length f s : occurs f s -> length f <= length s. Proof. intros [a [b ->]]. rewrite !app_length. lia. Qed.
Lemma rfinds_unfold f s : rfinds f s = match (match s with [] => None | _ :: r => rfinds f r end) with Some i => Some (S i) | None => if starts f s then Some 0 else None end.
Proof. destruct s; reflexivity. Qed.
Lemma rfinds_last f u : f <> [] -> rfinds f (u ++ f) = Some (length u).
Proof.
  intros H. induction u as [|c u IH]; cbn [app length].
  - rewrite rfinds_unfold. destruct f as [|d f]; [congruence|]. rewrite rfinds_none by (intros X; apply occurs_length in X; cbn [length] in X; lia).
    assert (E : starts (d :: f) (d :: f) = true) by (apply starts_spec; exists []; rewrite app_nil_r; reflexivity). rewrite E. reflexivity.
  - rewrite rfinds_unfold. rewrite IH. reflexivity.
Qed.
Lemma rfindc_last c u v : ~ In c v -> rfinds [c] (u ++ c :: v) = Some (length u).
Proof.
  intros H. induction u as [|d u IH]; cbn [app length].
  - rewrite rfinds_unfold. rewrite rfinds_none; [cbn [starts]; rewrite Ascii.eqb_refl; reflexivity|].
    intros [a [b X]]. apply H. rewrite X. apply in_or_app. right. left. reflexivity.
  - rewrite rfinds_unfold. rewrite IH. reflexivity.
Qed.
(** a word that occurs around a foreign character occurs on one side of it *)
Lemma app_eq_split {A} : forall (a b c d : list A), a ++ b = c ++ d -> (exists u, c = a ++ u /\ b = u ++ d) \/ (exists u, a = c ++ u /\ d = u ++ b).
Proof.
  induction a as [|x a IH]; intros b c d E; [left; exists c; split; [reflexivity|exact E]|].
  destruct c as [|y c]; [right; exists (x :: a); split; [reflexivity|symmetry; exact E]|].
  cbn [app] in E. injection E as -> E. destruct (IH b c d E) as [[u [-> ->]]|[u [-> ->]]]; [left|right]; exists u; split; reflexivity.
Qed.
Lemma occurs_split f a c b : ~ In c f -> occurs f (a ++ c :: b) -> occurs f a \/ occurs f b.
Proof.
  intros H [x [y E]]. destruct (app_eq_split a (c :: b) x (f ++ y) E) as [[u [-> E2]]|[u [-> E2]]].
  - destruct u as [|d u]; cbn [app] in E2.
    + destruct f as [|d f]; [left; exists a, []; rewrite app_nil_r; reflexivity|]. cbn [app] in E2. injection E2 as <- _. exfalso. apply H. left. reflexivity.
    + injection E2 as <- ->. right. exists u, y. reflexivity.
  - symmetry in E2. destruct (app_eq_split u (c :: b) f y E2) as [[v [-> E3]]|[v [-> ->]]].
    + destruct v as [|d v]; [left; exists x, []; rewrite !app_nil_r; reflexivity|]. cbn [app] in E3. injection E3 as <- _. exfalso. apply H. apply in_or_app. right. left. reflexivity.
    + left. exists x, v. reflexivity.
Qed.
Lemma occurs_nil f : f <> [] -> ~ occurs f []. Proof. intros H [a [b E]]. destruct a; [destruct f; [congruence|discriminate]|discriminate]. Qed.

(** ---- characters of words and of coefficients ---- *)
Definition plain (c : ascii) : bool := alnum c || (c =?c "+") || (c =?c "-") || (c =?c "*") || (c =?c "/") || (c =?c "^") || (c =?c "(") || (c =?c ")").
Lemma alnum_plain c : alnum c = true -> plain c = true. Proof. unfold plain. intros ->. reflexivity. Qed.
Lemma digit_alnum c : is_digit c = true -> alnum c = true. Proof. unfold alnum. intros ->. apply Bool.orb_true_r. Qed.
Lemma plain_app a b : forallb plain (a ++ b) = forallb plain a && forallb plain b. Proof. apply forallb_app. Qed.
Lemma word_plain w : forallb alnum w = true -> forallb plain w = true.
Proof. intros H. rewrite forallb_forall in *. intros c I. apply alnum_plain, H, I. Qed.
Lemma num_plain w : wf_num w -> forallb plain w = true.
Proof. intros [_ H]. rewrite forallb_forall in *. intros c I. apply alnum_plain, digit_alnum, H, I. Qed.
Lemma show_plain : (forall b, wf_b b -> forallb plain (show_b b) = true) /\ (forall f, wf_f f -> forallb plain (show_f f) = true) /\
  (forall t, wf_t t -> forallb plain (show_t t) = true) /\ (forall e, wf_e e -> forallb plain (show_e e) = true).
Proof.
  apply syntax_ind; cbn [wf_b wf_f wf_t wf_e show_b show_f show_t show_e]; intros.
  - apply word_plain. apply H.
  - cbn [forallb]. rewrite plain_app, H by assumption. reflexivity.
  - rewrite plain_app. rewrite H by apply H0. destruct H0 as [_ X]. destruct x; cbn [wf_x show_expo] in *; [reflexivity| | |].
    + cbn [forallb]. rewrite (num_plain _ X). reflexivity.
    + cbn [forallb]. rewrite plain_app, (num_plain _ X). reflexivity.
    + cbn [forallb]. rewrite plain_app, (num_plain _ X). reflexivity.
  - apply H. assumption.
  - rewrite plain_app. cbn [forallb]. rewrite H by apply H1. rewrite H0 by apply H1. reflexivity.
  - rewrite plain_app. cbn [forallb]. rewrite H by apply H1. rewrite H0 by apply H1. reflexivity.
  - rewrite plain_app. rewrite H by assumption. destruct s; reflexivity.
  - rewrite !plain_app. rewrite H by apply H1. rewrite H0 by apply H1. destruct o; reflexivity.
Qed.
Lemma show_nonempty : (forall b, wf_b b -> show_b b <> []) /\ (forall f, wf_f f -> show_f f <> []) /\ (forall t, wf_t t -> show_t t <> []) /\ (forall e, wf_e e -> show_e e <> []).
Proof.
  apply syntax_ind; cbn [wf_b wf_f wf_t wf_e show_b show_f show_t show_e]; intros.
  - apply H.
  - discriminate.
  - intros E. apply app_eq_nil in E as [E _]. apply H in E; [exact E|apply H0].
  - apply H. assumption.
  - intros E. apply app_eq_nil in E as [_ E]. discriminate.
  - intros E. apply app_eq_nil in E as [_ E]. discriminate.
  - intros E. apply app_eq_nil in E as [_ E]. apply H in E; assumption.
  - intros E. apply app_eq_nil in E as [E _]. apply H in E; [exact E|apply H1].
Qed.
Lemma not_in_plain c s : plain c = false -> forallb plain s = true -> ~ In c s.
Proof. intros P H I. rewrite forallb_forall in H. rewrite (H c I) in P. discriminate. Qed.
Lemma not_in_alnum c s : alnum c = false -> forallb alnum s = true -> ~ In c s.
Proof. intros P H I. rewrite forallb_forall in H. rewrite (H c I) in P. discriminate. Qed.
Lemma white_plain c : white c -> plain c = false. Proof. intros [->|[->| ->]]; reflexivity. Qed.

(** ---- families ---- *)
Section Families.
  Variable fams : list chars.
  Hypothesis FO : families_ok fams.
  Lemma fam_word f : In f fams -> f <> [] /\ forallb alnum f = true.
  Proof. intros I. destruct FO as [W _]. rewrite Forall_forall in W. exact (W f I). Qed.
  Lemma fam_not_in f c : In f fams -> alnum c = false -> ~ In c f.
  Proof. intros I P. apply not_in_alnum; [exact P|apply fam_word; exact I]. Qed.
  (** the family is found behind the sign *)
  Lemma finds_prefix g (lead u : chars) : In g fams -> length lead <= 1 -> Forall (fun c => alnum c = false) lead -> finds g (lead ++ g ++ u) = Some (length lead).
  Proof.
    intros I L A. destruct (fam_word g I) as [N W]. assert (St : forall v, starts g (g ++ v) = true) by (intros v; apply starts_spec; exists v; reflexivity).
    destruct lead as [|c [|d lead]]; cbn [app length] in *; [rewrite finds_unfold, St; reflexivity| |lia].
    rewrite finds_unfold. destruct (starts g (c :: g ++ u)) eqn:E.
    - exfalso. apply starts_spec in E as [b E]. destruct g as [|d g]; [congruence|]. cbn [app] in E. injection E as -> _.
      inversion A as [|? ? B _]; subst. cbn [forallb] in W. rewrite B in W. discriminate.
    - rewrite finds_unfold, St. reflexivity.
  Qed.
  Lemma first_family_gen (lead f : chars) : length lead <= 1 -> Forall (fun c => alnum c = false) lead ->
    forall l, (forall g, In g l -> In g fams /\ (occurs g f -> exists u, f = g ++ u)) -> In f l -> first_family l (lead ++ f) = Some (length lead).
  Proof.
    intros L A. induction l as [|g l IH]; intros H I; [destruct I|]. cbn [first_family].
    destruct (H g (or_introl eq_refl)) as [Ig P].
    destruct (finds g (lead ++ f)) as [i|] eqn:E.
    - assert (O : occurs g f).
      { destruct (list_eq_dec ascii_dec g f) as [->|Nf]; [exists [], []; rewrite app_nil_r; reflexivity|].
        destruct lead as [|c [|d lead]]; cbn [app length] in *; [| |lia].
        - assert (D : occurs g f \/ ~ occurs g f).
          { destruct (rfinds g f) as [j|] eqn:F; [left; exact (rfinds_some g f j F)|]. right. intros [a [b X]]. clear - X F. subst f. revert F. induction a as [|c a IHa]; intros F; cbn [app] in F; rewrite rfinds_unfold in F.
            - destruct (match g ++ b with [] => None | _ :: r => rfinds g r end); [discriminate|]. assert (Q : starts g (g ++ b) = true) by (apply starts_spec; exists b; reflexivity). rewrite Q in F. discriminate.
            - destruct (rfinds g (a ++ g ++ b)); [discriminate|]. apply IHa. reflexivity. }
          destruct D as [D|D]; [exact D|]. rewrite (finds_none g f D) in E. discriminate.
        - assert (D : occurs g (c :: f) \/ ~ occurs g (c :: f)).
          { destruct (rfinds g (c :: f)) as [j|] eqn:F; [left; exact (rfinds_some g _ j F)|]. right. intros [a [b X]]. rewrite X in F. clear - F. revert F. induction a as [|x a IHa]; intros F; cbn [app] in F; rewrite rfinds_unfold in F.
            - destruct (match g ++ b with [] => None | _ :: r => rfinds g r end); [discriminate|]. assert (Q : starts g (g ++ b) = true) by (apply starts_spec; exists b; reflexivity). rewrite Q in F. discriminate.
            - destruct (rfinds g (a ++ g ++ b)); [discriminate|]. apply IHa. reflexivity. }
          destruct D as [D|D]; [|rewrite (finds_none g _ D) in E; discriminate].
          apply (occurs_split g [] c f) in D; [|apply fam_not_in; [exact Ig|inversion A; assumption]].
          destruct D as [D|D]; [exfalso; apply (occurs_nil g) in D; [exact D|apply fam_word; exact Ig]|exact D]. }
      destruct (P O) as [u X]. rewrite X in E. rewrite (finds_prefix g lead u Ig L A) in E. injection E as <-. reflexivity.
    - destruct I as [->|I].
      + pose proof (finds_prefix f lead [] Ig L A) as X. rewrite app_nil_r in X. rewrite X in E. discriminate.
      + apply IH; [|exact I]. intros h Ih. apply H. right. exact Ih.
  Qed.
  Lemma first_family_ok (lead f : chars) : length lead <= 1 -> Forall (fun c => alnum c = false) lead -> In f fams -> first_family fams (lead ++ f) = Some (length lead).
  Proof.
    intros L A I. destruct (in_split f fams I) as [l [r E]]. destruct FO as [_ H]. destruct (H l f r E) as [_ Pl]. rewrite Forall_forall in Pl.
    assert (G : forall m, first_family (l ++ f :: m) (lead ++ f) = first_family (l ++ [f]) (lead ++ f)).
    { intros m. clear - L A FO I. induction l as [|g l IH]; cbn [app first_family].
      - pose proof (finds_prefix f lead [] I L A) as X. rewrite app_nil_r in X. rewrite X. reflexivity.
      - destruct (finds g (lead ++ f)); [reflexivity|exact IH]. }
    rewrite E, G. apply first_family_gen; [exact L|exact A| |apply in_or_app; right; left; reflexivity].
    intros g Ig. apply in_app_or in Ig as [Ig|[<-|[]]].
    - split; [rewrite E; apply in_or_app; left; exact Ig|]. apply Pl. exact Ig.
    - split; [exact I|]. intros _. exists []. rewrite app_nil_r. reflexivity.
  Qed.

  (** ---- the coefficient in front of a further function ---- *)
  Lemma coef_loop_skip seed2 fo2 : forall l coef nxt, Forall (fun f => ~ occurs f seed2) l -> coef_loop l seed2 fo2 coef nxt = Ret (coef, nxt).
  Proof. induction l as [|f l IH]; intros coef nxt H; [reflexivity|]. inversion H; subst. cbn [coef_loop]. rewrite rfinds_none by assumption. apply IH. assumption. Qed.
  Lemma coef_loop_ok t sg g fo2 nxt : alnum sg = false -> In g fams -> wf_t t -> Forall (fun f => ~ occurs f (show_t t)) (tl fams) ->
    coef_loop fams ("*"%char :: show_t t ++ sg :: g) fo2 [] nxt = Ret (show_t t, fo2 - length g - 1).
  Proof.
    intros Hsg Ig Wt Ct. set (seed := "*"%char :: show_t t ++ sg :: g).
    destruct (in_split g fams Ig) as [l [r E]]. destruct FO as [_ H]. destruct (H l g r E) as [Pr _].
    assert (Fr : Forall (fun f => ~ occurs f seed) r).
    { rewrite Forall_forall in *. intros f If O. assert (If' : In f (tl fams)).
      { rewrite E. destruct l as [|h l]; cbn [app tl]; [exact If|]. apply in_or_app. right. right. exact If. }
      assert (Iff : In f fams) by (rewrite E; apply in_or_app; right; right; exact If).
      destruct (fam_word f Iff) as [Nf _].
      apply (occurs_split f [] "*"%char) in O; [|apply fam_not_in; [exact Iff|reflexivity]]. destruct O as [O|O]; [exact (occurs_nil f Nf O)|].
      apply occurs_split in O; [|apply fam_not_in; [exact Iff|exact Hsg]]. destruct O as [O|O]; [exact (Ct f If' O)|exact (Pr f If O)]. }
    rewrite E. assert (G : forall l coef nxt, coef_loop (l ++ g :: r) seed fo2 coef nxt = Ret (show_t t, fo2 - length g - 1)).
    { clear l E H Pr nxt. induction l as [|h l IH]; intros coef nxt; cbn [app coef_loop].
      - assert (Es : seed = ("*"%char :: show_t t ++ [sg]) ++ g) by (unfold seed; cbn [app]; rewrite <- app_assoc; reflexivity).
        rewrite Es at 1. rewrite rfinds_last by (apply fam_word; exact Ig).
        unfold substr_diff. cbn [length]. rewrite app_length. cbn [length]. destruct (Nat.ltb_spec (S (length (show_t t) + 1)) 2) as [X|_].
        { exfalso. pose proof (proj1 (proj2 (proj2 show_nonempty)) t Wt) as Nt. destruct (show_t t); [congruence|cbn [length] in X; lia]. }
        change (hd nul seed) with "*"%char. rewrite Ascii.eqb_refl.
        replace (S (length (show_t t) + 1) - 2) with (length (show_t t)) by lia.
        pose proof (substr_pre ["*"%char] (show_t t) (sg :: g)) as X. cbn [app length] in X. fold seed in X. rewrite X. cbn [obind].
        apply coef_loop_skip. exact Fr.
      - destruct (rfinds h seed) as [tf|]; [|apply IH].
        assert (X : exists c, substr_diff seed (if hd nul seed =?c "*" then 1 else 0) tf 2 = Ret c).
        { change (hd nul seed) with "*"%char. rewrite Ascii.eqb_refl. unfold substr_diff, substr, substr_end.
          destruct (Nat.ltb_spec (length seed) 1) as [X|_]; [unfold seed in X; cbn [length] in X; lia|]. destruct (tf <? 2); eexists; reflexivity. }
        destruct X as [c X]. rewrite X. cbn [obind]. apply IH. }
    apply G.
  Qed.
End Families.

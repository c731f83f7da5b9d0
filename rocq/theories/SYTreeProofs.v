(** Further facts on the notation of a tree: consecutive divisions, negative exponents, long literals; and balanced
    parentheses for arbitrary strings. *)
From Coq Require Import Ascii String.
From Verif Require Import Machine FFInt FFVec SYParse SYGrammar SYParseProofs SYValidateProofs SYEval SYEvalProofs SYPreProofs.
From Coq Require Import List.
Import ListNotations.
Open Scope nat_scope.

(** ---- balanced parentheses ---- *)
Definition inside (n : nat) (z : Z) : Prop := (Z.abs z < Z.of_nat n)%Z.
Lemma upd_app_l {A} (a b : list A) k x : k < length a -> exists a', upd (a ++ b) k x = a' ++ b /\ length a' = length a.
Proof.
  revert k. induction a as [|y a IH]; intros k H; cbn [length] in H; [lia|]. destruct k as [|k].
  - exists (x :: a). split; reflexivity.
  - destruct (IH k) as [a' [E L]]; [lia|]. exists (y :: a'). cbn [app upd length]. rewrite E, L. split; reflexivity.
Qed.
Lemma VL_bal rest : forall pre st, Forall (inside (length pre)) st ->
  (exists r, VL pre rest st = Ret r /\ balanced (length st) rest = true) \/ (VL pre rest st = Exit /\ balanced (length st) rest = false).
Proof.
  remember (length rest) as n eqn:Hn. revert rest Hn. induction n as [n IH] using lt_wf_ind. intros rest Hn pre st Hs.
  destruct rest as [|c rest].
  - unfold VL. cbn [length Nat.add]. rewrite vl_S. rewrite app_nil_r.
    assert (E1 : nth (length pre) pre nul = nul) by (apply nth_overflow; lia). rewrite E1.
    replace (nul =?c "+") with false by reflexivity. cbn [andb]. rewrite E1. replace (nul =?c "-") with false by reflexivity. cbn [andb]. rewrite E1.
    replace (nul =?c "(") with false by reflexivity. replace (nul =?c ")") with false by reflexivity.
    cbn [validate_loop balanced]. destruct st; [left; eexists; split; reflexivity|right; split; reflexivity].
  - cbn [length] in Hn. assert (Hin : forall z, inside (length pre) z -> inside (S (length pre)) z) by (unfold inside; intros; lia).
    assert (Hs' : Forall (inside (S (length pre))) st) by (eapply Forall_impl; [exact Hin|exact Hs]).
    destruct (c =?c "(") eqn:Eo.
    + apply Ascii.eqb_eq in Eo. subst c. rewrite VL_open. cbn [balanced]. rewrite Ascii.eqb_refl.
      apply (IH (length rest)) with (st := _ :: st); [lia|reflexivity|]. rewrite len_app1. constructor; [|exact Hs'].
      match goal with |- inside _ (if ?b then _ else _) => destruct b end; unfold inside; lia.
    + destruct (c =?c ")") eqn:Ec.
      * apply Ascii.eqb_eq in Ec. subst c. unfold VL. cbn [length Nat.add]. rewrite vl_S. rewrite !nth_mid, nth_mid1.
        replace (")" =?c "+") with false by reflexivity. cbn [andb]. rewrite !nth_mid.
        replace (")" =?c "-") with false by reflexivity. cbn [andb]. rewrite !nth_mid.
        replace (")" =?c "(") with false by reflexivity. replace (")" =?c ")") with true by reflexivity. rewrite nth_mid1.
        cbn [balanced]. replace (Ascii.eqb ")" "(") with false by reflexivity. replace (Ascii.eqb ")" ")") with true by reflexivity.
        destruct st as [|top st]; [right; split; reflexivity|]. cbn [length].
        inversion Hs as [|? ? Ht Hs2]; subst.
        assert (Hs2' : Forall (inside (S (length pre))) st) by (eapply Forall_impl; [exact Hin|exact Hs2]).
        match goal with |- context[if ?b then _ else _] => destruct b eqn:Eb end.
        -- destruct (upd_app_l pre (")"%char :: rest) (Z.to_nat (- top)) "$"%char) as [pre' [E1 E2]].
           { apply andb_prop in Eb. destruct Eb as [_ Eb]. apply Z.ltb_lt in Eb. unfold inside in Ht. lia. }
           rewrite E1. assert (E3 : upd (pre' ++ ")"%char :: rest) (length pre) "$"%char = pre' ++ "$"%char :: rest) by (rewrite <- E2; apply upd_mid).
           rewrite E3, app_cons1.
           specialize (IH (length rest) ltac:(lia) rest eq_refl (pre' ++ ["$"%char]) st). unfold VL in IH. rewrite len_app1, E2 in IH.
           exact (IH Hs2').
        -- rewrite app_cons1. specialize (IH (length rest) ltac:(lia) rest eq_refl (pre ++ [")"%char]) st). unfold VL in IH. rewrite len_app1 in IH.
           exact (IH Hs2').
      * cbn [balanced]. rewrite Eo, Ec.
        assert (N : (exists rest', VL pre (c :: rest) st = VL (pre ++ [c]) rest' st /\ length rest' = length rest /\ (forall d, balanced d rest' = balanced d rest)) \/
                    (VL pre (c :: rest) st = VL (pre ++ ["$"%char]) rest st)).
        { destruct (c =?c "+") eqn:Ep.
          - apply Ascii.eqb_eq in Ep. subst c. destruct rest as [|d rest].
            + left. exists []. split; [|split; reflexivity]. apply VL_neutral; reflexivity.
            + destruct (d =?c "-") eqn:Ed.
              * apply Ascii.eqb_eq in Ed. subst d. right. apply VL_pm.
              * left. exists (d :: rest). split; [|split; reflexivity]. apply VL_neutral; try reflexivity. cbn [nth]. rewrite Ed. reflexivity.
          - destruct (c =?c "-") eqn:Em.
            + apply Ascii.eqb_eq in Em. subst c. destruct rest as [|d rest].
              * left. exists []. split; [|split; reflexivity]. apply VL_neutral; reflexivity.
              * destruct (d =?c "+") eqn:Ed.
                -- apply Ascii.eqb_eq in Ed. subst d. left. exists ("$"%char :: rest). split; [apply VL_mp|]. split; [reflexivity|]. intros d. reflexivity.
                -- left. exists (d :: rest). split; [|split; reflexivity]. apply VL_neutral; try reflexivity. cbn [nth]. rewrite Ed. reflexivity.
            + left. exists rest. split; [|split; reflexivity]. apply VL_neutral; try assumption; rewrite ?Ep, ?Em; reflexivity. }
        destruct N as [[rest' [E1 [E2 E3]]]|E1]; rewrite E1; clear E1.
        -- rewrite <- E3. apply (IH (length rest')); [lia|reflexivity|]. rewrite len_app1. exact Hs'.
        -- apply (IH (length rest)); [lia|reflexivity|]. rewrite len_app1. exact Hs'.
Qed.
Lemma validate_balanced s : (balanced 0 s = true -> exists r, validate s = Ret r) /\ (balanced 0 s = false -> validate s = Exit).
Proof.
  unfold validate. destruct (VL_bal s [] [] (Forall_nil _)) as [[r [E B]]|[E B]]; unfold VL in E; cbn [app length] in E; rewrite E; cbn [length] in B; rewrite B.
  - split; [intros _; eexists; reflexivity|discriminate].
  - split; [discriminate|reflexivity].
Qed.

(** ---- what the precomputation leaves on top of its stack for a tree ---- *)
Section Shape.
  Variable p : Z.
  Variable vars : list chars.
  Hypothesis Hnames : forall v, In v vars -> ~ wf_num v.
  Notation pstate := (list ptok * list (nat * list chars))%type.
  (** [s'] is the state after a tree, [s] the one before it *)
  Definition shape (lone cst quot : bool) (s s' : pstate) : Prop :=
    match s' with
    | (POp _ :: _, _) => True
    | ((PVar _ | PNegVar _) :: rp, pr) => rp = fst s /\ lone = true
    | (PNum _ :: rp, pr) => rp = fst s /\ cst = true /\ exists q, pr = q :: snd s /\ (quot = false -> exists c, snd q = [c])
    | ([], _) => False
    end.
  Variable strict : bool.     (* whether division steps are watched *)
  Definition dy (ts : list chars) (s : pstate) : Prop := strict = true -> dyn_ok p vars ts s.
  Definition runs (lone cst quot : bool) (ts : list chars) : Prop :=
    forall s, dy ts s /\ forall s', pre_loop p vars ts s = Ret s' -> shape lone cst quot s s'.

  Lemma dyn1 t s : t <> ["/"%char] -> dyn_ok p vars [t] s.
  Proof. intros N. split; [intros E; contradiction|]. destruct (pre1 p vars t s); exact I. Qed.
  Lemma word_op sg w : is_sg3 sg -> wf_word w -> is_op (sg ++ w) = false.
  Proof.
    intros Hsg W. destruct w as [|c w]; [destruct W; congruence|]. pose proof (hd_alnum c w W) as A.
    destruct Hsg as [->|[->| ->]]; cbn [app]; [|reflexivity|reflexivity]. destruct w; [|reflexivity]. unfold is_op.
    revert c A W. assert (H : forallb (fun n => implb (alnum (ascii_of_nat n)) (negb (is_op [ascii_of_nat n]))) (seq 0 256) = true) by (vm_compute; reflexivity).
    intros c A _. pose proof (alnum_cases (fun c => negb (is_op [c])) H c A) as X. apply negb_true_iff in X. exact X.
  Qed.
  Lemma digits_cst w : wf_num w -> forallb is_digit w = true. Proof. intros [_ H]. exact H. Qed.
  Lemma name_not_digits w : wf_word w -> In w vars -> forallb is_digit w = false.
  Proof. intros [N _] I. destruct (forallb is_digit w) eqn:E; [|reflexivity]. destruct (Hnames w I). split; assumption. Qed.
  Lemma pre_name_shape rp pr neg w r s' : wf_word w -> ok_word vars w -> pre_name p vars rp pr neg w r = Ret s' ->
    shape (negb (forallb is_digit w)) (forallb is_digit w) false (rp, pr) s'.
  Proof.
    intros W O. unfold pre_name. destruct (var_index vars w) as [i|] eqn:E.
    - intros H. injection H as <-. apply var_index_some in E. destruct E as [E _]. apply nth_error_In in E. rewrite (name_not_digits w W E). destruct neg; split; reflexivity.
    - destruct (is_digit (hd nul w)); [|discriminate]. intros H. injection H as <-.
      destruct O as [[I _]|[D _]]; [apply var_index_in in I; destruct I as [k I]; congruence|]. rewrite (digits_cst w D).
      split; [reflexivity|]. split; [reflexivity|]. eexists. split; [reflexivity|]. intros _. eexists. reflexivity.
  Qed.
  Lemma word_runs sg w : is_sg3 sg -> wf_word w -> ok_word vars w -> runs (negb (forallb is_digit w)) (forallb is_digit w) false [sg ++ w].
  Proof.
    intros Hsg W O [rp pr]. pose proof (word_op sg w Hsg W) as Op. split.
    - intros _. apply dyn1. intros E. rewrite E in Op. discriminate.
    - intros s' H. cbn [pre_loop] in H. apply obind_ret in H. destruct H as [s [H X]]. injection X as <-.
      unfold pre1 in H. rewrite Op in H.
      assert (Hw : exists c w', w = c :: w' /\ (c =?c "+") = false /\ (c =?c "-") = false).
      { destruct w as [|c w']; [destruct W; congruence|]. exists c, w'. destruct (alnum_props c (hd_alnum c w' W)) as [_ [_ [_ [_ [E3 [E4 _]]]]]]. repeat split; assumption. }
      destruct Hw as [c [w' [Ew [E4 E3]]]].
      destruct (18 <? length (sg ++ w)) eqn:El.
      + apply obind_ret in H. destruct H as [z [_ H]]. injection H as <-.
        assert (D : wf_num w).
        { destruct O as [[_ L]|[D _]]; [|exact D]. exfalso. apply Nat.ltb_lt in El. rewrite app_length in El.
          assert (length sg <= 1) by (destruct Hsg as [->|[->| ->]]; cbn; lia). lia. }
        rewrite (digits_cst w D). split; [reflexivity|]. split; [reflexivity|]. eexists. split; [reflexivity|]. intros _. eexists. reflexivity.
      + destruct Hsg as [->|[->| ->]]; cbn [app hd tl] in H.
        * rewrite Ew in H. cbn [hd] in H. rewrite E3, E4 in H. rewrite <- Ew in H. exact (pre_name_shape rp pr false w w s W O H).
        * change ("+"%char =?c "-") with false in H. change ("+"%char =?c "+") with true in H. cbv iota in H. exact (pre_name_shape rp pr false w _ s W O H).
        * change ("-"%char =?c "-") with true in H. cbv iota in H. exact (pre_name_shape rp pr true w _ s W O H).
  Qed.
  (** an operator other than the division stays on top *)
  Lemma op_last a c l cs q : is_op [c] = true -> c <> "/"%char -> (forall s, dy a s) -> runs l cs q (a ++ [[c]]).
  Proof.
    intros O N Ha s. split.
    - intros X. apply dyn_app; [exact (Ha s X)|]. intros s' _. apply dyn1. congruence.
    - intros s' H. rewrite pre_loop_app in H. apply obind_ret in H. destruct H as [[rp pr] [_ H]]. cbn [pre_loop] in H. apply obind_ret in H. destruct H as [s2 [H X]]. injection X as <-.
      unfold pre1 in H. rewrite O in H. cbn [hd] in H. replace (c =?c "/") with false in H by (symmetry; apply Ascii.eqb_neq; exact N). injection H as <-. exact I.
  Qed.
  Lemma dyn2 a b : (forall s, dy a s) -> (forall s, dy b s) -> forall s, dy (a ++ b) s.
  Proof. intros A B s X. apply dyn_app; [exact (A s X)|]. intros s' _. exact (B s' X). Qed.
  Lemma runs_dyn l c q ts : runs l c q ts -> forall s, dy ts s. Proof. intros H s. exact (proj1 (H s)). Qed.
  Lemma runs_div a b la ca qa lb cb qb : runs la ca qa a -> runs lb cb qb b -> (strict = true -> (la && cb && qb) = false) -> runs false (ca && cb) true (a ++ b ++ [["/"%char]]).
  Proof.
    intros A B N s. destruct (A s) as [A1 A2]. split.
    - intros X. specialize (N X). apply dyn_app; [exact (A1 X)|]. intros s1 H1. destruct (B s1) as [B1 B2]. apply dyn_app; [exact (B1 X)|]. intros s2 H2.
      specialize (A2 s1 H1). specialize (B2 s2 H2). split; [|destruct (pre1 p vars ["/"%char] s2); exact I]. intros _.
      destruct s2 as [[|[c|i|i|v] rp] pr]; try exact I. destruct B2 as [E1 [E2 [q [E3 E4]]]]. destruct s1 as [rp1 pr1]. cbn [fst snd] in *. subst rp pr.
      destruct rp1 as [|[c|i|i|u] rp1]; try exact I; destruct A2 as [_ ->]; subst cb; destruct q as [k r]; (apply E4; destruct qb; [discriminate N|reflexivity]).
    - intros s' H. rewrite !pre_loop_app in H. apply obind_ret in H. destruct H as [s1 [H1 H]]. rewrite pre_loop_app in H. apply obind_ret in H. destruct H as [s2 [H2 H]].
      specialize (A2 s1 H1). specialize (proj2 (B s1) s2 H2) as B2. cbn [pre_loop] in H. apply obind_ret in H. destruct H as [s3 [H X]]. injection X as <-.
      destruct s2 as [[|[c|i|i|v] rp] pr]; try contradiction; try (cbn in H; injection H as <-; exact I).
      destruct B2 as [E1 [E2 [q [E3 E4]]]]. destruct s1 as [rp1 pr1]. cbn [fst snd] in *. subst rp pr.
      destruct rp1 as [|[c|i|i|u] rp1]; try contradiction.
      + cbn in H. injection H as <-. exact I.
      + destruct q as [k [|x r]]; cbn in H; [discriminate|]. injection H as <-. exact I.
      + destruct q as [k [|x r]]; cbn in H; [discriminate|]. injection H as <-. exact I.
      + destruct A2 as [E5 [E6 [q2 [E7 _]]]]. subst rp1 pr1 cb ca. destruct q as [k r], q2 as [k2 r2]. cbn in H. injection H as <-.
        split; [reflexivity|]. split; [reflexivity|]. eexists. split; [reflexivity|]. discriminate.
  Qed.
  Lemma runs_weaken l c q l' c' q' ts : runs l c q ts -> (l = true -> l' = true) -> (c = true -> c' = true) -> (q' = false -> q = false) -> runs l' c' q' ts.
  Proof.
    intros H Hl Hc Hq s. destruct (H s) as [H1 H2]. split; [exact H1|]. intros s' E. specialize (H2 s' E). destruct s' as [[|[]] pr]; cbn [shape] in *; try exact H2.
    - destruct H2 as [A B]. split; [exact A|exact (Hl B)].
    - destruct H2 as [A B]. split; [exact A|exact (Hl B)].
    - destruct H2 as [A [B [x [C D]]]]. split; [exact A|]. split; [exact (Hc B)|]. exists x. split; [exact C|]. intros E'. apply D, Hq, E'.
  Qed.
  Lemma dyn_words ws : Forall (fun w => w <> ["/"%char]) ws -> forall s, dy ws s.
  Proof. intros H s _. revert s. induction H as [|w ws N _ IH]; intros s; [exact I|]. split; [intros E; contradiction|]. destruct (pre1 p vars w s); [apply IH|exact I..]. Qed.
  Lemma word_not_div sg w : is_sg3 sg -> wf_word w -> sg ++ w <> ["/"%char].
  Proof. intros S W E. pose proof (word_op sg w S W) as X. rewrite E in X. discriminate. Qed.

  Lemma rpn_runs : (forall b, wf_b b -> ok_b p vars b -> (strict = true -> nq_b b) -> match b with Par e => runs (lone_e e) (cst_e e) (quot_e e) (rpn_e e) | _ => True end) /\
    (forall f, wf_f f -> ok_f p vars f -> (strict = true -> nq_f f) -> forall sg, is_sg3 sg -> runs (lone_f f) (cst_f f) (quot_f f) (rpn_f sg f)) /\
    (forall t, wf_t t -> ok_t p vars t -> (strict = true -> nq_t t) -> forall sg, is_sg3 sg -> runs (lone_t t) (cst_t t) (quot_t t) (rpn_t sg t)) /\
    (forall e, wf_e e -> ok_e p vars e -> (strict = true -> nq_e e) -> runs (lone_e e) (cst_e e) (quot_e e) (rpn_e e)).
  Proof.
    assert (S0 : is_sg3 []) by (left; reflexivity).
    assert (Wp : forall a b c l cs q, wf_word b -> is_op [c] = true -> c <> "/"%char -> (forall s, dy a s) -> runs l cs q (a ++ [b; [c]])).
    { intros a b c l cs q Wb O N A. change [b; [c]] with ([b] ++ [[c]]). rewrite app_assoc. apply op_last; [exact O|exact N|]. apply dyn2; [exact A|]. apply dyn_words.
      constructor; [exact (word_not_div [] b S0 Wb)|constructor]. }
    apply syntax_ind.
    - intros; exact I.
    - intros e H W O Q. exact (H W O Q).
    - intros b H x [Wb Wx] [Ob Ox] Q sg Hsg. destruct b as [w|e]; cbn [rpn_f lone_f cst_f quot_f].
      + destruct x as [|n|n|n].
        * apply word_runs; assumption.
        * assert (A : forall s, dy [sg ++ w] s) by (apply dyn_words; constructor; [apply word_not_div; assumption|constructor]).
          assert (B : forall s, dy [w] s) by (apply dyn_words; constructor; [exact (word_not_div [] w S0 Wb)|constructor]).
          destruct (minus_sg sg); [change [w; n; ["!"%char]] with ([w] ++ [n; ["!"%char]])|change [sg ++ w; n; ["^"%char]] with ([sg ++ w] ++ [n; ["^"%char]])];
            (apply Wp; [exact (wf_num_word n Wx)|reflexivity|discriminate|assumption]).
        * assert (A : forall s, dy [sg ++ w] s) by (apply dyn_words; constructor; [apply word_not_div; assumption|constructor]).
          assert (B : forall s, dy [w] s) by (apply dyn_words; constructor; [exact (word_not_div [] w S0 Wb)|constructor]).
          destruct (minus_sg sg); [change [w; n; ["!"%char]] with ([w] ++ [n; ["!"%char]])|change [sg ++ w; n; ["^"%char]] with ([sg ++ w] ++ [n; ["^"%char]])];
            (apply Wp; [exact (wf_num_word n Wx)|reflexivity|discriminate|assumption]).
        * assert (A : forall s, dy [sg ++ w] s) by (apply dyn_words; constructor; [apply word_not_div; assumption|constructor]).
          assert (B : forall s, dy [w] s) by (apply dyn_words; constructor; [exact (word_not_div [] w S0 Wb)|constructor]).
          destruct (minus_sg sg); [change [w; n; [";"%char]] with ([w] ++ [n; [";"%char]])|change [sg ++ w; n; ["~"%char]] with ([sg ++ w] ++ [n; ["~"%char]])];
            (apply Wp; [exact (wf_num_word n Wx)|reflexivity|discriminate|assumption]).
      + specialize (H Wb Ob Q). destruct x as [|n|n|n]; [rewrite app_nil_r; exact H|..];
          (apply Wp; [exact (wf_num_word n Wx)|reflexivity|discriminate|exact (runs_dyn _ _ _ _ H)]).
    - intros f H W O Q sg Hsg. exact (H W O Q sg Hsg).
    - intros t H f Hf [W Wf] [O Of] QQ sg Hsg. assert (Q : strict = true -> nq_t t) by (intros X; apply (QQ X)). assert (Qf : strict = true -> nq_f f) by (intros X; apply (QQ X)). cbn [rpn_t]. rewrite app_assoc. apply op_last; [reflexivity|discriminate|].
      apply dyn2; [exact (runs_dyn _ _ _ _ (H W O Q sg Hsg))|exact (runs_dyn _ _ _ _ (Hf Wf Of Qf [] S0))].
    - intros t H f Hf [W Wf] [O Of] QQ sg Hsg. assert (Q : strict = true -> nq_t t) by (intros X; apply (QQ X)). assert (Qf : strict = true -> nq_f f) by (intros X; apply (QQ X)). assert (N : strict = true -> (lone_t t && cst_f f && quot_f f)%bool = false) by (intros X; apply (QQ X)). cbn [rpn_t lone_t cst_t quot_t]. exact (runs_div _ _ _ _ _ _ _ _ (H W O Q sg Hsg) (Hf Wf Of Qf [] S0) N).
    - intros s t H W O Q. cbn [rpn_e lone_e cst_e quot_e].
      assert (Z : forall c, is_op [c] = true -> c <> "/"%char -> runs (lone_t t) (cst_t t) (quot_t t) (["0"%char] :: rpn_t [] t ++ [[c]])).
      { intros c Oc Nc. change (["0"%char] :: rpn_t [] t ++ [[c]]) with ((["0"%char] :: rpn_t [] t) ++ [[c]]). apply op_last; [exact Oc|exact Nc|].
        apply (dyn2 [["0"%char]]); [apply dyn_words; constructor; [discriminate|constructor]|exact (runs_dyn _ _ _ _ (H W O Q [] S0))]. }
      destruct s; [exact (H W O Q [] S0)|..]; (destruct (head_par t); [apply Z; [reflexivity|discriminate]|]); cbn [sgc]; apply (H W O Q);
        first [right; left; reflexivity|right; right; reflexivity].
    - intros e H o t Ht [W Wt] [O Ot] QQ. assert (Q : strict = true -> nq_e e) by (intros X; apply (QQ X)). assert (Qt : strict = true -> nq_t t) by (intros X; apply (QQ X)). cbn [rpn_e lone_e cst_e quot_e]. rewrite app_assoc. apply op_last; [destruct o; reflexivity|destruct o; discriminate|].
      apply dyn2; [exact (runs_dyn _ _ _ _ (H W O Q))|exact (runs_dyn _ _ _ _ (Ht Wt Ot Qt [] S0))].
  Qed.
End Shape.

Lemma core_quot e : quot_e (core e) = quot_e e.
Proof. destruct e as [[] [[[w|e2] [|n|n|n]]| |]|]; reflexivity. Qed.
Lemma core_nq e : nq_e e -> nq_e (core e).
Proof. destruct e as [[] [[[w|e2] [|n|n|n]]| |]|]; exact (fun H => H). Qed.
Lemma core_nn e : nn_e e -> nn_e (core e).
Proof. destruct e as [[] [[[w|e2] [|n|n|n]]| |]|]; try exact (fun H => H). intros [H _]. exact H. Qed.
Lemma nf_quot : (forall b, match b with Par e => quot_e (nf_e e) = quot_e e | _ => True end) /\ (forall f, quot_f (nf_f f) = quot_f f) /\
  (forall t, quot_t (nf_t t) = quot_t t) /\ (forall e, quot_e (nf_e e) = quot_e e).
Proof.
  apply syntax_ind; try (intros; reflexivity).
  - intros e H. exact H.
  - intros [w|e] H x; [reflexivity|]. cbn [nf_f nf_b]. destruct x; try reflexivity. change (quot_e (core (nf_e e)) = quot_e e). rewrite core_quot. exact H.
  - intros f H. exact H.
  - intros s t H. exact H.
Qed.
Lemma core_lone e : lone_e (core e) = lone_e e.
Proof. destruct e as [[] [[[w|e2] [|n|n|n]]| |]|]; reflexivity. Qed.
Lemma core_cst e : cst_e (core e) = cst_e e.
Proof. destruct e as [[] [[[w|e2] [|n|n|n]]| |]|]; reflexivity. Qed.
Lemma nf_lone : (forall b, match b with Par e => lone_e (nf_e e) = lone_e e | _ => True end) /\ (forall f, lone_f (nf_f f) = lone_f f) /\
  (forall t, lone_t (nf_t t) = lone_t t) /\ (forall e, lone_e (nf_e e) = lone_e e).
Proof.
  apply syntax_ind; try (intros; reflexivity).
  - intros e H. exact H.
  - intros [w|e] H x; [reflexivity|]. cbn [nf_f nf_b]. destruct x; try reflexivity. change (lone_e (core (nf_e e)) = lone_e e). rewrite core_lone. exact H.
  - intros f H. exact H.
  - intros s t H. exact H.
Qed.
Lemma nf_cst : (forall b, match b with Par e => cst_e (nf_e e) = cst_e e | _ => True end) /\ (forall f, cst_f (nf_f f) = cst_f f) /\
  (forall t, cst_t (nf_t t) = cst_t t) /\ (forall e, cst_e (nf_e e) = cst_e e).
Proof.
  apply syntax_ind; try (intros; reflexivity).
  - intros e H. exact H.
  - intros [w|e] H x; [reflexivity|]. cbn [nf_f nf_b]. destruct x; try reflexivity. change (cst_e (core (nf_e e)) = cst_e e). rewrite core_cst. exact H.
  - intros f H. exact H.
  - intros t H f Hf. change (cst_t (nf_t t) && cst_f (nf_f f) = cst_t t && cst_f f)%bool. rewrite H, Hf. reflexivity.
  - intros s t H. exact H.
Qed.
Lemma nf_nq : (forall b, nq_b b -> nq_b (nf_b b)) /\ (forall f, nq_f f -> nq_f (nf_f f)) /\ (forall t, nq_t t -> nq_t (nf_t t)) /\ (forall e, nq_e e -> nq_e (nf_e e)).
Proof.
  apply syntax_ind.
  - intros w H. exact H.
  - intros e H Q. apply core_nq. exact (H Q).
  - intros b H x Q. exact (H Q).
  - intros f H Q. exact (H Q).
  - intros t H f Hf [Q Qf]. split; [exact (H Q)|exact (Hf Qf)].
  - intros t H f Hf [Q [Qf Qn]]. split; [exact (H Q)|]. split; [exact (Hf Qf)|]. rewrite (proj1 (proj2 nf_quot)), (proj1 (proj2 (proj2 nf_lone))), (proj1 (proj2 nf_cst)). exact Qn.
  - intros s t H Q. exact (H Q).
  - intros e H o t Ht [Q Qt]. split; [exact (H Q)|exact (Ht Qt)].
Qed.
Lemma nf_nn : (forall b, nn_b b -> nn_b (nf_b b)) /\ (forall f, nn_f f -> nn_f (nf_f f)) /\ (forall t, nn_t t -> nn_t (nf_t t)) /\ (forall e, nn_e e -> nn_e (nf_e e)).
Proof.
  apply syntax_ind.
  - intros w H. exact H.
  - intros e H Q. apply core_nn. exact (H Q).
  - intros b H x [Q X]. split; [exact (H Q)|exact X].
  - intros f H Q. exact (H Q).
  - intros t H f Hf [Q Qf]. split; [exact (H Q)|exact (Hf Qf)].
  - intros t H f Hf [Q Qf]. split; [exact (H Q)|exact (Hf Qf)].
  - intros s t H Q. exact (H Q).
  - intros e H o t Ht [Q Qt]. split; [exact (H Q)|exact (Ht Qt)].
Qed.
Lemma relead_nq e : nq_e e -> nq_e (relead e).
Proof.
  induction e as [s t|e IH o t]; intros Q; cbn [relead].
  - destruct (head_par t); [|exact Q]. destruct s; try exact Q; (split; [exact I|exact Q]).
  - destruct Q as [Q1 Q2]. split; [exact (IH Q1)|exact Q2].
Qed.
Lemma relead_nn e : nn_e e -> nn_e (relead e).
Proof.
  induction e as [s t|e IH o t]; intros Q; cbn [relead].
  - destruct (head_par t); [|exact Q]. destruct s; try exact Q; (split; [split; exact I|exact Q]).
  - destruct Q as [Q1 Q2]. split; [exact (IH Q1)|exact Q2].
Qed.

(** ---- no token of a negative exponent ---- *)
Definition pub_tok (t : chars) : Prop := t <> ["~"%char] /\ t <> [";"%char].
Lemma word_pub sg w : wf_word w -> pub_tok (sg ++ w).
Proof.
  intros [Hne Ha]. destruct w as [|c w]; [congruence|]. cbn [forallb] in Ha. apply andb_prop in Ha. destruct Ha as [Ha _].
  destruct sg as [|s [|s2 sg]]; split; intros E; cbn [app] in E; try discriminate; injection E as -> ->; discriminate.
Qed.
Lemma rpn_pub : (forall b, wf_b b -> nn_b b -> match b with Par e => Forall pub_tok (rpn_e e) | _ => True end) /\
  (forall f, wf_f f -> nn_f f -> forall sg, Forall pub_tok (rpn_f sg f)) /\ (forall t, wf_t t -> nn_t t -> forall sg, Forall pub_tok (rpn_t sg t)) /\
  (forall e, wf_e e -> nn_e e -> Forall pub_tok (rpn_e e)).
Proof.
  assert (C : forall x, x <> ["~"%char] -> x <> [";"%char] -> Forall pub_tok [x]) by (intros; constructor; [split; assumption|constructor]).
  apply syntax_ind.
  - intros; exact I.
  - intros e H W. exact (H W).
  - intros b H x [Wb Wx] [Nb Nx] sg. destruct b as [w|e]; cbn [rpn_f].
    + pose proof (word_pub sg w Wb) as A. pose proof (word_pub [] w Wb) as B. cbn [app] in B.
      destruct x as [|n|n|n]; [constructor; [exact A|constructor]| | |contradiction]; pose proof (word_pub [] n (wf_num_word n Wx)) as N; cbn [app] in N;
        (destruct (minus_sg sg); (constructor; [assumption|constructor; [exact N|apply C; discriminate]])).
    + apply Forall_app. split; [exact (H Wb Nb)|]. destruct x as [|n|n|n]; [constructor| | |contradiction]; pose proof (word_pub [] n (wf_num_word n Wx)) as Wn;
        (constructor; [exact Wn|apply C; discriminate]).
  - intros f H W Q sg. exact (H W Q sg).
  - intros t H f Hf [W Wf] [Q Qf] sg. cbn [rpn_t]. apply Forall_app. split; [exact (H W Q sg)|]. apply Forall_app. split; [exact (Hf Wf Qf [])|apply C; discriminate].
  - intros t H f Hf [W Wf] [Q Qf] sg. cbn [rpn_t]. apply Forall_app. split; [exact (H W Q sg)|]. apply Forall_app. split; [exact (Hf Wf Qf [])|apply C; discriminate].
  - intros s t H W Q. cbn [rpn_e]. destruct s; try exact (H W Q []); (destruct (head_par t); [|exact (H W Q _)]).
    all: constructor; [split; discriminate|]; apply Forall_app; split; [exact (H W Q [])|apply C; discriminate].
  - intros e H o t Ht [W Wt] [Q Qt]. cbn [rpn_e]. apply Forall_app. split; [exact (H W Q)|]. apply Forall_app. split; [exact (Ht Wt Qt [])|]. apply C; destruct o; discriminate.
Qed.

(** ---- long operands are literals ---- *)
Lemma ok_long p vars :
  (forall b, wf_b b -> ok_b p vars b -> match b with Par e => Forall (long_ok vars) (rpn_e e) | _ => True end) /\
  (forall f, wf_f f -> ok_f p vars f -> forall sg, is_sg3 sg -> Forall (long_ok vars) (rpn_f sg f)) /\
  (forall t, wf_t t -> ok_t p vars t -> forall sg, is_sg3 sg -> Forall (long_ok vars) (rpn_t sg t)) /\
  (forall e, wf_e e -> ok_e p vars e -> Forall (long_ok vars) (rpn_e e)).
Proof.
  assert (C : forall c, long_ok vars [c]) by (intros c H; cbn in H; lia).
  assert (L : forall sg w, literal vars w -> is_sg3 sg -> long_ok vars (sg ++ w)).
  { intros sg w [W [N D]] Hsg H. exists sg, w. split; [exact Hsg|]. split; [reflexivity|]. split; [split; [exact W|split; assumption]|].
    destruct D as [D|D]; [|exact D]. rewrite app_length in H. assert (length sg <= 1) by (destruct Hsg as [->|[->| ->]]; cbn; lia). lia. }
  assert (Wd : forall sg w, ok_word vars w -> is_sg3 sg -> long_ok vars (sg ++ w)).
  { intros sg w [[V D]|H] Hsg; [|apply L; assumption]. intros X. rewrite app_length in X.
    assert (length sg <= 1) by (destruct Hsg as [->|[->| ->]]; cbn; lia). lia. }
  assert (S0 : is_sg3 []) by (left; reflexivity).
  apply syntax_ind.
  - intros; exact I.
  - intros e H W. exact (H W).
  - intros b H x [Wb Wx] [Ob Ox] sg Hsg. destruct b as [w|e]; cbn [rpn_f].
    + pose proof (Wd sg w Ob Hsg) as A. pose proof (Wd [] w Ob S0) as B.
      destruct x as [|n|n|n]; [repeat constructor; exact A|..]; pose proof (L [] n (proj1 Ox) S0) as N; destruct (minus_sg sg);
        (constructor; [first [exact A|exact B]|constructor; [exact N|constructor; [apply C|constructor]]]).
    + apply Forall_app. split; [exact (H Wb Ob)|]. destruct x as [|n|n|n]; [constructor|..]; pose proof (L [] n (proj1 Ox) S0) as N;
        (constructor; [exact N|constructor; [apply C|constructor]]).
  - intros f H W Q sg. exact (H W Q sg).
  - intros t H f Hf [W Wf] [Q Qf] sg Hsg. cbn [rpn_t]. apply Forall_app. split; [exact (H W Q sg Hsg)|]. apply Forall_app.
    split; [exact (Hf Wf Qf [] S0)|constructor; [apply C|constructor]].
  - intros t H f Hf [W Wf] [Q Qf] sg Hsg. cbn [rpn_t]. apply Forall_app. split; [exact (H W Q sg Hsg)|]. apply Forall_app.
    split; [exact (Hf Wf Qf [] S0)|constructor; [apply C|constructor]].
  - intros s t H W Q. cbn [rpn_e].
    assert (Sg : forall c, Forall (long_ok vars) (if head_par t then ["0"%char] :: rpn_t [] t ++ [[c]] else rpn_t [c] t) \/ ~ is_sg3 [c]).
    { intros c. destruct (head_par t).
      - left. constructor; [apply C|]. apply Forall_app. split; [exact (H W Q [] S0)|constructor; [apply C|constructor]].
      - destruct (ascii_dec c "+"); [subst; left; apply (H W Q); right; left; reflexivity|]. destruct (ascii_dec c "-"); [subst; left; apply (H W Q); right; right; reflexivity|].
        right. intros [X|[X|X]]; congruence. }
    destruct s; [exact (H W Q [] S0)|..]; cbn [sgc]; (destruct (Sg "+"%char) as [A|A]; [|destruct A; right; left; reflexivity]);
      (destruct (Sg "-"%char) as [B|B]; [|destruct B; right; right; reflexivity]); assumption.
  - intros e H o t Ht [W Wt] [Q Qt]. cbn [rpn_e]. apply Forall_app. split; [exact (H W Q)|]. apply Forall_app. split; [exact (Ht Wt Qt [] S0)|].
    constructor; [apply C|constructor].
Qed.

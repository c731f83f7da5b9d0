(** Precomputed tokens: evaluate_pre agrees with the evaluation of the reverse polish notation, also after a change
    of the prime. *)
From Coq Require Import Ascii String.
From Verif Require Import Machine NumTheory FFInt FFIntProofs FFVec SYParse SYGrammar SYParseProofs SYValidateProofs SYEval SYEvalProofs.
From Coq Require Import List Znumtheory.
Import ListNotations.
Open Scope nat_scope.
Opaque mod_mul mod_pow mod_inv.

Section Pre.
  Variable p : Z.
  Variable vars : list chars.
  Hypothesis Hprime : prime p.
  Hypothesis Hp63 : (p < two63)%Z.
  Notation canon v := (0 <= v < p)%Z.
  Let P : (1 < p)%Z. Proof. destruct Hprime. lia. Qed.

  (** all values are canonical *)
  Lemma scan_nonneg w : forall acc, (0 <= acc)%Z -> (0 <= fst (scan_digits acc w))%Z.
  Proof.
    induction w as [|c w IH]; intros acc H; [exact H|]. cbn [scan_digits]. destruct (is_digit c) eqn:E; [|exact H].
    apply IH. pose proof (digit_val_range c E). lia.
  Qed.
  Lemma ctor_scan_canon w : canon (ff_ctor p (fst (scan_digits 0 w))).
  Proof. rewrite ff_ctor_nonneg; [apply Z.mod_pos_bound; lia|lia|apply scan_nonneg; lia]. Qed.
  Lemma opp_canon a : canon a -> canon (ff_opp p a).
  Proof. intros H. rewrite ff_opp_correct by lia. apply Z.mod_pos_bound. lia. Qed.
  Lemma mpz_canon z : canon (ff_ctor_mpz p z).
  Proof. rewrite ff_ctor_mpz_correct by lia. apply Z.mod_pos_bound. lia. Qed.
  Lemma mod_inv_canon a : canon a -> canon (mod_inv a p).
  Proof. intros H. apply mod_inv_range; try assumption. lia. Qed.
  Lemma mod_pow_canon a e : canon a -> (0 <= e)%Z -> canon (mod_pow a e p).
  Proof. intros H He. rewrite mod_pow_correct by (unfold two63, two64 in *; lia). apply Z.mod_pos_bound. lia. Qed.
  Lemma wrap64_nonneg z : (0 <= wrap64 z)%Z. Proof. unfold wrap64, two64. apply Z.mod_pos_bound. lia. Qed.
  Lemma sq_canon a : canon a -> canon (ff_ctor p (mod_mul a a p)).
  Proof. intros H. rewrite mod_mul_correct by (unfold two63, two64 in *; lia). rewrite ctor_mod by lia. apply Z.mod_pos_bound. lia. Qed.
  Lemma pow_canon a e : canon a -> canon e -> canon (ff_pow p a e).
  Proof.
    intros H He. unfold ff_pow. destruct (e =? 2)%Z; [apply sq_canon, H|]. destruct (e <? Z.shiftr p 1)%Z; [apply mod_pow_canon; [exact H|lia]|].
    apply mod_pow_canon; [apply mod_inv_canon, H|apply wrap64_nonneg].
  Qed.
  Lemma pow_int_canon a k : canon a -> canon (ff_pow_int p a k).
  Proof.
    intros H. unfold ff_pow_int. destruct (k =? 2)%Z; [apply sq_canon, H|]. destruct (0 <=? k)%Z; [apply mod_pow_canon; [exact H|apply wrap64_nonneg]|].
    apply mod_pow_canon; [apply mod_inv_canon, H|apply wrap64_nonneg].
  Qed.
  Lemma div_canon a b : canon a -> canon b -> canon (ff_div_assign p a b).
  Proof.
    intros Ha Hb. rewrite ff_div_assign_eq by assumption. destruct (Z.eq_dec b 0) as [->|]; [rewrite ff_div_zero; lia|].
    apply ff_div_correct; try assumption. lia.
  Qed.
  Lemma apply_op_canon c b a v : canon a -> canon b -> apply_op p c b a = Ret v -> canon v.
  Proof.
    intros Ha Hb. unfold apply_op.
    destruct (c =?c "+"); [intros H; injection H as <-; rewrite ff_add_assign_correct by lia; apply Z.mod_pos_bound; lia|].
    destruct (c =?c "-"); [intros H; injection H as <-; rewrite ff_sub_assign_correct by lia; apply Z.mod_pos_bound; lia|].
    destruct (c =?c "*"); [intros H; injection H as <-; rewrite ff_mul_assign_correct by lia; apply Z.mod_pos_bound; lia|].
    destruct (c =?c "/"); [intros H; injection H as <-; apply div_canon; assumption|].
    destruct (c =?c "^"); [intros H; injection H as <-; apply pow_canon; assumption|].
    destruct (c =?c "!"); [intros H; injection H as <-; apply opp_canon, pow_canon; assumption|].
    destruct (ff_to_neg_int a) as [k|]; [|discriminate].
    destruct (c =?c "~"); intros H; injection H as <-; [apply pow_int_canon; assumption|apply opp_canon, pow_int_canon; assumption].
  Qed.

  (** x / b = x * (1 / b) *)
  Lemma mul_inv x b : canon x -> canon b -> ff_mul_assign p x (ff_div p (ff_ctor p 1) b) = ff_div_assign p x b.
  Proof.
    intros Hx Hb. rewrite (ff_ctor_canon p 1) by lia. rewrite <- ff_div_assign_eq by (try assumption; lia).
    unfold ff_div_assign. destruct (Z.eqb_spec b 0) as [->|N].
    - rewrite ff_mul_assign_correct by lia. rewrite Z.mul_0_r. apply Z.mod_0_l. lia.
    - pose proof (mod_inv_canon b Hb) as I. rewrite (mod_mul_correct 1) by (unfold two63, two64 in *; lia). rewrite Z.mul_1_l, Z.mod_small by lia. reflexivity.
  Qed.

  (** every number of the precomputed tokens has its entry in the partial notation *)
  Inductive prmatch : list ptok -> list (nat * list chars) -> Prop :=
  | pm_nil : prmatch [] []
  | pm_op c rp pr : prmatch rp pr -> prmatch (POp c :: rp) pr
  | pm_var i rp pr : prmatch rp pr -> prmatch (PVar i :: rp) pr
  | pm_nvar i rp pr : prmatch rp pr -> prmatch (PNegVar i :: rp) pr
  | pm_num v r rp pr : canon v -> r <> [] -> prmatch rp pr -> prmatch (PNum v :: rp) ((length rp, r) :: pr).

  Variable values : list Z.
  Hypothesis Hvals : Forall (fun v => canon v) values.

  Lemma exec_pre_app a : forall b st, exec_pre p values (a ++ b) st = obind (exec_pre p values a st) (exec_pre p values b).
  Proof.
    induction a as [|t a IH]; intros b st; [reflexivity|]. cbn [app exec_pre]. rewrite obind_assoc.
    destruct (exec_pre1 p values t st); cbn [obind]; try reflexivity. apply IH.
  Qed.
  Lemma exec_pre_snoc ts t : exec_pre p values (ts ++ [t]) [] = obind (exec_pre p values ts []) (exec_pre1 p values t).
  Proof.
    rewrite exec_pre_app. destruct (exec_pre p values ts []); cbn [obind exec_pre]; try reflexivity.
    destruct (exec_pre1 p values t a); reflexivity.
  Qed.

  Lemma lookup_canon w v : lookup p vars values w = Ret v -> canon v.
  Proof.
    unfold lookup. destruct (var_index vars w) as [i|].
    - destruct (nth_error values i) as [x|] eqn:E; [|discriminate]. intros H. injection H as <-. apply nth_error_In in E. rewrite Forall_forall in Hvals. exact (Hvals _ E).
    - destruct (is_digit (hd nul w)); [|discriminate]. intros H. injection H as <-. apply ctor_scan_canon.
  Qed.
  Lemma tok_canon t v : tok_value p vars values t = Ret v -> canon v.
  Proof.
    unfold tok_value. destruct (18 <? length t).
    - intros H. apply obind_ret in H. destruct H as [z [_ H]]. injection H as <-. apply mpz_canon.
    - destruct (hd nul t =?c "-"); [|destruct (hd nul t =?c "+"); apply lookup_canon].
      intros H. apply obind_ret in H. destruct H as [z [E H]]. injection H as <-. apply opp_canon, (lookup_canon _ _ E).
  Qed.

  (** a name *)
  Lemma pre_name_spec rp pr neg w r v : lookup p vars values w = Ret v -> prmatch rp pr ->
    exists x pr', pre_name p vars rp pr neg w r = Ret (x :: rp, pr') /\ prmatch (x :: rp) pr' /\
      forall st, exec_pre1 p values x st = Ret ((if neg then ff_opp p v else v) :: st).
  Proof.
    unfold lookup, pre_name. destruct (var_index vars w) as [i|].
    - destruct (nth_error values i) as [y|] eqn:E; [|discriminate]. intros H M. injection H as <-.
      eexists _, _. split; [reflexivity|]. split; [destruct neg; constructor; exact M|]. intros st. destruct neg; cbn [exec_pre1]; rewrite E; reflexivity.
    - destruct (is_digit (hd nul w)); [|discriminate]. intros H M. injection H as <-.
      eexists _, _. split; [reflexivity|]. split; [constructor; [destruct neg; [apply opp_canon|]; apply ctor_scan_canon|discriminate|exact M]|]. intros st. reflexivity.
  Qed.

  Lemma pre_step t rp pr st st' : prmatch rp pr -> exec_pre p values (rev rp) [] = Ret st -> Forall (fun v => canon v) st ->
    exec1 p vars values t st = Ret st' ->
    exists rp' pr', pre1 p vars t (rp, pr) = Ret (rp', pr') /\ prmatch rp' pr' /\ exec_pre p values (rev rp') [] = Ret st' /\ Forall (fun v => canon v) st'.
  Proof.
    intros M E C H. unfold exec1 in H. unfold pre1. destruct (is_op t) eqn:Op.
    - destruct st as [|a [|b st]]; try discriminate. apply obind_ret in H. destruct H as [v [Hv H]]. injection H as <-.
      inversion C as [|? ? Ca C']; subst. inversion C' as [|? ? Cb C'']; subst.
      assert (Cv : Forall (fun v => canon v) (v :: st)) by (constructor; [exact (apply_op_canon _ _ _ _ Ca Cb Hv)|exact C'']).
      assert (Plain : exists rp' pr', Ret (POp (hd nul t) :: rp, pr) = Ret (rp', pr') /\ prmatch rp' pr' /\ exec_pre p values (rev rp') [] = Ret (v :: st) /\
        Forall (fun v => canon v) (v :: st)).
      { exists (POp (hd nul t) :: rp), pr. split; [reflexivity|]. split; [constructor; exact M|]. split; [|exact Cv].
        cbn [rev]. rewrite exec_pre_snoc, E. cbn [obind exec_pre1]. rewrite Hv. reflexivity. }
      destruct (hd nul t =?c "/") eqn:Ed; [|exact Plain].
      apply Ascii.eqb_eq in Ed. rewrite Ed in *.
      change (apply_op p "/"%char b a) with (Ret (ff_div_assign p b a)) in Hv. injection Hv as <-.
      destruct rp as [|[c|i|i|vb] rp]; [discriminate E| exact Plain | exact Plain | exact Plain |].
      inversion M as [| | | |? r ? pr' Cvb Hr M']; subst.
      destruct rp as [|[c|i|i|va] rp].
      + cbn in E. discriminate E.
      + exact Plain.
      + cbn [rev] in E. rewrite !exec_pre_snoc in E.
        destruct (exec_pre p values (rev rp) []) as [s| | | |] eqn:Es; cbn [obind] in E; try discriminate.
        cbn [exec_pre1] in E. destruct (nth_error values i) as [x|] eqn:Ex; cbn [obind] in E; [|discriminate].
        cbn [exec_pre1] in E. injection E as <- <- <-. destruct r as [|c r]; [contradiction|]. inversion M' as [| |? ? ? M''| |]; subst.
        eexists _, _. split; [reflexivity|]. split.
        { constructor. refine (pm_num _ _ (PVar i :: rp) pr' _ _ _); [|discriminate|constructor; exact M''].
          rewrite <- ff_div_assign_eq; try assumption; [apply div_canon; try assumption|]; rewrite ff_ctor_canon; lia. }
        split; [|exact Cv]. cbn [rev]. rewrite !exec_pre_snoc, Es. cbn [obind exec_pre1]. rewrite Ex. cbn [obind exec_pre1].
        match goal with |- context [apply_op p "*"%char ?x ?y] => change (apply_op p "*"%char x y) with (Ret (ff_mul_assign p x y)) end.
        cbn [obind]. rewrite mul_inv by assumption. reflexivity.
      + cbn [rev] in E. rewrite !exec_pre_snoc in E.
        destruct (exec_pre p values (rev rp) []) as [s| | | |] eqn:Es; cbn [obind] in E; try discriminate.
        cbn [exec_pre1] in E. destruct (nth_error values i) as [x|] eqn:Ex; cbn [obind] in E; [|discriminate].
        cbn [exec_pre1] in E. injection E as <- <- <-. destruct r as [|c r]; [contradiction|]. inversion M' as [| | |? ? ? M''|]; subst.
        eexists _, _. split; [reflexivity|]. split.
        { constructor. refine (pm_num _ _ (PNegVar i :: rp) pr' _ _ _); [|discriminate|constructor; exact M''].
          rewrite <- ff_div_assign_eq; try assumption; [apply div_canon; try assumption|]; rewrite ff_ctor_canon; lia. }
        split; [|exact Cv]. cbn [rev]. rewrite !exec_pre_snoc, Es. cbn [obind exec_pre1]. rewrite Ex. cbn [obind exec_pre1].
        match goal with |- context [apply_op p "*"%char ?x ?y] => change (apply_op p "*"%char x y) with (Ret (ff_mul_assign p x y)) end.
        cbn [obind]. rewrite mul_inv by assumption. reflexivity.
      + inversion M' as [| | | |? r2 ? pr2 Cva Hr2 M'']; subst. cbn [rev] in E. rewrite !exec_pre_snoc in E.
        destruct (exec_pre p values (rev rp) []) as [s| | | |] eqn:Es; cbn [obind] in E; try discriminate.
        cbn [exec_pre1 obind] in E. injection E as <- <- <-.
        eexists _, _. split; [reflexivity|]. rewrite <- ff_div_assign_eq by assumption. split.
        { constructor; [apply div_canon; assumption| |exact M'']. intros X. apply app_eq_nil in X. destruct X as [_ X]. apply app_eq_nil in X. destruct X as [_ X]. discriminate. }
        split; [|exact Cv]. cbn [rev]. rewrite exec_pre_snoc, Es. reflexivity.
    - apply obind_ret in H. destruct H as [v [Hv H]]. injection H as <-. pose proof (tok_canon t v Hv) as Cv.
      assert (Cst : Forall (fun v => canon v) (v :: st)) by (constructor; assumption).
      unfold tok_value in Hv. destruct (18 <? length t) eqn:El.
      + apply obind_ret in Hv. destruct Hv as [z [Hz Hv]]. injection Hv as <-. rewrite Hz. cbn [obind]. unfold pre_num.
        eexists _, _. split; [reflexivity|]. split; [constructor; [exact Cv|discriminate|exact M]|]. split; [|exact Cst].
        cbn [rev]. rewrite exec_pre_snoc, E. reflexivity.
      + assert (Q : forall neg w r, obind (lookup p vars values w) (fun x => Ret (if neg : bool then ff_opp p x else x)) = Ret v ->
          exists rp' pr', pre_name p vars rp pr neg w r = Ret (rp', pr') /\ prmatch rp' pr' /\ exec_pre p values (rev rp') [] = Ret (v :: st) /\ Forall (fun v => canon v) (v :: st)).
        { intros neg w r L. apply obind_ret in L. destruct L as [x [L1 L2]]. injection L2 as L2.
          destruct (pre_name_spec rp pr neg w r x L1 M) as [y [pr' [A [B D]]]]. exists (y :: rp), pr'. split; [exact A|]. split; [exact B|]. split; [|exact Cst].
          cbn [rev]. rewrite exec_pre_snoc, E. cbn [obind]. rewrite D, L2. reflexivity. }
        destruct (hd nul t =?c "-"); [apply Q; exact Hv|].
        destruct (hd nul t =?c "+"); apply Q; rewrite Hv; reflexivity.
  Qed.

  Lemma pre_loop_correct ts : forall rp pr st st', prmatch rp pr -> exec_pre p values (rev rp) [] = Ret st -> Forall (fun v => canon v) st ->
    exec p vars values ts st = Ret st' ->
    exists rp' pr', pre_loop p vars ts (rp, pr) = Ret (rp', pr') /\ prmatch rp' pr' /\ exec_pre p values (rev rp') [] = Ret st' /\ Forall (fun v => canon v) st'.
  Proof.
    induction ts as [|t ts IH]; intros rp pr st st' M E C H; cbn [exec pre_loop] in *.
    - injection H as <-. exists rp, pr. repeat split; assumption.
    - apply obind_ret in H. destruct H as [s [H1 H2]]. destruct (pre_step t rp pr st s M E C H1) as [rp1 [pr1 [A [B [D F]]]]].
      rewrite A. cbn [obind]. exact (IH rp1 pr1 s st' B D F H2).
  Qed.

  (** whatever the evaluation of the notation returns is what the precomputed tokens give *)
  Theorem precompute_correct ts v : evaluate1 p vars values ts = Ret v ->
    exists toks parts, precompute p vars ts = Ret (toks, parts) /\ eval_pre1 p values toks = Ret v.
  Proof.
    unfold evaluate1. intros H. apply obind_ret in H. destruct H as [st [H1 H2]].
    destruct (pre_loop_correct ts [] [] [] st pm_nil eq_refl (Forall_nil _) H1) as [rp [pr [A [B [D F]]]]].
    exists (rev rp), (rev pr). unfold precompute. rewrite A. cbn [obind fst snd]. split; [reflexivity|]. unfold eval_pre1. rewrite D. exact H2.
  Qed.
  Theorem precompute_exec ts st : exec p vars values ts [] = Ret st ->
    exists toks parts, precompute p vars ts = Ret (toks, parts) /\ exec_pre p values toks [] = Ret st.
  Proof.
    intros H1. destruct (pre_loop_correct ts [] [] [] st pm_nil eq_refl (Forall_nil _) H1) as [rp [pr [A [B [D F]]]]].
    exists (rev rp), (rev pr). unfold precompute. rewrite A. cbn [obind fst snd]. split; [reflexivity|]. exact D.
  Qed.
End Pre.

(** ---- change of the prime ---- *)
(** whenever a variable is divided by a number, the number is a single literal *)
Definition div_ok (t : chars) (s : list ptok * list (nat * list chars)) : Prop :=
  t = ["/"%char] -> match s with (PNum _ :: (PVar _ | PNegVar _) :: _, (_, r) :: _) => exists c, r = [c] | _ => True end.
Section Dyn.
  Variable p : Z.
  Variable vars : list chars.
  Fixpoint dyn_ok (ts : list chars) (s : list ptok * list (nat * list chars)) : Prop :=
    match ts with [] => True | t :: ts => div_ok t s /\ match pre1 p vars t s with Ret s' => dyn_ok ts s' | _ => True end end.
  Lemma pre_loop_app a : forall b s, pre_loop p vars (a ++ b) s = obind (pre_loop p vars a s) (pre_loop p vars b).
  Proof. induction a as [|t a IH]; intros b s; [reflexivity|]. cbn [app pre_loop]. rewrite obind_assoc. destruct (pre1 p vars t s); cbn [obind]; try reflexivity. apply IH. Qed.
  Lemma dyn_app a : forall b s, dyn_ok a s -> (forall s', pre_loop p vars a s = Ret s' -> dyn_ok b s') -> dyn_ok (a ++ b) s.
  Proof.
    induction a as [|t a IH]; intros b s Ha Hb; [apply Hb; reflexivity|]. destruct Ha as [H1 H2]. cbn [app dyn_ok]. split; [exact H1|].
    cbn [pre_loop] in Hb. destruct (pre1 p vars t s) as [s'| | | |]; try exact I. apply IH; [exact H2|exact Hb].
  Qed.
End Dyn.
(** operands of more than 18 characters are literals, possibly signed *)
Definition long_ok (vars : list chars) (t : chars) : Prop :=
  18 < length t -> exists sg w, (sg = [] \/ sg = ["+"%char] \/ sg = ["-"%char]) /\ t = sg ++ w /\ literal vars w /\ hd "0"%char w <> "0"%char.

Section Refresh.
  Variable p1 p2 : Z.
  Variable vars : list chars.
  Hypothesis Hpr : prime p2.
  Hypothesis H63 : (p2 < two63)%Z.
  Hypothesis Hnames : forall v, In v vars -> ~ wf_num v.
  Notation canon v := (0 <= v < p2)%Z.
  Let P : (1 < p2)%Z. Proof. destruct Hpr. lia. Qed.

  (** the tokens for p1 and for p2 differ in the numbers only, and each partial notation has the value of the number *)
  Inductive Rel : list ptok -> list ptok -> list (nat * list chars) -> Prop :=
  | R_nil : Rel [] [] []
  | R_op c r1 r2 pr : Rel r1 r2 pr -> Rel (POp c :: r1) (POp c :: r2) pr
  | R_var i r1 r2 pr : Rel r1 r2 pr -> Rel (PVar i :: r1) (PVar i :: r2) pr
  | R_nvar i r1 r2 pr : Rel r1 r2 pr -> Rel (PNegVar i :: r1) (PNegVar i :: r2) pr
  | R_num v1 v2 r r1 r2 pr : canon v2 -> (forall st, exec p2 vars [0%Z] r st = Ret (v2 :: st)) -> Rel r1 r2 pr ->
      Rel (PNum v1 :: r1) (PNum v2 :: r2) ((length r1, r) :: pr).
  Lemma Rel_len r1 r2 pr : Rel r1 r2 pr -> length r1 = length r2.
  Proof. induction 1; cbn [length]; congruence. Qed.

  Lemma is_op_div t : is_op t = true -> (hd nul t =?c "/") = true -> t = ["/"%char].
  Proof. destruct t as [|c [|d t]]; try discriminate. intros _ H. cbn [hd] in H. apply Ascii.eqb_eq in H. subst. reflexivity. Qed.

  Lemma exec2_app a b st : exec p2 vars [0%Z] (a ++ b) st = obind (exec p2 vars [0%Z] a st) (exec p2 vars [0%Z] b).
  Proof. apply exec_app. Qed.
  Lemma exec2_div a b st v w : exec p2 vars [0%Z] a st = Ret (v :: st) -> exec p2 vars [0%Z] b (v :: st) = Ret (w :: v :: st) -> canon v -> canon w ->
    exec p2 vars [0%Z] (a ++ b ++ [["/"%char]]) st = Ret (ff_div p2 v w :: st).
  Proof.
    intros A B Hv Hw. rewrite exec2_app, A. cbn [obind]. rewrite exec2_app, B. cbn [obind exec]. unfold exec1.
    change (is_op ["/"%char]) with true. cbv iota. cbn [hd]. change (apply_op p2 "/"%char v w) with (Ret (ff_div_assign p2 v w)).
    cbn [obind]. rewrite ff_div_assign_eq by assumption. reflexivity.
  Qed.
  Lemma exec2_one st : exec p2 vars [0%Z] [["1"%char]] st = Ret (ff_ctor p2 1 :: st).
  Proof.
    cbn [exec]. unfold exec1. change (is_op ["1"%char]) with false. cbv iota.
    change (tok_value p2 vars [0%Z] ["1"%char]) with (lookup p2 vars [0%Z] ["1"%char]). unfold lookup. rewrite var_index_none.
    - reflexivity.
    - intros X. apply (Hnames _ X). split; [discriminate|reflexivity].
  Qed.

  Lemma exec2_tok t v st : is_op t = false -> tok_value p2 vars [0%Z] t = Ret v -> exec p2 vars [0%Z] [t] st = Ret (v :: st).
  Proof. intros O T. cbn [exec]. unfold exec1. rewrite O, T. reflexivity. Qed.

  Lemma pre_name_rel r1 r2 pr neg w r rp2 pr' : Rel r1 r2 pr -> is_op r = false ->
    (var_index vars w = None -> is_digit (hd nul w) = true ->
       tok_value p2 vars [0%Z] r = Ret (if neg : bool then ff_opp p2 (ff_ctor p2 (fst (scan_digits 0 w))) else ff_ctor p2 (fst (scan_digits 0 w)))) ->
    pre_name p2 vars r2 pr neg w r = Ret (rp2, pr') ->
    exists rp1, pre_name p1 vars r1 pr neg w r = Ret (rp1, pr') /\ Rel rp1 rp2 pr'.
  Proof.
    intros HR Op Hv. unfold pre_name. destruct (var_index vars w) as [i|].
    - intros H. injection H as <- <-. eexists. split; [reflexivity|]. destruct neg; constructor; exact HR.
    - destruct (is_digit (hd nul w)); [|discriminate]. unfold pre_num. rewrite (Rel_len _ _ _ HR). intros H. injection H as <- <-.
      eexists. split; [reflexivity|]. rewrite <- (Rel_len _ _ _ HR).
      specialize (Hv eq_refl eq_refl).
      constructor; [destruct neg; [apply opp_canon; try assumption|]; apply ctor_scan_canon; assumption| |exact HR].
      intros st. apply exec2_tok; assumption.
  Qed.

  Lemma pre_rel_step t r1 r2 pr rp2 pr' : Rel r1 r2 pr -> div_ok t (r2, pr) -> long_ok vars t ->
    pre1 p2 vars t (r2, pr) = Ret (rp2, pr') ->
    exists rp1, pre1 p1 vars t (r1, pr) = Ret (rp1, pr') /\ Rel rp1 rp2 pr'.
  Proof.
    intros HR Top Long. unfold pre1. destruct (is_op t) eqn:Op.
    - destruct (hd nul t =?c "/") eqn:Ed.
      2: { intros H. injection H as <- <-. eexists. split; [reflexivity|]. constructor; exact HR. }
      pose proof (is_op_div t Op Ed) as Et.
      assert (Plain : forall x1 x2 y, Ret (POp "/"%char :: x2, y) = Ret (rp2, pr') -> Rel x1 x2 y ->
        exists rp1, Ret (POp "/"%char :: x1, y) = Ret (rp1, pr') /\ Rel rp1 rp2 pr').
      { intros x1 x2 y H R. injection H as <- <-. eexists. split; [reflexivity|]. constructor; exact R. }
      inversion HR as [|c s1 s2 ? R|i s1 s2 ? R|i s1 s2 ? R|v1 v2 r s1 s2 pr0 Cv Ev R]; subst r1 r2; try subst pr.
      + discriminate.
      + intros H. exact (Plain _ _ _ H HR).
      + intros H. exact (Plain _ _ _ H HR).
      + intros H. exact (Plain _ _ _ H HR).
      + inversion R as [|c u1 u2 ? R2|i u1 u2 ? R2|i u1 u2 ? R2|w1 w2 q u1 u2 pr2 Cw Ew R2]; subst s1 s2; try subst pr0.
        * discriminate.
        * intros H. exact (Plain _ _ _ H HR).
        * destruct (Top Et) as [c ->]. intros H. injection H as <- <-.
          eexists. split; [reflexivity|]. constructor. refine (R_num _ _ _ (PVar i :: u1) (PVar i :: u2) _ _ _ _).
          -- rewrite <- ff_div_assign_eq by (try assumption; rewrite ff_ctor_canon; lia). apply div_canon; try assumption. rewrite ff_ctor_canon; lia.
          -- intros st. change [["1"%char]; c; ["/"%char]] with ([["1"%char]] ++ [c] ++ [["/"%char]]). apply exec2_div; [apply exec2_one|apply Ev|rewrite ff_ctor_canon; lia|exact Cv].
          -- constructor. exact R2.
        * destruct (Top Et) as [c ->]. intros H. injection H as <- <-.
          eexists. split; [reflexivity|]. constructor. refine (R_num _ _ _ (PNegVar i :: u1) (PNegVar i :: u2) _ _ _ _).
          -- rewrite <- ff_div_assign_eq by (try assumption; rewrite ff_ctor_canon; lia). apply div_canon; try assumption. rewrite ff_ctor_canon; lia.
          -- intros st. change [["1"%char]; c; ["/"%char]] with ([["1"%char]] ++ [c] ++ [["/"%char]]). apply exec2_div; [apply exec2_one|apply Ev|rewrite ff_ctor_canon; lia|exact Cv].
          -- constructor. exact R2.
        * intros H. injection H as <- <-. rewrite <- (Rel_len _ _ _ R2). eexists. split; [reflexivity|].
          constructor; [rewrite <- ff_div_assign_eq by assumption; apply div_canon; assumption| |exact R2].
          intros st. apply exec2_div; [apply Ew|apply Ev|exact Cw|exact Cv].
    - destruct (18 <? length t) eqn:El.
      + apply Nat.ltb_lt in El. destruct (Long El) as [sg [w [Hsg [Et [Lw Hz]]]]]. destruct Lw as [Wn [Wi _]].
        pose proof (wf_num_word w Wn) as Ww.
        assert (Hw : exists c w', w = c :: w' /\ (c =?c "+") = false /\ (c =?c "-") = false).
        { destruct Ww as [N A]. destruct w as [|c w']; [contradiction|]. exists c, w'. destruct (alnum_props c (hd_alnum c w' (conj N A))) as [_ [_ [_ [_ [E3 [E4 _]]]]]]. repeat split; assumption. }
        destruct Hw as [c [w' [Ew [E4 E3]]]].
        set (tmp := if hd nul t =?c "+" then tl t else t).
        assert (Hd0 : (hd nul w =?c "-") = false /\ (hd nul w =?c "+") = false) by (rewrite Ew; split; assumption).
        assert (Htmp : (tmp = w /\ 18 <= length w) \/ (tmp = "-"%char :: w /\ 18 < length ("-"%char :: w))).
        { unfold tmp. destruct Hsg as [->|[->| ->]]; cbn [app] in Et; rewrite Et in *; [|left|right].
          - left. rewrite (proj2 Hd0). split; [reflexivity|clear - El; lia].
          - split; [reflexivity|]. cbn [length] in El. clear - El; lia.
          - split; [reflexivity|exact El]. }
        assert (Ev : exists z, mpz_str tmp = Ret z /\ is_op tmp = false /\ tok_value p2 vars [0%Z] tmp = Ret (ff_ctor_mpz p2 z)).
        { pose proof (mpz_unsigned_dec w Wn Hz) as MU. destruct Htmp as [[-> Lw]|[-> Lw]].
          - exists (dec w). split; [unfold mpz_str; rewrite Ew, E3; rewrite <- Ew; exact MU|].
            split; [destruct w as [|c1 [|c2 w2]]; [reflexivity|cbn in Lw; clear - Lw; lia|reflexivity]|].
            unfold tok_value. destruct Hd0 as [D1 D2]. rewrite D1, D2. destruct (18 <? length w) eqn:E18.
            + unfold mpz_str. rewrite Ew, E3. rewrite <- Ew, MU. reflexivity.
            + unfold lookup. rewrite (var_index_none vars w Wi). rewrite (digit_hd w Wn). destruct Wn as [N A]. rewrite (scan_dec w A). cbn [fst].
              rewrite ff_ctor_nonneg; [|clear - P; lia|apply dec_acc_nonneg; [exact A|clear; lia]]. rewrite ff_ctor_mpz_correct by (clear - P; lia). reflexivity.
          - exists (- dec w)%Z. split; [cbn [mpz_str]; change ("-"%char =?c "-") with true; cbv iota; rewrite MU; reflexivity|].
            split; [rewrite Ew; reflexivity|]. unfold tok_value.
            replace (18 <? length ("-"%char :: w)) with true by (symmetry; apply Nat.ltb_lt; exact Lw). cbn [hd].
            change ("-"%char =?c "+") with false. cbv iota. cbn [mpz_str]. change ("-"%char =?c "-") with true. cbv iota. rewrite MU. reflexivity. }
        destruct Ev as [z [Ez [Oz Tz]]]. rewrite Ez. cbn [obind]. unfold pre_num. intros H. injection H as <- <-.
        rewrite <- (Rel_len _ _ _ HR). eexists. split; [reflexivity|].
        constructor; [apply mpz_canon; assumption| |exact HR]. intros st. apply exec2_tok; assumption.
      + assert (Q : forall neg w r, is_op r = false -> (var_index vars w = None -> is_digit (hd nul w) = true ->
          tok_value p2 vars [0%Z] r = Ret (if neg : bool then ff_opp p2 (ff_ctor p2 (fst (scan_digits 0 w))) else ff_ctor p2 (fst (scan_digits 0 w)))) ->
          pre_name p2 vars r2 pr neg w r = Ret (rp2, pr') ->
          exists rp1, pre_name p1 vars r1 pr neg w r = Ret (rp1, pr') /\ Rel rp1 rp2 pr').
        { intros neg w r A B C. exact (pre_name_rel r1 r2 pr neg w r rp2 pr' HR A B C). }
        assert (TV : forall t', t' = t -> tok_value p2 vars [0%Z] t' = (if hd nul t =?c "-" then obind (lookup p2 vars [0%Z] (tl t)) (fun v => Ret (ff_opp p2 v))
          else if hd nul t =?c "+" then lookup p2 vars [0%Z] (tl t) else lookup p2 vars [0%Z] t)).
        { intros t' ->. unfold tok_value. rewrite El. reflexivity. }
        destruct (hd nul t =?c "-") eqn:E1; [|destruct (hd nul t =?c "+") eqn:E2].
        * assert (Et : "-"%char :: tl t = t).
          { destruct t as [|c t]; [discriminate|]. cbn [hd] in E1. apply Ascii.eqb_eq in E1. subst c. reflexivity. }
          apply Q; [rewrite Et; exact Op|]. intros N D. rewrite (TV _ Et). unfold lookup. rewrite N, D. reflexivity.
        * apply Q; [exact Op|]. intros N D. rewrite (TV _ eq_refl). unfold lookup. rewrite N, D. reflexivity.
        * apply Q; [exact Op|]. intros N D. rewrite (TV _ eq_refl). unfold lookup. rewrite N, D. reflexivity.
  Qed.

  Lemma pre_rel ts : forall r1 r2 pr rp2 pr', Rel r1 r2 pr -> dyn_ok p2 vars ts (r2, pr) -> Forall (long_ok vars) ts ->
    pre_loop p2 vars ts (r2, pr) = Ret (rp2, pr') ->
    exists rp1, pre_loop p1 vars ts (r1, pr) = Ret (rp1, pr') /\ Rel rp1 rp2 pr'.
  Proof.
    induction ts as [|t ts IH]; intros r1 r2 pr rp2 pr' HR Nd Lg H; cbn [pre_loop] in *.
    - injection H as <- <-. exists r1. split; [reflexivity|exact HR].
    - apply obind_ret in H. destruct H as [[s2 q] [H1 H2]]. destruct Nd as [N1 N2]. inversion Lg as [|? ? L1 L2]; subst. rewrite H1 in N2.
      destruct (pre_rel_step t r1 r2 pr s2 q HR N1 L1 H1) as [s1 [A B]]. rewrite A. cbn [obind].
      exact (IH s1 s2 q rp2 pr' B N2 L2 H2).
  Qed.

  Lemma refresh_app a b ts : refresh p2 vars (a ++ b) ts = obind (refresh p2 vars a ts) (refresh p2 vars b).
  Proof.
    revert ts. induction a as [|[j r] a IH]; intros ts; [reflexivity|]. cbn [app refresh]. rewrite obind_assoc.
    destruct (evaluate1 p2 vars [0%Z] r); cbn [obind]; try reflexivity. apply IH.
  Qed.
  Lemma upd_mid' {A} (pre : list A) c rest x n : n = length pre -> upd (pre ++ c :: rest) n x = pre ++ x :: rest.
  Proof. intros ->. induction pre as [|y pre IH]; [reflexivity|]. cbn [app length upd]. rewrite IH. reflexivity. Qed.
  Lemma refresh_rel r1 r2 pr : Rel r1 r2 pr -> forall suf, refresh p2 vars (rev pr) (rev r1 ++ suf) = Ret (rev r2 ++ suf).
  Proof.
    induction 1 as [|c r1 r2 pr R IH|i r1 r2 pr R IH|i r1 r2 pr R IH|v1 v2 r r1 r2 pr C E R IH]; intros suf; cbn [rev];
      try (rewrite <- !app_assoc; cbn [app]; apply IH); [reflexivity|].
    rewrite refresh_app, <- !app_assoc. cbn [app]. rewrite IH. cbn [obind refresh]. unfold evaluate1. rewrite E. cbn [obind].
    rewrite upd_mid' by (rewrite rev_length; apply (Rel_len _ _ _ R)). reflexivity.
  Qed.

  (** tokens precomputed for p1 and refreshed for p2 are the tokens precomputed for p2 *)
  Theorem refresh_correct ts toks2 parts : dyn_ok p2 vars ts ([], []) -> Forall (long_ok vars) ts -> precompute p2 vars ts = Ret (toks2, parts) ->
    exists toks1, precompute p1 vars ts = Ret (toks1, parts) /\ refresh p2 vars parts toks1 = Ret toks2.
  Proof.
    intros Nd Lg H. unfold precompute in *. apply obind_ret in H. destruct H as [[rp2 pr] [H1 H2]]. cbn [fst snd] in H2. injection H2 as <- <-.
    destruct (pre_rel ts [] [] [] rp2 pr R_nil Nd Lg H1) as [rp1 [A B]].
    exists (rev rp1). rewrite A. cbn [obind fst snd]. split; [reflexivity|].
    pose proof (refresh_rel rp1 rp2 pr B []) as X. rewrite !app_nil_r in X. exact X.
  Qed.
End Refresh.

(** The public evaluate() on functions with a negative exponent (model: SYObj.v). *)
From Coq Require Import Ascii String ZArith Znumtheory Lia.
From Verif Require Import Machine FFInt FFVec SYParse SYGrammar SYParseProofs SYValidateProofs SYEval SYEvalProofs SYPreProofs SYTreeProofs SYObj SYObjProofs SYTrimProofs.
From Coq Require Import List.
Import ListNotations.
Open Scope nat_scope.

(** a tree all of whose tokens are known to evaluate() has no negative exponent *)
Lemma pub_nn : (forall b, match b with Par e => Forall pub_tok (rpn_e e) -> nn_e e | _ => True end) /\
  (forall f sg, Forall pub_tok (rpn_f sg f) -> nn_f f) /\ (forall t sg, Forall pub_tok (rpn_t sg t) -> nn_t t) /\
  (forall e, Forall pub_tok (rpn_e e) -> nn_e e).
Proof.
  assert (B : forall a b c : list chars, Forall pub_tok (a ++ b ++ c) -> Forall pub_tok a /\ Forall pub_tok b).
  { intros a b c H. rewrite Forall_app in H. destruct H as [H1 H2]. rewrite Forall_app in H2. split; [exact H1|exact (proj1 H2)]. }
  assert (N1 : ~ pub_tok ["~"%char]) by (intros [H _]; apply H; reflexivity).
  assert (N2 : ~ pub_tok [";"%char]) by (intros [_ H]; apply H; reflexivity).
  apply syntax_ind.
  - intros w. exact I.
  - intros e H. exact H.
  - intros [w|e] H x sg F; cbn [rpn_f] in F.
    + split; [exact I|]. destruct x; try exact I. exfalso. destruct (minus_sg sg); inversion F as [|? ? _ F1]; subst; inversion F1 as [|? ? _ F2]; subst; inversion F2; subst; tauto.
    + rewrite Forall_app in F. destruct F as [F1 F2]. split; [exact (H F1)|]. destruct x; try exact I. exfalso. inversion F2 as [|? ? _ F3]; subst. inversion F3; subst. tauto.
  - intros f H sg F. exact (H sg F).
  - intros t H f Hf sg F. cbn [rpn_t] in F. apply B in F. destruct F as [F1 F2]. split; [exact (H sg F1)|exact (Hf [] F2)].
  - intros t H f Hf sg F. cbn [rpn_t] in F. apply B in F. destruct F as [F1 F2]. split; [exact (H sg F1)|exact (Hf [] F2)].
  - intros s t H F. cbn [rpn_e nn_e] in *.
    destruct s; try exact (H [] F); (destruct (head_par t); [|exact (H _ F)]); inversion F as [|? ? _ F1]; subst; rewrite Forall_app in F1; exact (H [] (proj1 F1)).
  - intros e H o t Ht F. cbn [rpn_e] in F. apply B in F. destruct F as [F1 F2]. split; [exact (H F1)|exact (Ht [] F2)].
Qed.
Lemma core_nn' e : nn_e (core e) -> nn_e e.
Proof. destruct e as [[] [[[w|e2] [|n|n|n]]| |]|]; try exact (fun H => H). intros H. split; [exact H|exact I]. Qed.
Lemma nf_nn' : (forall b, nn_b (nf_b b) -> nn_b b) /\ (forall f, nn_f (nf_f f) -> nn_f f) /\ (forall t, nn_t (nf_t t) -> nn_t t) /\ (forall e, nn_e (nf_e e) -> nn_e e).
Proof.
  apply syntax_ind.
  - intros w H. exact H.
  - intros e H Q. apply H. apply core_nn'. exact Q.
  - intros b H x [Q X]. split; [exact (H Q)|exact X].
  - intros f H Q. exact (H Q).
  - intros t H f Hf [Q Qf]. split; [exact (H Q)|exact (Hf Qf)].
  - intros t H f Hf [Q Qf]. split; [exact (H Q)|exact (Hf Qf)].
  - intros s t H Q. exact (H Q).
  - intros e H o t Ht [Q Qt]. split; [exact (H Q)|exact (Ht Qt)].
Qed.
Lemma relead_nn' e : nn_e (relead e) -> nn_e e.
Proof.
  induction e as [s t|e IH o t]; intros Q; cbn [relead] in Q.
  - destruct (head_par t); [|exact Q]. destruct s; try exact Q; exact (proj2 Q).
  - destruct Q as [Q1 Q2]. split; [exact (IH Q1)|exact Q2].
Qed.

Definition pub_dec (t : chars) : {pub_tok t} + {~ pub_tok t}.
Proof.
  destruct (list_eq_dec ascii_dec t ["~"%char]) as [E|N1]; [right; intros [H _]; exact (H E)|].
  destruct (list_eq_dec ascii_dec t [";"%char]) as [E|N2]; [right; intros [_ H]; exact (H E)|left; split; assumption].
Defined.

Section Exit.
  Variable p : Z.
  Variable vars : list chars.
  Hypothesis N1 : ~ In ["~"%char] vars.
  Hypothesis N2 : ~ In [";"%char] vars.
  Lemma pub_exit values t st : ~ pub_tok t -> exec1_pub p vars values t st = Exit.
  Proof.
    intros N. assert (t = ["~"%char] \/ t = [";"%char]) as [->| ->].
    { destruct (list_eq_dec ascii_dec t ["~"%char]) as [E|M1]; [left; exact E|]. destruct (list_eq_dec ascii_dec t [";"%char]) as [E|M2]; [right; exact E|]. destruct N. split; assumption. }
    - unfold exec1_pub. change (is_op_pub ["~"%char]) with false. cbv iota. change (tok_value p vars values ["~"%char]) with (lookup p vars values ["~"%char]).
      unfold lookup. rewrite (var_index_none vars _ N1). reflexivity.
    - unfold exec1_pub. change (is_op_pub [";"%char]) with false. cbv iota. change (tok_value p vars values [";"%char]) with (lookup p vars values [";"%char]).
      unfold lookup. rewrite (var_index_none vars _ N2). reflexivity.
  Qed.
  Lemma exec_pub_exit values ts : ~ Forall pub_tok ts -> forall st st', exec p vars values ts st = Ret st' -> exec_pub p vars values ts st = Exit.
  Proof.
    induction ts as [|t ts IH]; intros N st st' H; [destruct N; constructor|]. cbn [exec exec_pub] in *.
    destruct (pub_dec t) as [D|D]; [|rewrite (pub_exit values t st D); reflexivity].
    assert (N' : ~ Forall pub_tok ts) by (intros F; apply N; constructor; assumption).
    apply obind_ret in H. destruct H as [s [H1 H2]].
    pose proof (exec_pub_exec p vars values [t] (Forall_cons _ D (Forall_nil _)) st) as X. cbn [exec_pub exec] in X. rewrite H1 in X. cbn [obind] in X.
    destruct (exec1_pub p vars values t st) as [s'| | | |]; cbn [obind] in X; try discriminate. injection X as ->. cbn [obind]. exact (IH N' s st' H2).
  Qed.
End Exit.

Section Obj.
  Variable p : Z.
  Variable vars : list chars.
  Variable es : list expr.
  Hypothesis G : good p vars es.
  Hypothesis N1 : ~ In ["~"%char] vars.
  Hypothesis N2 : ~ In [";"%char] vars.
  Theorem evaluate_pub_exit ep values env : ~ Forall nn_e es -> point p vars values env -> evaluate p (built p vars es false true ep) values = Exit.
  Proof.
    intros N H. unfold evaluate. cbn [built functions pvars].
    assert (X : omap (fun ts => obind (exec_pub p vars values ts []) (fun st => match st with v :: _ => Ret v | [] => Exit end)) (map rpn_of es) = Exit).
    2: rewrite X; reflexivity.
    assert (K : forall l, (forall e, In e l -> In e es) -> ~ Forall nn_e l ->
      omap (fun ts => obind (exec_pub p vars values ts []) (fun st => match st with v :: _ => Ret v | [] => Exit end)) (map rpn_of l) = Exit).
    2: exact (K es (fun e I => I) N).
    induction l as [|e l IH]; intros I M; [destruct M; constructor|]. cbn [map omap].
    pose proof (eval_rpn p vars es G e values env (I e (or_introl eq_refl)) H) as V. unfold evaluate1 in V. apply obind_ret in V. destruct V as [st [V1 V2]].
    assert (D : {Forall pub_tok (rpn_of e)} + {~ Forall pub_tok (rpn_of e)}) by (apply Forall_dec; exact pub_dec).
    destruct D as [D|D].
    - rewrite (exec_pub_exec p vars values (rpn_of e) D), V1. cbn [obind]. rewrite V2. cbn [obind].
      rewrite IH; [reflexivity|intros e' I'; apply I; right; exact I'|].
      intros F. apply M. constructor; [|exact F]. apply (proj2 (proj2 (proj2 nf_nn'))). apply relead_nn'. exact (proj2 (proj2 (proj2 pub_nn)) _ D).
    - rewrite (exec_pub_exit p vars N1 N2 values (rpn_of e) D [] st V1). reflexivity.
  Qed.
End Obj.

(** ---- number of precomputed tokens ---- *)
Section Tokens.
  Variable p : Z.
  Variable vars : list chars.
  Variable es : list expr.
  Hypothesis G : good p vars es.
  Lemma relead_lone e : lone_e (relead e) = true -> lone_e e = true.
  Proof. induction e as [s t|e IH o t]; cbn [relead]; [|intros H; discriminate H]. destruct (head_par t); [|exact (fun H => H)]. destruct s; first [exact (fun H => H)|intros H; discriminate H]. Qed.
  Lemma relead_cst e : cst_e (relead e) = true -> cst_e e = true.
  Proof. induction e as [s t|e IH o t]; cbn [relead]; [|intros H; discriminate H]. destruct (head_par t); [|exact (fun H => H)]. destruct s; first [exact (fun H => H)|intros H; discriminate H]. Qed.
  Lemma many_tokens e : In e es -> lone_e e = false -> cst_e e = false -> 2 <= length (fst (pre_get p vars (rpn_of e))).
  Proof.
    intros I L C. destruct (rpn_of_ok p vars es G e I) as [W O]. destruct (pre_rpn p vars es G e I) as [E V]. specialize (V _ _ (zero_point p vars es G)).
    unfold precompute in E. apply obind_ret in E. destruct E as [[rp pr] [E1 E2]]. injection E2 as E2. rewrite <- E2 in *. cbn [fst snd] in *. rewrite rev_length.
    pose proof (proj2 (proj2 (proj2 (proj2 (rpn_runs p vars (g_names _ _ _ G) false))) (relead (nf_e e)) W O ltac:(discriminate) ([], [])) _ E1) as S.
    destruct rp as [|[c|i|i|v] rp]; cbn [shape] in S.
    - contradiction.
    - destruct rp as [|x rp]; [cbn in V; discriminate V|cbn [length]; lia].
    - destruct S as [_ S]. apply relead_lone in S. rewrite (proj2 (proj2 (proj2 nf_lone))) in S. congruence.
    - destruct S as [_ S]. apply relead_lone in S. rewrite (proj2 (proj2 (proj2 nf_lone))) in S. congruence.
    - destruct S as [_ [S _]]. apply relead_cst in S. rewrite (proj2 (proj2 (proj2 nf_cst))) in S. congruence.
  Qed.
  Lemma one_token w : In (ELead SNone (TFac (Fac (Atom w) XNone))) es ->
    exists t, fst (pre_get p vars (rpn_of (ELead SNone (TFac (Fac (Atom w) XNone))))) = [t] /\ forall c, t <> POp c.
  Proof.
    intros I. destruct (pre_rpn p vars es G _ I) as [E V]. destruct (good_sub _ _ _ _ G I) as [[W _] [O _]]. cbn [wf_b ok_b] in W, O.
    unfold precompute in E. apply obind_ret in E. destruct E as [[rp pr] [E1 E2]]. injection E2 as E2. rewrite <- E2. cbn [fst snd].
    pose proof (proj2 (word_runs p vars (g_names _ _ _ G) false [] w (or_introl eq_refl) W O ([], [])) _ E1) as S.
    change (rpn_of (ELead SNone (TFac (Fac (Atom w) XNone)))) with [[] ++ w] in E1. cbn [pre_loop] in E1. apply obind_ret in E1. destruct E1 as [s [E1 X]]. injection X as ->.
    unfold pre1 in E1. rewrite (word_op [] w (or_introl eq_refl) W) in E1.
    destruct rp as [|[c|i|i|v] rp]; cbn [shape fst snd] in S.
    - contradiction.
    - exfalso. destruct (18 <? length ([] ++ w)); [apply obind_ret in E1; destruct E1 as [z [_ E1]]; discriminate E1|]. revert E1.
      unfold pre_name. destruct (hd nul ([] ++ w) =?c "-"); [destruct (var_index vars (tl ([] ++ w))); [discriminate|destruct (is_digit _); discriminate]|].
      destruct (hd nul ([] ++ w) =?c "+"); [destruct (var_index vars (tl ([] ++ w)))|destruct (var_index vars ([] ++ w))]; try discriminate; destruct (is_digit _); discriminate.
    - destruct S as [-> _]. eexists. split; [reflexivity|]. discriminate.
    - destruct S as [-> _]. eexists. split; [reflexivity|]. discriminate.
    - destruct S as [-> _]. eexists. split; [reflexivity|]. discriminate.
  Qed.
  Theorem pre_2_ok ch kr : Forall (fun e => lone_e e = false /\ cst_e e = false) es -> Forall (fun ts => 2 <= length ts) (precomp (built p vars es ch kr [])).
  Proof.
    intros F. cbn [built precomp]. apply Forall_forall. intros ts H. apply in_map_iff in H. destruct H as [e [<- I]]. rewrite Forall_forall in F. destruct (F e I). apply many_tokens; assumption.
  Qed.
  Lemma pre2_one values ts v : length ts < 2 -> eval_pre1 p values ts = Ret v -> eval_pre2_1 p values ts = UB.
  Proof.
    intros L H. destruct ts as [|t [|t' ts]]; [discriminate H| |cbn [length] in L; lia].
    unfold eval_pre1 in H. unfold eval_pre2_1. cbn [exec_pre] in H. cbn [exec_arr length repeat].
    destruct t as [c|i|i|x]; cbn [exec_pre1] in H; cbn [exec_arr1].
    - destruct c; discriminate H.
    - destruct (nth_error values i); [reflexivity|discriminate H].
    - destruct (nth_error values i); [reflexivity|discriminate H].
    - reflexivity.
  Qed.
  Theorem pre_2_overflow w kr values env : In (ELead SNone (TFac (Fac (Atom w) XNone))) es -> point p vars values env -> evaluate_pre_2 p (built p vars es false kr []) values = UB.
  Proof.
    intros I H. unfold evaluate_pre_2. cbn [built precomp].
    assert (X : forall l, (forall e, In e l -> In e es) -> In (ELead SNone (TFac (Fac (Atom w) XNone))) l ->
      omap (eval_pre2_1 p values) (map (fun e => fst (pre_get p vars (rpn_of e))) l) = UB).
    { induction l as [|e l IH]; intros S J; [destruct J|]. cbn [map omap].
      pose proof (proj2 (pre_rpn p vars _ G e (S e (or_introl eq_refl))) values env H) as V.
      destruct (Nat.lt_ge_cases (length (fst (pre_get p vars (rpn_of e)))) 2) as [L|L].
      - rewrite (pre2_one _ _ _ L V). reflexivity.
      - destruct J as [->|J].
        + destruct (one_token w I) as [t [E _]]. rewrite E in L. cbn [length] in L. lia.
        + rewrite (eval_pre2_elem p vars es values env e G H (S e (or_introl eq_refl)) L). cbn [obind]. rewrite IH; [reflexivity|intros; apply S; right; assumption|exact J]. }
    rewrite X; [reflexivity|auto|exact I].
  Qed.
End Tokens.

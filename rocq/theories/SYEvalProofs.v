(** Evaluating the reverse polish notation gives the meaning of the expression; precomputed tokens agree with it. *)
From Coq Require Import Ascii String.
From Verif Require Import Machine NumTheory FFInt FFIntProofs FFVec SYParse SYGrammar SYParseProofs SYValidateProofs SYEval.
From Coq Require Import List Znumtheory.
Import ListNotations.
Open Scope nat_scope.
Opaque mod_mul mod_pow mod_inv.

Lemma obind_ret {A B} (o : outcome A) (f : A -> outcome B) b : obind o f = Ret b -> exists a, o = Ret a /\ f a = Ret b.
Proof. destruct o; cbn [obind]; try discriminate. intros H. eexists. split; [reflexivity|exact H]. Qed.
Lemma obind_assoc {A B C} (o : outcome A) (f : A -> outcome B) (g : B -> outcome C) :
  obind (obind o f) g = obind o (fun a => obind (f a) g).
Proof. destruct o; reflexivity. Qed.

(** ---- names ---- *)
Lemma chars_eqb_eq a : forall b, chars_eqb a b = true <-> a = b.
Proof.
  induction a as [|x a IH]; intros [|y b]; cbn [chars_eqb]; try (split; [discriminate|discriminate]); [split; reflexivity|].
  rewrite andb_true_iff, Ascii.eqb_eq, IH. split; [intros [-> ->]; reflexivity|intros E; inversion E; split; reflexivity].
Qed.
Lemma var_index_some vars w i : var_index vars w = Some i -> nth_error vars i = Some w /\ forall j, j < i -> nth_error vars j <> Some w.
Proof.
  revert i. induction vars as [|v vars IH]; intros i H; cbn [var_index] in H; [discriminate|].
  destruct (chars_eqb v w) eqn:E.
  - injection H as <-. apply chars_eqb_eq in E. subst. split; [reflexivity|]. intros j Hj. lia.
  - destruct (var_index vars w) as [k|] eqn:Ek; [|discriminate]. injection H as <-. destruct (IH k eq_refl) as [A B]. split; [exact A|].
    intros [|j] Hj; cbn [nth_error]; [|apply B; lia]. intros X. injection X as ->. rewrite (proj2 (chars_eqb_eq w w) eq_refl) in E. discriminate.
Qed.
Lemma var_index_in vars w : In w vars -> exists i, var_index vars w = Some i.
Proof.
  induction vars as [|v vars IH]; intros H; [destruct H|]. cbn [var_index]. destruct (chars_eqb v w) eqn:E; [eexists; reflexivity|].
  destruct H as [->|H]; [rewrite (proj2 (chars_eqb_eq w w) eq_refl) in E; discriminate|]. destruct (IH H) as [i ->]. eexists. reflexivity.
Qed.
Lemma var_index_none vars w : ~ In w vars -> var_index vars w = None.
Proof.
  induction vars as [|v vars IH]; intros H; [reflexivity|]. cbn [var_index]. destruct (chars_eqb v w) eqn:E.
  - apply chars_eqb_eq in E. exfalso. apply H. left. exact E.
  - rewrite IH; [reflexivity|]. intros X. apply H. right. exact X.
Qed.

(** ---- literals ---- *)
Lemma scan_dec w : forallb is_digit w = true -> forall acc, scan_digits acc w = (dec_acc acc w, []).
Proof.
  induction w as [|c w IH]; intros H acc; [reflexivity|]. cbn [forallb] in H. apply andb_true_iff in H. destruct H as [A B].
  cbn [scan_digits dec_acc]. rewrite A. apply IH, B.
Qed.
Lemma dec_acc_nonneg w : forallb is_digit w = true -> forall acc, (0 <= acc)%Z -> (0 <= dec_acc acc w)%Z.
Proof.
  induction w as [|c w IH]; intros H acc Ha; [exact Ha|]. cbn [forallb] in H. apply andb_true_iff in H. destruct H as [A B].
  cbn [dec_acc]. apply (IH B). pose proof (digit_val_range c A) as R. unfold digit_val in R. lia.
Qed.
Lemma dec_nonneg w : wf_num w -> (0 <= dec w)%Z.
Proof. intros [_ H]. apply dec_acc_nonneg; [exact H|lia]. Qed.
Lemma mpz_digits_dec w : forallb is_digit w = true -> forall acc, mpz_digits 10 acc w = Ret (dec_acc acc w).
Proof.
  induction w as [|c w IH]; intros H acc; [reflexivity|]. cbn [forallb] in H. apply andb_true_iff in H. destruct H as [A B].
  cbn [mpz_digits dec_acc]. pose proof (digit_val_range c A) as R. unfold digit_val in R. unfold digit36. rewrite A.
  replace (Z.of_nat (nat_of_ascii c) - 48 <? 10)%Z with true by (symmetry; apply Z.ltb_lt; lia). rewrite IH by exact B. f_equal. f_equal. lia.
Qed.
Lemma mpz_unsigned_dec w : wf_num w -> hd "0"%char w <> "0"%char -> mpz_unsigned w = Ret (dec w).
Proof.
  intros [N H] Hz. destruct w as [|c w]; [contradiction|]. cbn [hd] in Hz. cbn [mpz_unsigned]. pose proof H as H'. cbn [forallb] in H'. apply andb_true_iff in H'.
  destruct H' as [A _]. rewrite A. cbn [negb]. destruct (c =?c "0") eqn:E; [apply Ascii.eqb_eq in E; contradiction|]. apply mpz_digits_dec. exact H.
Qed.

Section Correct.
  Variable p : Z.
  Variable vars : list chars.
  Hypothesis Hprime : prime p.
  Hypothesis Hp63 : (p < two63)%Z.
  Variable values : list Z.
  Variable env : chars -> Z.
  Hypothesis Henv : env_ok p vars values env.
  Hypothesis Hnames : forall v, In v vars -> ~ wf_num v.   (* a name contains a letter *)
  Hypothesis Hvals : Forall (fun v => 0 <= v < p)%Z values.

  Lemma p_pos : (1 < p)%Z. Proof. destruct Hprime. lia. Qed.
  Notation canon v := (0 <= v < p)%Z.

  Lemma digit_hd w : wf_num w -> is_digit (hd nul w) = true.
  Proof. intros [N H]. destruct w as [|c w]; [contradiction|]. cbn [forallb] in H. apply andb_true_iff in H. apply H. Qed.

  Lemma lookup_word w : (In w vars \/ wf_num w /\ ~ In w vars) -> lookup p vars values w = Ret (env w) /\ canon (env w).
  Proof.
    intros H. unfold lookup. pose proof p_pos as P. destruct Henv as [E1 E2]. destruct H as [H|[H Hn]].
    - destruct (var_index_in vars w H) as [i Hi]. rewrite Hi. destruct (var_index_some vars w i Hi) as [A B].
      rewrite (E1 i w A B). split; [reflexivity|]. pose proof (E1 i w A B) as X. apply nth_error_In in X. rewrite Forall_forall in Hvals. exact (Hvals _ X).
    - rewrite (var_index_none vars w Hn), (digit_hd w H). destruct H as [N H]. unfold dec in E2. rewrite (E2 w (conj N H) Hn). rewrite (scan_dec w H). cbn [fst].
      rewrite ff_ctor_nonneg; [|lia|apply dec_acc_nonneg; [exact H|lia]]. split; [reflexivity|]. apply Z.mod_pos_bound. lia.
  Qed.

  (** sign of a token *)
  Definition sgv (sg : chars) (v : Z) : Z := if minus_sg sg then ((- v) mod p)%Z else v.
  Lemma sgv_canon sg v : canon v -> canon (sgv sg v).
  Proof. intros H. unfold sgv. destruct (minus_sg sg); [|exact H]. apply Z.mod_pos_bound. pose proof p_pos. lia. Qed.

  Lemma tok_word sg w : wf_word w -> ok_word vars w -> sg = [] \/ sg = ["+"%char] \/ sg = ["-"%char] ->
    tok_value p vars values (sg ++ w) = Ret (sgv sg (env w)) /\ is_op (sg ++ w) = false /\ canon (env w).
  Proof.
    intros Ww Hok Hsg. pose proof p_pos as P.
    assert (H : In w vars \/ wf_num w /\ ~ In w vars) by (destruct Hok as [[A _]|[A [B _]]]; tauto).
    destruct (lookup_word w H) as [L C]. destruct Ww as [N A]. destruct w as [|c w]; [contradiction|].
    pose proof (hd_alnum c w (conj N A)) as Hc. destruct (alnum_props c Hc) as [_ [_ [E1 [E2 [E3 [E4 [E5 E6]]]]]]].
    assert (Nop : is_op (sg ++ c :: w) = false).
    { destruct Hsg as [->|[->| ->]]; cbn [app]; [|reflexivity|reflexivity]. destruct w; [|reflexivity].
      cbn [is_op]. rewrite E4, E3, E6. assert (X : ((c =?c "*") || (c =?c "/") || (c =?c "!") || (c =?c "~") || (c =?c ";")) = false).
      { apply negb_true_iff. clear - Hc. revert c Hc. apply (alnum_cases (fun c => negb ((c =?c "*") || (c =?c "/") || (c =?c "!") || (c =?c "~") || (c =?c ";")))).
        vm_compute. reflexivity. }
      rewrite !orb_false_iff in X. destruct X as [[[[X1 X2] X3] X4] X5]. rewrite X1, X2, X3, X4, X5. reflexivity. }
    split; [|split; [exact Nop|exact C]].
    unfold tok_value. destruct (18 <? length (sg ++ c :: w)) eqn:El.
    - apply Nat.ltb_lt in El.
      assert (Hl : literal vars (c :: w)).
      { destruct Hok as [[_ X]|X]; [|exact X]. exfalso. rewrite app_length in El. destruct Hsg as [->|[->| ->]]; cbn [length] in *; clear - El X; lia. }
      destruct Hl as [Hn [Hni Hz]]. assert (Hz' : hd "0"%char (c :: w) <> "0"%char).
      { destruct Hz as [X|X]; [|exact X]. exfalso. rewrite app_length in El. destruct Hsg as [->|[->| ->]]; cbn [length] in *; clear - El X; lia. }
      assert (EV : env (c :: w) = (dec (c :: w) mod p)%Z) by (apply Henv; assumption).
      destruct Hsg as [->|[->| ->]]; cbn [app hd tl].
      + rewrite E4. unfold mpz_str. rewrite E3. rewrite mpz_unsigned_dec by assumption. cbn [obind]. rewrite ff_ctor_mpz_correct by (clear - P; lia).
        unfold sgv. cbn [minus_sg]. rewrite EV. reflexivity.
      + change ("+"%char =?c "+") with true. cbv iota. unfold mpz_str. rewrite E3. rewrite mpz_unsigned_dec by assumption. cbn [obind].
        rewrite ff_ctor_mpz_correct by (clear - P; lia). unfold sgv. cbn [minus_sg]. change ("+"%char =?c "-") with false. rewrite EV. reflexivity.
      + change ("-"%char =?c "+") with false. cbv iota. unfold mpz_str. change ("-"%char =?c "-") with true. cbv iota.
        rewrite mpz_unsigned_dec by assumption. cbn [obind]. rewrite ff_ctor_mpz_correct by (clear - P; lia).
        unfold sgv. cbn [minus_sg]. change ("-"%char =?c "-") with true. cbv iota. rewrite EV. f_equal.
        rewrite <- (Z.sub_0_l (dec (c :: w) mod p)), Zminus_mod_idemp_r. reflexivity.
    - destruct Hsg as [->|[->| ->]]; cbn [app hd tl].
      + rewrite E3, E4. exact L.
      + change ("+"%char =?c "-") with false. change ("+"%char =?c "+") with true. cbv iota. exact L.
      + change ("-"%char =?c "-") with true. cbv iota. rewrite L. cbn [obind]. rewrite ff_opp_correct by (clear - P Hp63 C; lia).
        unfold sgv. cbn [minus_sg]. change ("-"%char =?c "-") with true. reflexivity.
  Qed.

  Lemma exec_app a : forall b st, exec p vars values (a ++ b) st = obind (exec p vars values a st) (exec p vars values b).
  Proof.
    induction a as [|t a IH]; intros b st; [reflexivity|]. cbn [app exec]. rewrite obind_assoc.
    destruct (exec1 p vars values t st); cbn [obind]; try reflexivity. apply IH.
  Qed.

  (** inverse by Fermat *)
  Lemma inv_div b a : canon a -> canon b -> ff_div_assign p b a = ((b * inv_p p a) mod p)%Z.
  Proof.
    intros Ha Hb. cbv beta in *. pose proof p_pos as P. rewrite ff_div_assign_eq by assumption. unfold inv_p.
    destruct (Z.eqb_spec a 0) as [->|Na].
    - rewrite ff_div_zero by lia. rewrite Z.mul_0_r, Z.mod_0_l by lia. reflexivity.
    - rewrite Zmult_mod_idemp_r. symmetry. apply ff_div_unique; try assumption; [lia|apply Z.mod_pos_bound; lia|].
      rewrite Zmult_mod_idemp_l. rewrite <- Z.mul_assoc, (Z.mul_comm (a ^ (p - 2))), <- Z.pow_succ_r by lia.
      replace (Z.succ (p - 2))%Z with (p - 1)%Z by lia. rewrite Zmult_mod, fermat; [|exact Hprime|rewrite Z.mod_small; lia].
      rewrite Z.mul_1_r, Z.mod_mod by lia. apply Z.mod_small. lia.
  Qed.
  Lemma inv_canon a : canon (inv_p p a).
  Proof. unfold inv_p. pose proof p_pos. destruct (a =? 0)%Z; [lia|]. apply Z.mod_pos_bound. lia. Qed.
  Lemma inv_div1 a : canon a -> inv_p p a = ff_div p 1 a.
  Proof.
    intros Ha. pose proof p_pos as P. rewrite <- ff_div_assign_eq by (try assumption; lia). rewrite inv_div by lia.
    rewrite Z.mul_1_l. symmetry. apply Z.mod_small. apply inv_canon.
  Qed.

  (** the value of an exponent *)
  Lemma exp_pos v e : canon v -> (0 <= e < p - 1)%Z -> ff_pow p v e = (v ^ e mod p)%Z.
  Proof.
    intros Hv He. destruct (Z.eq_dec v 0) as [->|N].
    - rewrite ff_pow_zero by (try assumption; lia). destruct (Z.eqb_spec e 0) as [->|N0].
      + cbn [orb]. rewrite Z.pow_0_r. symmetry. apply Z.mod_small. pose proof p_pos. lia.
      + replace (e =? p - 1)%Z with false by (symmetry; apply Z.eqb_neq; lia). cbn [orb andb]. rewrite Z.pow_0_l by lia. reflexivity.
    - apply ff_pow_correct; try assumption; lia.
  Qed.
  Lemma exp_neg v e : canon v -> (0 <= e < two31)%Z ->
    exists k, ff_to_neg_int e = Some k /\ ff_pow_int p v k = ((inv_p p v) ^ e mod p)%Z.
  Proof.
    intros Hv He. pose proof p_pos as P. unfold two31, two63 in *. exists (- e)%Z.
    assert (S32 : sint32 e = e) by (unfold sint32, wrap32, two32, two31; rewrite Z.mod_small by lia; destruct (Z.ltb_spec e 2147483648); lia).
    split.
    - unfold ff_to_neg_int. rewrite S32. replace (e =? - two31)%Z with false by (symmetry; apply Z.eqb_neq; unfold two31; lia). reflexivity.
    - destruct (Z.eq_dec e 0) as [->|N].
      + rewrite ff_pow_int_nonneg by (try assumption; unfold two63, two64 in *; lia). rewrite !Z.pow_0_r. reflexivity.
      + rewrite ff_pow_int_neg by (try assumption; unfold two63 in *; lia). rewrite Z.opp_involutive. rewrite <- inv_div1 by exact Hv. reflexivity.
  Qed.
  Lemma den_x_canon v x : canon v -> canon (den_x p v x).
  Proof. intros H. pose proof p_pos. destruct x; cbn [den_x]; [exact H|apply Z.mod_pos_bound; lia..]. Qed.

  (** one operator *)
  Lemma exec_op c st a b v : is_op [c] = true -> apply_op p c b a = Ret v -> exec p vars values [[c]] (a :: b :: st) = Ret (v :: st).
  Proof. intros H E. cbn [exec]. unfold exec1. rewrite H. cbn [hd]. rewrite E. reflexivity. Qed.
  Lemma exec_word sg w st : wf_word w -> ok_word vars w -> sg = [] \/ sg = ["+"%char] \/ sg = ["-"%char] ->
    exec p vars values [sg ++ w] st = Ret (sgv sg (env w) :: st).
  Proof. intros A B C. destruct (tok_word sg w A B C) as [T [O _]]. cbn [exec]. unfold exec1. rewrite O, T. reflexivity. Qed.
  Lemma exec_lit n st : literal vars n -> (dec n < p)%Z -> exec p vars values [n] st = Ret (dec n :: st).
  Proof.
    intros A B. pose proof (wf_num_word n (proj1 A)) as W. pose proof (exec_word [] n st W (or_intror A) (or_introl eq_refl)) as H. cbn [app] in H. rewrite H.
    unfold sgv. cbn [minus_sg]. destruct A as [A1 [A2 _]]. rewrite (proj2 Henv n A1 A2). rewrite Z.mod_small; [reflexivity|]. pose proof (dec_nonneg n A1). lia.
  Qed.
  Lemma exec_cons t ts st : exec p vars values (t :: ts) st = obind (exec p vars values [t] st) (exec p vars values ts).
  Proof. rewrite <- exec_app. reflexivity. Qed.

  Lemma mod_opp_mul a b : ((((- a) mod p) * b) mod p = (- ((a * b) mod p)) mod p)%Z.
  Proof.
    rewrite Zmult_mod_idemp_l. rewrite <- (Z.sub_0_l ((a * b) mod p)), Zminus_mod_idemp_r. f_equal. ring.
  Qed.

  Definition is_sg3 (sg : chars) := sg = [] \/ sg = ["+"%char] \/ sg = ["-"%char].
  Lemma exec_correct_aux :
    (forall b, wf_b b -> ok_b p vars b -> match b with Par e => forall st, exec p vars values (rpn_e e) st = Ret (den_e p env e :: st) /\ canon (den_e p env e) | Atom _ => True end) /\
    (forall f, wf_f f -> ok_f p vars f -> canon (den_f p env f) /\ forall sg st, is_sg sg (head_par_f f) -> exec p vars values (rpn_f sg f) st = Ret (sgv sg (den_f p env f) :: st)) /\
    (forall t, wf_t t -> ok_t p vars t -> canon (den_t p env t) /\ forall sg st, is_sg sg (head_par t) -> exec p vars values (rpn_t sg t) st = Ret (sgv sg (den_t p env t) :: st)) /\
    (forall e, wf_e e -> ok_e p vars e -> forall st, exec p vars values (rpn_e e) st = Ret (den_e p env e :: st) /\ canon (den_e p env e)).
  Proof.
    pose proof p_pos as P. apply syntax_ind.
    - intros; exact I.
    - intros e H W O. exact (H W O).
    - intros b Hb x [Wb Wx] [Ob Ox]. change (den_f p env (Fac b x)) with (den_x p (den_b p env b) x). destruct b as [w|e].
      + change (den_b p env (Atom w)) with (env w).
        assert (C : canon (env w)) by (destruct (tok_word [] w Wb Ob (or_introl eq_refl)) as [_ [_ C]]; exact C).
        split; [apply den_x_canon; exact C|]. intros sg st Hsg.
        assert (Hsg' : sg = [] \/ sg = ["+"%char] \/ sg = ["-"%char]) by (destruct Hsg as [->|[_ X]]; tauto).
        assert (Hm : minus_sg sg = false -> sgv sg = fun v => v) by (intros E; unfold sgv; rewrite E; reflexivity).
        destruct x as [|n|n|n]; cbn [rpn_f den_x].
        * apply exec_word; assumption.
        * destruct Ox as [O1 O2]. pose proof (dec_nonneg n (proj1 O1)) as Dn. destruct (minus_sg sg) eqn:Em.
          -- rewrite exec_cons. rewrite <- (app_nil_l w). rewrite (exec_word [] w st Wb Ob (or_introl eq_refl)). cbn [obind]. unfold sgv at 1. cbn [minus_sg].
             rewrite exec_cons, exec_lit by (try assumption; lia). cbn [obind]. apply exec_op; [reflexivity|].
             change (apply_op p "!"%char (env w) (dec n)) with (Ret (ff_opp p (ff_pow p (env w) (dec n)))). rewrite exp_pos by (try assumption; lia).
             rewrite ff_opp_correct by (try lia; apply Z.mod_pos_bound; lia). unfold sgv. rewrite Em. reflexivity.
          -- rewrite exec_cons. rewrite (exec_word sg w st Wb Ob Hsg'). cbn [obind]. rewrite (Hm eq_refl).
             rewrite exec_cons, exec_lit by (try assumption; lia). cbn [obind]. apply exec_op; [reflexivity|].
             change (apply_op p "^"%char (env w) (dec n)) with (Ret (ff_pow p (env w) (dec n))). rewrite exp_pos by (try assumption; lia). reflexivity.
        * destruct Ox as [O1 O2]. pose proof (dec_nonneg n (proj1 O1)) as Dn. destruct (minus_sg sg) eqn:Em.
          -- rewrite exec_cons. rewrite <- (app_nil_l w). rewrite (exec_word [] w st Wb Ob (or_introl eq_refl)). cbn [obind]. unfold sgv at 1. cbn [minus_sg].
             rewrite exec_cons, exec_lit by (try assumption; lia). cbn [obind]. apply exec_op; [reflexivity|].
             change (apply_op p "!"%char (env w) (dec n)) with (Ret (ff_opp p (ff_pow p (env w) (dec n)))). rewrite exp_pos by (try assumption; lia).
             rewrite ff_opp_correct by (try lia; apply Z.mod_pos_bound; lia). unfold sgv. rewrite Em. reflexivity.
          -- rewrite exec_cons. rewrite (exec_word sg w st Wb Ob Hsg'). cbn [obind]. rewrite (Hm eq_refl).
             rewrite exec_cons, exec_lit by (try assumption; lia). cbn [obind]. apply exec_op; [reflexivity|].
             change (apply_op p "^"%char (env w) (dec n)) with (Ret (ff_pow p (env w) (dec n))). rewrite exp_pos by (try assumption; lia). reflexivity.
        * destruct Ox as [O1 [O2 O3]]. pose proof (dec_nonneg n (proj1 O1)) as Dn.
          destruct (exp_neg (env w) (dec n) C ltac:(unfold two31; lia)) as [k [K1 K2]]. destruct (minus_sg sg) eqn:Em.
          -- rewrite exec_cons. rewrite <- (app_nil_l w). rewrite (exec_word [] w st Wb Ob (or_introl eq_refl)). cbn [obind]. unfold sgv at 1. cbn [minus_sg].
             rewrite exec_cons, exec_lit by (try assumption; lia). cbn [obind]. apply exec_op; [reflexivity|].
             change (apply_op p ";"%char (env w) (dec n)) with (match ff_to_neg_int (dec n) with None => UB | Some k => Ret (ff_opp p (ff_pow_int p (env w) k)) end).
             rewrite K1, K2. rewrite ff_opp_correct by (try lia; apply Z.mod_pos_bound; lia). unfold sgv. rewrite Em. reflexivity.
          -- rewrite exec_cons. rewrite (exec_word sg w st Wb Ob Hsg'). cbn [obind]. rewrite (Hm eq_refl).
             rewrite exec_cons, exec_lit by (try assumption; lia). cbn [obind]. apply exec_op; [reflexivity|].
             change (apply_op p "~"%char (env w) (dec n)) with (match ff_to_neg_int (dec n) with None => UB | Some k => Ret (ff_pow_int p (env w) k) end).
             rewrite K1, K2. reflexivity.
      + specialize (Hb Wb Ob). change (den_b p env (Par e)) with (den_e p env e). pose proof (proj2 (Hb [])) as C.
        split; [apply den_x_canon; exact C|]. intros sg st Hsg.
        assert (sg = []) as -> by (destruct Hsg as [->|[X _]]; [reflexivity|discriminate]). unfold sgv. cbn [minus_sg].
        destruct x as [|n|n|n]; cbn [rpn_f den_x].
        * rewrite app_nil_r. apply Hb.
        * destruct Ox as [O1 O2]. pose proof (dec_nonneg n (proj1 O1)) as Dn. rewrite exec_app, (proj1 (Hb st)). cbn [obind].
          rewrite exec_cons, exec_lit by (try assumption; lia). cbn [obind]. apply exec_op; [reflexivity|].
          change (apply_op p "^"%char (den_e p env e) (dec n)) with (Ret (ff_pow p (den_e p env e) (dec n))). rewrite exp_pos by (try assumption; lia). reflexivity.
        * destruct Ox as [O1 O2]. pose proof (dec_nonneg n (proj1 O1)) as Dn. rewrite exec_app, (proj1 (Hb st)). cbn [obind].
          rewrite exec_cons, exec_lit by (try assumption; lia). cbn [obind]. apply exec_op; [reflexivity|].
          change (apply_op p "^"%char (den_e p env e) (dec n)) with (Ret (ff_pow p (den_e p env e) (dec n))). rewrite exp_pos by (try assumption; lia). reflexivity.
        * destruct Ox as [O1 [O2 O3]]. pose proof (dec_nonneg n (proj1 O1)) as Dn. rewrite exec_app, (proj1 (Hb st)). cbn [obind].
          destruct (exp_neg (den_e p env e) (dec n) C ltac:(unfold two31; lia)) as [k [K1 K2]].
          rewrite exec_cons, exec_lit by (try assumption; lia). cbn [obind]. apply exec_op; [reflexivity|].
          change (apply_op p "~"%char (den_e p env e) (dec n)) with (match ff_to_neg_int (dec n) with None => UB | Some k => Ret (ff_pow_int p (den_e p env e) k) end).
          rewrite K1, K2. reflexivity.
    - intros f Hf W O. destruct (Hf W O) as [C H]. split; [exact C|]. intros sg st Hsg. rewrite head_par_tfac in Hsg. apply H. exact Hsg.
    - intros t Ht f Hf [Wt Wf] [Ot Of]. destruct (Ht Wt Ot) as [Ct Et]. destruct (Hf Wf Of) as [Cf Ef].
      change (den_t p env (TMul t f)) with ((den_t p env t * den_f p env f) mod p)%Z. split; [apply Z.mod_pos_bound; lia|].
      intros sg st Hsg. cbn [rpn_t]. rewrite exec_app, (Et sg st Hsg). cbn [obind]. rewrite exec_app, (Ef [] _ (or_introl eq_refl)). cbn [obind].
      unfold sgv at 1. cbn [minus_sg]. apply exec_op; [reflexivity|]. pose proof (sgv_canon sg _ Ct) as Cs.
      change (apply_op p "*"%char (sgv sg (den_t p env t)) (den_f p env f)) with (Ret (ff_mul_assign p (sgv sg (den_t p env t)) (den_f p env f))).
      rewrite ff_mul_assign_correct by lia. f_equal. unfold sgv. destruct (minus_sg sg); [|reflexivity]. apply mod_opp_mul.
    - intros t Ht f Hf [Wt Wf] [Ot Of]. destruct (Ht Wt Ot) as [Ct Et]. destruct (Hf Wf Of) as [Cf Ef].
      change (den_t p env (TDiv t f)) with ((den_t p env t * inv_p p (den_f p env f)) mod p)%Z. split; [apply Z.mod_pos_bound; lia|].
      intros sg st Hsg. cbn [rpn_t]. rewrite exec_app, (Et sg st Hsg). cbn [obind]. rewrite exec_app, (Ef [] _ (or_introl eq_refl)). cbn [obind].
      unfold sgv at 1. cbn [minus_sg]. apply exec_op; [reflexivity|]. pose proof (sgv_canon sg _ Ct) as Cs.
      change (apply_op p "/"%char (sgv sg (den_t p env t)) (den_f p env f)) with (Ret (ff_div_assign p (sgv sg (den_t p env t)) (den_f p env f))).
      rewrite inv_div by assumption. f_equal. unfold sgv. destruct (minus_sg sg); [|reflexivity]. apply mod_opp_mul.
    - intros s t Ht W O st. destruct (Ht W O) as [C E]. change (den_e p env (ELead s t)) with (den_sign p s (den_t p env t)). cbn [rpn_e].
      assert (Sg : forall s, s <> SNone -> sgc s = ["+"%char] \/ sgc s = ["-"%char] -> sgv (sgc s) (den_t p env t) = den_sign p s (den_t p env t) ->
        exec p vars values (if head_par t then ["0"%char] :: rpn_t [] t ++ [sgc s] else rpn_t (sgc s) t) st = Ret (den_sign p s (den_t p env t) :: st)).
      { intros s0 Ns Hs Es. destruct (head_par t) eqn:Hh.
        - rewrite exec_cons.
          assert (Z0 : exec p vars values [["0"%char]] st = Ret (0%Z :: st)).
          { assert (L0 : literal vars ["0"%char]).
            { split; [split; [discriminate|reflexivity]|]. split; [intros X; apply (Hnames _ X); split; [discriminate|reflexivity]|left; cbn; lia]. }
            pose proof (exec_lit ["0"%char] st L0) as X. change (dec ["0"%char]) with 0%Z in X. apply X. lia. }
          rewrite Z0. cbn [obind]. rewrite exec_app, (E [] _ (or_introl eq_refl)). cbn [obind]. unfold sgv at 1. cbn [minus_sg].
          destruct Hs as [Hs|Hs]; rewrite Hs; (apply exec_op; [reflexivity|]).
          + change (apply_op p "+"%char 0 (den_t p env t)) with (Ret (ff_add_assign p 0 (den_t p env t))). rewrite ff_add_assign_correct by lia. rewrite <- Es, Hs.
            unfold sgv. cbn [minus_sg]. change ("+"%char =?c "-") with false. cbv iota. rewrite Z.add_0_l, Z.mod_small by lia. reflexivity.
          + change (apply_op p "-"%char 0 (den_t p env t)) with (Ret (ff_sub_assign p 0 (den_t p env t))). rewrite ff_sub_assign_correct by lia. rewrite <- Es, Hs.
            unfold sgv. cbn [minus_sg]. change ("-"%char =?c "-") with true. cbv iota. rewrite Z.sub_0_l. reflexivity.
        - rewrite <- Es. apply E. right. split; [reflexivity|exact Hs]. }
      split.
      + destruct s; [rewrite (E [] st (or_introl eq_refl)); reflexivity|..]; apply Sg; try discriminate; (left; reflexivity) || (right; reflexivity) || reflexivity.
      + destruct s; cbn [den_sign]; try exact C; apply Z.mod_pos_bound; lia.
    - intros e He o t Ht [We Wt] [Oe Ot] st. destruct (He We Oe st) as [Ee Ce]. destruct (Ht Wt Ot) as [Ct Et]. cbn [rpn_e].
      rewrite exec_app, Ee. cbn [obind]. rewrite exec_app, (Et [] _ (or_introl eq_refl)). cbn [obind]. unfold sgv at 1. cbn [minus_sg].
      assert (A1 : apply_op p "+"%char (den_e p env e) (den_t p env t) = Ret ((den_e p env e + den_t p env t) mod p)%Z).
      { change (apply_op p "+"%char (den_e p env e) (den_t p env t)) with (Ret (ff_add_assign p (den_e p env e) (den_t p env t))). rewrite ff_add_assign_correct by lia. reflexivity. }
      assert (A2 : apply_op p "-"%char (den_e p env e) (den_t p env t) = Ret ((den_e p env e - den_t p env t) mod p)%Z).
      { change (apply_op p "-"%char (den_e p env e) (den_t p env t)) with (Ret (ff_sub_assign p (den_e p env e) (den_t p env t))). rewrite ff_sub_assign_correct by lia. reflexivity. }
      destruct o; cbn [opc].
      + change (den_e p env (EBin e OAdd t)) with ((den_e p env e + den_t p env t) mod p)%Z. split; [|apply Z.mod_pos_bound; lia]. apply exec_op; [reflexivity|exact A1].
      + change (den_e p env (EBin e OSub t)) with ((den_e p env e - den_t p env t) mod p)%Z. split; [|apply Z.mod_pos_bound; lia]. apply exec_op; [reflexivity|exact A2].
      + change (den_e p env (EBin e OAddSub t)) with ((den_e p env e - den_t p env t) mod p)%Z. split; [|apply Z.mod_pos_bound; lia]. apply exec_op; [reflexivity|exact A2].
      + change (den_e p env (EBin e OSubAdd t)) with ((den_e p env e - den_t p env t) mod p)%Z. split; [|apply Z.mod_pos_bound; lia]. apply exec_op; [reflexivity|exact A2].
  Qed.

  (** the tokens of a function with a global sign *)
  Lemma relead_den e : wf_e e -> ok_e p vars e -> wf_e (relead e) /\ ok_e p vars (relead e) /\ den_e p env (relead e) = den_e p env e.
  Proof.
    pose proof p_pos as P. induction e as [s t|e IH o t]; intros W O; cbn [relead].
    - destruct (head_par t) eqn:Hh; [|repeat split; assumption].
      assert (Z0 : wf_e zero_atom /\ ok_e p vars zero_atom).
      { split; [split; [split; [discriminate|reflexivity]|exact I]|]. split; [|exact I]. right. split; [split; [discriminate|reflexivity]|].
        split; [intros X; apply (Hnames _ X); split; [discriminate|reflexivity]|left; cbn; lia]. }
      assert (E0 : den_e p env zero_atom = 0%Z).
      { change (den_e p env zero_atom) with (env ["0"%char]). rewrite (proj2 Henv ["0"%char]); [apply Z.mod_0_l; lia|split; [discriminate|reflexivity]|].
        intros X. apply (Hnames _ X). split; [discriminate|reflexivity]. }
      assert (EB : den_e p env (EBin zero_atom OSub t) = ((- den_t p env t) mod p)%Z).
      { change (den_e p env (EBin zero_atom OSub t)) with ((den_e p env zero_atom - den_t p env t) mod p)%Z. rewrite E0, Z.sub_0_l. reflexivity. }
      destruct s; try (split; [exact W|split; [exact O|reflexivity]]);
        (split; [split; [apply Z0|exact W]|split; [split; [apply Z0|exact O]|rewrite EB; reflexivity]]).
    - destruct W as [W1 W2], O as [O1 O2]. destruct (IH W1 O1) as [A [B C]]. split; [split; assumption|]. split; [split; assumption|].
      destruct o.
      + change ((den_e p env (relead e) + den_t p env t) mod p = (den_e p env e + den_t p env t) mod p)%Z. rewrite C. reflexivity.
      + change ((den_e p env (relead e) - den_t p env t) mod p = (den_e p env e - den_t p env t) mod p)%Z. rewrite C. reflexivity.
      + change ((den_e p env (relead e) - den_t p env t) mod p = (den_e p env e - den_t p env t) mod p)%Z. rewrite C. reflexivity.
      + change ((den_e p env (relead e) - den_t p env t) mod p = (den_e p env e - den_t p env t) mod p)%Z. rewrite C. reflexivity.
  Qed.

  Lemma nf_ok_e : (forall b, ok_b p vars b -> ok_b p vars (nf_b b)) /\ (forall f, ok_f p vars f -> ok_f p vars (nf_f f)) /\
    (forall t, ok_t p vars t -> ok_t p vars (nf_t t)) /\ (forall e, ok_e p vars e -> ok_e p vars (nf_e e)).
  Proof.
    apply syntax_ind.
    - intros w W. exact W.
    - intros e H W. pose proof (H W) as H1. change (ok_e p vars (core (nf_e e))). unfold core.
      destruct (nf_e e) as [[] [[[w|e2] [|n|n|n]]| |]|]; try exact H1. apply H1.
    - intros b H x [W X]. split; [exact (H W)|exact X].
    - intros f H W. exact (H W).
    - intros t H f Hf [W X]. split; [exact (H W)|exact (Hf X)].
    - intros t H f Hf [W X]. split; [exact (H W)|exact (Hf X)].
    - intros s t H W. exact (H W).
    - intros e H o t Ht [We W]. split; [exact (H We)|exact (Ht W)].
  Qed.

  (** from the string to the value *)
  Theorem string_value e : wf_e e -> ok_e p vars e ->
    exists s ts, validate (show_e e) = Ret s /\ parse s = Ret ts /\ exec p vars values ts [] = Ret [den_e p env e].
  Proof.
    intros W O. exists (show_e (nf_e e)), (rpn_e (relead (nf_e e))). split; [apply validate_show; exact W|].
    destruct (proj2 (proj2 (proj2 nf_ok_aux)) e W) as [W1 P1]. split; [apply parse_show; assumption|].
    pose proof (proj2 (proj2 (proj2 nf_ok_e)) e O) as O1. destruct (relead_den (nf_e e) W1 O1) as [W2 [O2 E]].
    rewrite (proj1 (proj2 (proj2 (proj2 exec_correct_aux)) _ W2 O2 [])). rewrite E. rewrite (proj2 (proj2 (proj2 (nf_den_aux p env))) e). reflexivity.
  Qed.
End Correct.

(** Proofs for C50, part 4: the text of a coefficient and its value. *)
From Coq Require Import Ascii String Znumtheory.
From Verif Require Import Machine FFInt FFVec SYParse SYGrammar SYEval SYObj Amplitude AmplitudeSpec AmplitudeText AmplitudeParse AmplitudeState.
From Coq Require Import List Lia Arith ZArith.
Import ListNotations.
Open Scope nat_scope.

(** ---- the trees ---- *)
Fixpoint sum_from (e : expr) (l : list expr) : expr := match l with [] => e | x :: l => sum_from (EBin e OAdd (TFac (par_f x))) l end.
Definition sum_tree (l : list expr) : expr := match l with [] => one_e | e :: l => sum_from (ELead SNone (TFac (par_f e))) l end.
Definition prod_t (P Q : list expr) : term := TMul (TFac (par_f (sum_tree P))) (par_f (sum_tree Q)).
Fixpoint terms_from (e : expr) (l : list term) : expr := match l with [] => e | x :: l => terms_from (EBin e OAdd x) l end.
Definition terms_tree (l : list term) : expr := match l with [] => one_e | t :: l => terms_from (ELead SPlus t) l end.

Definition plus_paren (e : expr) : chars := "+"%char :: paren (show_e e).
Definition join (l : list expr) : chars := match l with [] => [] | e :: l => paren (show_e e) ++ flat_map plus_paren l end.
Lemma show_sum_from : forall l e, show_e (sum_from e l) = show_e e ++ flat_map plus_paren l.
Proof.
  induction l as [|x l IH]; intros e; cbn [sum_from flat_map]; [symmetry; apply app_nil_r|]. rewrite IH. cbn [show_e show_t show_f show_b show_expo par_f]. rewrite app_nil_r.
  cbn. rewrite <- app_assoc. reflexivity.
Qed.
Lemma show_sum_tree l : l <> [] -> show_e (sum_tree l) = join l.
Proof. destruct l as [|e l]; [congruence|]. intros _. cbn [sum_tree join]. rewrite show_sum_from. cbn [show_e show_t show_f show_b show_expo par_f]. rewrite app_nil_r. reflexivity. Qed.
Lemma show_terms_from : forall l e, show_e (terms_from e l) = show_e e ++ flat_map (fun t => "+"%char :: show_t t) l.
Proof.
  induction l as [|x l IH]; intros e; cbn [terms_from flat_map]; [symmetry; apply app_nil_r|]. rewrite IH. cbn [show_e]. cbn. rewrite <- app_assoc. reflexivity.
Qed.
Lemma show_terms_tree l : l <> [] -> show_e (terms_tree l) = flat_map (fun t => "+"%char :: show_t t) l.
Proof. destruct l as [|t l]; [congruence|]. intros _. cbn [terms_tree flat_map]. rewrite show_terms_from. reflexivity. Qed.
Lemma show_prod P Q : P <> [] -> Q <> [] -> show_t (prod_t P Q) = "("%char :: join P ++ [")"; "*"; "("]%char ++ join Q ++ [")"%char].
Proof.
  intros HP HQ. unfold prod_t. cbn [show_t show_f show_b show_expo par_f]. rewrite !app_nil_r, !show_sum_tree by assumption. cbn [app]. f_equal. rewrite <- app_assoc. reflexivity.
Qed.

(** ---- the loop over the map ---- *)
Section Text.
  Variables (F Ms : list chars) (j : nat) (m : chars).
  Hypothesis ND : NoDup Ms.
  Hypothesis Hj : nth_error Ms j = Some m.
  Lemma entries_prefs : forall P L s gp, Forall2 (rel F Ms) L (map (fun e => (None, e)) P) -> forall rest,
    coef_entries F j (L ++ rest) (mk_cst s false gp false) =
    coef_entries F j rest (mk_cst (s ++ if gp then flat_map plus_paren P else join P) false (gp || match P with [] => false | _ => true end) false).
  Proof.
    induction P as [|e P IH]; intros L s gp H rest; inversion H as [|x y L' ? Hx HL]; subst; cbn [map app].
    - rewrite Bool.orb_false_r. replace (s ++ (if gp then flat_map plus_paren [] else join [])) with s by (destruct gp; symmetry; apply app_nil_r). reflexivity.
    - destruct Hx as [Hf H0]. cbn [fst snd] in *. cbn [coef_entries]. unfold coef_entry. rewrite H0. cbn [Nat.eqb orb]. rewrite Hf. cbn [obind].
      destruct gp; cbn [obind]; rewrite (IH L' _ _ HL); f_equal; f_equal; cbn [orb flat_map join]; rewrite <- ?app_assoc; reflexivity.
  Qed.
  Definition picked (Q : list (chars * expr)) : list expr := map snd (filter (fun q => if name_dec (fst q) m then true else false) Q).
  Lemma second_eq k n : (exists i, k = 2 + i /\ nth_error Ms i = Some n) -> (k =? j + 2) = (if name_dec n m then true else false) /\ (k =? 0) = false /\ (k =? 1) = false.
  Proof.
    intros [i [-> Hi]]. split; [|split; reflexivity]. destruct (name_dec n m) as [->|N].
    - apply Nat.eqb_eq. assert (i = j) by (apply (proj1 (NoDup_nth_error Ms) ND); [apply nth_error_Some; congruence|congruence]). lia.
    - apply Nat.eqb_neq. intros E. assert (i = j) by lia. subst. congruence.
  Qed.
  Lemma entries_repl : forall Q L s pd gp gf, (gf = true -> pd = true) -> (pd = true -> gf = true) -> Forall2 (rel F Ms) L (map (fun q => (Some (fst q), snd q)) Q) ->
    coef_entries F j L (mk_cst s pd gp gf) =
    Ret (match picked Q with [] => mk_cst s pd gp gf | l => mk_cst (s ++ if gf then flat_map plus_paren l else [")"; "*"; "("]%char ++ join l) true gp true end).
  Proof.
    induction Q as [|[n e] Q IH]; intros L s pd gp gf H1 H2 H; inversion H as [|x y L' ? Hx HL]; subst; cbn [map].
    - reflexivity.
    - destruct Hx as [Hf H0]. cbn [fst snd] in *. cbn [coef_entries]. unfold coef_entry. destruct (second_eq (snd x) n H0) as [E [E0 E1]]. rewrite E0, E1, E. cbn [orb].
      unfold picked. cbn [filter fst]. destruct (name_dec n m) as [->|N].
      + rewrite Hf. cbn [map snd]. destruct gf.
        * rewrite (H1 eq_refl). cbn [obind]. rewrite (IH L' _ _ _ _ ltac:(reflexivity) ltac:(reflexivity) HL). unfold picked. destruct (map snd (filter _ Q)); cbn [flat_map]; unfold plus_paren; cbn [app]; rewrite <- ?app_assoc, ?app_nil_r; reflexivity.
        * destruct pd; [discriminate (H2 eq_refl)|]. cbn [obind]. rewrite (IH L' _ _ _ _ ltac:(reflexivity) ltac:(reflexivity) HL). unfold picked. destruct (map snd (filter _ Q)); cbn [join flat_map]; rewrite <- ?app_assoc, ?app_nil_r; reflexivity.
      + cbn [obind]. apply IH; assumption.
  Qed.
  Lemma exists_second Q : forall L, Forall2 (rel F Ms) L (map (fun q => (Some (fst q), snd q)) Q) -> existsb (fun e => snd e =? j + 2) L = match picked Q with [] => false | _ => true end.
  Proof.
    induction Q as [|[n e] Q IH]; intros L H; inversion H as [|x y L' ? Hx HL]; subst; [reflexivity|]. cbn [existsb]. destruct Hx as [_ H0]. cbn [fst snd] in H0.
    destruct (second_eq (snd x) n H0) as [E _]. rewrite E. unfold picked. cbn [filter fst]. destruct (name_dec n m); [reflexivity|]. cbn [orb]. exact (IH L' HL).
  Qed.
  Lemma exists_pref P : forall L, Forall2 (rel F Ms) L (map (fun e => (None, e)) P) -> existsb (fun e => snd e =? j + 2) L = false.
  Proof.
    induction P as [|e P IH]; intros L H; inversion H as [|x y L' ? Hx HL]; subst; [reflexivity|]. cbn [existsb]. destruct Hx as [_ H0]. cbn [fst snd] in H0. rewrite H0. replace (0 =? j + 2) with false by (symmetry; apply Nat.eqb_neq; lia). exact (IH L' HL).
  Qed.
End Text.

Section Coef.
  Variables (vars fams N : list chars) (P : chars -> list expr) (Q : chars -> list (chars * expr)) (Ms rep : list chars) (st : amplitude).
  Hypothesis HI : inv vars fams N P Q Ms rep st.
  Hypothesis HP : forall n, In n N -> P n <> [].
  Variables (j : nat) (m : chars).
  Hypothesis Hj : nth_error Ms j = Some m.
  (** the terms of the coefficient of [m] *)
  Definition coef_terms (l : list chars) : list term := flat_map (fun n => match picked m (Q n) with [] => [] | q => [prod_t (P n) q] end) l.
  Lemma coef_integral i n : nth_error N i = Some n -> coef_of_integral st j i = Ret (flat_map (fun t => "+"%char :: show_t t) (coef_terms [n])).
  Proof.
    intros Hn. pose proof (HP n (nth_error_In _ _ Hn)) as Pn. unfold coef_of_integral. destruct (iv_map _ _ _ _ _ _ _ _ HI i n Hn) as [L [EL HL]]. rewrite EL.
    unfold items in HL. apply Forall2_app_inv_r in HL as [L1 [L2 [H1 [H2 ->]]]]. rewrite existsb_app, (exists_pref _ _ _ _ _ H1), (exists_second _ _ _ _ (iv_mnd _ _ _ _ _ _ _ _ HI) Hj _ _ H2). cbn [orb].
    unfold coef_terms. cbn [flat_map]. rewrite app_nil_r.
    destruct (picked m (Q n)) as [|q l] eqn:Ep; [reflexivity|].
    rewrite (entries_prefs _ _ _ _ _ _ _ H1). rewrite (entries_repl _ _ _ _ (iv_mnd _ _ _ _ _ _ _ _ HI) Hj _ _ _ false _ false (fun h => h) (fun h => h) H2), Ep. cbn [obind c_text flat_map].
    rewrite show_prod; [|exact Pn|discriminate]. cbn [app]. rewrite app_nil_r. rewrite <- !app_assoc. reflexivity.
  Qed.
  Lemma coef_upto_ok : forall is, (forall i, In i is -> i < length N) -> coef_upto st j is = Ret (flat_map (fun t => "+"%char :: show_t t) (coef_terms (map (fun i => nth i N []) is))).
  Proof.
    induction is as [|i is IH]; intros H; [reflexivity|]. cbn [coef_upto map]. pose proof (H i (or_introl eq_refl)) as Li.
    rewrite (coef_integral i (nth i N [])) by (apply nth_error_nth'; exact Li). cbn [obind]. rewrite IH by (intros x Hx; apply H; right; exact Hx). cbn [obind].
    f_equal. unfold coef_terms. cbn [flat_map]. rewrite app_nil_r, flat_map_app. reflexivity.
  Qed.
  Lemma nth_seq (l : list chars) : map (fun i => nth i l []) (seq 0 (length l)) = l.
  Proof.
    apply nth_ext with (d := []) (d' := []); [rewrite map_length, seq_length; reflexivity|]. intros i Hi. rewrite map_length, seq_length in Hi.
    rewrite (nth_indep _ [] (nth 0 l [])) by (rewrite map_length, seq_length; exact Hi). rewrite (map_nth (fun i => nth i l [])), seq_nth by exact Hi. reflexivity.
  Qed.
  Lemma coef_text : coef_terms N <> [] /\ get_unsimplified_coef st j = Ret (show_e (terms_tree (coef_terms N))).
  Proof.
    assert (NE : coef_terms N <> []).
    { destruct (proj1 (iv_min _ _ _ _ _ _ _ _ HI m) (nth_error_In _ _ Hj)) as [n [In_ X]]. intros E. unfold coef_terms in E.
      assert (Y : In (match picked m (Q n) with [] => one_t | q => prod_t (P n) q end) []).
      { rewrite <- E. apply in_flat_map. exists n. split; [exact In_|]. apply in_map_iff in X as [[m' e] [E1 X]]. cbn [fst] in E1. subst m'.
        assert (Z : In e (picked m (Q n))) by (unfold picked; apply in_map_iff; exists (m, e); split; [reflexivity|]; apply filter_In; split; [exact X|]; cbn [fst]; destruct (name_dec m m); congruence).
        destruct (picked m (Q n)); [destruct Z|left; reflexivity]. }
      destruct Y. }
    split; [exact NE|]. unfold get_unsimplified_coef. rewrite (iv_ni _ _ _ _ _ _ _ _ HI), coef_upto_ok by (intros i Hi; apply in_seq in Hi; lia).
    rewrite nth_seq, show_terms_tree by exact NE. reflexivity.
  Qed.
  Lemma masters_nth : get_master st j = Ret m.
  Proof. unfold get_master. rewrite (iv_minv _ _ _ _ _ _ _ _ HI). change j with (0 + j) at 1. rewrite (nfind_combine Ms 0 j m Hj). reflexivity. Qed.
End Coef.

(** ---- properties of the trees ---- *)
Section Pred.
  (** a property of trees that holds for sums, products and parentheses *)
  Variables (PE : expr -> Prop) (PT : term -> Prop) (PF : factor -> Prop).
  Hypothesis h_lead : forall s t, PT t -> PE (ELead s t).
  Hypothesis h_bin : forall e o t, PE e -> PT t -> PE (EBin e o t).
  Hypothesis h_fac : forall f, PF f -> PT (TFac f).
  Hypothesis h_mul : forall t f, PT t -> PF f -> PT (TMul t f).
  Hypothesis h_par : forall e, PE e -> PF (par_f e).
  Hypothesis h_one : PE one_e.
  Lemma sum_from_P : forall l e, PE e -> Forall PE l -> PE (sum_from e l).
  Proof. induction l as [|x l IH]; intros e He Hl; [exact He|]. inversion Hl; subst. cbn [sum_from]. apply IH; [|assumption]. apply h_bin; [exact He|]. apply h_fac, h_par. assumption. Qed.
  Lemma sum_tree_P l : Forall PE l -> PE (sum_tree l).
  Proof. destruct l as [|e l]; intros H; [exact h_one|]. inversion H; subst. apply sum_from_P; [|assumption]. apply h_lead, h_fac, h_par. assumption. Qed.
  Lemma terms_from_P : forall l e, PE e -> Forall PT l -> PE (terms_from e l).
  Proof. induction l as [|x l IH]; intros e He Hl; [exact He|]. inversion Hl; subst. cbn [terms_from]. apply IH; [|assumption]. apply h_bin; assumption. Qed.
  Lemma terms_tree_P l : Forall PT l -> PE (terms_tree l).
  Proof. destruct l as [|e l]; intros H; [exact h_one|]. inversion H; subst. apply terms_from_P; [|assumption]. apply h_lead. assumption. Qed.
  Lemma prod_P A B : Forall PE A -> Forall PE B -> PT (prod_t A B).
  Proof. intros HA HB. unfold prod_t. apply h_mul; [apply h_fac, h_par, sum_tree_P; exact HA|apply h_par, sum_tree_P; exact HB]. Qed.
  Lemma coef_tree_P N P Q m : (forall n, Forall PE (P n)) -> (forall n, Forall PE (map snd (Q n))) -> PE (terms_tree (coef_terms P Q m N)).
  Proof.
    intros HP HQ. apply terms_tree_P. apply Forall_forall. intros t I. unfold coef_terms in I. apply in_flat_map in I as [n [_ I]].
    assert (X : Forall PE (picked m (Q n))).
    { specialize (HQ n). rewrite Forall_forall in *. intros e I2. apply HQ. unfold picked in I2. apply in_map_iff in I2 as [q [<- I2]]. apply filter_In in I2 as [I2 _]. apply in_map. exact I2. }
    destruct (picked m (Q n)) as [|q l]; [destruct I|]. destruct I as [<-|[]]. apply prod_P; [apply HP|exact X].
  Qed.
End Pred.

(** ---- values ---- *)
Section Value.
  Variables (p : Z) (env : chars -> Z).
  Hypothesis Hp : (1 < p)%Z.
  Hypothesis Hone : env ["1"%char] = 1%Z.
  Open Scope Z_scope.
  Notation eqp a b := (a mod p = b mod p).
  Lemma add_p a b c d : eqp a c -> eqp b d -> eqp (a + b) (c + d). Proof. intros H1 H2. rewrite Z.add_mod, H1, H2, <- Z.add_mod by lia. reflexivity. Qed.
  Lemma mul_p a b c d : eqp a c -> eqp b d -> eqp (a * b) (c * d). Proof. intros H1 H2. rewrite Z.mul_mod, H1, H2, <- Z.mul_mod by lia. reflexivity. Qed.
  Lemma opp_p a b : eqp a b -> eqp (- a) (- b).
  Proof. intros H. replace (- a) with ((-1) * a) by lia. replace (- b) with ((-1) * b) by lia. apply mul_p; [reflexivity|exact H]. Qed.
  Lemma den_par e : den_f p env (par_f e) = den_e p env e. Proof. reflexivity. Qed.
  Lemma den_ctree s : eqp (den_e p env (ctree s)) (sm_val p env s).
  Proof.
    assert (B : den_t p env (body_t s) = match s_cf s with None => 1 | Some t => den_t p env t end) by (unfold body_t; destruct (s_cf s); [reflexivity|exact Hone]).
    unfold ctree, sm_val. rewrite <- B. destruct (s_minus s); cbn; [apply Zmod_mod|reflexivity].
  Qed.
  Lemma den_sum_from : forall l e, eqp (den_e p env (sum_from e l)) (den_e p env e + sumZ (den_e p env) l).
  Proof.
    induction l as [|x l IH]; intros e; cbn [sum_from sumZ fold_right]; [rewrite Z.add_0_r; reflexivity|]. rewrite IH. cbn [den_e den_t]. rewrite den_par.
    fold (sumZ (den_e p env) l). rewrite Zplus_mod_idemp_l. f_equal. lia.
  Qed.
  Lemma den_sum_tree l : l <> [] -> eqp (den_e p env (sum_tree l)) (sumZ (den_e p env) l).
  Proof. destruct l as [|e l]; [congruence|]. intros _. cbn [sum_tree]. rewrite den_sum_from. reflexivity. Qed.
  Lemma den_prod A B : A <> [] -> B <> [] -> eqp (den_t p env (prod_t A B)) (sumZ (den_e p env) A * sumZ (den_e p env) B).
  Proof. intros HA HB. unfold prod_t. cbn [den_t]. rewrite !den_par, Zmod_mod. apply mul_p; apply den_sum_tree; assumption. Qed.
  Lemma den_terms_from : forall l e, eqp (den_e p env (terms_from e l)) (den_e p env e + sumZ (den_t p env) l).
  Proof.
    induction l as [|x l IH]; intros e; cbn [terms_from sumZ fold_right]; [rewrite Z.add_0_r; reflexivity|]. rewrite IH. change (den_e p env (EBin e OAdd x)) with ((den_e p env e + den_t p env x) mod p).
    fold (sumZ (den_t p env) l). rewrite Zplus_mod_idemp_l. f_equal. lia.
  Qed.
  Lemma den_terms_tree l : l <> [] -> eqp (den_e p env (terms_tree l)) (sumZ (den_t p env) l).
  Proof. destruct l as [|e l]; [congruence|]. intros _. cbn [terms_tree]. rewrite den_terms_from. reflexivity. Qed.
  (** the value of such a tree is a residue *)
  Lemma terms_range l : l <> [] -> Forall (fun t => 0 <= den_t p env t < p) l -> 0 <= den_e p env (terms_tree l) < p.
  Proof.
    destruct l as [|t l]; [congruence|]. intros _ H. inversion H; subst. cbn [terms_tree].
    assert (G : forall l e, 0 <= den_e p env e < p -> 0 <= den_e p env (terms_from e l) < p).
    { clear - Hp. induction l as [|x l IH]; intros e He; [exact He|]. cbn [terms_from]. apply IH. cbn [den_e]. apply Z.mod_pos_bound. lia. }
    apply G. cbn. assumption.
  Qed.
  Lemma sumZ_app {A} (f : A -> Z) a b : sumZ f (a ++ b) = sumZ f a + sumZ f b.
  Proof. unfold sumZ. induction a as [|x a IH]; cbn [app fold_right]; [reflexivity|]. rewrite IH. lia. Qed.
  Lemma sumZ_ext {A} (f g : A -> Z) l : (forall x, In x l -> eqp (f x) (g x)) -> eqp (sumZ f l) (sumZ g l).
  Proof.
    unfold sumZ. induction l as [|x l IH]; intros H; cbn [fold_right]; [reflexivity|]. apply add_p; [apply H; left; reflexivity|apply IH; intros y Hy; apply H; right; exact Hy].
  Qed.
  Lemma sumZ_ext_eq {A} (f g : A -> Z) l : (forall x, In x l -> f x = g x) -> sumZ f l = sumZ g l.
  Proof. unfold sumZ. induction l as [|x l IH]; intros H; cbn [fold_right]; [reflexivity|]. rewrite (H x (or_introl eq_refl)), IH; [reflexivity|]. intros y Hy; apply H; right; exact Hy. Qed.
  Lemma sumZ_map {A B} (f : B -> Z) (g : A -> B) l : sumZ f (map g l) = sumZ (fun x => f (g x)) l.
  Proof. unfold sumZ. induction l as [|x l IH]; cbn [map fold_right]; [reflexivity|]. rewrite IH. reflexivity. Qed.
  Lemma sumZ_filter {A} (f : A -> Z) (b : A -> bool) l : sumZ f (filter b l) = sumZ (fun x => if b x then f x else 0) l.
  Proof. unfold sumZ. induction l as [|x l IH]; cbn [filter fold_right]; [reflexivity|]. destruct (b x); cbn [fold_right]; rewrite IH; reflexivity. Qed.
  Lemma sumZ_scale {A} (f : A -> Z) c l : sumZ (fun x => f x * c) l = sumZ f l * c.
  Proof. unfold sumZ. induction l as [|x l IH]; cbn [fold_right]; [reflexivity|]. rewrite IH. lia. Qed.
  Lemma sumZ_add {A} (f g : A -> Z) l : sumZ (fun x => f x + g x) l = sumZ f l + sumZ g l.
  Proof. unfold sumZ. induction l as [|x l IH]; cbn [fold_right]; [reflexivity|]. rewrite IH. lia. Qed.
  Lemma sumZ_0 {A} (l : list A) : sumZ (fun _ => 0) l = 0. Proof. unfold sumZ. induction l as [|x l IH]; cbn [fold_right]; [reflexivity|]. rewrite IH. reflexivity. Qed.
  (** grouping a sum by names *)
  Lemma sumZ_pick (N : list chars) n v : NoDup N -> sumZ (fun k => if name_dec n k then v k else 0) N = if in_dec_name n N then v n else 0.
  Proof.
    unfold sumZ. induction N as [|k N IH]; intros ND; cbn [fold_right]; [destruct (in_dec_name n []) as [[]|]; reflexivity|]. inversion ND as [|? ? Hk HN]; subst. rewrite IH by assumption.
    destruct (name_dec n k) as [->|Nk].
    - destruct (in_dec_name k N); [contradiction|]. destruct (in_dec_name k (k :: N)) as [_|X]; [lia|exfalso; apply X; left; reflexivity].
    - destruct (in_dec_name n N) as [I|I], (in_dec_name n (k :: N)) as [J|J]; try reflexivity; [exfalso; apply J; right; exact I|]. exfalso. destruct J as [J|J]; congruence.
  Qed.
  Lemma sumZ_group (N : list chars) (A : list summand) (f : summand -> Z) (g : chars -> Z) : NoDup N -> (forall s, In s A -> In (s_name s) N) ->
    sumZ (fun n => sumZ f (filter (fun s => if name_dec (s_name s) n then true else false) A) * g n) N = sumZ (fun s => f s * g (s_name s)) A.
  Proof.
    intros ND. induction A as [|s A IH]; intros H.
    - rewrite (sumZ_ext_eq _ (fun _ => 0)) by reflexivity. apply sumZ_0.
    - cbn [sumZ fold_right]. fold (sumZ (fun s => f s * g (s_name s)) A). rewrite <- IH by (intros x Hx; apply H; right; exact Hx).
      rewrite (sumZ_ext_eq _ (fun n => (if name_dec (s_name s) n then f s * g n else 0) + sumZ f (filter (fun s => if name_dec (s_name s) n then true else false) A) * g n)).
      + rewrite sumZ_add, (sumZ_pick N (s_name s) (fun n => f s * g n)) by exact ND. destruct (in_dec_name (s_name s) N) as [_|X]; [reflexivity|]. exfalso. apply X, H. left. reflexivity.
      + intros n _. cbn [filter]. destruct (name_dec (s_name s) n); cbn [sumZ fold_right]; [|lia]. fold (sumZ f (filter (fun s => if name_dec (s_name s) n then true else false) A)). lia.
  Qed.

  Lemma coef_value (N : list chars) (A : list summand) (R : list rule) m : NoDup N -> (forall n, In n N <-> In n (map s_name A)) -> coef_terms (coefs_at A) (final_of R) m N <> [] ->
    den_e p env (terms_tree (coef_terms (coefs_at A) (final_of R) m N)) = inserted_coef p env A R m mod p.
  Proof.
    intros ND HN NE.
    assert (PN : forall n, In n N -> coefs_at A n <> []).
    { intros n In_. apply HN in In_. apply in_map_iff in In_ as [s [E I]]. intros X. unfold coefs_at in X. apply map_eq_nil in X.
      assert (Y : In s (filter (fun s => if name_dec (s_name s) n then true else false) A)) by (apply filter_In; split; [exact I|]; destruct (name_dec (s_name s) n); congruence). rewrite X in Y. destruct Y. }
    rewrite <- (Z.mod_small (den_e p env (terms_tree _)) p).
    2:{ apply terms_range; [exact NE|]. apply Forall_forall. intros t I. unfold coef_terms in I. apply in_flat_map in I as [n [_ I]]. destruct (picked m (final_of R n)); [destruct I|]. destruct I as [<-|[]]. cbn [den_t prod_t]. apply Z.mod_pos_bound. lia. }
    rewrite den_terms_tree by exact NE. unfold inserted_coef.
    rewrite <- (sumZ_group N A (sm_val p env) (fun n => repl_coef p env R n m) ND) by (intros s I; apply HN, in_map; exact I).
    assert (G : forall l, (forall n, In n l -> In n N) -> eqp (sumZ (den_t p env) (coef_terms (coefs_at A) (final_of R) m l))
                  (sumZ (fun n => sumZ (sm_val p env) (filter (fun s => if name_dec (s_name s) n then true else false) A) * repl_coef p env R n m) l)).
    { induction l as [|n l IH]; intros Hl; [reflexivity|]. unfold coef_terms. cbn [flat_map]. rewrite sumZ_app. cbn [sumZ fold_right]. apply add_p; [|apply IH; intros k Hk; apply Hl; right; exact Hk].
      assert (V1 : eqp (sumZ (den_e p env) (coefs_at A n)) (sumZ (sm_val p env) (filter (fun s => if name_dec (s_name s) n then true else false) A))).
      { unfold coefs_at. rewrite sumZ_map. apply sumZ_ext. intros s _. apply den_ctree. }
      assert (V2 : eqp (sumZ (den_e p env) (picked m (final_of R n))) (repl_coef p env R n m)).
      { unfold picked, final_of, repl_coef. destruct (rule_for R n) as [r|].
        - unfold sum_coef. rewrite sumZ_map, sumZ_filter, sumZ_map. apply sumZ_ext. intros s _. cbn [fst snd]. destruct (name_dec (s_name s) m); [apply den_ctree|reflexivity].
        - cbn [filter fst]. destruct (name_dec n m); [|reflexivity]. cbn. rewrite Hone. reflexivity. }
      destruct (picked m (final_of R n)) as [|q qs] eqn:Eq.
      - cbn [sumZ fold_right] in V2 |- *. rewrite Z.mul_mod, <- V2, <- Z.mul_mod by lia. rewrite Z.mul_0_r. reflexivity.
      - cbn [sumZ fold_right]. rewrite Z.add_0_r. rewrite den_prod; [|apply PN, Hl; left; reflexivity|discriminate]. apply mul_p; [exact V1|exact V2]. }
    apply G. intros n H. exact H.
  Qed.
  (** the expression with the rules inserted is the sum of the basis functions with these coefficients *)
  Lemma inserted_sum (A : list summand) (R : list rule) (V : chars -> Z) : forall Ms, NoDup Ms -> (forall m, basis A R m -> In m Ms) ->
    inserted_val p env V A R = sumZ (fun m => inserted_coef p env A R m * V m) Ms.
  Proof.
    intros Ms ND H. unfold inserted_val, inserted_coef, sum_val at 1.
    assert (G : forall l, (forall s, In s l -> In s A) -> sumZ (fun s => sm_val p env s * match rule_for R (s_name s) with Some r => sum_val p env V (r_rhs r) | None => V (s_name s) end) l =
              sumZ (fun m => sumZ (fun s => sm_val p env s * repl_coef p env R (s_name s) m) l * V m) Ms).
    { induction l as [|s l IH]; intros Hl.
      - rewrite (sumZ_ext_eq (fun m => sumZ _ [] * V m) (fun _ => 0)) by reflexivity. rewrite sumZ_0. reflexivity.
      - cbn [sumZ fold_right]. fold (sumZ (fun s => sm_val p env s * match rule_for R (s_name s) with Some r => sum_val p env V (r_rhs r) | None => V (s_name s) end) l). rewrite IH by (intros x Hx; apply Hl; right; exact Hx).
        rewrite (sumZ_ext_eq (fun m => (sm_val p env s * repl_coef p env R (s_name s) m + fold_right (fun a acc => sm_val p env a * repl_coef p env R (s_name a) m + acc) 0 l) * V m)
          (fun m => (repl_coef p env R (s_name s) m * V m) * sm_val p env s + sumZ (fun s => sm_val p env s * repl_coef p env R (s_name s) m) l * V m)) by (intros m _; unfold sumZ; lia).
        rewrite sumZ_add, sumZ_scale. f_equal. rewrite Z.mul_comm. f_equal.
        assert (Is : In s A) by (apply Hl; left; reflexivity). unfold repl_coef. destruct (rule_for R (s_name s)) as [r|] eqn:Er.
        + unfold sum_val. assert (K : forall q, (forall x, In x q -> In (s_name x) Ms) -> sumZ (fun x => sm_val p env x * V (s_name x)) q = sumZ (fun m => sum_coef p env q m * V m) Ms).
          { unfold sum_coef. induction q as [|x q IHq]; intros Hq; [rewrite (sumZ_ext_eq (fun m => sumZ _ [] * V m) (fun _ => 0)) by reflexivity; rewrite sumZ_0; reflexivity|].
            cbn [sumZ fold_right]. fold (sumZ (fun x => sm_val p env x * V (s_name x)) q). rewrite IHq by (intros y Hy; apply Hq; right; exact Hy).
            rewrite (sumZ_ext_eq (fun m => ((if name_dec (s_name x) m then sm_val p env x else 0) + fold_right (fun a acc => (if name_dec (s_name a) m then sm_val p env a else 0) + acc) 0 q) * V m)
              (fun m => (if name_dec (s_name x) m then sm_val p env x * V m else 0) + sumZ (fun s0 => if name_dec (s_name s0) m then sm_val p env s0 else 0) q * V m)) by (intros m _; unfold sumZ; destruct (name_dec (s_name x) m); lia).
            rewrite sumZ_add, (sumZ_pick Ms (s_name x) (fun m => sm_val p env x * V m) ND). destruct (in_dec_name (s_name x) Ms) as [_|X]; [reflexivity|]. exfalso. apply X, Hq. left. reflexivity. }
          apply K. intros x Hx. apply H. exists s. split; [exact Is|]. rewrite Er. apply in_map. exact Hx.
        + rewrite (sumZ_ext_eq _ (fun m => if name_dec (s_name s) m then V m else 0)) by (intros m _; destruct (name_dec (s_name s) m); lia).
          rewrite (sumZ_pick Ms (s_name s) V ND). destruct (in_dec_name (s_name s) Ms) as [_|X]; [reflexivity|]. exfalso. apply X, H. exists s. split; [exact Is|]. rewrite Er. reflexivity. }
    apply G. intros s H0. exact H0.
  Qed.
End Value.

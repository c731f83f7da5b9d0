(** The parser object on functions of the documented language: constructor, evaluation, change of the prime, equal
    functions, trimming (model: SYObj.v, language: SYGrammar.v). *)
From Coq Require Import Ascii String ZArith Znumtheory Lia.
From Verif Require Import Machine FFInt FFVec SYParse SYGrammar SYParseProofs SYValidateProofs SYEval SYEvalProofs SYPreProofs SYTreeProofs SYObj.
From Coq Require Import List.
Import ListNotations.
Open Scope nat_scope.

Definition rpn_of (e : expr) : list chars := rpn_e (relead (nf_e e)).
Lemma read_rpn e : wf_e e -> exists s, validate (show_e e) = Ret s /\ parse s = Ret (rpn_of e).
Proof.
  intros W. exists (show_e (nf_e e)). split; [apply validate_show; exact W|].
  destruct (proj2 (proj2 (proj2 nf_ok_aux)) e W) as [W1 P1]. apply parse_show; assumption.
Qed.
Lemma obind_Ret {A B} (a : A) (f : A -> outcome B) : obind (Ret a) f = f a. Proof. reflexivity. Qed.
Lemma omap_map {A B C} (f : B -> outcome C) (g : A -> B) (h : A -> C) l : (forall a, In a l -> f (g a) = Ret (h a)) -> omap f (map g l) = Ret (map h l).
Proof.
  induction l as [|a l IH]; intros H; [reflexivity|]. cbn [map omap]. rewrite (H a (or_introl eq_refl)). cbn [obind].
  rewrite IH by (intros b Hb; apply H; right; exact Hb). reflexivity.
Qed.

(** a value for every word *)
Definition env_of (p : Z) (vars : list chars) (values : list Z) (w : chars) : Z :=
  match var_index vars w with Some i => nth i values 0%Z | None => (dec w mod p)%Z end.
Lemma env_of_ok p vars values : length vars <= length values -> env_ok p vars values (env_of p vars values).
Proof.
  intros HL. split.
  - intros i w Hi Hf. unfold env_of. destruct (var_index_in vars w) as [k Hk]; [apply nth_error_In with (1 := Hi)|]. rewrite Hk.
    apply var_index_some in Hk. destruct Hk as [K1 K2]. assert (k = i) as ->.
    { destruct (Nat.lt_trichotomy k i) as [L|[L|L]]; [destruct (Hf k L K1)|exact L|destruct (K2 i L Hi)]. }
    apply nth_error_nth'. assert (i < length vars) by (apply nth_error_Some; congruence). lia.
  - intros w _ Hn. unfold env_of. rewrite (var_index_none vars w Hn). reflexivity.
Qed.
Lemma relead_wf e : wf_e e -> wf_e (relead e).
Proof.
  induction e as [s t|e IH o t]; intros W; cbn [relead].
  - destruct (head_par t); [|exact W]. destruct s; try exact W; (split; [split; [split; [discriminate|reflexivity]|exact I]|exact W]).
  - destruct W as [A B]. split; [exact (IH A)|exact B].
Qed.

Definition pre_get (p : Z) (vars : list chars) (ts : list chars) : list ptok * list (nat * list chars) :=
  match precompute p vars ts with Ret x => x | _ => ([], []) end.
(** the object after the constructor: the distinct functions [D], the positions [ep] *)
Definition built (p : Z) (vars : list chars) (D : list expr) (ch kr : bool) (ep : list nat) : parser :=
  mk_parser (if kr then map rpn_of D else []) vars (map (fun e => fst (pre_get p vars (rpn_of e))) D) (map (fun e => snd (pre_get p vars (rpn_of e))) D)
    ch kr true p [] [] [] ep.

Lemma good_sub p vars es e : good p vars es -> In e es -> wf_e e /\ ok_e p vars e.
Proof. intros [_ _ _ H] I. rewrite Forall_forall in H. exact (H e I). Qed.
Lemma good_incl p vars es D : good p vars es -> (forall e, In e D -> In e es) -> good p vars D.
Proof. intros [A B C H] I. constructor; try assumption. apply Forall_forall. intros e He. rewrite Forall_forall in H. apply H, I, He. Qed.

Section Obj.
  Variable p : Z.
  Variable vars : list chars.
  Variable es : list expr.
  Hypothesis G : good p vars es.
  Let P : (1 < p)%Z. Proof. destruct (g_prime _ _ _ G). lia. Qed.

  Lemma rpn_of_ok e : In e es -> wf_e (relead (nf_e e)) /\ ok_e p vars (relead (nf_e e)).
  Proof.
    intros I. destruct (good_sub _ _ _ _ G I) as [W O]. pose proof (g_names _ _ _ G) as Hn.
    destruct (proj2 (proj2 (proj2 nf_ok_aux)) e W) as [W1 P1]. split; [apply relead_wf; exact W1|].
    pose proof (proj2 (proj2 (proj2 (nf_ok_e p vars))) e O) as O1.
    pose proof (env_of_ok p vars (repeat 0%Z (length vars)) ltac:(rewrite repeat_length; lia)) as E.
    exact (proj1 (proj2 (relead_den p vars (g_prime _ _ _ G) (repeat 0%Z (length vars)) _ E Hn (nf_e e) W1 O1))).
  Qed.
  Lemma eval_rpn e values env : In e es -> point p vars values env -> evaluate1 p vars values (rpn_of e) = Ret (den_e p env e).
  Proof.
    intros I [E V]. destruct (good_sub _ _ _ _ G I) as [W O].
    destruct (string_value p vars (g_prime _ _ _ G) (g_size _ _ _ G) values env E (g_names _ _ _ G) V e W O) as [s [ts [E1 [E2 E3]]]].
    destruct (read_rpn e W) as [s' [F1 F2]]. rewrite E1 in F1. injection F1 as <-. rewrite E2 in F2. injection F2 as ->.
    unfold evaluate1. rewrite E3. reflexivity.
  Qed.
  Lemma zero_point : point p vars (repeat 0%Z (length vars)) (env_of p vars (repeat 0%Z (length vars))).
  Proof.
    split; [apply env_of_ok; rewrite repeat_length; lia|]. apply Forall_forall. intros v Hv. apply repeat_spec in Hv. lia.
  Qed.
  Lemma pre_rpn e : In e es -> precompute p vars (rpn_of e) = Ret (pre_get p vars (rpn_of e)) /\
    forall values env, point p vars values env -> eval_pre1 p values (fst (pre_get p vars (rpn_of e))) = Ret (den_e p env e).
  Proof.
    intros I.
    assert (K : forall values env, point p vars values env -> exists toks parts, precompute p vars (rpn_of e) = Ret (toks, parts) /\ eval_pre1 p values toks = Ret (den_e p env e)).
    { intros values env H. exact (precompute_correct p vars (g_prime _ _ _ G) (g_size _ _ _ G) values (proj2 H) (rpn_of e) _ (eval_rpn e values env I H)). }
    destruct (K _ _ zero_point) as [toks [parts [E _]]]. unfold pre_get. rewrite E. split; [reflexivity|].
    intros values env H. destruct (K _ _ H) as [toks' [parts' [E' V]]]. rewrite E in E'. injection E' as <- <-. exact V.
  Qed.
  Lemma omap_pre : omap (precompute p vars) (map rpn_of es) = Ret (map (fun e => pre_get p vars (rpn_of e)) es).
  Proof. apply omap_map. intros e I. exact (proj1 (pre_rpn e I)). Qed.
  Lemma omap_eval values env : point p vars values env ->
    omap (eval_pre1 p values) (map (fun e => fst (pre_get p vars (rpn_of e))) es) = Ret (map (den_e p env) es).
  Proof. intros H. apply omap_map. intros e I. exact (proj2 (pre_rpn e I) values env H). Qed.
  Lemma precompute_built fs ch kr c1 c2 m ep : fs = map rpn_of es ->
    precompute_tokens p false (mk_parser fs vars [] [] ch kr false 0 c1 c2 m ep) = Ret (built p vars es ch kr ep).
  Proof.
    intros ->. unfold precompute_tokens. destruct (Z.eqb_spec p 0) as [E|_]; [lia|]. cbn [andb negb orb]. unfold precompute_all. rewrite omap_pre. cbn [obind].
    rewrite !map_map. reflexivity.
  Qed.
  Lemma evaluate_built ch kr ep values env : point p vars values env ->
    evaluate_pre p (built p vars es ch kr ep) values = spread (built p vars es ch kr ep) (map (den_e p env) es).
  Proof. intros H. unfold evaluate_pre. cbn [built precomp]. rewrite (omap_eval values env H). reflexivity. Qed.

  (** ---- without the check for equal functions ---- *)
  Lemma read_all_plain pA l : Forall wf_e l -> forall fs kr, read_all p pA (mk_parser fs vars [] [] false kr false 0 [] [] [] []) (map show_e l) =
    Ret (mk_parser (fs ++ map rpn_of l) vars [] [] false kr false 0 [] [] [] []).
  Proof.
    induction l as [|e l IH]; intros Hl fs kr; cbn [map read_all]; [rewrite app_nil_r; reflexivity|].
    inversion Hl as [|? ? W Wl]; subst. unfold read_fun. destruct (read_rpn e W) as [s [E1 E2]]. rewrite E1. cbn [obind]. rewrite E2. cbn [obind].
    unfold insert. cbn [negb obind]. rewrite IH by exact Wl. rewrite <- app_assoc. reflexivity.
  Qed.
  Lemma wf_all : Forall wf_e es.
  Proof. destruct G as [_ _ _ H]. eapply Forall_impl; [|exact H]. intros e [W _]. exact W. Qed.
  Theorem construct_plain pA kr c1 c2 : construct p pA (map show_e es) vars false kr c1 c2 = Ret (built p vars es false kr []).
  Proof. unfold construct. rewrite read_all_plain by exact wf_all. cbn [obind app]. apply precompute_built. reflexivity. Qed.
  Theorem evaluate_plain kr ep values env : point p vars values env -> evaluate_pre p (built p vars es false kr ep) values = Ret (map (den_e p env) es).
  Proof. intros H. rewrite (evaluate_built false kr ep values env H). reflexivity. Qed.

  (** ---- the public evaluate ---- *)
  Lemma exec_pub_exec values ts : Forall pub_tok ts -> forall st, exec_pub p vars values ts st = exec p vars values ts st.
  Proof.
    induction 1 as [|t ts [N1 N2] Hts IH]; intros st; [reflexivity|]. cbn [exec_pub exec].
    assert (Eo : is_op_pub t = is_op t).
    { unfold is_op_pub. destruct t as [|c [|c2 t]]; try reflexivity. replace (negb ((c =?c "~") || (c =?c ";"))) with true; [apply andb_true_r|].
      destruct (Ascii.eqb_spec c "~") as [->|_]; [congruence|]. destruct (Ascii.eqb_spec c ";") as [->|_]; [congruence|]. reflexivity. }
    assert (E1 : exec1_pub p vars values t st = exec1 p vars values t st) by (unfold exec1_pub, exec1; rewrite Eo; reflexivity).
    rewrite E1. destruct (exec1 p vars values t st); cbn [obind]; try reflexivity. apply IH.
  Qed.
  Theorem evaluate_pub ep values env : Forall nn_e es -> point p vars values env ->
    evaluate p (built p vars es false true ep) values = Ret (map (den_e p env) es).
  Proof.
    intros N H. unfold evaluate. cbn [built functions pvars].
    rewrite (omap_map _ rpn_of (den_e p env)); [reflexivity|]. intros e I.
    rewrite exec_pub_exec.
    - exact (eval_rpn e values env I H).
    - apply (proj2 (proj2 (proj2 rpn_pub))); [exact (proj1 (rpn_of_ok e I))|]. apply relead_nn. apply (proj2 (proj2 (proj2 nf_nn))).
      rewrite Forall_forall in N. exact (N e I).
  Qed.
End Obj.

(** ---- change of the prime ---- *)
Section Change.
  Variables p1 p2 : Z.
  Variable vars : list chars.
  Variable es : list expr.
  Hypothesis G2 : good p2 vars es.
  Hypothesis Q : Forall nq_e es.

  Lemma refresh_rpn e : In e es -> snd (pre_get p1 vars (rpn_of e)) = snd (pre_get p2 vars (rpn_of e)) /\
    refresh p2 vars (snd (pre_get p2 vars (rpn_of e))) (fst (pre_get p1 vars (rpn_of e))) = Ret (fst (pre_get p2 vars (rpn_of e))).
  Proof.
    intros I. destruct (rpn_of_ok p2 vars es G2 e I) as [W O].
    pose proof (proj1 (pre_rpn p2 vars es G2 e I)) as E2.
    destruct (pre_get p2 vars (rpn_of e)) as [toks2 parts]. cbn [fst snd].
    destruct (refresh_correct p1 p2 vars (g_prime _ _ _ G2) (g_size _ _ _ G2) (g_names _ _ _ G2) (rpn_of e) toks2 parts) as [toks1 [F1 F2]].
    - refine (runs_dyn _ _ true _ _ _ _ (proj2 (proj2 (proj2 (rpn_runs p2 vars (g_names _ _ _ G2) true))) _ W O _) _ eq_refl). intros _. apply relead_nq. apply (proj2 (proj2 (proj2 nf_nq))). rewrite Forall_forall in Q. exact (Q e I).
    - exact (proj2 (proj2 (proj2 (ok_long p2 vars))) _ W O).
    - exact E2.
    - unfold pre_get. rewrite F1. cbn [fst snd]. split; [reflexivity|exact F2].
  Qed.
  Lemma refresh_built l : (forall e, In e l -> In e es) ->
    refresh_all p2 vars (map (fun e => fst (pre_get p1 vars (rpn_of e))) l) (map (fun e => snd (pre_get p1 vars (rpn_of e))) l) =
    Ret (map (fun e => fst (pre_get p2 vars (rpn_of e))) l).
  Proof.
    induction l as [|e l IH]; intros I; [reflexivity|]. cbn [map refresh_all]. destruct (refresh_rpn e (I e (or_introl eq_refl))) as [A B].
    rewrite A, B. cbn [obind]. rewrite IH by (intros e' H; apply I; right; exact H). reflexivity.
  Qed.
  Theorem precompute_change ch kr ep : precompute_tokens p2 false (built p1 vars es ch kr ep) = Ret (built p2 vars es ch kr ep).
  Proof.
    unfold built, precompute_tokens. destruct (Z.eqb_spec p2 p1) as [->|N]; cbn [andb negb orb]; [reflexivity|].
    rewrite (refresh_built es (fun e H => H)). cbn [obind]. f_equal. f_equal. apply map_ext_in. intros e I. exact (proj1 (refresh_rpn e I)).
  Qed.
End Change.

(** a history of prime changes, each followed by precompute_tokens *)
Fixpoint switch_primes (ps : list Z) (o : parser) : outcome parser :=
  match ps with [] => Ret o | q :: ps => obind (precompute_tokens q false o) (switch_primes ps) end.
Theorem switch_built vars es ch kr ep ps : forall p, Forall (fun q => good q vars es) ps -> Forall nq_e es ->
  switch_primes ps (built p vars es ch kr ep) = Ret (built (last ps p) vars es ch kr ep).
Proof.
  induction ps as [|q ps IH]; intros p Gs N; [reflexivity|]. inversion Gs as [|? ? Gq Gs']; subst. cbn [switch_primes].
  rewrite (precompute_change p q vars es Gq N). cbn [obind]. rewrite (IH q Gs' N). destruct ps; [reflexivity|]. f_equal. f_equal.
  change (last (q :: z :: ps) p) with (last (z :: ps) p). clear. revert z. induction ps as [|y ps IH]; intros z; [reflexivity|]. exact (IH y).
Qed.

(** ---- equal functions ---- *)
Section Equal.
  Variables p pA : Z.
  Variable vars : list chars.
  Variable es : list expr.
  Hypothesis G : good p vars es.
  Hypothesis GA : good pA vars es.
  Variables c1 c2 : list Z.
  Variables env1 env2 : chars -> Z.
  Hypothesis H1 : point pA vars c1 env1.
  Hypothesis H2 : point p vars c2 env2.
  Definition fp (e : expr) : Z * Z := (den_e pA env1 e, den_e p env2 e).
  Definition fp_eqb (a b : Z * Z) : bool := ((fst a =? fst b) && (snd a =? snd b))%Z.
  Lemma fp_eqb_eq a b : fp_eqb a b = true <-> a = b.
  Proof.
    unfold fp_eqb. destruct a as [a1 a2], b as [b1 b2]. cbn [fst snd]. rewrite andb_true_iff, !Z.eqb_eq. split; [intros [-> ->]; reflexivity|].
    intros E. injection E as -> ->. split; reflexivity.
  Qed.
  (** the first function of a list with the same fingerprint *)
  Definition same (l : list expr) (e : expr) : option expr := find (fun d => fp_eqb (fp e) (fp d)) l.
  (** position of the first function of a list with this fingerprint *)
  Fixpoint pos (k : Z * Z) (l : list expr) : option nat :=
    match l with [] => None | d :: l => if fp_eqb k (fp d) then Some 0 else option_map S (pos k l) end.
  Fixpoint numbered (n : nat) (l : list expr) : list ((Z * Z) * nat) := match l with [] => [] | d :: l => (fp d, n) :: numbered (S n) l end.
  Lemma cfind_numbered k l : forall n, cfind k (numbered n l) = option_map (fun i => n + i) (pos k l).
  Proof.
    induction l as [|d l IH]; intros n; [reflexivity|]. cbn [numbered cfind pos]. change ((fst k =? fst (fp d))%Z && (snd k =? snd (fp d))%Z) with (fp_eqb k (fp d)).
    destruct (fp_eqb k (fp d)); [cbn; f_equal; lia|]. rewrite IH. destruct (pos k l); [cbn; f_equal; lia|reflexivity].
  Qed.
  Lemma numbered_snoc l e : forall n, numbered n (l ++ [e]) = numbered n l ++ [(fp e, n + length l)].
  Proof.
    induction l as [|d l IH]; intros n; cbn [app numbered length]; [rewrite Nat.add_0_r; reflexivity|]. rewrite IH. cbn [app]. replace (n + S (length l)) with (S n + length l) by lia. reflexivity.
  Qed.
  Lemma pos_app k a b i : pos k a = Some i -> pos k (a ++ b) = Some i.
  Proof.
    revert i. induction a as [|d a IH]; intros i H; [discriminate|]. cbn [app pos] in *. destruct (fp_eqb k (fp d)); [exact H|].
    destruct (pos k a) as [j|]; [|discriminate]. rewrite (IH j eq_refl). exact H.
  Qed.
  Lemma pos_app_none k a b : pos k a = None -> pos k (a ++ b) = option_map (fun i => length a + i) (pos k b).
  Proof.
    induction a as [|d a IH]; intros H; [cbn; destruct (pos k b); reflexivity|]. cbn [app pos length] in *. destruct (fp_eqb k (fp d)); [discriminate|].
    destruct (pos k a) as [j|]; [discriminate|]. rewrite IH by reflexivity. destruct (pos k b); reflexivity.
  Qed.
  Lemma pos_some k l i : pos k l = Some i -> exists d, nth_error l i = Some d /\ fp d = k /\ find (fun d => fp_eqb k (fp d)) l = Some d.
  Proof.
    revert i. induction l as [|d l IH]; intros i H; [discriminate|]. cbn [pos find] in *. destruct (fp_eqb k (fp d)) eqn:E.
    - injection H as <-. exists d. split; [reflexivity|]. split; [symmetry; apply fp_eqb_eq; exact E|reflexivity].
    - destruct (pos k l) as [j|]; [|discriminate]. injection H as <-. exact (IH j eq_refl).
  Qed.
  Lemma pos_none k l : pos k l = None -> find (fun d => fp_eqb k (fp d)) l = None.
  Proof.
    induction l as [|d l IH]; intros H; [reflexivity|]. cbn [pos find] in *. destruct (fp_eqb k (fp d)); [discriminate|].
    destruct (pos k l); [discriminate|]. apply IH. reflexivity.
  Qed.

  Lemma nodup_snoc {A} (l : list A) x : NoDup l -> ~ In x l -> NoDup (l ++ [x]).
  Proof.
    induction 1 as [|y l N H IH]; intros X; cbn [app]; [constructor; [intros []|constructor]|]. constructor.
    - intros Y. apply in_app_or in Y. destruct Y as [Y|[->|[]]]; [exact (N Y)|]. apply X. left. reflexivity.
    - apply IH. intros Y. apply X. right. exact Y.
  Qed.
  Lemma nodup_inj {A B} (f : A -> B) l : NoDup (map f l) -> forall x y, In x l -> In y l -> f x = f y -> x = y.
  Proof.
    induction l as [|a l IH]; intros H x y Hx Hy E; [destruct Hx|]. inversion H as [|? ? N H']; subst.
    destruct Hx as [->|Hx], Hy as [->|Hy]; [reflexivity|..].
    - destruct N. rewrite E. apply in_map. exact Hy.
    - destruct N. rewrite <- E. apply in_map. exact Hx.
    - exact (IH H' x y Hx Hy E).
  Qed.
  Lemma Forall2_impl' {A B} (R S : A -> B -> Prop) l m : (forall a b, R a b -> S a b) -> Forall2 R l m -> Forall2 S l m.
  Proof. intros H. induction 1; constructor; auto. Qed.
  (** [D] are the different functions of the prefix [L] and [ep] their positions *)
  Definition dedup (L D : list expr) (ep : list nat) : Prop :=
    (forall d, In d D -> In d L) /\ Forall2 (fun e i => pos (fp e) D = Some i) L ep /\ (forall k, find (fun d => fp_eqb k (fp d)) D = find (fun d => fp_eqb k (fp d)) L) /\
    NoDup (map fp D) /\ length D <= length L /\ (length D = length L -> D = L).
  Lemma find_app' {A} (f : A -> bool) a b : find f (a ++ b) = match find f a with Some x => Some x | None => find f b end.
  Proof. induction a as [|x a IH]; [reflexivity|]. cbn [app find]. destruct (f x); [reflexivity|exact IH]. Qed.
  Lemma dedup_old L D ep e i : dedup L D ep -> pos (fp e) D = Some i -> dedup (L ++ [e]) D (ep ++ [i]).
  Proof.
    intros [A [B [C [ND [E F]]]]] Hp. split; [intros d Hd; apply in_or_app; left; exact (A d Hd)|]. split; [apply Forall2_app; [exact B|constructor; [exact Hp|constructor]]|].
    split; [|split; [exact ND|rewrite app_length; cbn [length]; split; [lia|intros X; lia]]].
    intros k. rewrite find_app'. rewrite C. destruct (find (fun d => fp_eqb k (fp d)) L) as [d|] eqn:Ef; [reflexivity|]. cbn [find].
    destruct (fp_eqb k (fp e)) eqn:Ek; [|reflexivity]. apply fp_eqb_eq in Ek. subst k. apply pos_some in Hp. destruct Hp as [d [_ [_ X]]]. rewrite C, Ef in X. discriminate.
  Qed.
  Lemma dedup_new L D ep e : dedup L D ep -> pos (fp e) D = None -> dedup (L ++ [e]) (D ++ [e]) (ep ++ [length D]).
  Proof.
    intros [A [B [C [ND [E F]]]]] Hp. split; [intros d Hd; apply in_app_or in Hd; apply in_or_app; destruct Hd as [Hd|Hd]; [left; exact (A d Hd)|right; exact Hd]|].
    split; [|split; [|split; [|rewrite !app_length; cbn [length]; split; [lia|intros X; rewrite F by lia; reflexivity]]]].
    - apply Forall2_app.
      + eapply Forall2_impl'; [|exact B]. intros x i Hx. cbn beta in *. apply pos_app. exact Hx.
      + constructor; [|constructor]. rewrite pos_app_none by exact Hp. cbn [pos]. replace (fp_eqb (fp e) (fp e)) with true by (symmetry; apply fp_eqb_eq; reflexivity).
        cbn. f_equal. lia.
    - intros k. rewrite !find_app'. rewrite C. reflexivity.
    - rewrite map_app. cbn [map]. apply nodup_snoc; [exact ND|]. intros X. apply in_map_iff in X. destruct X as [d [X1 X2]].
      apply pos_none in Hp. pose proof (find_none _ _ Hp d X2) as Y. cbn beta in Y. rewrite X1, (proj2 (fp_eqb_eq _ _) eq_refl) in Y. discriminate.
  Qed.
  Lemma read_all_check kr l : (forall e, In e l -> In e es) -> forall L D ep, dedup L D ep -> exists D' ep', dedup (L ++ l) D' ep' /\
    read_all p pA (mk_parser (map rpn_of D) vars [] [] true kr false 0 c1 c2 (numbered 0 D) ep) (map show_e l) =
    Ret (mk_parser (map rpn_of D') vars [] [] true kr false 0 c1 c2 (numbered 0 D') ep').
  Proof.
    induction l as [|e l IH]; intros Hl L D ep Hd; cbn [map read_all]; [exists D, ep; rewrite app_nil_r; split; [exact Hd|reflexivity]|].
    assert (I : In e es) by (apply Hl; left; reflexivity). destruct (good_sub _ _ _ _ G I) as [W O].
    unfold read_fun. destruct (read_rpn e W) as [s [E1 E2]]. rewrite E1. cbn [obind]. rewrite E2. cbn [obind].
    unfold insert. cbn [negb]. rewrite (eval_rpn pA vars es GA e c1 env1 I H1). cbn [obind]. rewrite (eval_rpn p vars es G e c2 env2 I H2). cbn [obind].
    change (den_e pA env1 e, den_e p env2 e) with (fp e). rewrite cfind_numbered.
    replace (L ++ e :: l) with ((L ++ [e]) ++ l) by (rewrite <- app_assoc; reflexivity).
    destruct (pos (fp e) D) as [i|] eqn:Ep; cbn [option_map obind Nat.add].
    - apply (IH (fun e' H => Hl e' (or_intror H)) (L ++ [e]) D (ep ++ [i])). apply dedup_old; assumption.
    - destruct (IH (fun e' H => Hl e' (or_intror H)) (L ++ [e]) (D ++ [e]) (ep ++ [length D]) (dedup_new L D ep e Hd Ep)) as [D' [ep' [X Y]]].
      exists D', ep'. split; [exact X|]. rewrite <- Y. rewrite map_app, numbered_snoc. rewrite map_length. reflexivity.
  Qed.
  Theorem construct_check kr : exists D ep, dedup es D ep /\ construct p pA (map show_e es) vars true kr c1 c2 = Ret (built p vars D true kr ep).
  Proof.
    destruct (read_all_check kr es (fun e H => H) [] [] []) as [D [ep [Hd E]]].
    { split; [intros d []|]. split; [constructor|]. split; [reflexivity|]. split; [constructor|]. split; [apply le_n|reflexivity]. }
    exists D, ep. split; [exact Hd|]. unfold construct. cbn [map numbered] in E. rewrite E. cbn [obind].
    apply (precompute_built p vars D); [|reflexivity]. apply (good_incl _ _ _ _ G). exact (proj1 Hd).
  Qed.
  (** the value of the first function with the same fingerprint *)
  Definition value_as (env : chars -> Z) (e : expr) : Z := match same es e with Some d => den_e p env d | None => 0%Z end.
  Lemma omap_check D ep env : dedup es D ep ->
    omap (fun i => match nth_error (map (den_e p env) D) i with Some v => Ret v | None => UB end) ep = Ret (map (value_as env) es) /\
    Forall (fun i => i < length D) ep /\ length es = length ep.
  Proof.
    intros [A [B [C _]]]. split; [|split].
    - unfold value_as, same. clear A. revert B. generalize es at 1 3 as L. intros L B. induction B as [|e i L ep Hp B IH]; [reflexivity|]. cbn [omap map].
      apply pos_some in Hp. destruct Hp as [d [N [Fd Fi]]]. rewrite (map_nth_error _ _ _ N). cbn [obind]. rewrite IH. cbn [obind]. rewrite <- C, Fi. reflexivity.
    - clear - B. induction B as [|e i L ep Hp B IH]; constructor; [|exact IH]. apply pos_some in Hp. destruct Hp as [d [N _]]. apply nth_error_Some. congruence.
    - clear - B. induction B; cbn [length]; congruence.
  Qed.
  Theorem evaluate_check D ep kr values env : dedup es D ep -> point p vars values env ->
    evaluate_pre p (built p vars D true kr ep) values = Ret (map (value_as env) es).
  Proof.
    intros [A [B [C [ND [E F]]]]] H. assert (GD : good p vars D) by (apply (good_incl _ _ _ _ G); exact A).
    rewrite (evaluate_built p vars D GD true kr ep values env H). unfold spread. cbn [built check_is_equal functions epos].
    assert (X : omap (fun i => match nth_error (map (den_e p env) D) i with Some v => Ret v | None => UB end) ep = Ret (map (value_as env) es)).
    { unfold value_as, same. clear E F GD A. revert B. generalize es at 1 3 as L. intros L B. induction B as [|e i L ep Hp B IH]; [reflexivity|]. cbn [omap map].
      apply pos_some in Hp. destruct Hp as [d [N [Fd Fi]]]. rewrite (map_nth_error _ _ _ N). cbn [obind]. rewrite IH. cbn [obind]. rewrite <- C, Fi. reflexivity. }
    destruct (true && negb (length (if kr then map rpn_of D else []) =? length ep)) eqn:Es; [exact X|].
    cbn [andb] in Es. apply negb_false_iff, Nat.eqb_eq in Es. assert (Lb : length es = length ep) by (clear - B; induction B; cbn [length]; congruence). clear X.
    assert (N : D = es).
    { destruct kr; [rewrite map_length in Es; apply F; lia|]. cbn [length] in Es. destruct es; [|cbn [length] in Lb; lia]. destruct D as [|d D]; [reflexivity|]. destruct (A d (or_introl eq_refl)). }
    subst D. f_equal. apply map_ext_in. intros e He. unfold value_as, same.
    destruct (find (fun d => fp_eqb (fp e) (fp d)) es) as [d|] eqn:Ef.
    - apply find_some in Ef. destruct Ef as [Hd Ed]. apply fp_eqb_eq in Ed. rewrite (nodup_inj fp es ND e d He Hd Ed). reflexivity.
    - pose proof (find_none _ _ Ef e He) as Y. cbn beta in Y. rewrite (proj2 (fp_eqb_eq _ _) eq_refl) in Y. discriminate.
  Qed.
End Equal.

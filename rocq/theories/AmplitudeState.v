(** Proofs for C50, part 3: what the maps of the object contain. *)
From Coq Require Import Ascii String.
From Verif Require Import Machine FFInt FFVec SYParse SYGrammar SYEval SYObj Amplitude AmplitudeSpec AmplitudeText AmplitudeParse.
From Coq Require Import List Lia Arith Permutation.
Import ListNotations.
Open Scope nat_scope.

(** ---- association lists ---- *)
Lemma nth_error_snoc {A} (l : list A) x : nth_error (l ++ [x]) (length l) = Some x.
Proof. rewrite nth_error_app2, Nat.sub_diag by lia. reflexivity. Qed.
Lemma nth_error_ext {A} (l : list A) x i y : nth_error l i = Some y -> nth_error (l ++ x) i = Some y.
Proof. intros H. rewrite nth_error_app1; [exact H|]. apply nth_error_Some. congruence. Qed.
Lemma sfind_combine_some N b n i : NoDup N -> nth_error N i = Some n -> sfind n (combine N (seq b (length N))) = Some (b + i).
Proof.
  revert b i. induction N as [|m N IH]; intros b i ND H; [destruct i; discriminate|]. cbn [length seq combine sfind]. inversion ND as [|? ? Hm HN]; subst.
  destruct i as [|i]; cbn [nth_error] in H; [injection H as ->; rewrite ceqb_refl; f_equal; lia|].
  rewrite ceqb_neq by (intros ->; apply Hm; exact (nth_error_In _ _ H)). rewrite (IH (S b) i HN H). f_equal. lia.
Qed.
Lemma sfind_combine_none N b n : ~ In n N -> sfind n (combine N (seq b (length N))) = None.
Proof. revert b. induction N as [|m N IH]; intros b H; [reflexivity|]. cbn [length seq combine sfind]. rewrite ceqb_neq by (intros ->; apply H; left; reflexivity). apply IH. intros I; apply H; right; exact I. Qed.
Lemma combine_snoc {A B} : forall (a : list A) (b : list B) x y, length a = length b -> combine (a ++ [x]) (b ++ [y]) = combine a b ++ [(x, y)].
Proof. induction a as [|c a IH]; intros [|d b] x y L; cbn in L; try lia; [reflexivity|]. cbn. f_equal. apply IH. lia. Qed.
Lemma combine_seq_snoc {A} (N : list A) b n : combine (N ++ [n]) (seq b (length (N ++ [n]))) = combine N (seq b (length N)) ++ [(n, b + length N)].
Proof. rewrite app_length. cbn [length]. rewrite seq_app. cbn [seq]. apply combine_snoc. rewrite seq_length. reflexivity. Qed.
Lemma combine_seq_snoc' {A} (N : list A) b n : combine (seq b (length (N ++ [n]))) (N ++ [n]) = combine (seq b (length N)) N ++ [(b + length N, n)].
Proof. rewrite app_length. cbn [length]. rewrite seq_app. cbn [seq]. apply combine_snoc. rewrite seq_length. reflexivity. Qed.
Lemma nfind_combine {A} (N : list A) : forall b i n, nth_error N i = Some n -> nfind (b + i) (combine (seq b (length N)) N) = Some n.
Proof.
  induction N as [|m N IH]; intros b i n H; [destruct i; discriminate|]. cbn [length seq combine nfind]. destruct i as [|i]; cbn [nth_error] in H.
  - injection H as ->. replace (b + 0 =? b) with true by (symmetry; apply Nat.eqb_eq; lia). reflexivity.
  - replace (b + S i =? b) with false by (symmetry; apply Nat.eqb_neq; lia). replace (b + S i) with (S b + i) by lia. apply IH. exact H.
Qed.
Lemma nfind_combine_none {A} (N : list A) : forall b i, b + length N <= i -> nfind i (combine (seq b (length N)) N) = None.
Proof. induction N as [|m N IH]; intros b i H; [reflexivity|]. cbn [length seq combine nfind] in *. replace (i =? b) with false by (symmetry; apply Nat.eqb_neq; lia). apply IH. lia. Qed.
Lemma nfind_app {B} k (m : list (nat * B)) x b : nfind k (m ++ [(x, b)]) = match nfind k m with Some v => Some v | None => if k =? x then Some b else None end.
Proof. induction m as [|[k' b'] m IH]; cbn [app nfind]; [reflexivity|]. destruct (k =? k'); [reflexivity|exact IH]. Qed.
Lemma nfind_npush k i x m : nfind k (npush i x m) = if k =? i then Some (match nfind i m with Some l => l ++ [x] | None => [x] end) else nfind k m.
Proof.
  induction m as [|[k' l] m IH]; cbn [npush nfind].
  - destruct (k =? i); reflexivity.
  - destruct (Nat.eqb_spec i k') as [->|Ni]; cbn [nfind].
    + destruct (Nat.eqb_spec k k') as [->|Nk]; reflexivity.
    + rewrite IH. destruct (Nat.eqb_spec k k') as [->|Nk]; [|reflexivity]. destruct (Nat.eqb_spec k' i) as [->|]; [congruence|reflexivity].
Qed.
Lemma smem_spec n l : smem n l = true <-> In n l.
Proof.
  unfold smem. rewrite existsb_exists. split; [intros [x [I E]]; apply ceqb_eq in E; subst; exact I|]. intros I. exists n. split; [exact I|apply ceqb_refl].
Qed.
Lemma smem_false n l : ~ In n l -> smem n l = false.
Proof. intros H. destruct (smem n l) eqn:E; [|reflexivity]. apply smem_spec in E. contradiction. Qed.

Lemma nodup_snoc {A} (l : list A) x : NoDup l -> ~ In x l -> NoDup (l ++ [x]).
Proof. intros ND H. induction l as [|y l IH]; cbn; [constructor; [intros []|constructor]|]. inversion ND; subst. constructor; [|apply IH; [assumption|intros I; apply H; right; exact I]]. intros I. apply in_app_or in I as [I|[->|[]]]; [contradiction|]. apply H. left. reflexivity. Qed.

(** ---- the content of the object ---- *)
(** an entry of the mapping of a function: a prefactor, or the coefficient of a basis function *)
Definition items (P : list expr) (Q : list (chars * expr)) : list (option chars * expr) := map (fun e => (None, e)) P ++ map (fun q => (Some (fst q), snd q)) Q.
Definition rel (F : list chars) (Ms : list chars) (x : nat * nat) (y : option chars * expr) : Prop :=
  nth_error F (fst x) = Some (show_e (snd y)) /\ match fst y with None => snd x = 0 | Some m => exists j, snd x = 2 + j /\ nth_error Ms j = Some m end.
(** [N]: the functions of the expression; [P n]: coefficients of n in the expression; [Q n]: what replaces n;
    [Ms]: the basis functions; [rep]: the functions that have a rule *)
Record inv (vars fams N : list chars) (P : chars -> list expr) (Q : chars -> list (chars * expr)) (Ms rep : list chars) (st : amplitude) : Prop := mk_inv {
  iv_vars : a_vars st = vars;
  iv_fams : a_fams st = fams;
  iv_int : integrals st = combine N (seq 0 (length N));
  iv_ni : n_integrals st = length N;
  iv_nd : NoDup N;
  iv_ms : masters st = combine Ms (seq 2 (length Ms));
  iv_nm : n_masters st = 2 + length Ms;
  iv_minv : masters_inv st = combine (seq 0 (length Ms)) Ms;
  iv_mnd : NoDup Ms;
  iv_min : forall m, In m Ms <-> exists n, In n N /\ In m (map fst (Q n));
  iv_rep : repl_integrals st = rep;
  iv_pc : p_counter st = length (a_functions st);
  iv_map : forall i n, nth_error N i = Some n -> exists L, nfind i (mapping st) = Some L /\ Forall2 (rel (a_functions st) Ms) L (items (P n) (Q n));
  iv_dom : forall i, length N <= i -> nfind i (mapping st) = None }.

Lemma rel_ext F Ms x y F' Ms' : rel F Ms x y -> rel (F ++ F') (Ms ++ Ms') x y.
Proof.
  intros [A B]. split; [apply nth_error_ext; exact A|]. destruct (fst y); [|exact B]. destruct B as [j [E H]]. exists j. split; [exact E|]. apply nth_error_ext. exact H.
Qed.
Lemma rels_ext F Ms F' Ms' L I : Forall2 (rel F Ms) L I -> Forall2 (rel (F ++ F') (Ms ++ Ms')) L I.
Proof. induction 1; constructor; [apply rel_ext; assumption|assumption]. Qed.
Lemma inv_ext vars fams N P Q Ms rep st P' Q' : (forall n, In n N -> P n = P' n) -> (forall n, In n N -> Q n = Q' n) -> inv vars fams N P Q Ms rep st -> inv vars fams N P' Q' Ms rep st.
Proof.
  intros HP HQ [a b c d e f g h i j k l m o]. constructor; try assumption.
  - intros x. rewrite j. split; intros [n [In_ X]]; exists n; split; try exact In_; [rewrite <- HQ by exact In_|rewrite HQ by exact In_]; exact X.
  - intros x n Hn. rewrite <- HP, <- HQ by exact (nth_error_In _ _ Hn). apply m. exact Hn.
Qed.
Lemma inv_new vars fams P Q : inv vars fams [] P Q [] [] (new_amplitude vars fams).
Proof. constructor; try reflexivity; try constructor; try (intros [x [[] _]]); try contradiction. intros i n H. destruct i; discriminate. Qed.

(** ---- the expression ---- *)
Definition upd {B} (f : chars -> list B) (n : chars) (b : B) : chars -> list B := fun m => if name_dec m n then f m ++ [b] else f m.
Lemma in_dec_name (n : chars) N : {In n N} + {~ In n N}. Proof. apply in_dec, name_dec. Qed.
Lemma inv_summand vars fams N P Q Ms rep st n e : inv vars fams N P Q Ms rep st -> (forall n, Q n = []) ->
  (~ In n N -> P n = []) ->
  inv vars fams (if in_dec_name n N then N else N ++ [n]) (upd P n e) Q Ms rep (add_summand st (n, show_e e)).
Proof.
  intros [a b c d ND f g h i j k l m o] HQ HP. destruct st as [vs fs ins rp ms mi mp fu ni nm pc]. cbn in *. subst.
  destruct (in_dec_name n N) as [In_|Nin].
  - destruct (In_nth_error _ _ In_) as [x Hx]. rewrite (sfind_combine_some N 0 n x ND Hx).
    constructor; cbn; try reflexivity; try assumption.
    + rewrite app_length. reflexivity.
    + intros y n' Hy. rewrite nfind_npush. destruct (m y n' Hy) as [L [EL HL]]. unfold upd. cbn [Nat.add]. destruct (Nat.eqb_spec y x) as [->|Ny].
      * assert (n' = n) by congruence. subst n'. destruct (name_dec n n) as [_|X]; [|congruence]. exists (L ++ [(length fu, 0)]). rewrite EL. split; [reflexivity|].
        unfold items in *. rewrite HQ in *. cbn [map] in *. rewrite app_nil_r in *. rewrite map_app. cbn [map]. rewrite <- (app_nil_r Ms). apply Forall2_app; [apply rels_ext; exact HL|].
        constructor; [|constructor]. split; [cbn [fst snd]; apply nth_error_snoc|reflexivity].
      * destruct (name_dec n' n) as [->|Nn]; [exfalso; apply Ny; apply (proj1 (NoDup_nth_error N) ND); [apply nth_error_Some; congruence|congruence]|].
        exists L. split; [exact EL|]. rewrite <- (app_nil_r Ms). apply rels_ext. exact HL.
    + intros y Hy. rewrite nfind_npush. assert (x < length N) by (apply nth_error_Some; congruence). destruct (Nat.eqb_spec y x); [lia|]. apply o. exact Hy.
  - rewrite (sfind_combine_none N 0 n Nin). unfold nemplace. rewrite (o (length N) (le_n _)).
    constructor; cbn; try reflexivity; try assumption.
    + rewrite combine_seq_snoc. reflexivity.
    + rewrite app_length. reflexivity.
    + apply nodup_snoc; assumption.
    + intros x. rewrite j. split; intros [y [Hy X]]; exists y; (split; [|exact X]).
      * apply in_or_app. left. exact Hy.
      * rewrite HQ in X. destruct X.
    + rewrite app_length. reflexivity.
    + intros y n' Hy. rewrite nfind_app. unfold upd. destruct (Nat.lt_ge_cases y (length N)) as [Ly|Ly].
      * rewrite nth_error_app1 in Hy by exact Ly. destruct (m y n' Hy) as [L [EL HL]]. rewrite EL.
        destruct (name_dec n' n) as [->|Nn]; [exfalso; apply Nin; exact (nth_error_In _ _ Hy)|]. exists L. split; [reflexivity|]. rewrite <- (app_nil_r Ms). apply rels_ext. exact HL.
      * rewrite (o y Ly). rewrite nth_error_app2 in Hy by exact Ly. destruct (y - length N) as [|k] eqn:Ek; [|destruct k; discriminate]. cbn in Hy. injection Hy as <-.
        assert (y = length N) by lia. subst y. rewrite Nat.eqb_refl. destruct (name_dec n n) as [_|X]; [|congruence]. exists [(length fu, 0)]. split; [reflexivity|].
        rewrite (HP Nin), HQ. cbn. constructor; [|constructor]. split; [apply nth_error_snoc|reflexivity].
    + intros y Hy. rewrite app_length in Hy. cbn [length] in Hy. rewrite nfind_app, (o y) by lia. destruct (Nat.eqb_spec y (length N)); [lia|reflexivity].
Qed.

(** the functions of an expression in the order of their appearance *)
Fixpoint names_from (N : list chars) (A : list summand) : list chars :=
  match A with [] => N | s :: A => names_from (if in_dec_name (s_name s) N then N else N ++ [s_name s]) A end.
Lemma names_from_in : forall A N n, In n (names_from N A) <-> In n N \/ In n (map s_name A).
Proof.
  induction A as [|s A IH]; intros N n; cbn [names_from map In]; [tauto|]. rewrite IH. destruct (in_dec_name (s_name s) N) as [I|I].
  - intuition (subst; tauto).
  - rewrite in_app_iff. cbn [In]. tauto.
Qed.
Definition coefs_at (A : list summand) (n : chars) : list expr := map ctree (filter (fun s => if name_dec (s_name s) n then true else false) A).
Lemma coefs_at_app A B n : coefs_at (A ++ B) n = coefs_at A n ++ coefs_at B n. Proof. unfold coefs_at. rewrite filter_app, map_app. reflexivity. Qed.
Lemma coefs_at_notin A n : ~ In n (map s_name A) -> coefs_at A n = [].
Proof.
  induction A as [|s A IH]; intros H; [reflexivity|]. unfold coefs_at in *. cbn [filter map In] in *. destruct (name_dec (s_name s) n); [tauto|]. apply IH. tauto.
Qed.
Lemma fold_inv_summand vars fams : forall B A N st, (forall n, In n N <-> In n (map s_name A)) ->
  inv vars fams N (coefs_at A) (fun _ => []) [] [] st ->
  inv vars fams (names_from N B) (coefs_at (A ++ B)) (fun _ => []) [] [] (fold_left add_summand (map item B) st).
Proof.
  induction B as [|s B IH]; intros A N st HN HI; cbn [names_from map fold_left]; [rewrite app_nil_r; exact HI|].
  replace (A ++ s :: B) with ((A ++ [s]) ++ B) by (rewrite <- app_assoc; reflexivity). apply IH.
  - intros n. rewrite map_app, in_app_iff. cbn [map In]. destruct (in_dec_name (s_name s) N) as [I|I]; [|rewrite in_app_iff; cbn [In]; rewrite HN; tauto].
    rewrite HN. rewrite HN in I. intuition (subst; tauto).
  - unfold item. apply (inv_ext _ _ _ (upd (coefs_at A) (s_name s) (ctree s)) (fun _ => [])); [|reflexivity|].
    + intros n _. unfold upd. rewrite coefs_at_app. unfold coefs_at at 4. cbn [filter]. destruct (name_dec n (s_name s)) as [E|E], (name_dec (s_name s) n) as [E2|E2]; try congruence; cbn [map]; [reflexivity|rewrite app_nil_r; reflexivity].
    + apply inv_summand; [exact HI|reflexivity|]. intros X. apply coefs_at_notin. rewrite <- HN. exact X.
Qed.

(** ---- the rules ---- *)
Definition add_name (Ms : list chars) (m : chars) : list chars := if in_dec_name m Ms then Ms else Ms ++ [m].


(** one more coefficient of the basis function [m] for the function [n] *)
Lemma inv_push vars fams N P Q Ms rep vs fs ins rp ms mi mp fu ni nm pc n x m e :
  inv vars fams N P Q Ms rep (mk_amp vs fs ins rp ms mi mp fu ni nm pc) -> nth_error N x = Some n ->
  inv vars fams N P (upd Q n (m, e)) (add_name Ms m) rep
    (let fresh := match sfind m ms with None => true | Some _ => false end in
     let ms' := if fresh then ms ++ [(m, nm)] else ms in
     mk_amp vs fs ins rp ms' (if fresh then nemplace (nm - 2) m mi else mi) (npush x (pc, match sfind m ms' with Some k => k | None => 0 end) mp) (fu ++ [show_e e]) ni (if fresh then nm + 1 else nm) (pc + 1)).
Proof.
  intros HI Hx. pose proof HI as [a b c d ND f g h i j k l mm o]. cbn [a_vars a_fams integrals n_integrals masters n_masters masters_inv repl_integrals p_counter a_functions mapping] in a, b, c, d, f, g, h, k, l, mm, o. subst vs fs ins ni ms nm mi rp pc.
  assert (MM : exists k, nth_error (add_name Ms m) k = Some m /\ sfind m (combine (add_name Ms m) (seq 2 (length (add_name Ms m)))) = Some (2 + k)).
  { assert (ND' : NoDup (add_name Ms m)) by (unfold add_name; destruct (in_dec_name m Ms); [exact i|apply nodup_snoc; assumption]).
    assert (I : In m (add_name Ms m)) by (unfold add_name; destruct (in_dec_name m Ms); [assumption|apply in_or_app; right; left; reflexivity]).
    destruct (In_nth_error _ _ I) as [kk Hk]. exists kk. split; [exact Hk|]. apply sfind_combine_some; assumption. }
  assert (E1 : exists Ms2, add_name Ms m = Ms ++ Ms2) by (unfold add_name; destruct (in_dec_name m Ms); [exists []; rewrite app_nil_r; reflexivity|exists [m]; reflexivity]).
  destruct E1 as [Ms2 E1]. destruct MM as [kk [Hk Sk]].
  assert (G : match (if match sfind m (combine Ms (seq 2 (length Ms))) with None => true | Some _ => false end then combine Ms (seq 2 (length Ms)) ++ [(m, 2 + length Ms)] else combine Ms (seq 2 (length Ms))) with l => l end
              = combine (add_name Ms m) (seq 2 (length (add_name Ms m))) /\
              (if match sfind m (combine Ms (seq 2 (length Ms))) with None => true | Some _ => false end then nemplace (2 + length Ms - 2) m (combine (seq 0 (length Ms)) Ms) else combine (seq 0 (length Ms)) Ms)
              = combine (seq 0 (length (add_name Ms m))) (add_name Ms m) /\
              (if match sfind m (combine Ms (seq 2 (length Ms))) with None => true | Some _ => false end then 2 + length Ms + 1 else 2 + length Ms) = 2 + length (add_name Ms m)).
  { unfold add_name. destruct (in_dec_name m Ms) as [I|I].
    - destruct (In_nth_error _ _ I) as [k2 Hk2]. rewrite (sfind_combine_some Ms 2 m k2 i Hk2). repeat split.
    - rewrite (sfind_combine_none Ms 2 m I). split; [symmetry; apply combine_seq_snoc|]. split.
      + replace (2 + length Ms - 2) with (length Ms) by lia. unfold nemplace. rewrite nfind_combine_none by lia. symmetry. apply (combine_seq_snoc' Ms 0).
      + rewrite app_length. cbn [length]. lia. }
  destruct G as [G1 [G2 G3]]. cbv zeta. cbv zeta in G1. rewrite G1, G2, G3, Sk. clear G1 G2 G3.
  constructor; cbn; try reflexivity; try assumption.
  - unfold add_name. destruct (in_dec_name m Ms); [exact i|apply nodup_snoc; assumption].
  - intros y. unfold add_name. assert (B : In y (if in_dec_name m Ms then Ms else Ms ++ [m]) <-> In y Ms \/ y = m).
    { destruct (in_dec_name m Ms) as [I|I]; [|rewrite in_app_iff; cbn [In]; intuition]. split; [tauto|]. intros [X| ->]; assumption. }
    rewrite B, j. unfold upd. split.
    + intros [[n' [I X]]| ->].
      * exists n'. split; [exact I|]. destruct (name_dec n' n); [rewrite map_app; apply in_or_app; left|]; exact X.
      * exists n. split; [exact (nth_error_In _ _ Hx)|]. destruct (name_dec n n); [|congruence]. rewrite map_app. apply in_or_app. right. left. reflexivity.
    + intros [n' [I X]]. destruct (name_dec n' n) as [->|Nn]; [|left; exists n'; tauto]. rewrite map_app in X. apply in_app_or in X as [X|[<-|[]]]; [left; exists n; tauto|right; reflexivity].
  - rewrite app_length. reflexivity.
  - intros y n' Hy. rewrite nfind_npush. destruct (mm y n' Hy) as [L [EL HL]]. unfold upd. destruct (Nat.eqb_spec y x) as [->|Ny].
    + assert (n' = n) by congruence. subst n'. destruct (name_dec n n) as [_|X]; [|congruence]. exists (L ++ [(length fu, S (S kk))]). rewrite EL. split; [reflexivity|].
      unfold items in *. rewrite map_app, app_assoc. cbn [map]. apply Forall2_app; [rewrite E1; apply rels_ext; exact HL|].
      constructor; [|constructor]. split; [cbn [fst snd]; apply nth_error_snoc|]. cbn [fst snd]. exists kk. split; [reflexivity|exact Hk].
    + destruct (name_dec n' n) as [->|Nn]; [exfalso; apply Ny; apply (proj1 (NoDup_nth_error N) ND); [apply nth_error_Some; congruence|congruence]|].
      exists L. split; [exact EL|]. rewrite E1. apply rels_ext. exact HL.
  - intros y Hy. rewrite nfind_npush. assert (x < length N) by (apply nth_error_Some; congruence). destruct (Nat.eqb_spec y x); [lia|]. apply o. exact Hy.
Qed.

Definition upds {B} (f : chars -> list B) (n : chars) (b : list B) : chars -> list B := fun m => if name_dec m n then f m ++ b else f m.
Lemma inv_replacements vars fams rep : forall rhs N P Q Ms st n, inv vars fams N P Q Ms rep st -> In n N ->
  exists Ms', inv vars fams N P (upds Q n (map (fun s => (s_name s, ctree s)) rhs)) Ms' rep (fold_left (add_replacement n) (map item rhs) st).
Proof.
  induction rhs as [|s rhs IH]; intros N P Q Ms st n HI In_; cbn [map fold_left].
  - exists Ms. apply (inv_ext _ _ _ P Q); [reflexivity| |exact HI]. intros m _. unfold upds. destruct (name_dec m n); [rewrite app_nil_r|]; reflexivity.
  - destruct (In_nth_error _ _ In_) as [x Hx]. destruct st as [vs fs ins rp ms mi mp fu ni nm pc].
    pose proof (inv_push vars fams N P Q Ms rep vs fs ins rp ms mi mp fu ni nm pc n x (s_name s) (ctree s) HI Hx) as H. cbv zeta in H.
    assert (E : sfind n ins = Some x) by (pose proof (iv_int _ _ _ _ _ _ _ _ HI) as X; cbn in X; rewrite X; apply (sfind_combine_some N 0); [exact (iv_nd _ _ _ _ _ _ _ _ HI)|exact Hx]).
    unfold item at 2. unfold add_replacement at 2. cbn [fst snd]. rewrite E.
    destruct (IH N P _ _ _ n H In_) as [Ms' H']. exists Ms'. revert H'. apply inv_ext; [reflexivity|].
    intros m _. unfold upds, upd. destruct (name_dec m n); [rewrite <- app_assoc|]; reflexivity.
Qed.
Section Rules.
  Variables vars fams : list chars.
  Hypothesis FO : families_ok fams.
  Definition repl_of (R : list rule) (n : chars) : list (chars * expr) := match rule_for R n with Some r => map (fun s => (s_name s, ctree s)) (r_rhs r) | None => [] end.
  Lemma rule_for_app R r n : rule_for (R ++ [r]) n = match rule_for R n with Some x => Some x | None => if name_dec n (r_name r) then Some r else None end.
  Proof. unfold rule_for. induction R as [|x R IH]; cbn [app find]; [destruct (name_dec n (r_name r)); reflexivity|]. destruct (name_dec n (r_name x)); [reflexivity|exact IH]. Qed.
  Lemma rule_for_some R n r : rule_for R n = Some r -> In r R /\ r_name r = n.
  Proof. unfold rule_for. intros H. apply find_some in H as [I E]. split; [exact I|]. destruct (name_dec n (r_name r)); congruence. Qed.
  Lemma rule_for_none R n : rule_for R n = None <-> ~ In n (map r_name R).
  Proof.
    unfold rule_for. split.
    - intros H I. apply in_map_iff in I as [r [E I]]. pose proof (find_none _ _ H r I) as X. cbn in X. destruct (name_dec n (r_name r)); congruence.
    - intros H. destruct (find _ R) as [r|] eqn:E; [|reflexivity]. exfalso. apply find_some in E as [I E]. apply H. apply in_map_iff. exists r. split; [|exact I]. destruct (name_dec n (r_name r)); congruence.
  Qed.
  Definition in_names (N : list chars) (n : chars) : bool := if in_dec_name n N then true else false.
  Lemma add_rule_inv N P R Ms rep st r : inv vars fams N P (repl_of R) Ms rep st -> (forall n, In n rep <-> In n N /\ In n (map r_name R)) -> rule_ok fams r ->
    (In (r_name r) N -> ~ In (r_name r) (map r_name R)) ->
    exists st' Ms' rep', add_rule st (r_name r) (show_sum (r_plus r) (r_rhs r)) = Ret st' /\ inv vars fams N P (repl_of (R ++ [r])) Ms' rep' st' /\
    (forall n, In n rep' <-> In n N /\ In n (map r_name (R ++ [r]))).
  Proof.
    intros HI HR [If [Hi Hs]] HN. unfold add_rule, parse_string. rewrite (iv_fams _ _ _ _ _ _ _ _ HI).
    pose proof (parse_body_lhs fams FO [] (r_fam r) (r_idx r) (or_introl eq_refl) If Hi) as P1. cbn [app] in P1. fold (r_name r) in P1. rewrite P1. cbn [obind].
    rewrite (iv_int _ _ _ _ _ _ _ _ HI). destruct (in_dec_name (r_name r) N) as [I|I].
    - destruct (In_nth_error _ _ I) as [x Hx]. rewrite (sfind_combine_some N 0 _ x (iv_nd _ _ _ _ _ _ _ _ HI) Hx).
      rewrite (iv_rep _ _ _ _ _ _ _ _ HI), smem_false by (rewrite HR; intros [_ X]; exact (HN I X)).
      rewrite (parse_body_sum fams FO) by exact Hs. cbn [obind]. destruct st as [vs fs ins rp ms mi mp fu ni nm pc].
      assert (HI2 : inv vars fams N P (repl_of R) Ms (rep ++ [r_name r]) (mk_amp vs fs ins (rp ++ [r_name r]) ms mi mp fu ni nm pc)).
      { destruct HI as [a b c d e f g h i j k l m o]. cbn in *. constructor; cbn; try assumption. rewrite k. reflexivity. }
      destruct (inv_replacements vars fams _ (r_rhs r) N P _ Ms _ _ HI2 I) as [Ms' H]. eexists _, Ms', (rep ++ [r_name r]). split; [reflexivity|]. split.
      + revert H. apply inv_ext; [reflexivity|]. intros n In_. unfold upds, repl_of. rewrite rule_for_app. destruct (name_dec n (r_name r)) as [->|Nn].
        * rewrite (proj2 (rule_for_none R (r_name r)) (HN I)). reflexivity.
        * destruct (rule_for R n); reflexivity.
      + intros n. rewrite map_app, !in_app_iff, HR. cbn [map In]. split; [intros [X|[<-|[]]]; tauto|]. intros [A [B|[B|[]]]]; [left; tauto|right; left; exact B].
    - rewrite (sfind_combine_none N 0 _ I). eexists st, Ms, rep. split; [reflexivity|]. split.
      + revert HI. apply inv_ext; [reflexivity|]. intros n In_. unfold repl_of. rewrite rule_for_app. destruct (rule_for R n); [reflexivity|]. destruct (name_dec n (r_name r)) as [->|_]; [contradiction|reflexivity].
      + intros n. rewrite HR, map_app, in_app_iff. cbn [map In]. split; [tauto|]. intros [A [B|[B|[]]]]; [tauto|]. subst n. contradiction.
  Qed.
  Lemma add_rules_inv N P : forall l R Ms rep st, inv vars fams N P (repl_of R) Ms rep st -> (forall n, In n rep <-> In n N /\ In n (map r_name R)) -> Forall (rule_ok fams) l ->
    NoDup (filter (in_names N) (map r_name (R ++ l))) ->
    exists st' Ms' rep', add_rules st l = Ret st' /\ inv vars fams N P (repl_of (R ++ l)) Ms' rep' st' /\ (forall n, In n rep' <-> In n N /\ In n (map r_name (R ++ l))).
  Proof.
    induction l as [|r l IH]; intros R Ms rep st HI HR HL ND; cbn [add_rules]; [rewrite app_nil_r; exists st, Ms, rep; split; [reflexivity|]; split; [exact HI|exact HR]|].
    replace (R ++ r :: l) with ((R ++ [r]) ++ l) in * by (rewrite <- app_assoc; reflexivity).
    destruct (add_rule_inv N P R Ms rep st r HI HR (Forall_inv HL)) as [st1 [Ms1 [rep1 [E1 [HI1 HR1]]]]].
    { intros I J. clear - I J ND. rewrite !map_app in ND. cbn [map] in ND. rewrite !filter_app in ND. cbn [filter] in ND. unfold in_names at 2 in ND. destruct (in_dec_name (r_name r) N); [|contradiction].
      rewrite <- app_assoc in ND. apply NoDup_remove_2 in ND. apply ND. apply in_or_app. left. apply filter_In. split; [exact J|]. unfold in_names. destruct (in_dec_name (r_name r) N); [reflexivity|contradiction]. }
    rewrite E1. cbn [obind]. exact (IH (R ++ [r]) Ms1 rep1 st1 HI1 HR1 (Forall_inv_tail HL) ND).
  Qed.

  (** ---- functions without a rule ---- *)
  Definition one_e : expr := ELead SNone one_t.
  Definition final_of (R : list rule) (n : chars) : list (chars * expr) := match rule_for R n with Some r => map (fun s => (s_name s, ctree s)) (r_rhs r) | None => [(n, one_e)] end.
  Lemma add_unreplaced_inv N P R rep : (forall n, In n rep <-> In n N /\ In n (map r_name R)) -> forall order done Ms st, Forall (fun x => nth_error N (snd x) = Some (fst x)) order -> NoDup (done ++ map fst order) ->
    inv vars fams N P (fun n => if in_dec_name n done then final_of R n else repl_of R n) Ms rep st ->
    exists Ms', inv vars fams N P (fun n => if in_dec_name n (done ++ map fst order) then final_of R n else repl_of R n) Ms' rep (fold_left add_unreplaced order st).
  Proof.
    intros HR. induction order as [|[n x] order IH]; intros done Ms st HO ND HI; cbn [map fold_left fst].
    - exists Ms. rewrite app_nil_r. exact HI.
    - replace (done ++ n :: map fst order) with ((done ++ [n]) ++ map fst order) in * by (rewrite <- app_assoc; reflexivity).
      pose proof (Forall_inv HO) as Hx. cbn [fst snd] in Hx. pose proof (nth_error_In _ _ Hx) as In_.
      assert (Nd : ~ In n done). { cbn [map fst] in ND. apply NoDup_remove_2 in ND. intros X. apply ND. apply in_or_app. left. exact X. }
      assert (ND2 : NoDup ((done ++ [n]) ++ map fst order)) by (cbn [map fst] in ND; rewrite <- app_assoc; exact ND).
      assert (X : exists Ms', inv vars fams N P (fun m => if in_dec_name m (done ++ [n]) then final_of R m else repl_of R m) Ms' rep (add_unreplaced st (n, x))).
      { destruct st as [vs fs ins rp ms mi mp fu ni nm pc]. unfold add_unreplaced. cbn [fst snd]. pose proof (iv_rep _ _ _ _ _ _ _ _ HI) as Er. cbn in Er. subst rp.
        destruct (in_dec_name n rep) as [I|I].
        - rewrite (proj2 (smem_spec n rep) I). exists Ms. revert HI. apply inv_ext; [reflexivity|]. intros m Hm.
          destruct (in_dec_name m done) as [A|A], (in_dec_name m (done ++ [n])) as [B|B]; try reflexivity; [exfalso; apply B; apply in_or_app; left; exact A|].
          apply in_app_or in B as [B|[<-|[]]]; [contradiction|]. unfold final_of, repl_of. destruct (rule_for R n) eqn:E; [reflexivity|]. apply rule_for_none in E. apply HR in I. tauto.
        - rewrite (smem_false n rep I).
          pose proof (inv_push vars fams N P _ Ms rep vs fs ins rep ms mi mp fu ni nm pc n x n one_e HI Hx) as H. cbv zeta in H.
          exists (add_name Ms n).
          assert (H2 : inv vars fams N P (fun m => if in_dec_name m (done ++ [n]) then final_of R m else repl_of R m) (add_name Ms n) rep
             (mk_amp vs fs ins rep (if match sfind n ms with None => true | Some _ => false end then ms ++ [(n, nm)] else ms) (if match sfind n ms with None => true | Some _ => false end then nemplace (nm - 2) n mi else mi)
               (npush x (pc, match sfind n (if match sfind n ms with None => true | Some _ => false end then ms ++ [(n, nm)] else ms) with Some k => k | None => 0 end) mp) (fu ++ [["1"%char]]) ni (if match sfind n ms with None => true | Some _ => false end then nm + 1 else nm) (pc + 1))).
          { revert H. apply inv_ext; [reflexivity|]. intros m Hm. unfold upd.
            destruct (name_dec m n) as [->|Nn].
            - destruct (in_dec_name n done) as [A|A]; [contradiction|]. destruct (in_dec_name n (done ++ [n])) as [B|B]; [|exfalso; apply B; apply in_or_app; right; left; reflexivity].
              assert (E : rule_for R n = None) by (apply rule_for_none; intros X; apply I; apply HR; tauto). unfold repl_of, final_of. rewrite E. reflexivity.
            - destruct (in_dec_name m done) as [A|A], (in_dec_name m (done ++ [n])) as [B|B]; try reflexivity; [exfalso; apply B; apply in_or_app; left; exact A|].
              exfalso. apply in_app_or in B as [B|[B|[]]]; congruence. }
          clear H. destruct (sfind n ms) as [k|] eqn:Ek; [rewrite Ek in H2; exact H2|].
          assert (Ek2 : sfind n (ms ++ [(n, nm)]) = Some nm).
          { clear - Ek. induction ms as [|[a b] ms IH]; cbn [app sfind] in *; [rewrite ceqb_refl; reflexivity|]. destruct (ceqb n a); [discriminate|apply IH; exact Ek]. }
          rewrite Ek2 in H2. exact H2. }
      destruct X as [Ms1 H1]. exact (IH (done ++ [n]) Ms1 _ (Forall_inv_tail HO) ND2 H1).
  Qed.
  Lemma combine_seq_nth {A} (N : list A) : forall b n i, In (n, i) (combine N (seq b (length N))) -> b <= i /\ nth_error N (i - b) = Some n.
  Proof.
    induction N as [|m N IH]; intros b n i H; cbn [length seq combine] in H; [destruct H|]. destruct H as [E|H]; [injection E as -> ->; rewrite Nat.sub_diag; split; [lia|reflexivity]|].
    apply IH in H as [L H]. split; [lia|]. replace (i - b) with (S (i - S b)) by lia. exact H.
  Qed.
  Lemma combine_fst {A B} : forall (a : list A) (b : list B), length a = length b -> map fst (combine a b) = a.
  Proof. induction a as [|x a IH]; intros [|y b] L; cbn in L; try lia; [reflexivity|]. cbn. f_equal. apply IH. lia. Qed.
  Lemma check_inv N P R Ms rep st order : (forall n, In n rep <-> In n N /\ In n (map r_name R)) -> inv vars fams N P (repl_of R) Ms rep st -> Permutation order (integrals st) ->
    exists Ms', inv vars fams N P (final_of R) Ms' rep (fst (check_for_unreplaced_masters order st)) /\ snd (check_for_unreplaced_masters order st) = length Ms'.
  Proof.
    intros HR HI HO. rewrite (iv_int _ _ _ _ _ _ _ _ HI) in HO.
    assert (PN : Permutation (map fst order) N) by (apply (Permutation_map fst) in HO; rewrite combine_fst in HO by (rewrite seq_length; reflexivity); exact HO).
    destruct (add_unreplaced_inv N P R rep HR order [] Ms st) as [Ms' H].
    - apply Forall_forall. intros [n i] I. apply (Permutation_in _ HO) in I. apply combine_seq_nth in I as [_ I]. rewrite Nat.sub_0_r in I. exact I.
    - cbn [app]. apply (Permutation_NoDup (Permutation_sym PN)). exact (iv_nd _ _ _ _ _ _ _ _ HI).
    - revert HI. apply inv_ext; [reflexivity|]. intros n _. destruct (in_dec_name n []) as [[]|]; reflexivity.
    - exists Ms'. cbn [app] in H. unfold check_for_unreplaced_masters. cbn [fst snd]. split.
      + revert H. apply inv_ext; [reflexivity|]. intros n Hn. destruct (in_dec_name n (map fst order)) as [_|X]; [reflexivity|]. exfalso. apply X. apply (Permutation_in _ (Permutation_sym PN)). exact Hn.
      + rewrite (iv_nm _ _ _ _ _ _ _ _ H). lia.
  Qed.
End Rules.

(** Proofs about printed polynomials (Printers.v): every printed string is the spelling of an expression of the input
    language (SYGrammar.v) with the value of the polynomial. *)
From Coq Require Import Ascii String Znumtheory.
From Verif Require Import Machine FFInt FFIntProofs RatNum SYParse SYGrammar SYParseProofs SYEval SYEvalProofs SYObj SYObjProofs DecPrint Printers PrintSpec NumTheory.
From Coq Require Import List.
Import ListNotations.
Open Scope Z_scope.

(** ---- sums over degrees ---- *)
Fixpoint sum_over (I : list Z) (f : Z -> Z) : Z := match I with [] => 0 | i :: r => f i + sum_over r f end.
Lemma sum_over_ext I f g : (forall i, In i I -> f i = g i) -> sum_over I f = sum_over I g.
Proof. induction I as [|i I IH]; intros H; [reflexivity|]. cbn [sum_over]. rewrite (H i) by (left; reflexivity). rewrite IH; [reflexivity|]. intros; apply H; right; assumption. Qed.
Lemma sum_over_app I J f : sum_over (I ++ J) f = sum_over I f + sum_over J f.
Proof. induction I as [|i I IH]; cbn [app sum_over]; lia. Qed.
Lemma sum_over_plus I f g : sum_over I (fun i => f i + g i) = sum_over I f + sum_over I g.
Proof. induction I as [|i I IH]; cbn [sum_over]; lia. Qed.
Lemma sum_over_zero I f : (forall i, In i I -> f i = 0) -> sum_over I f = 0.
Proof. induction I as [|i I IH]; intros H; [reflexivity|]. cbn [sum_over]. rewrite (H i) by (left; reflexivity). rewrite IH; [reflexivity|]. intros; apply H; right; assumption. Qed.
Lemma sum_over_delta I d v : NoDup I -> In d I -> sum_over I (fun i => if d =? i then v i else 0) = v d.
Proof.
  induction I as [|i I IH]; intros N H; [destruct H|]. inversion N as [|? ? N1 N2]; subst. cbn [sum_over]. destruct (Z.eqb_spec d i) as [->|Q].
  - rewrite sum_over_zero; [lia|]. intros j J. destruct (Z.eqb_spec i j) as [->|]; [contradiction|reflexivity].
  - destruct H as [->|H]; [congruence|]. rewrite IH by assumption. lia.
Qed.
Lemma afind_none {A} (L : list (Z * A)) i : ~ In i (map fst L) -> afind L i = None.
Proof. induction L as [|[d a] L IH]; intros H; [reflexivity|]. cbn [afind]. destruct (Z.eqb_spec d i) as [->|]; [destruct H; left; reflexivity|]. apply IH. intros I; apply H; right; exact I. Qed.
Lemma afind_in {A} (L : list (Z * A)) i a : afind L i = Some a -> In (i, a) L.
Proof. induction L as [|[d b] L IH]; intros H; [discriminate|]. cbn [afind] in H. destruct (Z.eqb_spec d i) as [->|]; [injection H as ->; left; reflexivity|right; auto]. Qed.
Lemma afind_some {A} (L : list (Z * A)) i : In i (map fst L) -> exists a, afind L i = Some a.
Proof. induction L as [|[d b] L IH]; intros H; [destruct H|]. cbn [afind]. destruct (Z.eqb_spec d i) as [->|N]; [eexists; reflexivity|]. destruct H as [H|H]; [contradiction|auto]. Qed.
Lemma afind_map {A B} (f : A -> B) (L : list (Z * A)) i : afind (map (fun '(d, s) => (d, f s)) L) i = option_map f (afind L i).
Proof. induction L as [|[d b] L IH]; [reflexivity|]. cbn [map afind]. destruct (d =? i); [reflexivity|exact IH]. Qed.
Definition oval {A} (v : A -> Z) (o : option A) : Z := match o with Some a => v a | None => 0 end.
Definition sum_l {A} (v : A -> Z) (x : Z) (L : list (Z * A)) : Z := fold_right (fun e acc => x ^ fst e * v (snd e) + acc) 0 L.
Lemma sum_lookup {A} (v : A -> Z) x I : NoDup I -> forall L, NoDup (map fst L) -> (forall d, In d (map fst L) -> In d I) ->
  sum_over I (fun i => oval v (afind L i) * x ^ i) = sum_l v x L.
Proof.
  intros N. induction L as [|[d a] L IH]; intros NL H.
  - cbn. apply sum_over_zero. intros; reflexivity.
  - cbn [map fst] in NL. inversion NL as [|? ? N1 N2]; subst. cbn [sum_l fold_right fst snd]. fold (sum_l v x L). rewrite <- IH; [|exact N2|intros; apply H; right; assumption].
    rewrite <- (sum_over_delta I d (fun i => x ^ i * v a) N) by (apply H; left; reflexivity). rewrite <- sum_over_plus. apply sum_over_ext. intros i _. cbn [afind].
    destruct (Z.eqb_spec d i) as [->|Q]; [|lia]. rewrite (afind_none L i N1). cbn [oval]. lia.
Qed.
Lemma in_down m i : In i (down m) <-> 0 < i <= m.
Proof.
  unfold down. rewrite in_map_iff. split.
  - intros [k [<- K]]. apply in_seq in K. lia.
  - intros H. exists (Z.to_nat (m - i)). split; [lia|]. apply in_seq. lia.
Qed.
Lemma nodup_down m : NoDup (down m ++ [0]).
Proof.
  unfold down. rewrite <- (app_nil_r (map _ _)), <- app_assoc. cbn [app]. apply NoDup_Add with (a := 0) (l := map (fun k => m - Z.of_nat k) (seq 0 (Z.to_nat m))); [rewrite <- (app_nil_r (map _ _)) at 1; apply Add_app|].
  split.
  - apply FinFun.Injective_map_NoDup; [intros a b; lia|apply seq_NoDup].
  - rewrite in_map_iff. intros [k [E K]]. apply in_seq in K. lia.
Qed.
Lemma sum_degrees {A} (v : A -> Z) x m L : NoDup (map fst L) -> (forall d, In d (map fst L) -> 0 <= d <= m) ->
  sum_over (down m) (fun i => oval v (afind L i) * x ^ i) + oval v (afind L 0) = sum_l v x L.
Proof.
  intros N H. rewrite <- (sum_lookup v x (down m ++ [0]) (nodup_down m) L N).
  - rewrite sum_over_app. cbn [sum_over]. rewrite Z.pow_0_r. lia.
  - intros d D. apply H in D. apply in_or_app. destruct (Z.eq_dec d 0) as [->|]; [right; left; reflexivity|left; apply in_down; lia].
Qed.

(** ---- maps with one variable ---- *)
Definition flat1 {C} (m : pmap C) : list (Z * C) := map (fun e => (head_deg e, snd e)) m.
Lemma mfind_flat {C} (m : pmap C) i : Forall (fun e => length (fst e) = 1%nat) m -> mfind m i = afind (flat1 m) i.
Proof.
  induction 1 as [|[k c] m L F IH]; [reflexivity|]. cbn [mfind flat1 map afind head_deg fst hd snd]. cbn [fst] in L. destruct k as [|z [|]]; try discriminate L. change (head_deg ([z], c)) with z. destruct (z =? i); [reflexivity|exact IH].
Qed.
Lemma flat1_keys {C} (m : pmap C) : Forall (fun e => length (fst e) = 1%nat) m -> map fst m = map (fun d => [d]) (map fst (flat1 m)).
Proof.
  induction 1 as [|[k c] m L F IH]; [reflexivity|]. cbn [map flat1 fst head_deg hd]. f_equal; [|exact IH]. cbn [fst] in L. destruct k as [|z [|]]; try discriminate L. reflexivity.
Qed.
Lemma flat1_nodup {C} (m : pmap C) : Forall (fun e => length (fst e) = 1%nat) m -> NoDup (map fst m) -> NoDup (map fst (flat1 m)).
Proof. intros F N. rewrite (flat1_keys m F) in N. apply NoDup_map_inv in N. exact N. Qed.
Lemma flat1_val {C} (cv : C -> Z) (m : pmap C) x xs : Forall (fun e => length (fst e) = 1%nat) m -> sum_l cv x (flat1 m) = poly_val cv m (x :: xs).
Proof.
  induction 1 as [|[k c] m L F IH]; [reflexivity|]. cbn [flat1 map sum_l poly_val fold_right fst snd]. fold (flat1 m). fold (sum_l cv x (flat1 m)). fold (poly_val cv m (x :: xs)). rewrite IH.
  cbn [fst] in L. destruct k as [|z [|]]; try discriminate L. cbn [head_deg fst hd mono_val]. lia.
Qed.
Lemma fold_max_spec {C} (m : pmap C) : forall a, let r := fold_left (fun a e => if a <? head_deg e then head_deg e else a) m a in
  a <= r /\ (forall d, In d (map fst (flat1 m)) -> d <= r) /\ (r = a \/ In r (map fst (flat1 m))).
Proof.
  induction m as [|e m IH]; intros a r; [cbn in r; subst r; split; [lia|split; [intros d []|left; reflexivity]]|].
  cbn [fold_left] in r. set (a' := if a <? head_deg e then head_deg e else a) in *. destruct (IH a') as [A [B D]]. fold r in A, B, D.
  assert (X : a <= a' /\ head_deg e <= a') by (unfold a'; destruct (Z.ltb_spec a (head_deg e)); lia).
  split; [lia|]. split.
  - intros d [<-|I]; [cbn [fst]; lia|]. apply B. exact I.
  - destruct D as [D|D]; [|right; right; exact D]. unfold a' in D. destruct (Z.ltb_spec a (head_deg e)); [right; left; cbn [fst]; lia|left; exact D].
Qed.
Lemma max_deg1_spec {C} (m : pmap C) b : m <> [] -> (forall d, In d (map fst (flat1 m)) -> 0 <= d <= b) ->
  0 <= max_deg1 m <= b /\ In (max_deg1 m) (map fst (flat1 m)) /\ (forall d, In d (map fst (flat1 m)) -> d <= max_deg1 m).
Proof.
  intros N H. destruct (fold_max_spec m 0) as [A [B D]]. fold (max_deg1 m) in A, B, D.
  assert (X : In (max_deg1 m) (map fst (flat1 m))).
  { destruct D as [D|D]; [|exact D]. destruct m as [|e m]; [congruence|]. pose proof (B (head_deg e) (or_introl eq_refl)) as X. pose proof (H (head_deg e) (or_introl eq_refl)). left. cbn [fst]. lia. }
  split; [split; [exact A|apply H; exact X]|]. split; [exact X|exact B].
Qed.

(** ---- grouping by the first exponent ---- *)
Definition group_ok {C} (m : pmap C) (g : Z * pmap C) : Prop := snd g <> [] /\ NoDup (map fst (snd g)) /\ forall e, In e (snd g) -> In (fst g :: fst e, snd e) m.
Fixpoint gdesc {A} (g : list (Z * A)) : Prop := match g with [] => True | (d, _) :: r => Forall (fun x => fst x < d) r /\ gdesc r end.
Lemma poly_val_app {C} (cv : C -> Z) (a b : pmap C) xs : poly_val cv (a ++ b) xs = poly_val cv a xs + poly_val cv b xs.
Proof. induction a as [|e a IH]; [reflexivity|]. cbn [app poly_val fold_right]. fold (poly_val cv (a ++ b) xs). fold (poly_val cv a xs). lia. Qed.
Lemma put_keys {C} d (e : list Z * C) g x : In x (put_group d e g) -> fst x = d \/ In (fst x) (map fst g).
Proof.
  induction g as [|[d' l] g IH]; cbn [put_group].
  - intros [<-|[]]. left; reflexivity.
  - destruct (Z.eqb_spec d' d) as [->|]; [intros [<-|I]; [left; reflexivity|right; right; apply in_map; exact I]|].
    destruct (d' <? d); [intros [<-|I]; [left; reflexivity|right; apply in_map; exact I]|].
    intros [<-|I]; [right; left; reflexivity|]. destruct (IH I) as [Q|Q]; [left; exact Q|right; right; exact Q].
Qed.
Lemma put_inv {C} (cv : C -> Z) (m : pmap C) d k c : forall g, ~ In (d :: k) (map fst m) -> gdesc g -> Forall (group_ok m) g ->
  gdesc (put_group d (k, c) g) /\ Forall (group_ok (m ++ [(d :: k, c)])) (put_group d (k, c) g) /\
  forall x xs, sum_l (fun s => poly_val cv s xs) x (put_group d (k, c) g) = sum_l (fun s => poly_val cv s xs) x g + cv c * (x ^ d * mono_val k xs).
Proof.
  intros g N. assert (Mono : forall y, group_ok m y -> group_ok (m ++ [(d :: k, c)]) y).
  { intros y [A [B D]]. split; [exact A|]. split; [exact B|]. intros e E. apply in_or_app. left. apply D. exact E. }
  assert (New : group_ok (m ++ [(d :: k, c)]) (d, [(k, c)])).
  { split; [discriminate|]. split; [cbn; constructor; [intros []|constructor]|]. intros e [<-|[]]. apply in_or_app. right. left. reflexivity. }
  induction g as [|[d' l] g IH]; intros D F.
  - cbn [put_group]. split; [split; [constructor|exact I]|]. split; [constructor; [exact New|constructor]|]. intros; cbn. ring.
  - destruct D as [D1 D2]. inversion F as [|? ? F1 F2]; subst. destruct (IH D2 F2) as [A [B E]]. cbn [put_group]. destruct (Z.eqb_spec d' d) as [->|Q].
    + split; [split; assumption|]. split.
      * constructor; [|eapply Forall_impl; [exact Mono|exact F2]]. destruct F1 as [X1 [X2 X3]]. cbn [fst snd] in *. split; [intros X; apply app_eq_nil in X; destruct X; discriminate|]. split.
        -- cbn [snd]. rewrite map_app. cbn [map fst]. apply NoDup_Add with (a := k) (l := map fst l); [rewrite <- (app_nil_r (map fst l)) at 1; apply Add_app|]. split; [exact X2|].
           intros I. apply in_map_iff in I. destruct I as [y [Y1 Y2]]. apply N. apply in_map_iff. exists (d :: fst y, snd y). split; [cbn; congruence|]. apply X3. exact Y2.
        -- cbn [fst snd]. intros e I. apply in_or_app. apply in_app_or in I. destruct I as [I|[<-|[]]]; [left; apply X3; exact I|right; left; reflexivity].
      * intros x xs. cbn [sum_l fold_right fst snd]. rewrite poly_val_app. cbn [poly_val fold_right fst snd]. ring.
    + destruct (Z.ltb_spec d' d) as [L|L].
      * split; [split; [|split; assumption]|].
        -- constructor; [exact L|]. eapply Forall_impl; [|exact D1]. intros y Y. cbn beta in Y. lia.
        -- split; [constructor; [exact New|eapply Forall_impl; [exact Mono|exact F]]|]. intros x xs. cbn [sum_l fold_right fst snd poly_val]. ring.
      * split; [split; [|exact A]|].
        -- apply Forall_forall. intros y Y. apply put_keys in Y. destruct Y as [->|Y]; [lia|]. apply in_map_iff in Y. destruct Y as [z [<- Z1]]. rewrite Forall_forall in D1. apply (D1 z Z1).
        -- split; [constructor; [apply Mono; exact F1|exact B]|]. intros x xs. cbn [sum_l fold_right fst snd]. fold (sum_l (fun s => poly_val cv s xs) x (put_group d (k, c) g)). rewrite E.
           fold (sum_l (fun s => poly_val cv s xs) x g). ring.
Qed.
Lemma groups_inv {C} (cv : C -> Z) k : forall (m m0 : pmap C) g, Forall (fun e => length (fst e) = S k) m -> NoDup (map fst (m0 ++ m)) -> gdesc g -> Forall (group_ok m0) g ->
  (forall x xs, sum_l (fun s => poly_val cv s xs) x g = poly_val cv m0 (x :: xs)) ->
  let r := fold_left (fun g e => put_group (head_deg e) (tl (fst e), snd e) g) m g in
  gdesc r /\ Forall (group_ok (m0 ++ m)) r /\ forall x xs, sum_l (fun s => poly_val cv s xs) x r = poly_val cv (m0 ++ m) (x :: xs).
Proof.
  induction m as [|[e c] m IH]; intros m0 g L N D F S.
  - cbn. rewrite app_nil_r. auto.
  - inversion L as [|? ? L1 L2]; subst. cbn [fst] in L1. destruct e as [|d e]; [discriminate|]. cbn [fold_left fst snd tl]. change (head_deg (d :: e, c)) with d.
    replace (m0 ++ (d :: e, c) :: m) with ((m0 ++ [(d :: e, c)]) ++ m) in * by (rewrite <- app_assoc; reflexivity).
    assert (Nd : ~ In (d :: e) (map fst m0)).
    { rewrite !map_app in N. cbn [map fst] in N. rewrite <- app_assoc in N. cbn [app] in N. apply NoDup_remove_2 in N. intros X. apply N. apply in_or_app. left. exact X. }
    destruct (put_inv cv m0 d e c g Nd D F) as [A [B E]]. apply IH; try assumption.
    intros x xs. rewrite E, S, poly_val_app. cbn [poly_val fold_right fst snd mono_val]. ring.
Qed.
Lemma groups_spec {C} (cv : C -> Z) k (m : pmap C) : Forall (fun e => length (fst e) = S k) m -> NoDup (map fst m) ->
  gdesc (groups m) /\ Forall (group_ok m) (groups m) /\ forall x xs, sum_l (fun s => poly_val cv s xs) x (groups m) = poly_val cv m (x :: xs).
Proof. intros L N. apply (groups_inv cv k m [] [] L N I (Forall_nil _)). reflexivity. Qed.
Lemma put_not_nil {C} d (e : list Z * C) g : put_group d e g <> [].
Proof. destruct g as [|[d' l] g]; cbn [put_group]; [discriminate|]. destruct (d' =? d); [discriminate|]. destruct (d' <? d); discriminate. Qed.
Lemma groups_not_nil {C} (m : pmap C) : m <> [] -> groups m <> [].
Proof.
  intros H. unfold groups. destruct m as [|e m]; [congruence|]. cbn [fold_left]. pose proof (put_not_nil (head_deg e) (tl (fst e), snd e) []) as P. revert P. generalize (put_group (head_deg e) (tl (fst e), snd e) []).
  induction m as [|e' m IH]; intros g P; [exact P|]. cbn [fold_left]. apply IH; [discriminate|apply put_not_nil].
Qed.
Lemma gdesc_nodup {A} (g : list (Z * A)) : gdesc g -> NoDup (map fst g).
Proof.
  induction g as [|[d a] g IH]; intros H; [constructor|]. destruct H as [H1 H2]. cbn [map fst]. constructor; [|apply IH; exact H2].
  intros I. apply in_map_iff in I. destruct I as [y [Y1 Y2]]. rewrite Forall_forall in H1. specialize (H1 y Y2). cbn beta in H1. lia.
Qed.
Lemma gdesc_top {A} (g : list (Z * A)) d : gdesc g -> In d (map fst g) -> d <= top g.
Proof.
  destruct g as [|[d' a] g]; intros H I; [destruct I|]. destruct H as [H1 _]. destruct I as [<-|I]; [cbn; lia|]. apply in_map_iff in I. destruct I as [y [<- Y]]. rewrite Forall_forall in H1. specialize (H1 y Y). cbn [top]. lia.
Qed.

(** ---- the changed order of the variables ---- *)
Lemma upd_length {A} (l : list A) i a : length (upd_l l i a) = length l.
Proof. revert i. induction l as [|x l IH]; intros [|i]; cbn; congruence. Qed.
Lemma upd_nth {A} (d : A) : forall (l : list A) i j a, (i < length l)%nat -> nth j (upd_l l i a) d = if (i =? j)%nat then a else nth j l d.
Proof.
  induction l as [|x l IH]; intros i j a H; [cbn in H; lia|]. destruct i as [|i], j as [|j]; cbn [upd_l nth Nat.eqb]; try reflexivity. apply IH. cbn in H. lia.
Qed.
Definition order_step (vars : list chars) (acc : outcome (list chars)) (e : nat * nat) : outcome (list chars) :=
  let '(i, j) := e in obind acc (fun l => match nth_error vars j with Some v => if (i <? length l)%nat then Ret (upd_l l i v) else UB | None => UB end).
Lemma order_fold vars : forall o l, NoDup (map fst o) -> Forall (fun e => fst e < length vars /\ snd e < length vars)%nat o -> length l = length vars ->
  exists l', fold_left (order_step vars) o (Ret l) = Ret l' /\ length l' = length vars /\
  forall i, (i < length vars)%nat -> nth i l' [] = match find (fun e => Nat.eqb (fst e) i) o with Some e => nth (snd e) vars [] | None => nth i l [] end.
Proof.
  induction o as [|[i j] o IH]; intros l N F L; [exists l; auto|]. cbn [map fst] in N. inversion N as [|? ? N1 N2]; subst. inversion F as [|? ? [F1 F2] F3]; subst. cbn [fst snd] in *.
  cbn [fold_left order_step obind]. destruct (nth_error vars j) as [v|] eqn:Q; [|apply nth_error_None in Q; lia]. destruct (Nat.ltb_spec i (length l)) as [_|X]; [|lia].
  destruct (IH (upd_l l i v) N2 F3 ltac:(rewrite upd_length; exact L)) as [l' [A [B C]]]. exists l'. split; [exact A|]. split; [exact B|]. intros k K. rewrite (C k K). cbn [find fst].
  destruct (find (fun e => (fst e =? k)%nat) o) as [e|] eqn:Fe.
  - destruct (Nat.eqb_spec i k) as [->|]; [|reflexivity]. exfalso. apply N1. apply find_some in Fe. destruct Fe as [Fe1 Fe2]. apply Nat.eqb_eq in Fe2. rewrite <- Fe2. apply in_map. exact Fe1.
  - rewrite upd_nth by lia. destruct (Nat.eqb_spec i k) as [->|]; [|reflexivity]. cbn [snd]. symmetry. apply nth_error_nth. exact Q.
Qed.
Lemma image_lt n o i : order_ok n o -> (i < n)%nat -> (image o i < n)%nat.
Proof.
  intros [->|[_ [_ F]]] H; [exact H|]. unfold image. destruct (find (fun e => (fst e =? i)%nat) o) as [e|] eqn:Fe; [|exact H]. apply find_some in Fe. rewrite Forall_forall in F. apply F. apply Fe.
Qed.
Lemma vars_ordered_ok o vars : order_ok (length vars) o -> vars_ordered o vars = Ret (reorder [] o vars).
Proof.
  intros H. destruct o as [|e o0]; [reflexivity|]. destruct H as [H|[N [K F]]]; [discriminate|]. set (o := e :: o0) in *.
  assert (F' : Forall (fun e => fst e < length vars /\ snd e < length vars)%nat o).
  { rewrite Forall_forall in F. apply Forall_forall. intros x X. split; [apply K; apply in_map; exact X|apply F; exact X]. }
  destruct (order_fold vars o (map (fun _ => []) vars) N F' ltac:(apply map_length)) as [l [A [B C]]].
  change (vars_ordered o vars) with (fold_left (order_step vars) o (Ret (map (fun _ => []) vars))). rewrite A. f_equal.
  change (reorder [] o vars) with (map (fun i => nth (image o i) vars []) (seq 0 (length vars))).
  apply nth_ext with (d := []) (d' := []); [rewrite map_length, seq_length; exact B|]. intros i Hi. rewrite B in Hi. rewrite (C i Hi).
  rewrite (nth_indep (map (fun i => nth (image o i) vars []) (seq 0 (length vars))) [] (nth (image o 0) vars [])) by (rewrite map_length, seq_length; exact Hi).
  rewrite (map_nth (fun i => nth (image o i) vars [])), seq_nth by exact Hi. cbn [Nat.add].
  unfold image. destruct (find (fun e => (fst e =? i)%nat) o) as [x|] eqn:Fx; [reflexivity|].
  exfalso. apply K in Hi. apply in_map_iff in Hi. destruct Hi as [y [Y1 Y2]]. apply (find_none _ _ Fx) in Y2. apply Nat.eqb_neq in Y2. contradiction.
Qed.
Lemma reorder_in o vars (V : list chars) : order_ok (length vars) o -> Forall (fun v => In v V) vars -> Forall (fun v => In v V) (reorder [] o vars).
Proof.
  intros H F. unfold reorder. destruct o as [|e o0]; [exact F|]. apply Forall_forall. intros v Hv. apply in_map_iff in Hv. destruct Hv as [i [<- Hi]]. apply in_seq in Hi.
  rewrite Forall_forall in F. apply F. apply nth_In. apply image_lt; [exact H|lia].
Qed.
Lemma reorder_length {A} (d : A) o xs : length (reorder d o xs) = length xs.
Proof. unfold reorder. destruct o; [reflexivity|]. rewrite map_length, seq_length. reflexivity. Qed.
Lemma reorder_map o (vars : list chars) (f : chars -> Z) : order_ok (length vars) o -> map f (reorder [] o vars) = reorder 0 o (map f vars).
Proof.
  intros H. unfold reorder. destruct o as [|e o0]; [reflexivity|]. set (o := e :: o0) in *. rewrite map_map, map_length. apply map_ext_in. intros i Hi. apply in_seq in Hi.
  rewrite (nth_indep (map f vars) 0 (f [])); [symmetry; apply map_nth|]. rewrite map_length. apply image_lt; [exact H|lia].
Qed.

Record world := mk_world { wp : Z; wenv :> chars -> Z }.
Section Trees.
  Variable PS : Z -> Prop.          (* the primes *)
  Variable B : Z.                   (* bound of the exponents *)
  Variable V : list chars.          (* the declared names *)
  Variable strict : bool.           (* whether divisors must not be quotients in parentheses *)
  Hypothesis HPS : forall q, PS q -> prime q /\ B <= q - 1.
  Hypothesis HV : names_ok V.

  (** environments: canonical values for the names, residues for the numbers *)
  Definition E (env : world) : Prop := PS (wp env) /\ (forall v, In v V -> 0 <= env v < wp env) /\ (forall w, wf_num w -> ~ In w V -> env w = dec w mod wp env).
  Lemma E_pos env : E env -> 1 < wp env.
  Proof. intros [H _]. apply HPS in H. destruct H as [[H _] _]. exact H. Qed.
  Definition okF (t : factor) : Prop := wf_f t /\ (forall q, PS q -> ok_f q V t) /\ plain_f t /\ (strict = true -> nq_f t).
  Definition okT (t : term) : Prop := wf_t t /\ (forall q, PS q -> ok_t q V t) /\ plain_t t /\ (strict = true -> nq_t t).
  Definition okE (t : expr) : Prop := wf_e t /\ (forall q, PS q -> ok_e q V t) /\ plain_e t /\ (strict = true -> nq_e t) /\ lead_sign t = SNone.
  Definition FAC (s : chars) (f : world -> Z) : Prop := exists t, show_f t = s /\ okF t /\ forall env, E env -> den_f (wp env) env t = f env mod wp env.
  Definition TERM (s : chars) (f : world -> Z) : Prop := exists t, show_t t = s /\ okT t /\ forall env, E env -> den_t (wp env) env t = f env mod wp env.
  Definition EXPR (s : chars) (f : world -> Z) : Prop := exists t, show_e t = s /\ okE t /\ forall env, E env -> den_e (wp env) env t = f env mod wp env.

  Lemma FAC_eq s f s' g : FAC s f -> s = s' -> (forall env, E env -> f env mod wp env = g env mod wp env) -> FAC s' g.
  Proof. intros [t [A [C F]]] <- H. exists t. repeat (split; [assumption|]). intros env X. rewrite F, H; auto. Qed.
  Lemma TERM_eq s f s' g : TERM s f -> s = s' -> (forall env, E env -> f env mod wp env = g env mod wp env) -> TERM s' g.
  Proof. intros [t [A [C F]]] <- H. exists t. repeat (split; [assumption|]). intros env X. rewrite F, H; auto. Qed.
  Lemma EXPR_eq s f s' g : EXPR s f -> s = s' -> (forall env, E env -> f env mod wp env = g env mod wp env) -> EXPR s' g.
  Proof. intros [t [A [C F]]] <- H. exists t. repeat (split; [assumption|]). intros env X. rewrite F, H; auto. Qed.

  Lemma T_fac s f : FAC s f -> TERM s f.
  Proof. intros [t [A [C F]]]. exists (TFac t). split; [exact A|]. split; [exact C|exact F]. Qed.
  Lemma T_mul a f b g : TERM a f -> FAC b g -> TERM (a ++ lit "*" ++ b) (fun env => f env * g env).
  Proof.
    intros [t [A [[W [O [P N]]] F]]] [u [A' [[W' [O' [P' N']]] F']]]. exists (TMul t u). split; [cbn [show_t]; rewrite A, A'; reflexivity|].
    split; [split; [split; assumption|]; split; [intros q Q; split; [exact (O q Q)|exact (O' q Q)]|]; split; [split; assumption|intros Q; split; [exact (N Q)|exact (N' Q)]]|].
    intros env X. change (den_t (wp env) env (TMul t u)) with ((den_t (wp env) env t * den_f (wp env) env u) mod wp env). rewrite F, F' by assumption. rewrite <- Zmult_mod. reflexivity.
  Qed.
  Lemma T_div_tree t f u g : okT t -> okF u -> (strict = true -> (lone_t t && cst_f u && quot_f u)%bool = false) -> (forall env, E env -> den_t (wp env) env t = f env mod wp env) -> (forall env, E env -> den_f (wp env) env u = g env mod wp env) ->
    TERM (show_t t ++ lit "/" ++ show_f u) (fun env => f env * inv_p (wp env) (g env mod wp env)).
  Proof.
    intros [W [O [P N]]] [W' [O' [P' N']]] Q F F'. exists (TDiv t u). split; [reflexivity|].
    split; [split; [split; assumption|]; split; [intros q X; split; [exact (O q X)|exact (O' q X)]|]; split; [split; assumption|intros X; split; [exact (N X)|split; [exact (N' X)|exact (Q X)]]]|].
    intros env X. change (den_t (wp env) env (TDiv t u)) with ((den_t (wp env) env t * inv_p (wp env) (den_f (wp env) env u)) mod wp env). rewrite F, F' by assumption. rewrite Zmult_mod_idemp_l. reflexivity.
  Qed.
  Lemma T_div a f b g : strict = false -> TERM a f -> FAC b g -> TERM (a ++ lit "/" ++ b) (fun env => f env * inv_p (wp env) (g env mod wp env)).
  Proof.
    intros Q [t [A [C F]]] [u [A' [C' F']]]. rewrite <- A, <- A'. apply T_div_tree; try assumption. rewrite Q. discriminate.
  Qed.
  Lemma F_par s f : EXPR s f -> FAC (lit "(" ++ s ++ lit ")") f.
  Proof.
    intros [t [A [[W [O [P [N L]]]] F]]]. exists (Fac (Par t) XNone). split; [cbn [show_f show_b show_expo]; rewrite A, app_nil_r; reflexivity|].
    split; [split; [split; [exact W|exact I]|]; split; [intros q Q; split; [exact (O q Q)|exact I]|]; split; [exact P|exact N]|exact F].
  Qed.
  Lemma F_neg s f : TERM s f -> FAC (lit "(-" ++ s ++ lit ")") (fun env => - f env).
  Proof.
    intros [t [A [[W [O [P N]]] F]]]. exists (Fac (Par (ELead SMinus t)) XNone). split; [cbn [show_f show_b show_e show_expo]; rewrite A, app_nil_r; reflexivity|].
    split; [split; [split; [exact W|exact I]|]; split; [intros q Q; split; [exact (O q Q)|exact I]|]; split; [split; [exact I|exact P]|exact N]|].
    intros env X. change ((- den_t (wp env) env t) mod wp env = - f env mod wp env). rewrite F by assumption. rewrite <- !(Z.sub_0_l), Zminus_mod_idemp_r. reflexivity.
  Qed.
  Lemma E_term s f : TERM s f -> EXPR s f.
  Proof.
    intros [t [A [[W [O [P N]]] F]]]. exists (ELead SNone t). split; [exact A|].
    split; [split; [exact W|]; split; [exact O|]; split; [split; [exact I|exact P]|]; split; [exact N|reflexivity]|exact F].
  Qed.
  Lemma den_e_canon env : E env -> forall e, wf_e e -> ok_e (wp env) V e -> 0 <= den_e (wp env) env e < wp env.
  Proof.
    intros X. pose proof (E_pos env X) as P1. destruct X as [_ X]. set (p := wp env) in *.
    assert (Rx : forall x v, 0 <= v < p -> 0 <= den_x p v x < p) by (intros x v Hv; destruct x; cbn [den_x]; try exact Hv; apply Z.mod_pos_bound; lia).
    assert (Rw : forall w, ok_word V w -> 0 <= env w < p).
    { intros w [[I _]|[I1 [I2 _]]]; [apply X; exact I|]. rewrite (proj2 X w I1 I2). apply Z.mod_pos_bound. lia. }
    apply (expr_mut (fun b => wf_b b -> ok_b p V b -> 0 <= den_b p env b < p) (fun f => wf_f f -> ok_f p V f -> 0 <= den_f p env f < p)
      (fun t => wf_t t -> ok_t p V t -> 0 <= den_t p env t < p) (fun e => wf_e e -> ok_e p V e -> 0 <= den_e p env e < p)).
    - intros w _ O. apply Rw. exact O.
    - intros e H W O. exact (H W O).
    - intros b H x W O. destruct W, O. apply Rx. apply H; assumption.
    - intros f H W O. exact (H W O).
    - intros t H f H' W O. apply Z.mod_pos_bound. lia.
    - intros t H f H' W O. apply Z.mod_pos_bound. lia.
    - intros s t H W O. destruct s; try exact (H W O); apply Z.mod_pos_bound; lia.
    - intros e H o t H' W O. destruct o; apply Z.mod_pos_bound; lia.
  Qed.
  Lemma E_add_ex e f : (forall env, E env -> den_e (wp env) env e = f env mod wp env) -> okE e -> forall b, okE b ->
    exists t, show_e t = show_e e ++ lit "+" ++ show_e b /\ okE t /\ forall env, E env -> den_e (wp env) env t = (f env + den_e (wp env) env b) mod wp env.
  Proof.
    intros F [W [O [P [N L]]]] b. induction b as [s t|b IH o t]; intros [Wb [Ob [Pb [Nb Lb]]]].
    - cbn [lead_sign] in Lb. subst s. exists (EBin e OAdd t). split; [reflexivity|].
      split; [split; [split; assumption|]; split; [intros q Q; split; [exact (O q Q)|exact (Ob q Q)]|]; split; [split; [exact P|split; [exact I|apply Pb]]|]; split; [intros Q; split; [exact (N Q)|exact (Nb Q)]|exact L]|].
      intros env X. change ((den_e (wp env) env e + den_t (wp env) env t) mod wp env = (f env + den_t (wp env) env t) mod wp env). rewrite F by assumption. rewrite Zplus_mod_idemp_l. reflexivity.
    - destruct Wb as [Wb Wt]. destruct Pb as [Pb [Po Pt]].
      destruct IH as [u [A1 [[A2 [A3 [A4 [A5 A6]]]] A7]]]; [split; [exact Wb|]; split; [intros q Q; apply (Ob q Q)|]; split; [exact Pb|]; split; [intros Q; apply (Nb Q)|exact Lb]|].
      exists (EBin u o t). split; [cbn [show_e]; rewrite A1, <- !app_assoc; reflexivity|].
      split; [split; [split; assumption|]; split; [intros q Q; split; [exact (A3 q Q)|apply (Ob q Q)]|]; split; [split; [exact A4|split; assumption]|]; split; [intros Q; split; [exact (A5 Q)|apply (Nb Q)]|exact A6]|].
      intros env X. destruct o; try contradiction Po.
      + change ((den_e (wp env) env u + den_t (wp env) env t) mod wp env = (f env + (den_e (wp env) env b + den_t (wp env) env t) mod wp env) mod wp env). rewrite A7 by assumption.
        rewrite Zplus_mod_idemp_l, Zplus_mod_idemp_r. f_equal. lia.
      + change ((den_e (wp env) env u - den_t (wp env) env t) mod wp env = (f env + (den_e (wp env) env b - den_t (wp env) env t) mod wp env) mod wp env). rewrite A7 by assumption.
        rewrite Zminus_mod_idemp_l, Zplus_mod_idemp_r. f_equal. lia.
  Qed.
  Lemma E_add a f b g : EXPR a f -> EXPR b g -> EXPR (a ++ lit "+" ++ b) (fun env => f env + g env).
  Proof.
    intros [e [A [C F]]] [u [A' [C' F']]]. destruct (E_add_ex e f F C u C') as [t [T1 [T2 T3]]].
    exists t. rewrite <- A, <- A'. split; [exact T1|]. split; [exact T2|]. intros env X. rewrite T3, F', Zplus_mod_idemp_r by assumption. reflexivity.
  Qed.
  Lemma not_name w : wf_num w -> ~ In w V.
  Proof. intros W I. destruct HV as [H _]. rewrite Forall_forall in H. apply (H w I). exact W. Qed.
  Lemma print_nat_lit z : 0 <= z -> print z = print_abs z /\ literal V (print z) /\ dec (print z) = z.
  Proof.
    intros H. assert (X : print z = print_abs z) by (unfold print; destruct (Z.ltb_spec z 0); [lia|reflexivity]). split; [exact X|]. rewrite X.
    destruct (print_abs_ok z H) as [W [D Hd]]. split; [|exact D]. split; [exact W|]. split; [apply not_name; exact W|].
    destruct (ascii_dec (hd "0"%char (print_abs z)) "0"%char) as [Q|Q]; [|right; exact Q]. destruct (Hd Q) as [_ Q2]. left. rewrite Q2. cbn. lia.
  Qed.
  Lemma num_word w : wf_num w -> wf_word w.
  Proof.
    intros [N H]. split; [exact N|]. apply forallb_forall. intros c Hc. rewrite forallb_forall in H. unfold alnum. rewrite (H c Hc). apply orb_true_r.
  Qed.
  Lemma F_num_tree z : 0 <= z -> exists t, show_f t = print z /\ okF t /\ quot_f t = false /\ forall env, E env -> den_f (wp env) env t = z mod wp env.
  Proof.
    intros H. destruct (print_nat_lit z H) as [_ [L D]]. exists (Fac (Atom (print z)) XNone). split; [cbn [show_f show_b show_expo]; apply app_nil_r|].
    split; [split; [split; [apply num_word, L|exact I]|]; split; [intros q Q; split; [right; exact L|exact I]|]; split; [exact I|intros _; exact I]|]. split; [reflexivity|].
    intros env X. change (env (print z) = z mod wp env). rewrite (proj2 (proj2 X)); [rewrite D; reflexivity|apply L|apply L].
  Qed.
  Lemma F_num z : 0 <= z -> FAC (print z) (fun _ => z).
  Proof. intros H. destruct (F_num_tree z H) as [t [A [C [_ F]]]]. exists t. auto. Qed.
  Lemma T_div_num a f z : 0 <= z -> TERM a f -> TERM (a ++ lit "/" ++ print z) (fun env => f env * inv_p (wp env) (z mod wp env)).
  Proof.
    intros H [t [A [C F]]]. destruct (F_num_tree z H) as [u [A' [C' [Q F']]]]. rewrite <- A, <- A'. apply (T_div_tree t f u (fun _ => z) C C'); auto. intros _. rewrite Q. apply Bool.andb_false_r.
  Qed.
  Lemma var_word v : In v V -> wf_word v /\ ok_word V v.
  Proof. intros I. destruct HV as [H _]. rewrite Forall_forall in H. destruct (H v I) as [W [L _]]. split; [exact W|]. left. split; assumption. Qed.
  Lemma F_var v : In v V -> FAC v (fun env => env v).
  Proof.
    intros H. destruct (var_word v H) as [W O]. exists (Fac (Atom v) XNone). split; [cbn [show_f show_b show_expo]; apply app_nil_r|].
    split; [split; [split; [exact W|exact I]|]; split; [intros q Q; split; [exact O|exact I]|]; split; [exact I|intros _; exact I]|]. intros env X. change (env v = env v mod wp env). symmetry. apply Z.mod_small. apply X. exact H.
  Qed.
  Lemma F_pow v h : In v V -> 0 <= h < B -> FAC (v ++ lit "^" ++ print h) (fun env => env v ^ h).
  Proof.
    intros H Hh. destruct (var_word v H) as [W O]. destruct (print_nat_lit h ltac:(lia)) as [_ [L D]]. exists (Fac (Atom v) (XPow (print h))). split; [reflexivity|].
    split; [split; [split; [exact W|apply L]|]; split; [intros q Q; split; [exact O|split; [exact L|rewrite D; apply HPS in Q; lia]]|]; split; [exact I|intros _; exact I]|].
    intros env X. change (env v ^ dec (print h) mod wp env = env v ^ h mod wp env). rewrite D. reflexivity.
  Qed.
  Lemma F_powstr v h : In v V -> 0 <= h < B -> FAC (v ++ pow_str h) (fun env => env v ^ h).
  Proof.
    intros H Hh. unfold pow_str. destruct (Z.eqb_spec h 1) as [->|N]; [|apply F_pow; assumption]. rewrite app_nil_r.
    apply (FAC_eq _ _ _ _ (F_var v H) eq_refl). intros env _. rewrite Z.pow_1_r. reflexivity.
  Qed.

  (** ---- coefficients ---- *)
  Lemma inv_one p : 1 < p -> inv_p p (1 mod p) = 1.
  Proof. intros P1. rewrite (Z.mod_small 1 p) by lia. unfold inv_p. cbn [Z.eqb]. rewrite Z.pow_1_l by lia. apply Z.mod_small. lia. Qed.
  Lemma rn_term r : rn_ok r -> TERM (rn_string r) (fun env => rn_val (wp env) r).
  Proof.
    intros [D G]. unfold rn_string, rn_val. destruct (Z.eqb_spec (den r) 1) as [E1|E1].
    - assert (V1 : forall env, E env -> num r * inv_p (wp env) (den r mod wp env) = num r) by (intros env X; rewrite E1, inv_one by (apply E_pos; exact X); lia). destruct (Z.ltb_spec (num r) 1) as [L|L].
      + destruct (Z.eq_dec (num r) 0) as [Z0|Z0].
        * rewrite Z0. apply T_fac, F_par, E_term, T_fac. apply (FAC_eq _ _ _ _ (F_num 0 ltac:(lia)) eq_refl). reflexivity.
        * apply (TERM_eq _ _ _ _ (T_fac _ _ (F_neg _ _ (T_fac _ _ (F_num (- num r) ltac:(lia)))))); [|intros env X; rewrite (V1 env X); f_equal; lia].
          unfold print. destruct (Z.ltb_spec (num r) 0) as [Q|Q]; [|lia]. destruct (Z.ltb_spec (- num r) 0); [lia|]. reflexivity.
      + apply T_fac. apply (FAC_eq _ _ _ _ (F_num (num r) ltac:(lia)) eq_refl). intros env X. rewrite (V1 env X). reflexivity.
    - destruct (Z.ltb_spec (num r) 1) as [L|L].
      + destruct (Z.eq_dec (num r) 0) as [Z0|Z0].
        * rewrite Z0 in *. apply T_fac. apply (F_par _ _ (E_term _ _ (T_div_num _ _ (den r) ltac:(lia) (T_fac _ _ (F_num 0 ltac:(lia)))))).
        * apply (TERM_eq _ _ _ _ (T_fac _ _ (F_neg _ _ (T_div_num _ _ (den r) ltac:(lia) (T_fac _ _ (F_num (- num r) ltac:(lia))))))); [|intros; f_equal; lia].
          unfold print at 3. destruct (Z.ltb_spec (num r) 0) as [Q|Q]; [|lia]. unfold print at 1. destruct (Z.ltb_spec (- num r) 0); [lia|]. cbn [app list_ascii_of_string]. rewrite <- !app_assoc. reflexivity.
      + apply (T_div_num _ _ (den r) ltac:(lia) (T_fac _ _ (F_num (num r) ltac:(lia)))).
  Qed.

  (** ---- sums of monomials ---- *)
  Section Coefs.
    Context {C : Type} (cs : C -> chars) (one : C -> bool) (cv : Z -> C -> Z) (okc : C -> Prop).
    Hypothesis Hc : forall c, okc c -> TERM (cs c) (fun env => cv (wp env) c).
    Hypothesis H1 : forall c, okc c -> one c = true -> forall p, PS p -> cv p c = 1.
    Variable b : Z.
    Hypothesis Hb : b < B.

    Lemma powers_after e : forall vars, (length e <= length vars)%nat -> Forall (fun v => In v V) vars -> Forall (fun z => 0 <= z <= b) e ->
      exists r, power_pieces vars e = Ret r /\ forall s f, TERM s f -> exists t, s ++ lit "*" ++ r = t ++ lit "*" /\ TERM t (fun env => f env * mono_val e (map env vars)).
    Proof.
      induction e as [|z e IH]; intros vars L I Z.
      - exists []. split; [reflexivity|]. intros s f T. exists s. split; [rewrite app_nil_r; reflexivity|]. apply (TERM_eq _ _ _ _ T eq_refl). intros; cbn [mono_val]. f_equal. lia.
      - destruct vars as [|v vars]; [cbn in L; lia|]. inversion I as [|? ? I1 I2]; subst. inversion Z as [|? ? Z1 Z2]; subst. cbn [length] in L.
        destruct (IH vars ltac:(lia) I2 Z2) as [r [R IHr]]. cbn [power_pieces tl]. destruct (Z.eqb_spec z 0) as [->|N].
        + exists r. split; [exact R|]. intros s f T. destruct (IHr s f T) as [t [T1 T2]]. exists t. split; [exact T1|]. apply (TERM_eq _ _ _ _ T2 eq_refl). intros; cbn [map mono_val]. rewrite Z.pow_0_r. f_equal. lia.
        + rewrite R. cbn [obind]. eexists. split; [reflexivity|]. intros s f T.
          assert (T' : TERM (s ++ lit "*" ++ v ++ pow_str z) (fun env => f env * env v ^ z)) by (apply (T_mul _ _ _ _ T); apply F_powstr; [exact I1|lia]).
          destruct (IHr _ _ T') as [t [T1 T2]]. exists t. split.
          * rewrite <- T1. unfold pow_str. destruct (Z.eqb_spec z 1) as [->|N1]; [cbn [Z.ltb Z.compare Pos.compare Pos.compare_cont]|destruct (Z.ltb_spec 1 z); [|lia]];
              cbn [app list_ascii_of_string]; rewrite <- ?app_assoc; cbn [app]; rewrite <- ?app_assoc; reflexivity.
          * apply (TERM_eq _ _ _ _ T2 eq_refl). intros; cbn [map mono_val]. f_equal. ring.
    Qed.
    Lemma powers_alone e : forall vars, (length e <= length vars)%nat -> Forall (fun v => In v V) vars -> Forall (fun z => 0 <= z <= b) e -> Exists (fun z => z <> 0) e ->
      exists t, power_pieces vars e = Ret (t ++ lit "*") /\ TERM t (fun env => mono_val e (map env vars)).
    Proof.
      induction e as [|z e IH]; intros vars L I Z X; [inversion X|].
      destruct vars as [|v vars]; [cbn in L; lia|]. inversion I as [|? ? I1 I2]; subst. inversion Z as [|? ? Z1 Z2]; subst. cbn [length] in L.
      cbn [power_pieces tl]. destruct (Z.eqb_spec z 0) as [->|N].
      - destruct (IH vars ltac:(lia) I2 Z2) as [t [R T]]; [inversion X; [congruence|assumption]|]. exists t. split; [exact R|]. apply (TERM_eq _ _ _ _ T eq_refl). intros; cbn [map mono_val]. rewrite Z.pow_0_r. f_equal. lia.
      - destruct (powers_after e vars ltac:(lia) I2 Z2) as [r [R IHr]]. rewrite R. cbn [obind].
        destruct (IHr _ _ (T_fac _ _ (F_powstr v z I1 ltac:(lia)))) as [t [T1 T2]]. exists t. split; [|exact T2]. f_equal. rewrite <- T1.
        unfold pow_str. destruct (Z.eqb_spec z 1) as [->|N1]; [cbn [Z.ltb Z.compare Pos.compare Pos.compare_cont]|destruct (Z.ltb_spec 1 z); [|lia]];
          cbn [app list_ascii_of_string]; rewrite <- ?app_assoc; cbn [app]; rewrite <- ?app_assoc; reflexivity.
    Qed.
    Lemma mono_ok m vars : okc (snd m) -> (length (fst m) <= length vars)%nat -> Forall (fun v => In v V) vars -> Forall (fun z => 0 <= z <= b) (fst m) ->
      exists t, mono_pieces cs one vars m = Ret (t ++ lit "*") /\ TERM t (fun env => cv (wp env) (snd m) * mono_val (fst m) (map env vars)).
    Proof.
      intros O L I Z. unfold mono_pieces. destruct (powers_after _ vars L I Z) as [r [R A]]. rewrite R. cbn [obind].
      assert (Sh : exists t, cs (snd m) ++ lit "*" ++ r = t ++ lit "*" /\ TERM t (fun env => cv (wp env) (snd m) * mono_val (fst m) (map env vars))) by (apply A; apply Hc; exact O).
      destruct (Z.eqb_spec (wrap32 (fold_left Z.add (fst m) 0)) 0) as [D|D]; cbn [negb andb].
      - destruct Sh as [t [T1 T2]]. exists t. split; [rewrite <- T1; rewrite <- app_assoc; reflexivity|exact T2].
      - destruct (one (snd m)) eqn:O1; cbn [negb].
        + destruct (powers_alone _ vars L I Z) as [t [R2 T]].
          { apply Exists_Forall_neg; [intros x; destruct (Z.eq_dec x 0); tauto|]. intros F. apply D. replace (fold_left Z.add (fst m) 0) with 0; [reflexivity|].
            clear - F. induction (fst m) as [|z l IH]; [reflexivity|]. inversion F as [|? ? F1 F2]. cbn [fold_left]. destruct (Z.eq_dec z 0) as [->|]; [|tauto]. apply IH. exact F2. }
          exists t. split; [cbn [app]; congruence|]. apply (TERM_eq _ _ _ _ T eq_refl). intros env X. rewrite (H1 _ O O1) by apply X. f_equal. lia.
        + destruct Sh as [t [T1 T2]]. exists t. split; [rewrite <- T1; rewrite <- app_assoc; reflexivity|exact T2].
    Qed.
    Definition entry_ok (n : nat) (m : list Z * C) : Prop := okc (snd m) /\ (length (fst m) <= n)%nat /\ Forall (fun z => 0 <= z <= b) (fst m).
    Lemma removelast_star (a : chars) : removelast (a ++ lit "*") = a.
    Proof. apply removelast_last. Qed.
    Lemma removelast_plus (a : chars) : removelast (a ++ lit "+") = a.
    Proof. apply removelast_last. Qed.
    Lemma monos_after vars : Forall (fun v => In v V) vars -> forall ms a f, Forall (entry_ok (length vars)) ms -> EXPR a f ->
      exists a', monos_string cs one vars (a ++ lit "+") ms = Ret (a' ++ lit "+") /\ EXPR a' (fun env => f env + poly_val (cv (wp env)) ms (map env vars)).
    Proof.
      intros I. induction ms as [|m ms IH]; intros a f F X.
      - exists a. split; [reflexivity|]. apply (EXPR_eq _ _ _ _ X eq_refl). intros; unfold poly_val; cbn [fold_right]. f_equal. lia.
      - inversion F as [|? ? [F1 [F2 F3]] F4]; subst. destruct (mono_ok m vars F1 F2 I F3) as [t [T1 T2]]. cbn [monos_string]. rewrite T1. cbn [obind].
        rewrite !app_assoc, removelast_star.
        destruct (IH _ _ F4 (E_add _ _ _ _ X (E_term _ _ T2))) as [a' [A1 A2]]. exists a'. split; [rewrite <- A1, <- !app_assoc; reflexivity|]. apply (EXPR_eq _ _ _ _ A2 eq_refl). intros; unfold poly_val; cbn [fold_right]. f_equal. ring.
    Qed.
    Lemma monos_ok vars ms : Forall (fun v => In v V) vars -> Forall (entry_ok (length vars)) ms -> ms <> [] ->
      exists a, obind (monos_string cs one vars [] ms) (fun s => Ret (removelast s)) = Ret a /\ EXPR a (fun env => poly_val (cv (wp env)) ms (map env vars)).
    Proof.
      intros I F N. destruct ms as [|m ms]; [congruence|]. inversion F as [|? ? [F1 [F2 F3]] F4]; subst. destruct (mono_ok m vars F1 F2 I F3) as [t [T1 T2]]. cbn [monos_string]. rewrite T1. cbn [obind app].
      rewrite removelast_star. destruct (monos_after vars I ms _ _ F4 (E_term _ _ T2)) as [a [A1 A2]]. rewrite A1. cbn [obind]. rewrite removelast_plus. exists a. split; [reflexivity|].
      apply (EXPR_eq _ _ _ _ A2 eq_refl). intros; unfold poly_val; cbn [fold_right]. f_equal.
    Qed.
  End Coefs.

  (** ---- one level of a Horner form ---- *)
  Section OneLevel.
    Context {A : Type} (find : Z -> option A) (show : A -> chars) (var : chars) (val : A -> world -> Z).
    Hypothesis Hvar : In var V.
    Hypothesis Hshow : forall i a, find i = Some a -> EXPR (show a) (val a).
    Definition cval (i : Z) (env : world) : Z := match find i with Some a => val a env | None => 0 end.
    Definition hd0 (ds : list Z) : Z := match ds with [] => 0 | d :: _ => d end.
    Fixpoint desc (hi : Z) (ds : list Z) : Prop := match ds with [] => True | d :: r => 0 < d < hi /\ desc d r end.
    Lemma shown_ok i : has find i = true -> EXPR (shown find show i) (cval i).
    Proof.
      unfold has, shown, cval. destruct (find i) as [a|] eqn:X; [|discriminate]. intros _. apply (EXPR_eq _ _ _ _ (Hshow i a X) eq_refl). reflexivity.
    Qed.
    Variable max : Z.
    Hypothesis Hmax : 0 < max < B.
    Lemma step_ok T f g d h : TERM T f -> EXPR g d -> 0 <= h < B -> TERM (lit "(" ++ T ++ lit "+" ++ g ++ lit ")*" ++ var ++ pow_str h) (fun env => (f env + d env) * env var ^ h).
    Proof.
      intros HT Hg Hh. apply (TERM_eq _ _ _ _ (T_mul _ _ _ _ (T_fac _ _ (F_par _ _ (E_add _ _ _ _ (E_term _ _ HT) Hg))) (F_powstr var h Hvar Hh))); [|reflexivity].
      cbn [app list_ascii_of_string]. rewrite <- ?app_assoc. cbn [app]. rewrite <- ?app_assoc. reflexivity.
    Qed.
    Lemma sparse_rest first : forall ds hi T f, desc hi ds -> hi <= max -> Forall (fun d => has find d = true) ds -> TERM T f ->
      TERM (repeat "("%char (length ds) ++ T ++ sparse_loop find show var first max ds) (fun env => f env * env var ^ hd0 ds + sum_over ds (fun i => cval i env * env var ^ i)).
    Proof.
      induction ds as [|d ds IH]; intros hi T f D Hi F HT.
      - cbn [length repeat sparse_loop app]. rewrite app_nil_r. apply (TERM_eq _ _ _ _ HT eq_refl). intros; cbn [hd0 sum_over]. f_equal. rewrite Z.pow_0_r. lia.
      - destruct D as [D1 D2]. inversion F as [|? ? F1 F2]; subst.
        set (h := match ds with d' :: _ => d - d' | [] => d end).
        assert (Hh : h = d - hd0 ds) by (unfold h; destruct ds; cbn [hd0]; lia).
        assert (Hd : 0 <= hd0 ds < d) by (destruct ds as [|d' r]; cbn [hd0]; [lia|cbn [desc] in D2; lia]).
        pose proof (step_ok T f _ _ h HT (shown_ok d F1) ltac:(lia)) as S.
        apply (TERM_eq _ _ _ _ (IH d _ _ D2 ltac:(lia) F2 S)).
        + cbn [length repeat sparse_loop]. fold h. destruct (Z.eqb_spec d max); [lia|].
          rewrite repeat_cons. rewrite <- ?app_assoc. reflexivity.
        + intros env X. f_equal. cbn [hd0 sum_over]. replace (env var ^ d) with (env var ^ h * env var ^ hd0 ds) by (rewrite <- Z.pow_add_r by lia; f_equal; lia). ring.
    Qed.
    Lemma desc_down : forall k, desc (Z.of_nat k + 1) (down (Z.of_nat k)).
    Proof.
      induction k as [|k IH]; [exact I|]. unfold down in *. rewrite Nat2Z.id in *. cbn [seq map desc]. split; [lia|].
      rewrite <- seq_shift, map_map. replace (Z.of_nat (S k) - Z.of_nat 0) with (Z.of_nat k + 1) by lia.
      erewrite map_ext; [exact IH|]. intros a. cbn beta. lia.
    Qed.
    Lemma desc_weaken : forall ds a a', desc a ds -> a <= a' -> desc a' ds.
    Proof. intros [|d ds] a a' H L; [exact I|]. cbn [desc] in *. split; [lia|apply H]. Qed.
    Lemma desc_filter q : forall ds hi, desc hi ds -> desc hi (filter q ds).
    Proof.
      induction ds as [|d ds IH]; intros hi H; [exact I|]. destruct H as [H1 H2]. cbn [filter]. destruct (q d).
      - split; [exact H1|]. apply IH. exact H2.
      - apply (desc_weaken _ d); [apply IH; exact H2|lia].
    Qed.
    Lemma desc_lt : forall ds hi d, desc hi ds -> In d ds -> 0 < d < hi.
    Proof. induction ds as [|x ds IH]; intros hi d H I; [destruct I|]. destruct H as [H1 H2]. destruct I as [->|I]; [exact H1|]. specialize (IH _ _ H2 I). lia. Qed.
    Lemma down_cons m : 0 < m -> down m = m :: down (m - 1).
    Proof.
      intros H. unfold down. replace (Z.to_nat m) with (S (Z.to_nat (m - 1))) by lia. cbn [seq map]. rewrite <- seq_shift, map_map. f_equal; [lia|]. apply map_ext. intros; lia.
    Qed.
    Lemma flat_parens (ds : list Z) m : Forall (fun d => d < m) ds -> flat_map (fun i => if i =? m then [] else lit "(") ds = repeat "("%char (length ds).
    Proof.
      induction ds as [|d ds IH]; intros F; [reflexivity|]. inversion F as [|? ? F1 F2]; subst. cbn [flat_map length repeat]. destruct (Z.eqb_spec d m); [lia|]. rewrite IH by assumption. reflexivity.
    Qed.
    Lemma sum_filter (I : list Z) env x : sum_over (filter (has find) I) (fun i => cval i env * x ^ i) = sum_over I (fun i => cval i env * x ^ i).
    Proof.
      induction I as [|i I IH]; [reflexivity|]. cbn [filter]. destruct (has find i) eqn:H; cbn [sum_over]; rewrite IH; [reflexivity|].
      unfold cval at 2. unfold has in H. destruct (find i); [discriminate|]. lia.
    Qed.
    Lemma last_ok s f : EXPR s f -> EXPR (s ++ (if has find 0 then lit "+" ++ shown find show 0 else [])) (fun env => f env + cval 0 env).
    Proof.
      intros X. destruct (has find 0) eqn:H0.
      - apply (E_add _ _ _ _ X (shown_ok 0 H0)).
      - rewrite app_nil_r. apply (EXPR_eq _ _ _ _ X eq_refl). intros. f_equal. unfold cval. unfold has in H0. destruct (find 0); [discriminate|]. lia.
    Qed.
    Lemma sparse_ok first : has find max = true -> (forall h, 0 <= h < B -> TERM (first ++ pow_str h) (fun env => cval max env * env var ^ h)) ->
      EXPR (horner_sparse find show var first max) (fun env => sum_over (down max) (fun i => cval i env * env var ^ i) + cval 0 env).
    Proof.
      intros Hm Hf. unfold horner_sparse. destruct (Z.ltb_spec 0 max) as [_|]; [|lia]. rewrite app_assoc. apply last_ok.
      rewrite down_cons by lia. cbn [filter]. rewrite Hm. set (ds := filter (has find) (down (max - 1))).
      assert (Dd : desc max ds).
      { unfold ds. apply desc_filter. replace max with (Z.of_nat (Z.to_nat (max - 1)) + 1) at 1 by lia. replace (max - 1) with (Z.of_nat (Z.to_nat (max - 1))) at 2 by lia. apply desc_down. }
      cbn [flat_map]. rewrite Z.eqb_refl. cbn [app]. rewrite flat_parens by (apply Forall_forall; intros d I; apply (desc_lt _ _ _ Dd) in I; lia).
      cbn [sparse_loop]. rewrite Z.eqb_refl. set (h := match ds with d' :: _ => max - d' | [] => max end).
      assert (Hh : h = max - hd0 ds) by (unfold h; destruct ds; cbn [hd0]; lia).
      assert (Hd : 0 <= hd0 ds < max) by (destruct ds as [|d' r]; cbn [hd0]; [lia|cbn [desc] in Dd; lia]).
      assert (Ff : Forall (fun d => has find d = true) ds) by (apply Forall_forall; intros d I; apply filter_In in I; tauto).
      pose proof (sparse_rest first ds max _ _ Dd ltac:(lia) Ff (Hf h ltac:(lia))) as S.
      apply E_term. apply (TERM_eq _ _ _ _ S).
      - rewrite <- ?app_assoc. reflexivity.
      - intros env X. f_equal. cbn [sum_over]. unfold ds. rewrite sum_filter. fold ds. replace (env var ^ max) with (env var ^ h * env var ^ hd0 ds) by (rewrite <- Z.pow_add_r by lia; f_equal; lia). ring.
    Qed.
    Lemma dense_rest : forall k T f, Z.of_nat k < B -> TERM T f ->
      TERM (repeat "("%char k ++ T ++ flat_map (fun i => (if has find i then lit "+" ++ shown find show i else []) ++ lit ")*" ++ var) (down (Z.of_nat k)))
        (fun env => f env * env var ^ Z.of_nat k + sum_over (down (Z.of_nat k)) (fun i => cval i env * env var ^ i)).
    Proof.
      induction k as [|k IH]; intros T f L HT.
      - cbn [repeat app]. change (down (Z.of_nat 0)) with (@nil Z). cbn [flat_map]. rewrite app_nil_r. apply (TERM_eq _ _ _ _ HT eq_refl). intros; cbn [sum_over]. f_equal. rewrite Z.pow_0_r. lia.
      - rewrite down_cons by lia. replace (Z.of_nat (S k) - 1) with (Z.of_nat k) by lia. cbn [flat_map]. set (i := Z.of_nat (S k)).
        assert (S : TERM (lit "(" ++ T ++ (if has find i then lit "+" ++ shown find show i else []) ++ lit ")*" ++ var) (fun env => (f env + cval i env) * env var)).
        { destruct (has find i) eqn:H.
          - pose proof (step_ok T f _ _ 1 HT (shown_ok i H) ltac:(lia)) as S. apply (TERM_eq _ _ _ _ S).
            + unfold pow_str. cbn [Z.eqb Pos.eqb]. rewrite app_nil_r. rewrite <- ?app_assoc. reflexivity.
            + intros. rewrite Z.pow_1_r. reflexivity.
          - apply (TERM_eq _ _ _ _ (T_mul _ _ _ _ (T_fac _ _ (F_par _ _ (E_term _ _ HT))) (F_var var Hvar))).
            + cbn [app list_ascii_of_string]. rewrite <- ?app_assoc. reflexivity.
            + intros. f_equal. unfold cval. unfold has in H. destruct (find i); [discriminate|]. lia. }
        apply (TERM_eq _ _ _ _ (IH _ _ ltac:(lia) S)).
        + cbn [repeat]; rewrite repeat_cons. rewrite <- ?app_assoc. reflexivity.
        + intros env X. f_equal. cbn [sum_over]. unfold i. rewrite Nat2Z.inj_succ. unfold Z.succ. rewrite Z.pow_add_r, Z.pow_1_r by lia. ring.
    Qed.
    Lemma dense_ok first : TERM first (fun env => cval max env * env var) ->
      EXPR (horner_dense find show var first max) (fun env => sum_over (down max) (fun i => cval i env * env var ^ i) + cval 0 env).
    Proof.
      intros Hf. unfold horner_dense. destruct (Z.ltb_spec 0 max) as [_|]; [|lia]. rewrite !app_assoc. apply last_ok. rewrite <- ?app_assoc.
      rewrite down_cons by lia. cbn [tl]. pose proof (dense_rest (Z.to_nat (max - 1)) _ _ ltac:(lia) Hf) as S. apply E_term. rewrite Z2Nat.id in S by lia.
      apply (TERM_eq _ _ _ _ S eq_refl). intros env X. f_equal. cbn [sum_over]. replace (env var ^ max) with (env var * env var ^ (max - 1)) by (rewrite <- Z.pow_succ_r by lia; f_equal; lia). ring.
    Qed.
  End OneLevel.

  (** ---- Horner forms ---- *)
  Section HornerForms.
    Context {C : Type} (cs : C -> chars) (one : C -> bool) (cv : Z -> C -> Z) (okc : C -> Prop).
    Hypothesis Hc : forall c, okc c -> TERM (cs c) (fun env => cv (wp env) c).
    Hypothesis H1 : forall c, okc c -> one c = true -> forall p, PS p -> cv p c = 1.
    Variable b : Z.
    Hypothesis Hb : b < B.

    Lemma one_level_ok (dense : bool) (A : Type) (L : list (Z * A)) (show : A -> chars) (var first : chars) (val : A -> world -> Z) max amax :
      In var V -> (forall i a, In (i, a) L -> EXPR (show a) (val a)) -> NoDup (map fst L) -> (forall d, In d (map fst L) -> 0 <= d <= max) -> 0 <= max <= b ->
      afind L max = Some amax ->
      (dense = false -> forall h, 0 <= h < B -> TERM (first ++ pow_str h) (fun env => val amax env * env var ^ h)) ->
      (dense = true -> TERM first (fun env => val amax env * env var)) ->
      EXPR (if dense then horner_dense (afind L) show var first max else horner_sparse (afind L) show var first max) (fun env => sum_l (fun a => val a env) (env var) L).
    Proof.
      intros Iv Hs N Bd M Fm Fs Fd.
      assert (X : forall i a, afind L i = Some a -> EXPR (show a) (val a)) by (intros i a I; apply (Hs i); apply afind_in; exact I).
      destruct (Z.eq_dec max 0) as [->|Nz].
      - assert (Y : EXPR (shown (afind L) show 0) (fun env => sum_l (fun a => val a env) (env var) L)).
        { unfold shown. rewrite Fm. apply (EXPR_eq _ _ _ _ (X _ _ Fm) eq_refl). intros env _. rewrite <- (sum_degrees (fun a => val a env) (env var) 0 L N Bd). change (down 0) with (@nil Z). rewrite Fm. reflexivity. }
        unfold horner_dense, horner_sparse. cbn [Z.ltb Z.compare]. destruct dense; exact Y.
      - assert (Cv : forall env, sum_over (down max) (fun i => cval (afind L) val i env * env var ^ i) + cval (afind L) val 0 env = sum_l (fun a => val a env) (env var) L)
          by (intros env; rewrite <- (sum_degrees (fun a => val a env) (env var) max L N Bd); reflexivity).
        destruct dense.
        + refine (EXPR_eq _ _ _ _ (dense_ok (afind L) show var val Iv X max _ first _) eq_refl _); [lia| |intros env _; rewrite Cv; reflexivity].
          apply (TERM_eq _ _ _ _ (Fd eq_refl) eq_refl). intros env _. unfold cval. rewrite Fm. reflexivity.
        + refine (EXPR_eq _ _ _ _ (sparse_ok (afind L) show var val Iv X max _ first _ _) eq_refl _); [lia|unfold has; rewrite Fm; reflexivity| |intros env _; rewrite Cv; reflexivity].
          intros h Hh. apply (TERM_eq _ _ _ _ (Fs eq_refl h Hh) eq_refl). intros env _. unfold cval. rewrite Fm. reflexivity.
    Qed.
    Lemma mfind_level (dense : bool) var first max : forall m : pmap C, Forall (fun e => length (fst e) = 1%nat) m ->
      (if dense then horner_dense (mfind m) cs var first max else horner_sparse (mfind m) cs var first max) =
      (if dense then horner_dense (afind (flat1 m)) cs var first max else horner_sparse (afind (flat1 m)) cs var first max).
    Proof.
      intros m F. assert (X : forall i, mfind m i = afind (flat1 m) i) by (intros; apply mfind_flat; exact F).
      assert (Hh : forall i, has (mfind m) i = has (afind (flat1 m)) i) by (intros; unfold has; rewrite X; reflexivity).
      assert (Hs : forall i, shown (mfind m) cs i = shown (afind (flat1 m)) cs i) by (intros; unfold shown; rewrite X; reflexivity).
      destruct dense.
      - unfold horner_dense. rewrite Hh, Hs. destruct (0 <? max); [|reflexivity]. do 3 f_equal. apply flat_map_ext. intros i. rewrite Hh, Hs. reflexivity.
      - unfold horner_sparse. rewrite Hh, Hs. destruct (0 <? max); [|reflexivity].
        assert (Ff : filter (has (mfind m)) (down max) = filter (has (afind (flat1 m))) (down max)) by (apply filter_ext; exact Hh). rewrite Ff. cbv zeta. do 2 f_equal.
        generalize (filter (has (afind (flat1 m))) (down max)). induction l as [|d l IH]; [reflexivity|]. cbn [sparse_loop]. rewrite IH, Hs. reflexivity.
    Qed.
    Lemma keys_in {n} (m : pmap C) e : keys_ok n b m -> In e m -> length (fst e) = n /\ Forall (fun z => 0 <= z <= b) (fst e).
    Proof. intros [K _] I. rewrite Forall_forall in K. apply K. exact I. Qed.
    Lemma flat1_in (m : pmap C) i c : keys_ok 1 b m -> In (i, c) (flat1 m) -> In ([i], c) m /\ 0 <= i <= b.
    Proof.
      intros K I. apply in_map_iff in I. destruct I as [[k c'] [Q I]]. destruct (keys_in m _ K I) as [L Bd]. cbn [fst] in L, Bd. destruct k as [|z [|]]; try discriminate L. cbn in Q. injection Q as <- <-.
      split; [exact I|]. inversion Bd; assumption.
    Qed.
    Lemma keys_group k (m : pmap C) g : keys_ok (S (S k)) b m -> In g (groups m) -> keys_ok (S k) b (snd g) /\ 0 <= fst g <= b /\ snd g <> [].
    Proof.
      intros K I. pose proof K as [K1 K2]. assert (Ln : Forall (fun e => length (fst e) = S (S k)) m) by (eapply Forall_impl; [|exact K1]; intros a [A _]; exact A).
      destruct (groups_spec (cv 0) (S k) m Ln K2) as [G1 [G2 _]]. rewrite Forall_forall in G2. destruct (G2 g I) as [N [D M]].
      assert (X : forall e, In e (snd g) -> (length (fst e) = S k /\ Forall (fun z => 0 <= z <= b) (fst e)) /\ 0 <= fst g <= b).
      { intros e E. destruct (keys_in m _ K (M e E)) as [A Bd]. cbn [fst length] in A. injection A as A. inversion Bd; subst. split; [split; assumption|assumption]. }
      split; [split; [apply Forall_forall; intros e E; apply X; exact E|exact D]|]. split; [|exact N]. destruct (snd g) as [|e s]; [congruence|]. apply (X e). left; reflexivity.
    Qed.
    Lemma okc_group (m : pmap C) g : Forall (fun e => okc (snd e)) m -> Forall (group_ok m) (groups m) -> In g (groups m) -> Forall (fun e => okc (snd e)) (snd g).
    Proof.
      intros O G I. rewrite Forall_forall in G, O. destruct (G g I) as [_ [_ M]]. apply Forall_forall. intros e E. apply (O _ (M e E)).
    Qed.
    (** the part with the highest power, one variable: c*x^h, x^h, x*c *)
    Lemma first_sparse var c h : In var V -> okc c -> 0 <= h < B -> TERM ((if one c then var else cs c ++ lit "*" ++ var) ++ pow_str h) (fun env => cv (wp env) c * env var ^ h).
    Proof.
      intros Iv O Hh. destruct (one c) eqn:Q.
      - apply (TERM_eq _ _ _ _ (T_fac _ _ (F_powstr var h Iv Hh)) eq_refl). intros env X. rewrite (H1 c O Q) by apply X. f_equal. lia.
      - apply (TERM_eq _ _ _ _ (T_mul _ _ _ _ (Hc c O) (F_powstr var h Iv Hh))); [rewrite <- !app_assoc; reflexivity|reflexivity].
    Qed.
    Lemma group_first_sparse var s f h : In var V -> EXPR s f -> 0 <= h < B -> TERM ((lit "(" ++ s ++ lit ")*" ++ var) ++ pow_str h) (fun env => f env * env var ^ h).
    Proof.
      intros Iv X Hh. apply (TERM_eq _ _ _ _ (T_mul _ _ _ _ (T_fac _ _ (F_par _ _ X)) (F_powstr var h Iv Hh))); [|reflexivity].
      cbn [app list_ascii_of_string]. rewrite <- ?app_assoc. cbn [app]. rewrite <- ?app_assoc. reflexivity.
    Qed.
    Lemma horner_form_ok (dense : bool) (Hfac : dense = true -> forall c, okc c -> FAC (cs c) (fun env => cv (wp env) c)) : forall k vars (m : pmap C), m <> [] -> keys_ok k b m -> Forall (fun e => okc (snd e)) m -> (k <= length vars)%nat -> Forall (fun v => In v V) vars ->
      EXPR (if dense then horner_d cs one k vars m else horner_s cs one k vars m) (fun env => poly_val (cv (wp env)) m (map env vars)).
    Proof.
      induction k as [|k IH]; intros vars m N K O L Iv.
      - destruct m as [|[e c] m]; [congruence|]. pose proof (keys_in _ _ K (or_introl eq_refl)) as [Le _]. cbn [fst] in Le. destruct e; [|discriminate].
        assert (m = []) as ->.
        { destruct m as [|[e' c'] m]; [reflexivity|]. pose proof (keys_in _ _ K (or_intror (or_introl eq_refl))) as [Le' _]. cbn [fst] in Le'. destruct e'; [|discriminate].
          destruct K as [_ K]. cbn [map fst] in K. inversion K as [|? ? K1 _]; subst. destruct K1. left. reflexivity. }
        inversion O as [|? ? O1 _]; subst. cbn [snd] in O1.
        assert (Y : EXPR (cs c) (fun env => poly_val (cv (wp env)) [([], c)] (map env vars))).
        { apply (EXPR_eq _ _ _ _ (E_term _ _ (Hc c O1)) eq_refl). intros. unfold poly_val. cbn [fold_right fst snd mono_val]. f_equal. lia. }
        destruct dense; exact Y.
      - destruct vars as [|var vars]; [cbn in L; lia|]. inversion Iv as [|? ? Iv1 Iv2]; subst. cbn [length] in L.
        assert (Ln : Forall (fun e => length (fst e) = S k) m) by (destruct K as [K _]; eapply Forall_impl; [|exact K]; intros a [A _]; exact A).
        pose proof (proj2 K) as Nd. rewrite Forall_forall in O. destruct k as [|k].
        + assert (Fk : forall d, In d (map fst (flat1 m)) -> 0 <= d <= b).
          { intros d I. apply in_map_iff in I. destruct I as [[d' c] [<- I]]. apply (flat1_in m _ _ K I). }
          destruct (max_deg1_spec m b N Fk) as [M1 [M2 M3]]. destruct (afind_some _ _ M2) as [c Fc]. pose proof (flat1_in m _ _ K (afind_in _ _ _ Fc)) as [Ic _]. specialize (O _ Ic) as Oc. cbn [snd] in Oc.
          assert (Y : forall first, (dense = false -> forall h, 0 <= h < B -> TERM (first ++ pow_str h) (fun env => cv (wp env) c * env var ^ h)) -> (dense = true -> TERM first (fun env => cv (wp env) c * env var)) ->
            EXPR (if dense then horner_dense (mfind m) cs var first (max_deg1 m) else horner_sparse (mfind m) cs var first (max_deg1 m)) (fun env => poly_val (cv (wp env)) m (map env (var :: vars)))).
          { intros first F1 F2. rewrite mfind_level by exact Ln.
            refine (EXPR_eq _ _ _ _ (one_level_ok dense C (flat1 m) cs var first (fun c env => cv (wp env) c) (max_deg1 m) c Iv1 _ (flat1_nodup m Ln Nd) _ M1 Fc F1 F2) eq_refl _).
            - intros i a I. apply E_term, Hc. apply (flat1_in m _ _ K) in I. apply (O _ (proj1 I)).
            - intros d I. split; [apply Fk; exact I|apply M3; exact I].
            - intros env _. cbn [map]. rewrite <- (flat1_val (cv (wp env)) m (env var) (map env vars) Ln). reflexivity. }
          rewrite <- (mfind_flat m _ Ln) in Fc. destruct dense; cbn [horner_d horner_s hd]; rewrite Fc; (apply Y; [intros Q; try discriminate Q|intros Q; try discriminate Q]).
          * destruct (one c) eqn:Q1.
            -- apply (TERM_eq _ _ _ _ (T_fac _ _ (F_var var Iv1)) eq_refl). intros env X. rewrite (H1 c Oc Q1) by apply X. f_equal. lia.
            -- apply (TERM_eq _ _ _ _ (T_mul _ _ _ _ (T_fac _ _ (F_var var Iv1)) (Hfac eq_refl c Oc)) eq_refl). intros. f_equal. lia.
          * intros h Hh. apply first_sparse; assumption.
        + destruct (groups_spec (cv 0) (S k) m Ln Nd) as [G1 [G2 G3]]. pose proof (groups_not_nil m N) as Gn.
          assert (Hg : forall i s, In (i, s) (groups m) -> EXPR (if dense then horner_d cs one (S k) vars s else horner_s cs one (S k) vars s) (fun env => poly_val (cv (wp env)) s (map env vars))).
          { intros i s I. destruct (keys_group k m (i, s) K I) as [A [Bd D]]. apply IH; try assumption; [|lia]. apply (okc_group m (i, s)); [apply Forall_forall; exact O|exact G2|exact I]. }
          assert (Tk : In (top (groups m)) (map fst (groups m))) by (destruct (groups m) as [|[d s] g]; [congruence|left; reflexivity]).
          assert (Kb : forall d, In d (map fst (groups m)) -> 0 <= d <= b) by (intros d I; apply in_map_iff in I; destruct I as [y [<- Y]]; apply (keys_group k m y K Y)).
          set (h := fun s => if dense then horner_d cs one (S k) vars s else horner_s cs one (S k) vars s).
          set (L' := map (fun '(d, s) => (d, (h s, s))) (groups m)).
          assert (Kf : map fst L' = map fst (groups m)) by (unfold L'; rewrite map_map; apply map_ext; intros [d s]; reflexivity).
          destruct (afind_some _ _ Tk) as [s Fs].
          assert (Fs' : afind L' (top (groups m)) = Some (h s, s)) by (unfold L'; rewrite (afind_map (fun s => (h s, s))); rewrite Fs; reflexivity).
          assert (Xs : EXPR (h s) (fun env => poly_val (cv (wp env)) s (map env vars))) by (apply (Hg (top (groups m))); apply afind_in; exact Fs).
          pose proof (one_level_ok dense (chars * pmap C) L' fst var
            (if dense then var ++ lit "*(" ++ h s ++ lit ")" else lit "(" ++ h s ++ lit ")*" ++ var) (fun a env => poly_val (cv (wp env)) (snd a) (map env vars)) (top (groups m)) (h s, s) Iv1) as Y.
          assert (Y' := Y ltac:(intros i a I; unfold L' in I; apply in_map_iff in I; destruct I as [[d s'] [Q I]]; injection Q as <- <-; cbn [fst snd]; apply (Hg d); exact I)
            ltac:(rewrite Kf; apply gdesc_nodup; exact G1)
            ltac:(intros d I; rewrite Kf in I; split; [apply Kb; exact I|apply gdesc_top; assumption])
            ltac:(apply Kb; exact Tk) Fs'
            ltac:(intros ->; intros h0 Hh; apply (group_first_sparse var (h s) _ h0 Iv1 Xs Hh))
            ltac:(intros ->; apply (TERM_eq _ _ _ _ (T_mul _ _ _ _ (T_fac _ _ (F_var var Iv1)) (F_par _ _ Xs))); [reflexivity|intros; f_equal; cbn [snd]; lia])). clear Y.
          set (Lh := map (fun '(d, s) => (d, h s)) (groups m)).
          assert (Eh : forall i, afind Lh i = option_map fst (afind L' i)) by (intros i; unfold Lh, L'; rewrite (afind_map h), (afind_map (fun s => (h s, s))); destruct (afind (groups m) i); reflexivity).
          assert (Hh : forall i, has (afind Lh) i = has (afind L') i) by (intros; unfold has; rewrite Eh; destruct (afind L' i); reflexivity).
          assert (Hs : forall i, shown (afind Lh) (fun s => s) i = shown (afind L') fst i) by (intros; unfold shown; rewrite Eh; destruct (afind L' i); reflexivity).
          assert (Tt : top Lh = top (groups m)) by (unfold Lh; destruct (groups m) as [|[? ?] ?]; reflexivity).
          assert (Fh : afind Lh (top (groups m)) = Some (h s)) by (rewrite Eh, Fs'; reflexivity).
          refine (EXPR_eq _ _ _ _ Y' _ _).
          * subst h. cbv beta in *. destruct dense.
            -- change (horner_d cs one (S (S k)) (var :: vars) m) with (let g := Lh in let max := top g in horner_dense (afind g) (fun s => s) var (var ++ lit "*(" ++ match afind g max with Some s => s | None => [] end ++ lit ")") max).
               cbv zeta. rewrite Tt, Fh. unfold horner_dense. rewrite Hh, Hs. destruct (0 <? top (groups m)); [|reflexivity]. do 3 f_equal. apply flat_map_ext. intros i. rewrite Hh, Hs. reflexivity.
            -- change (horner_s cs one (S (S k)) (var :: vars) m) with (let g := Lh in let max := top g in horner_sparse (afind g) (fun s => s) var (lit "(" ++ match afind g max with Some s => s | None => [] end ++ lit ")*" ++ var) max).
               cbv zeta. rewrite Tt, Fh. unfold horner_sparse. rewrite Hh, Hs. destruct (0 <? top (groups m)); [|reflexivity].
               assert (Ff : filter (has (afind Lh)) (down (top (groups m))) = filter (has (afind L')) (down (top (groups m)))) by (apply filter_ext; exact Hh). rewrite Ff. cbv zeta. do 2 f_equal.
               generalize (filter (has (afind L')) (down (top (groups m)))). induction l as [|d l IHl]; [reflexivity|]. cbn [sparse_loop]. rewrite IHl, Hs. reflexivity.
          * intros env _. f_equal. cbn [map]. rewrite <- (proj2 (proj2 (groups_spec (cv (wp env)) (S k) m Ln Nd))). unfold L', sum_l. clear. induction (groups m) as [|[d s] g IH]; [reflexivity|]. cbn [map fold_right fst snd]. rewrite IH. reflexivity.
    Qed.
  End HornerForms.

  (** ---- class Polynomial ---- *)
  Variable b : Z.
  Hypothesis Hb : b < B.
  Lemma rn_one (c : rn) : rn_ok c -> rn_is_one c = true -> forall p, PS p -> rn_val p c = 1.
  Proof.
    intros _ H p Hp. unfold rn_is_one in H. apply andb_true_iff in H. destruct H as [H1 H2]. apply Z.eqb_eq in H1, H2. unfold rn_val. rewrite H1, H2.
    apply HPS in Hp. destruct Hp as [[Q _] _]. rewrite inv_one by exact Q. reflexivity.
  Qed.
  Lemma vars_c_ok n q vars : poly_ok n b q -> length vars = n -> Forall (fun v => In v V) vars ->
    exists vs, vars_c q vars = Ret vs /\ length vs = length vars /\ Forall (fun v => In v V) vs /\
    forall env : world, map env vs = if var_pos q =? -1 then map env vars else nth (Z.to_nat (var_pos q)) (map env vars) 0 :: tl (map env vars).
  Proof.
    intros [_ Hq] L I. unfold vars_c. destruct (Z.eqb_spec (var_pos q) (-1)) as [Q|Q].
    - exists vars. auto.
    - destruct Hq as [[X _]|[X _]]; [congruence|]. destruct vars as [|v0 vars]; [cbn in L; lia|]. assert (Lt : (Z.to_nat (var_pos q) < length (v0 :: vars))%nat) by lia.
      destruct (nth_error (v0 :: vars) (Z.to_nat (var_pos q))) as [v|] eqn:N; [|apply nth_error_None in N; lia].
      exists (v :: vars). split; [reflexivity|]. split; [reflexivity|]. split.
      + constructor; [|inversion I; assumption]. rewrite Forall_forall in I. apply I. apply nth_error_In in N. exact N.
      + intros env. cbn [map tl]. f_equal. symmetry. apply nth_error_nth. change (env v0 :: map env vars) with (map env (v0 :: vars)). rewrite nth_error_map, N. reflexivity.
  Qed.
  Lemma poly_keys n q : poly_ok n b q -> exists k, (k <= n)%nat /\ keys_ok k b (coefs q).
  Proof. intros [_ [[_ [_ K]]|[X K]]]; [exists n; split; [lia|exact K]|exists 1%nat; split; [lia|exact K]]. Qed.
  Lemma poly_string_ok n q vars : poly_ok n b q -> length vars = n -> Forall (fun v => In v V) vars ->
    exists s, poly_to_string q vars = Ret s /\ EXPR s (fun env => poly_at (wp env) q (map env vars)).
  Proof.
    intros Hq L I. destruct (vars_c_ok n q vars Hq L I) as [vs [E1 [E2 [E3 E4]]]]. unfold poly_to_string. destruct (coefs q) as [|e m] eqn:C.
    - exists (lit "0"). split; [reflexivity|]. refine (EXPR_eq _ _ _ _ (E_term _ _ (T_fac _ _ (F_num 0 ltac:(lia)))) eq_refl _). intros env _. unfold poly_at. rewrite C. reflexivity.
    - assert (X : negb (length vars =? pn q)%nat && (var_pos q =? -1) = false).
      { destruct Hq as [_ [[A [A2 _]]|[A _]]]; [rewrite A2, L, Nat.eqb_refl; reflexivity|]. destruct (Z.eqb_spec (var_pos q) (-1)); [lia|]. apply andb_false_r. }
      rewrite X, E1. cbn [obind]. rewrite <- C. destruct (poly_keys n q Hq) as [k [K1 [K2 _]]].
      destruct (monos_ok rn_string rn_is_one (fun p c => rn_val p c) rn_ok rn_term rn_one b Hb vs (coefs q) E3) as [s [S1 S2]].
      + destruct Hq as [Hr _]. rewrite Forall_forall in K2, Hr. apply Forall_forall. intros y Y. split; [exact (Hr y Y)|]. split; [rewrite (proj1 (K2 y Y)); lia|apply (K2 y Y)].
      + congruence.
      + exists s. split; [exact S1|]. apply (EXPR_eq _ _ _ _ S2 eq_refl). intros env _. unfold poly_at. rewrite (E4 env). reflexivity.
  Qed.
  Lemma emplace_nodup : forall (m acc : pmap rn), NoDup (map fst (acc ++ m)) -> fold_left emplace_m m acc = acc ++ m.
  Proof.
    induction m as [|e m IH]; intros acc N; [rewrite app_nil_r; reflexivity|]. cbn [fold_left].
    assert (X : emplace_m acc e = acc ++ [e]).
    { unfold emplace_m. destruct (existsb (fun x => keq (fst x) (fst e)) acc) eqn:Q; [|reflexivity]. exfalso. apply existsb_exists in Q. destruct Q as [x [X1 X2]].
      assert (K : forall a c, keq a c = true -> a = c).
      { clear. induction a as [|x a IH]; intros [|y c] H; try discriminate; [reflexivity|]. cbn [keq] in H. apply andb_true_iff in H. destruct H as [H1 H2]. apply Z.eqb_eq in H1. subst. f_equal. apply IH. exact H2. }
      apply K in X2. rewrite map_app in N. cbn [map] in N. apply NoDup_remove_2 in N. apply N. apply in_or_app. left. rewrite <- X2. apply in_map. exact X1. }
    rewrite X. rewrite IH; rewrite <- app_assoc; [reflexivity|exact N].
  Qed.
  Lemma horner_rn_ok k (m : pmap rn) vars : keys_ok k b m -> Forall (fun e => rn_ok (snd e)) m -> (k <= length vars)%nat -> Forall (fun v => In v V) vars ->
    EXPR (generate_horner_rn m vars) (fun env => poly_val (rn_val (wp env)) m (map env vars)).
  Proof.
    intros K O L I. destruct m as [|e m0]; [refine (EXPR_eq _ _ _ _ (E_term _ _ (T_fac _ _ (F_num 0 ltac:(lia)))) eq_refl _); reflexivity|]. set (m := e :: m0) in *.
    assert (Kl : key_length m = k) by (unfold m, key_length; destruct e; destruct K as [K _]; inversion K as [|? ? [K1 _] _]; exact K1).
    change (generate_horner_rn m vars) with (horner_s rn_string rn_is_one (key_length m) vars m). rewrite Kl.
    refine (horner_form_ok rn_string rn_is_one (fun p c => rn_val p c) rn_ok rn_term rn_one b Hb false _ k vars m _ K O L I); discriminate.
  Qed.
  Lemma horner_mon_ok k (m : pmap rn) vars : keys_ok k b m -> Forall (fun e => rn_ok (snd e)) m -> (k <= length vars)%nat -> Forall (fun v => In v V) vars ->
    EXPR (generate_horner_mon m vars) (fun env => poly_val (rn_val (wp env)) m (map env vars)).
  Proof.
    intros K O L I. destruct m as [|e m0]; [refine (EXPR_eq _ _ _ _ (E_term _ _ (T_fac _ _ (F_num 0 ltac:(lia)))) eq_refl _); reflexivity|]. set (m := e :: m0) in *.
    change (generate_horner_mon m vars) with (generate_horner_rn (fold_left emplace_m m []) vars). rewrite emplace_nodup by (apply K). apply (horner_rn_ok k); assumption.
  Qed.
  Lemma poly_horner_ok n q vars : poly_ok n b q -> length vars = n -> Forall (fun v => In v V) vars ->
    exists s, poly_horner q vars = Ret s /\ EXPR s (fun env => poly_at (wp env) q (map env vars)).
  Proof.
    intros Hq L I. destruct (vars_c_ok n q vars Hq L I) as [vs [E1 [E2 [E3 E4]]]]. destruct (poly_keys n q Hq) as [k [K1 K2]]. unfold poly_horner. rewrite E1. cbn [obind]. eexists. split; [reflexivity|].
    refine (EXPR_eq _ _ _ _ (horner_mon_ok k (coefs q) vs K2 (proj1 Hq) _ E3) eq_refl _); [lia|]. intros env _. unfold poly_at. rewrite (E4 env). reflexivity.
  Qed.

  (** ---- class RationalFunction ---- *)
  (** a tree for u*t: the factor u is multiplied from the left *)
  Fixpoint premul (u : factor) (t : term) : term := match t with TFac f => TMul (TFac u) f | TMul t f => TMul (premul u t) f | TDiv t f => TDiv (premul u t) f end.
  Lemma premul_lone u t : lone_t (premul u t) = false.
  Proof. destruct t; reflexivity. Qed.
  Lemma premul_show u t : show_t (premul u t) = show_f u ++ lit "*" ++ show_t t.
  Proof. induction t as [f|t IH f|t IH f]; cbn [premul show_t]; rewrite ?IH, <- ?app_assoc; reflexivity. Qed.
  Lemma premul_ok u t : okF u -> okT t -> okT (premul u t).
  Proof.
    intros [U1 [U2 [U3 U4]]]. induction t as [f|t IH f|t IH f]; intros [W [O [P N]]].
    - split; [split; assumption|]. split; [intros q Q; split; [exact (U2 q Q)|exact (O q Q)]|]. split; [split; assumption|intros Q; split; [exact (U4 Q)|exact (N Q)]].
    - destruct IH as [A1 [B1 [C1 D1]]]; [split; [exact (proj1 W)|]; split; [intros q Q; apply (O q Q)|]; split; [exact (proj1 P)|intros Q; apply (N Q)]|].
      split; [split; [exact A1|exact (proj2 W)]|]. split; [intros q Q; split; [exact (B1 q Q)|apply (O q Q)]|]. split; [split; [exact C1|exact (proj2 P)]|intros Q; split; [exact (D1 Q)|apply (N Q)]].
    - destruct IH as [A1 [B1 [C1 D1]]]; [split; [exact (proj1 W)|]; split; [intros q Q; apply (O q Q)|]; split; [exact (proj1 P)|intros Q; apply (N Q)]|].
      split; [split; [exact A1|exact (proj2 W)]|]. split; [intros q Q; split; [exact (B1 q Q)|apply (O q Q)]|]. split; [split; [exact C1|exact (proj2 P)]|intros Q; split; [exact (D1 Q)|split; [apply (N Q)|rewrite premul_lone; reflexivity]]].
  Qed.
  Lemma premul_den q env u t : den_t q env (premul u t) mod q = (den_f q env u * den_t q env t) mod q.
  Proof.
    induction t as [f|t IH f|t IH f].
    - change (den_t q env (premul u (TFac f))) with ((den_f q env u * den_f q env f) mod q). rewrite Zmod_mod. reflexivity.
    - change (den_t q env (premul u (TMul t f))) with ((den_t q env (premul u t) * den_f q env f) mod q). change (den_t q env (TMul t f)) with ((den_t q env t * den_f q env f) mod q).
      rewrite Zmod_mod, Zmult_mod_idemp_r, <- Zmult_mod_idemp_l, IH, Zmult_mod_idemp_l. f_equal. ring.
    - change (den_t q env (premul u (TDiv t f))) with ((den_t q env (premul u t) * inv_p q (den_f q env f)) mod q). change (den_t q env (TDiv t f)) with ((den_t q env t * inv_p q (den_f q env f)) mod q).
      rewrite Zmod_mod, Zmult_mod_idemp_r, <- Zmult_mod_idemp_l, IH, Zmult_mod_idemp_l. f_equal. ring.
  Qed.
  Lemma T_premul t g u h : FAC u h -> TERM t g -> TERM (u ++ lit "*" ++ t) (fun env => h env * g env).
  Proof.
    intros [uf [U1 [U2 U3]]] [tt [T1 [T2 T3]]]. exists (premul uf tt). split; [rewrite premul_show, U1, T1; reflexivity|].
    pose proof (premul_ok _ _ U2 T2) as K. split; [exact K|]. intros env X.
    rewrite <- (Z.mod_small (den_t (wp env) env (premul uf tt)) (wp env)).
    - rewrite premul_den, U3, T3 by exact X. rewrite <- Zmult_mod. reflexivity.
    - apply (den_e_canon env X (ELead SNone (premul uf tt))); [exact (proj1 K)|apply (proj1 (proj2 K) _ (proj1 X))].
  Qed.
  Hypothesis Hns : strict = false.
  Section RF.
    Variable pr : poly -> list chars -> outcome chars.
    Variable n : nat.
    Hypothesis Hpr : forall q vars, poly_ok n b q -> length vars = n -> Forall (fun v => In v V) vars -> exists s, pr q vars = Ret s /\ EXPR s (fun env => poly_at (wp env) q (map env vars)).
    Lemma factor_strings_ok vars : length vars = n -> Forall (fun v => In v V) vars -> forall l, Forall (poly_ok n b) l ->
      exists r, factor_strings (fun q => pr q vars) l = Ret r /\ forall s f, EXPR s f ->
        TERM (r ++ lit "(" ++ s ++ lit ")") (fun env => fold_right (fun q acc => part_at (wp env) q (map env vars) * acc) 1 l * f env).
    Proof.
      intros L I. induction l as [|q l IH]; intros F.
      - exists []. split; [reflexivity|]. intros s f X. apply (TERM_eq _ _ _ _ (T_fac _ _ (F_par _ _ X)) eq_refl). intros; cbn [fold_right]. f_equal. lia.
      - inversion F as [|? ? F1 F2]; subst l0 x. destruct (IH F2) as [r [R1 R2]]. cbn [factor_strings]. destruct (coefs q) as [|e m] eqn:C.
        + exists r. split; [exact R1|]. intros s f X. apply (TERM_eq _ _ _ _ (R2 s f X) eq_refl). intros; cbn [fold_right]. unfold part_at at 2. rewrite C. f_equal. lia.
        + destruct (Hpr q vars F1 L I) as [sq [S1 S2]]. rewrite S1. cbn [obind]. rewrite R1. cbn [obind]. eexists. split; [reflexivity|]. intros s f X.
          apply (TERM_eq _ _ _ _ (T_premul _ _ _ _ (F_par _ _ S2) (R2 s f X))); [cbn [app list_ascii_of_string]; rewrite <- ?app_assoc; cbn [app]; rewrite <- ?app_assoc; reflexivity|].
          intros; cbn [fold_right]. unfold part_at at 2. rewrite C. f_equal. ring.
    Qed.
    Lemma ratfun_string_ok f vars : ratfun_ok n b f -> length vars = n -> Forall (fun v => In v V) vars ->
      exists s, ratfun_string pr f vars = Ret s /\ EXPR s (fun env => ratfun_val (wp env) f (map env vars)).
    Proof.
      intros [Hn [Hd [Hf Ho]]] L I. rewrite <- L in Ho. unfold ratfun_string. rewrite vars_ordered_ok by exact Ho. cbn [obind]. set (vo := reorder [] (order_map f) vars).
      assert (Lo : length vo = n) by (rewrite <- L; apply reorder_length). assert (Io : Forall (fun v => In v V) vo) by (apply reorder_in; assumption).
      assert (Mo : forall env : world, map env vo = reorder 0 (order_map f) (map env vars)) by (intros; apply reorder_map; exact Ho).
      destruct (Hpr (rnum f) vo Hn Lo Io) as [sn [N1 N2]].
      assert (D : exists sd, (match coefs (rden f) with [] => Ret (lit "1") | _ => pr (rden f) vo end) = Ret sd /\ EXPR sd (fun env => part_at (wp env) (rden f) (map env vo))).
      { unfold part_at. destruct (coefs (rden f)); [|apply Hpr; assumption]. exists (lit "1"). split; [reflexivity|]. apply E_term, T_fac. apply (F_num 1). lia. }
      destruct D as [sd [D1 D2]]. rewrite D1, N1. cbn [obind].
      destruct (factor_strings_ok vars L I (map fst (factors f))) as [fa [A1 A2]]; [apply Forall_map; eapply Forall_impl; [|exact Hf]; intros a [X _]; exact X|].
      destruct (factor_strings_ok vars L I (map snd (factors f))) as [fb [B1 B2]]; [apply Forall_map; eapply Forall_impl; [|exact Hf]; intros a [_ X]; exact X|].
      assert (Fm : forall (g : poly * poly -> poly) (env : world) l, fold_right (fun q acc => part_at (wp env) q (map env vars) * acc) 1 (map g l) = fold_right (fun fd acc => part_at (wp env) (g fd) (map env vars) * acc) 1 l).
      { intros g env l. induction l as [|x l IH]; [reflexivity|]. cbn [map fold_right]. rewrite IH. reflexivity. }
      destruct (factors f) as [|fd fs] eqn:Ef.
      - eexists. split; [reflexivity|]. refine (EXPR_eq _ _ _ _ (E_term _ _ (T_div _ _ _ _ Hns (T_fac _ _ (F_par _ _ N2)) (F_par _ _ D2))) _ _).
        + cbn [app list_ascii_of_string]. rewrite <- ?app_assoc. reflexivity.
        + intros env X. unfold ratfun_val. rewrite Ef. cbn [fold_right]. rewrite Mo. f_equal. rewrite !Z.mul_1_l. reflexivity.
      - rewrite <- Ef in *. rewrite A1, B1. cbn [obind]. eexists. split; [reflexivity|].
        refine (EXPR_eq _ _ _ _ (E_term _ _ (T_div _ _ _ _ Hns (T_fac _ _ (F_par _ _ (E_term _ _ (A2 _ _ N2)))) (F_par _ _ (E_term _ _ (B2 _ _ D2))))) _ _).
        + cbn [app list_ascii_of_string]. rewrite <- ?app_assoc. cbn [app]. rewrite <- ?app_assoc. reflexivity.
        + intros env X. unfold ratfun_val. rewrite !Fm, !Mo. reflexivity.
    Qed.
  End RF.
End Trees.

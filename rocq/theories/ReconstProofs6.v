(** The scheduler model: link to the specification, idle states, the main thread is never blocked *)
From Coq Require Import ZArith List Bool Arith Lia.
From Verif Require Import Machine FeedQueue Combi CombiProofs2 Reconst ReconstSpec ReconstProofs ReconstProofs2 ReconstProofs3 ReconstProofs4 ReconstProofs5.
Import ListNotations.
Local Open Scope nat_scope.
Lemma cnt_concat {A} i (f : A -> list nat) l : cnt i (concat (map f l)) = sumf (fun x => cnt i (f x)) l.
Proof. induction l as [|x l IH]; [reflexivity|]. cbn [map concat sumf]. rewrite cnt_app, IH. reflexivity. Qed.
Lemma len_concat {A} (l : list (list A)) : length (concat l) = sumf (@length A) l.
Proof. induction l as [|x l IH]; [reflexivity|]. cbn [concat sumf]. rewrite app_length, IH. reflexivity. Qed.
Lemma sum_split {A} (f g h : A -> nat) l : (forall x, f x = g x + h x) -> sumf f l = sumf g l + sumf h l.
Proof. intros E. induction l as [|x l IH]; [reflexivity|]. cbn. rewrite E, IH. lia. Qed.
Lemma everywhere_cnt s i : A_look s -> cnt i (everywhere s) = places s i.
Proof.
  intros L. unfold everywhere, places, ix. rewrite !cnt_app, !cnt_concat, (L i).
  rewrite (sum_split (fun x => cnt i (feed_bunch x)) (fun j => cnt i (map fst (held_feed j))) (fun j => cnt i (loop_ix j))).
  - unfold main_bunch, held_main. lia.
  - intros [b|b|l pts res k c]; cbn; unfold cnt; cbn; lia.
Qed.
Lemma visited_cv k i s : times_visited k i s = cv k i (visits s).
Proof. unfold times_visited, cv. induction (visits s) as [|x l IH]; [reflexivity|]. cbn [filter sumf]. destruct ((fst x =? k) && (snd x =? i)); cbn [length]; lia. Qed.
Lemma owed_sum js : owed_jobs js = sumf job_owed js.
Proof. induction js as [|[] js IH]; cbn; lia. Qed.
Lemma number_sum f s : number f s = sumf (fun r => bn (f r)) (recs s).
Proof. unfold number. induction (recs s) as [|r l IH]; [reflexivity|]. cbn [filter sumf]. destruct (f r); cbn [length bn]; lia. Qed.

Section Step.
Variable bb : nat -> point -> list Z.
Variables thr bs : Z.
Variable scan : bool.
Notation step := (sstep bb thr bs scan).
Notation run := (run bb thr bs scan).
Definition A_idle (s : st) : Prop := match main s with MLast => feeds s = [] /\ ijobs s = [] | MIdle | MStuck => feeds s = [] /\ ijobs s = [] /\ probes_queued s = 0%Z | _ => True end.
Lemma nth_nil {A} i : @nth_error A [] i = None.
Proof. destruct i; reflexivity. Qed.
Lemma A_idle_step e s s' : A_feed s -> A_int s -> A_queued s -> A_idle s -> step e s = Some s' -> A_idle s'.
Proof.
  intros AF AI AQ A H. unfold A_idle in *.
  assert (Z0 : (feed_jobs s =? 0)%Z && (interpolate_jobs s =? 0)%Z = true -> feeds s = [] /\ ijobs s = []).
  { intros E. apply andb_prop in E as [E1 E2]. apply Z.eqb_eq in E1, E2. unfold A_feed in AF. unfold A_int in AI. rewrite E1 in AF. rewrite E2 in AI. split; [destruct (feeds s); [reflexivity|cbn [length] in AF; lia]|destruct (ijobs s); [reflexivity|cbn [length] in AI; lia]]. }
  inv_step H; ss; try exact I; try (apply Z0; assumption).
  all: repeat match goal with E : main _ = _ |- _ => rewrite E in A |- * end; try exact I; try exact A.
  all: try (destruct A as [A1 A2]; apply Z.eqb_eq in Heqb; tauto).
  all: destruct (main s); try exact I; repeat match goal with X : _ /\ _ |- _ => destruct X end;
    repeat match goal with E : feeds _ = [] |- _ => rewrite E in * end; repeat match goal with E : ijobs _ = [] |- _ => rewrite E in * end; rewrite ?nth_nil in *; try discriminate; auto.
Qed.
Lemma reach_idle n s : sreach bb thr bs scan n s -> A_idle s.
Proof.
  induction 1 as [|s e s' R IH H]; [exact I|]. pose proof (reach_inv _ _ _ _ _ _ R) as V. apply (A_idle_step e s); [apply (v_feed _ _ _ V)|apply (v_int _ _ _ V)|apply (v_queued _ _ _ V)|exact IH|exact H].
Qed.
Lemma small_reach n s : sreach_small bb thr bs scan n s -> sreach bb thr bs scan n s /\ (Z.of_nat (length (requested s)) < two31)%Z.
Proof. induction 1 as [|s e s' R [IH _] H L]; [split; [constructor|reflexivity]|]. split; [apply (sreach_step _ _ _ _ _ s e); assumption|exact L]. Qed.
Lemma small_get n s : good_size thr bs -> sreach_small bb thr bs scan n s -> A_get s.
Proof.
  intros G. induction 1 as [|s e s' R IH H L]; [unfold A_get; cbn; lia|]. apply (A_get_step bb thr bs scan e s); [exact G|apply (small_reach _ _ R)|exact IH|exact H].
Qed.
Lemma run_app es : forall fs s s1, run es s = Some s1 -> run (es ++ fs) s = run fs s1.
Proof. induction es as [|e es IH]; intros fs s s1 H; cbn [ReconstSpec.run app] in *; [injection H as ->; reflexivity|]. destruct (step e s); [apply IH; exact H|discriminate]. Qed.
Lemma finish_some s i b : nth_error (computing s) i = Some b -> exists s', step (Finish i) s = Some s' /\ computing s' = del i (computing s) /\ computed s' <> [] /\ feeds s' = feeds s /\ ijobs s' = ijobs s /\ main s' = main s.
Proof.
  intros N. eexists. split; [cbn [sstep]; rewrite N; reflexivity|]. ss. repeat split. intros E. apply app_eq_nil in E as [_ E]. discriminate.
Qed.
Lemma get_some s : good_size thr bs -> (Z.of_nat (length (requested s)) < two31)%Z -> requested s <> [] -> pool_get s <> 0 ->
  exists s', step GetJob s = Some s' /\ computing s' <> [] /\ main s' = main s.
Proof.
  intros G L R P. destruct (pool_get s) as [|w] eqn:Pg; [elim (P eq_refl)|]. destruct (requested s) as [|x l] eqn:Rq; [elim (R eq_refl)|].
  destruct (bunch_in thr bs (Z.of_nat (length (x :: l))) G) as [b [E [I0 B0]]]; [split; [cbn [length]; lia|exact L]|]. eexists. split.
  - cbn [sstep]. rewrite Pg, Rq, E. assert (X : existsb (Z.eqb b) bunch_sizes = true) by (apply existsb_exists; exists b; split; [exact I0|apply Z.eqb_refl]). rewrite X. assert (Y : (b <=? Z.of_nat (length (x :: l)))%Z = true) by (apply Z.leb_le; lia). rewrite Y. reflexivity.
  - ss. split; [intros X; apply app_eq_nil in X as [_ X]; discriminate|reflexivity].
Qed.
Lemma owed_ex js : 0 < sumf job_owed js -> exists i k m ps w, nth_error js i = Some (IQueue k m ps (S w)).
Proof.
  induction js as [|j js IH]; cbn [sumf]; intros H; [lia|]. destruct (job_owed j) as [|w] eqn:E.
  - destruct IH as [i [k [m [ps [w W]]]]]; [lia|]. exists (S i), k, m, ps, w. exact W.
  - destruct j as [| | |k m ps o]; try discriminate. cbn in E. subst o. exists 0, k, m, ps, w. reflexivity.
Qed.
Definition can_get (s : st) : Prop := exists es s1 s2, forallb worker es = true /\ run es s = Some s1 /\ step MPop s1 = Some s2.
Lemma get_served n s : good_size thr bs -> sreach_small bb thr bs scan n s -> main s = MGet -> can_get s.
Proof.
  intros G R M. destruct (small_reach _ _ R) as [Rs L]. pose proof (reach_inv _ _ _ _ _ _ Rs) as V. pose proof (small_get _ _ G R) as Ag.
  pose proof (v_wait _ _ _ V) as W. unfold A_wait in W. rewrite M in W. pose proof (v_queued _ _ _ V) as Aq. unfold A_queued in Aq. rewrite M in Aq. cbn [got] in Aq.
  assert (P1 : forall t, main t = MGet -> computed t <> [] -> exists s2, step MPop t = Some s2) by (intros t Mt C; cbn [sstep]; rewrite Mt; destruct (computed t); [elim (C eq_refl)|eexists; reflexivity]).
  assert (P2 : forall t, main t = MGet -> computing t <> [] -> can_get t).
  { intros t Mt C. destruct (computing t) as [|b l] eqn:Cp; [elim (C eq_refl)|]. destruct (finish_some t 0 b ltac:(rewrite Cp; reflexivity)) as [t1 [St [_ [C1 [_ [_ M1]]]]]]. destruct (P1 t1) as [t2 T2]; [congruence|exact C1|].
    exists [Finish 0], t1, t2. cbn [ReconstSpec.run]. rewrite St. repeat split; assumption. }
  assert (P3 : forall t, main t = MGet -> (Z.of_nat (length (requested t)) < two31)%Z -> requested t <> [] -> pool_get t <> 0 -> can_get t).
  { intros t Mt Lt Rt Pt. destruct (get_some t G Lt Rt Pt) as [t1 [St [C1 M1]]]. destruct (P2 t1 ltac:(congruence) C1) as [es [u1 [u2 [E1 [E2 E3]]]]]. exists (GetJob :: es), u1, u2. cbn [ReconstSpec.run forallb worker]. rewrite St. repeat split; assumption. }
  destruct (computed s) as [|x l] eqn:C0.
  2: { destruct (P1 s M) as [s2 S2]; [congruence|]. exists [], s, s2. repeat split; assumption. }
  destruct (computing s) as [|x l] eqn:C1; [|apply P2; [exact M|congruence]].
  assert (Rq : requested s <> []) by (intros E; rewrite E in Aq; cbn in Aq; lia).
  destruct (Nat.eq_dec (pool_get s) 0) as [Pz|Pz]; [|apply P3; assumption].
  unfold A_get in Ag. rewrite M, Pz in Ag. cbn [main_owed] in Ag. assert (O : 0 < sumf job_owed (ijobs s)) by (destruct (requested s); [elim (Rq eq_refl)|cbn [length] in Ag; lia]).
  destruct (owed_ex _ O) as [i [k [m [ps [w Wn]]]]]. assert (St : step (ISubmit i) s = Some (set_ijob i (IQueue k m ps w) (set_pool_get (S (pool_get s)) s))) by (cbn [sstep]; rewrite Wn; reflexivity).
  destruct (P3 (set_ijob i (IQueue k m ps w) (set_pool_get (S (pool_get s)) s))) as [es [u1 [u2 [E1 [E2 E3]]]]]; [exact M|exact L|exact Rq|discriminate|]. exists (ISubmit i :: es), u1, u2. cbn [ReconstSpec.run forallb worker]. rewrite St. repeat split; assumption.
Qed.
Lemma finish_all m : forall s, length (computing s) = m -> exists es s', forallb worker es = true /\ run es s = Some s' /\ computing s' = [] /\ feeds s' = feeds s /\ ijobs s' = ijobs s /\ main s' = main s.
Proof.
  induction m as [|m IH]; intros s L; [exists [], s; repeat split; auto; destruct (computing s); [reflexivity|discriminate]|].
  destruct (computing s) as [|b l] eqn:C; [discriminate|]. destruct (finish_some s 0 b ltac:(rewrite C; reflexivity)) as [s1 [St [C1 [_ [F1 [J1 M1]]]]]]. destruct (IH s1) as [es [s' [E1 [E2 [E3 [E4 [E5 E6]]]]]]]; [rewrite C1, C; cbn in *; lia|].
  exists (Finish 0 :: es), s'. cbn [ReconstSpec.run forallb worker]. rewrite St. repeat split; auto; congruence.
Qed.
Lemma fresh_point (l : list point) : exists p, existsb (point_eqb p) l = false.
Proof.
  assert (H : exists m, forall p, In p l -> (fst p < m)%Z). { induction l as [|p l [m H]]; [exists 0%Z; intros p []|]. exists (Z.max m (fst p + 1)). intros q [<-|Hq]; [lia|]. specialize (H q Hq). lia. }
  destruct H as [m H]. exists (m, []). destruct (existsb (point_eqb (m, [])) l) eqn:E; [|reflexivity]. apply existsb_exists in E as [q [I0 E]]. apply point_eqb_eq in E. subst q. specialize (H _ I0). cbn in H. lia.
Qed.
Lemma main_moves n s : good_size thr bs -> sreach_small bb thr bs scan n s -> prime_it s < 299 -> main s <> MDone -> main s <> MStuck ->
  exists es s1 e s2, forallb worker es = true /\ run es s = Some s1 /\ worker e = false /\ step e s1 = Some s2 /\ main s2 <> main s.
Proof.
  intros G R P N1 N2. destruct (small_reach _ _ R) as [Rs L]. pose proof (reach_inv _ _ _ _ _ _ Rs) as V.
  assert (Now : forall e s2, worker e = false -> step e s = Some s2 -> main s2 <> main s -> exists es s1 e s2, forallb worker es = true /\ run es s = Some s1 /\ worker e = false /\ step e s1 = Some s2 /\ main s2 <> main s).
  { intros e s2 A1 A2 A3. exists [], s, e, s2. repeat split; assumption. }
  destruct (main s) as [ps w| |b|b|b| | | | | | | |] eqn:M; try (elim (N1 eq_refl)); try (elim (N2 eq_refl)).
  - destruct w as [|w].
    + destruct ps as [|p ps].
      * destruct (fresh_point (chosen s)) as [p Fp]. apply (Now (MChoose p) (set_main (MQueue [p] 0) (set_chosen (p :: chosen s) s))); [reflexivity|cbn [sstep]; rewrite M; unfold choose; rewrite Fp; reflexivity|discriminate].
      * eapply (Now (MInsert false)); [reflexivity|cbn [sstep]; rewrite M; reflexivity|ss; discriminate].
    + eapply (Now MSubmit); [reflexivity|cbn [sstep]; rewrite M; reflexivity|ss]. intros [= E]. lia.
  - destruct (get_served n s G R M) as [es [s1 [s2 [E1 [E2 E3]]]]]. exists es, s1, MPop, s2. repeat split; try assumption. cbn [sstep] in E3. destruct (main s1); try discriminate. destruct (computed s1); [discriminate|]. injection E3 as <-. ss. discriminate.
  - eapply (Now MDecr); [reflexivity|cbn [sstep]; rewrite M; reflexivity|ss; discriminate].
  - eapply (Now MIncr); [reflexivity|cbn [sstep]; rewrite M; reflexivity|ss; discriminate].
  - eapply (Now MRun); [reflexivity|cbn [sstep]; rewrite M; reflexivity|ss; discriminate].
  - destruct (step MStat s) as [s2|] eqn:E; cbn [sstep] in E; rewrite M in E.
    + apply (Now MStat s2); [reflexivity|cbn [sstep]; rewrite M; exact E|]. destruct (_ =? _); [injection E as <-; ss; discriminate|]. destruct (_ =? _); injection E as <-; ss; discriminate.
    + destruct (_ =? _); [discriminate|]. destruct (_ =? _); discriminate.
  - destruct (step MLookQ s) as [s2|] eqn:E; cbn [sstep] in E; rewrite M in E.
    + apply (Now MLookQ s2); [reflexivity|cbn [sstep]; rewrite M; exact E|]. destruct (_ =? _)%Z; injection E as <-; ss; discriminate.
    + destruct (_ =? _)%Z; discriminate.
  - destruct (drain bb thr bs scan (S (meas s)) s (Nat.lt_succ_diag_r _) V P) as [es [s1 [E1 [E2 [E3 [E4 [E5 E6]]]]]]].
    pose proof (reach_inv _ _ _ _ _ _ (run_reach _ _ _ _ n es s s1 Rs E2)) as V1. pose proof (v_feed _ _ _ V1) as F1. pose proof (v_int _ _ _ V1) as I1. unfold A_feed in F1. unfold A_int in I1. rewrite E3, E4, E5, M in *. cbn [length fed2 sumf] in *.
    exists es, s1, MWake, (set_main MLast s1). repeat split; try assumption; [cbn [sstep]; rewrite E5, F1, I1; reflexivity|ss; discriminate].
  - destruct (step MFinal s) as [s2|] eqn:E; cbn [sstep] in E; rewrite M in E.
    + apply (Now MFinal s2); [reflexivity|cbn [sstep]; rewrite M; exact E|]. destruct (_ =? _)%Z; injection E as <-; ss; discriminate.
    + destruct (_ =? _)%Z; discriminate.
  - destruct (step MEnd s) as [s2|] eqn:E; cbn [sstep] in E; rewrite M in E.
    + apply (Now MEnd s2); [reflexivity|cbn [sstep]; rewrite M; exact E|]. destruct (_ =? _); [injection E as <-; ss; discriminate|]. destruct (_ =? _); injection E as <-; ss; discriminate.
    + destruct (_ =? _); [discriminate|]. destruct (_ =? _); discriminate.
  - destruct (drain bb thr bs scan (S (meas s)) s (Nat.lt_succ_diag_r _) V P) as [es [s1 [E1 [E2 [E3 [E4 [E5 E6]]]]]]].
    destruct (finish_all _ s1 eq_refl) as [fs [s2 [G1 [G2 [G3 [G4 [G5 G6]]]]]]]. exists (es ++ fs), s2, MNext, (next_prime s2). rewrite forallb_app, E1, G1, (run_app _ fs _ _ E2). repeat split; try assumption.
    + cbn [sstep]. rewrite G6, E5, M, G4, E3, G5, E4, G3. reflexivity.
    + cbn. discriminate.
Qed.
End Step.

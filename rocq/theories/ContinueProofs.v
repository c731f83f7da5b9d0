(** Proofs for C55 *)
From Coq Require Import List Bool Arith Lia.
From Verif Require Import Machine Results Continue ContinueSpec.
Import ListNotations.
Open Scope nat_scope.

Lemma same_order_spec a b : same_order a b = true <-> a = b.
Proof. unfold same_order. destruct (list_eq_dec Nat.eq_dec a b); split; congruence. Qed.
Lemma ofind_put_same zo c l : ofind zo (oput zo c l) = Some c.
Proof. induction l as [|[z k] l IH]; cbn [oput ofind]; [rewrite (proj2 (same_order_spec zo zo) eq_refl); reflexivity|]. destruct (same_order z zo) eqn:E; cbn [ofind]; rewrite E; [reflexivity|exact IH]. Qed.
Lemma ofind_put_other zo z' c l : z' <> zo -> ofind z' (oput zo c l) = ofind z' l.
Proof.
  intros N. assert (F : same_order zo z' = false) by (destruct (same_order zo z') eqn:E; [apply same_order_spec in E; congruence|reflexivity]).
  induction l as [|[z k] l IH]; cbn [oput ofind]; [rewrite F; reflexivity|]. destruct (same_order z zo) eqn:E; cbn [ofind].
  - apply same_order_spec in E. subst z. rewrite F. reflexivity.
  - rewrite IH. reflexivity.
Qed.
Lemma ofind_put zo z' c l : ofind z' (oput zo c l) = if list_eq_dec Nat.eq_dec zo z' then Some c else ofind z' l.
Proof. destruct (list_eq_dec Nat.eq_dec zo z') as [->|N]; [apply ofind_put_same|apply ofind_put_other; congruence]. Qed.
Lemma started_app zo a b : started_for zo (a ++ b) = started_for zo a + started_for zo b.
Proof. induction a as [|[z c] a IH]; [reflexivity|]. cbn [app started_for fold_right fst snd]. fold (started_for zo (a ++ b)). fold (started_for zo a). rewrite IH. destruct (list_eq_dec Nat.eq_dec z zo); lia. Qed.

(** started_probes holds the numbers of queued probes, all positive *)
Definition tinv (s : att) : Prop := forall zo, match ofind zo (t_started s) with Some k => started_for zo (t_queued s) = k /\ 0 < k | None => started_for zo (t_queued s) = 0 end.
Lemma tinv_more zo count s : tinv s -> 0 < count -> tinv (queue_more zo (match ofind zo (t_started s) with Some k => k + count | None => count end) count s).
Proof.
  intros I H z. cbn [queue_more t_started t_queued]. rewrite ofind_put, started_app. cbn [started_for fold_right fst snd]. destruct (list_eq_dec Nat.eq_dec zo z) as [->|N].
  - specialize (I z). destruct (ofind z (t_started s)) as [k|]; lia.
  - specialize (I z). destruct (ofind z (t_started s)) as [k|]; lia.
Qed.
Lemma grows_more zo count total s z : started_for z (t_queued s) <= started_for z (t_queued (queue_more zo total count s)).
Proof. cbn [queue_more t_queued]. rewrite started_app. lia. Qed.
(** counters are not touched by starting probes *)
Definition same_counts (s s' : att) : Prop := t_done s' = t_done s /\ t_done2 s' = t_done2 s /\ t_new s' = t_new s /\ t_new2 s' = t_new2 s.

Section Attempt.
  Variables (n thr prime_it : nat) (safe_mode factor_scan : bool).
  Notation eo := (equal_order n factor_scan).
  Lemma needed_ok l : forall s, tinv s -> let s' := start_needed n factor_scan l s in tinv s' /\ same_counts s s' /\ (forall z, started_for z (t_queued s) <= started_for z (t_queued s')) /\
    (forall z c, In (z, c) l -> 0 < c -> c <= started_for (eo z) (t_queued s')) /\ (forall z, started_for z (t_queued s) < started_for z (t_queued s') -> exists y c, In (y, c) l /\ 0 < c /\ z = eo y).
  Proof.
    induction l as [|[z c] l IH]; intros s I; cbn [start_needed].
    - split; [exact I|]. split; [repeat split|]. split; [intros; lia|]. split; [intros ? ? []|intros; lia].
    - destruct (Nat.eqb_spec c 0) as [->|Nc].
      + destruct (IH s I) as [A [B [C [D E]]]]. split; [exact A|]. split; [exact B|]. split; [exact C|]. split; [intros y k [H|H] P; [injection H as _ H; lia|apply (D y k H P)]|]. intros y P. destruct (E y P) as [u [v [U V]]]. exists u, v. split; [right; exact U|exact V].
      + pose (t := match ofind (eo z) (t_started s) with Some k => if k <? c then queue_more (eo z) c (c - k) s else s | None => queue_more (eo z) c c s end).
        assert (T : tinv t /\ same_counts s t /\ (forall y, started_for y (t_queued s) <= started_for y (t_queued t)) /\ c <= started_for (eo z) (t_queued t) /\ (forall y, started_for y (t_queued s) < started_for y (t_queued t) -> y = eo z)).
        { assert (Grow : forall total count y, started_for y (t_queued s) < started_for y (t_queued (queue_more (eo z) total count s)) -> y = eo z).
          { intros total count y. cbn [queue_more t_queued]. rewrite started_app. cbn [started_for fold_right fst snd]. destruct (list_eq_dec Nat.eq_dec (eo z) y) as [E|E]; [intros _; congruence|lia]. }
          unfold t. pose proof (I (eo z)) as Iz. pose proof (fun q => tinv_more (eo z) q s I) as M. destruct (ofind (eo z) (t_started s)) as [k|] eqn:F.
          - destruct (Nat.ltb_spec k c) as [L|L].
            + specialize (M (c - k) ltac:(lia)). replace (k + (c - k)) with c in M by lia. split; [exact M|]. split; [repeat split|]. split; [apply grows_more|]. split; [|apply Grow]. specialize (M (eo z)). cbn [queue_more t_started] in M. rewrite ofind_put_same in M. destruct M as [M _]. cbn [queue_more t_queued] in *. lia.
            + split; [exact I|]. split; [repeat split|]. split; [intros; lia|]. split; [lia|intros; lia].
          - specialize (M c ltac:(lia)). split; [exact M|]. split; [repeat split|]. split; [apply grows_more|]. split; [|apply Grow]. specialize (M (eo z)). cbn [queue_more t_started] in M. rewrite ofind_put_same in M. destruct M as [M _]. cbn [queue_more t_queued] in *. lia. }
        assert (Q : match ofind (eo z) (t_started s) with Some k => start_needed n factor_scan l (if k <? c then queue_more (eo z) c (c - k) s else s) | None => start_needed n factor_scan l (queue_more (eo z) c c s) end = start_needed n factor_scan l t) by (unfold t; destruct (ofind (eo z) (t_started s)); reflexivity).
        rewrite Q. destruct T as [T1 [T2 [T3 [T4 T5]]]]. destruct (IH t T1) as [A [B [C [D E]]]]. split; [exact A|]. split; [unfold same_counts in *; intuition congruence|]. split; [intros y; specialize (T3 y); specialize (C y); lia|]. split.
        * intros y k [H|H] P; [injection H as <- <-; specialize (C (eo z)); lia|apply (D y k H P)].
        * intros y P. destruct (Nat.lt_ge_cases (started_for y (t_queued s)) (started_for y (t_queued t))) as [L|L]; [exists z, c; split; [left; reflexivity|split; [lia|apply T5; exact L]]|].
          destruct (E y ltac:(lia)) as [u [v [U V]]]. exists u, v. split; [right; exact U|exact V].
  Qed.
  Lemma orders_ok system l : forall s, tinv s -> Forall (fun zc => 0 < snd zc <= system) l -> let s' := start_orders system l s in tinv s' /\ same_counts s s' /\ (forall z, started_for z (t_queued s) <= started_for z (t_queued s')) /\
    (forall z c, In (z, c) l -> c <= started_for z (t_queued s')) /\ (forall z, started_for z (t_queued s) < started_for z (t_queued s') -> exists c, In (z, c) l).
  Proof.
    induction l as [|[z c] l IH]; intros s I F; cbn [start_orders].
    - split; [exact I|]. split; [repeat split|]. split; [intros; lia|]. split; [intros ? ? []|intros; lia].
    - apply Forall_cons_iff in F as [Fc F]. cbn [snd] in Fc.
      pose (t := match ofind z (t_started s) with Some k => if k <? system then queue_more z (k + Nat.min (system - k) c) (Nat.min (system - k) c) s else s | None => queue_more z c c s end).
      assert (T : tinv t /\ same_counts s t /\ (forall y, started_for y (t_queued s) <= started_for y (t_queued t)) /\ c <= started_for z (t_queued t) /\ (forall y, started_for y (t_queued s) < started_for y (t_queued t) -> y = z)).
      { assert (Grow : forall total count y, started_for y (t_queued s) < started_for y (t_queued (queue_more z total count s)) -> y = z).
        { intros total count y. cbn [queue_more t_queued]. rewrite started_app. cbn [started_for fold_right fst snd]. destruct (list_eq_dec Nat.eq_dec z y) as [E|E]; [intros _; congruence|lia]. }
        unfold t. pose proof (I z) as Iz. pose proof (fun q => tinv_more z q s I) as M. destruct (ofind z (t_started s)) as [k|] eqn:Fz.
        - destruct (Nat.ltb_spec k system) as [L|L].
          + specialize (M (Nat.min (system - k) c) ltac:(lia)). split; [exact M|]. split; [repeat split|]. split; [apply grows_more|]. split; [|apply Grow]. specialize (M z). cbn [queue_more t_started] in M. rewrite ofind_put_same in M. destruct M as [M _]. cbn [queue_more t_queued] in *. lia.
          + split; [exact I|]. split; [repeat split|]. split; [intros; lia|]. split; [lia|intros; lia].
        - specialize (M c ltac:(lia)). split; [exact M|]. split; [repeat split|]. split; [apply grows_more|]. split; [|apply Grow]. specialize (M z). cbn [queue_more t_started] in M. rewrite ofind_put_same in M. destruct M as [M _]. cbn [queue_more t_queued] in *. lia. }
      assert (Q : match ofind z (t_started s) with Some k => start_orders system l (if k <? system then queue_more z (k + Nat.min (system - k) c) (Nat.min (system - k) c) s else s) | None => start_orders system l (queue_more z c c s) end = start_orders system l t) by (unfold t; destruct (ofind z (t_started s)); reflexivity).
      rewrite Q. destruct T as [T1 [T2 [T3 [T4 T5]]]]. destruct (IH t T1 F) as [A [B [C [D E]]]]. split; [exact A|]. split; [unfold same_counts in *; intuition congruence|]. split; [intros y; specialize (T3 y); specialize (C y); lia|]. split.
      + intros y k [H|H]; [injection H as <- <-; specialize (C z); lia|apply (D y k H)].
      + intros y P. destruct (Nat.lt_ge_cases (started_for y (t_queued s)) (started_for y (t_queued t))) as [L|L]; [exists c; left; rewrite (T5 y L); reflexivity|].
        destruct (E y ltac:(lia)) as [u U]. exists u. right. exact U.
  Qed.
  Notation wants := (wants n prime_it safe_mode factor_scan).
  Notation later := (later_mode prime_it safe_mode).
  Lemma first_ok a s : 0 < thr -> later = false -> sensible factor_scan a -> tinv s -> exists s', start_first n thr prime_it safe_mode factor_scan a s = Ret s' /\ tinv s' /\ same_counts s s' /\ (forall z, started_for z (t_queued s) <= started_for z (t_queued s')) /\
    (forall z c, wants a z c -> c <= started_for z (t_queued s')) /\ (forall z, started_for z (t_queued s) < started_for z (t_queued s') -> exists c, wants a z c).
  Proof.
    intros Ht Lm [Sa Sf] I. unfold start_first. assert (B0 : (prime_it =? 0) || safe_mode = true) by (unfold later_mode in Lm; destruct safe_mode, (prime_it =? 0); try reflexivity; discriminate Lm). rewrite B0. cbn [andb].
    assert (W : forall z c, wants a z c <-> if factor_scan then exists k r, c_orders a = (z, k) :: r /\ c = 1 else (exists k, c_orders a = [(z, k)] /\ z = repeat 1 (n - 1) /\ c = 1) \/ (~ (exists k, c_orders a = [(repeat 1 (n - 1), k)]) /\ In (z, c) (c_orders a))) by (intros z c; unfold wants, ContinueSpec.wants; rewrite Lm; reflexivity).
    destruct (factor_scan || only_ones n (c_orders a)) eqn:Q.
    - assert (E : exists zo k r, c_orders a = (zo, k) :: r /\ (factor_scan = true \/ (r = [] /\ zo = repeat 1 (n - 1)))).
      { destruct factor_scan; [destruct (c_orders a) as [|[zo k] r] eqn:Ca; [exfalso; apply (Sf eq_refl); reflexivity|exists zo, k, r; split; [reflexivity|left; reflexivity]]|]. cbn [orb] in Q. unfold only_ones in Q. destruct (c_orders a) as [|[zo k] [|]]; try discriminate Q. apply same_order_spec in Q. exists zo, k, []. split; [reflexivity|right; split; [reflexivity|exact Q]]. }
      destruct E as [zo [k [r [E R]]]]. rewrite E. eexists. split; [reflexivity|]. pose proof (I zo) as Iz.
      assert (Wz : wants a zo 1). { apply W. destruct factor_scan; [exists k, r; split; [exact E|reflexivity]|]. left. destruct R as [R|[-> R]]; [discriminate R|]. exists k. split; [exact E|split; [exact R|reflexivity]]. }
      assert (Wo : forall z c, wants a z c -> z = zo /\ c = 1).
      { intros z c H. apply W in H. destruct factor_scan; [destruct H as [k' [r' [H ->]]]; rewrite E in H; injection H as -> _ _; split; reflexivity|]. destruct R as [R|[-> R]]; [discriminate R|]. destruct H as [[k' [H1 [_ ->]]]|[H _]]; [rewrite E in H1; injection H1 as <- _; split; reflexivity|exfalso; apply H; exists k; rewrite E, R; reflexivity]. }
      destruct (ofind zo (t_started s)) as [m|] eqn:Fz.
      + split; [exact I|]. split; [repeat split|]. split; [intros; lia|]. split; [|intros; lia]. intros z c H. destruct (Wo z c H) as [-> ->]. lia.
      + pose proof (tinv_more zo thr s I Ht) as M. rewrite Fz in M. split; [exact M|]. split; [repeat split|]. split; [apply grows_more|]. split.
        * intros z c H. destruct (Wo z c H) as [-> ->]. specialize (M zo). cbn [queue_more t_started] in M. rewrite ofind_put_same in M. cbn [queue_more t_queued] in *. lia.
        * intros z. cbn [queue_more t_queued]. rewrite started_app. cbn [started_for fold_right fst snd]. destruct (list_eq_dec Nat.eq_dec zo z) as [<-|]; [|lia]. intros _. exists 1. exact Wz.
    - apply orb_false_iff in Q as [Q1 Q2]. destruct factor_scan; [discriminate Q1|]. eexists. split; [reflexivity|]. destruct (orders_ok (c_system a) (c_orders a) s I Sa) as [A [B [C [D E]]]]. split; [exact A|]. split; [exact B|]. split; [exact C|].
      assert (No : ~ exists k, c_orders a = [(repeat 1 (n - 1), k)]). { intros [k K]. unfold only_ones in Q2. rewrite K in Q2. rewrite (proj2 (same_order_spec _ _) eq_refl) in Q2. discriminate Q2. }
      split.
      + intros z c H. apply W in H. destruct H as [[k [H1 [H2 _]]]|[_ H]]; [exfalso; apply No; exists k; rewrite H1, H2; reflexivity|apply D; exact H].
      + intros z H. destruct (E z H) as [c Hc]. exists c. apply W. right. split; assumption.
  Qed.
  Notation ready := (ready prime_it). Notation waiting := (waiting prime_it). Notation unfinished := (unfinished prime_it).
  Definition readyb (e : status * answers) : bool := match fst e with Done => true | Delete => false | Reconstructing => a_done (snd e) || ((a_prime (snd e) =? prime_it) && c_done (snd e)) end.
  Lemma readyb_spec e : readyb e = true <-> ready e.
  Proof.
    unfold readyb, ContinueSpec.ready. destruct (fst e); [|split; [left; reflexivity|reflexivity]|split; [discriminate|intros [H|[H _]]; discriminate H]]. rewrite orb_true_iff, andb_true_iff, Nat.eqb_eq. split; [intros H; right; split; [reflexivity|exact H]|intros [H|[_ H]]; [discriminate H|exact H]].
  Qed.
  Lemma waits_spec e : waits prime_it e = true <-> waiting e.
  Proof.
    unfold waits, ContinueSpec.waiting. destruct (fst e); [|split; [discriminate|intros [H _]; discriminate H]..]. rewrite andb_true_iff, orb_true_iff, andb_true_iff, !negb_true_iff, Nat.eqb_neq, Nat.ltb_lt. tauto.
  Qed.
  Lemma one_ok e s : 0 < thr -> fst e <> Delete -> sensible factor_scan (snd e) -> tinv s -> exists st s', att_one n thr prime_it safe_mode factor_scan e s = Ret (st, s') /\ tinv s' /\
    t_done s' + t_done2 s' = t_done s + t_done2 s + (if readyb e then 1 else 0) /\ t_new s' + t_new2 s' = t_new s + t_new2 s + (if waits prime_it e then 1 else 0) /\
    st = (if readyb e then Done else Reconstructing) /\ (forall z, started_for z (t_queued s) <= started_for z (t_queued s')) /\
    (unfinished e -> forall z c, wants (snd e) z c -> c <= started_for z (t_queued s')) /\ (forall z, started_for z (t_queued s) < started_for z (t_queued s') -> unfinished e /\ exists c, wants (snd e) z c).
  Proof.
    intros Ht Nd Hs I. unfold att_one, readyb, waits, ContinueSpec.unfinished. destruct e as [st a]. cbn [fst snd] in *. destruct st; [|eexists _, _; split; [reflexivity|]; cbn [t_done t_done2 t_new t_new2 t_queued]; repeat split; try lia; try exact I; intros [H _]; discriminate H|congruence].
    destruct (a_done a) eqn:A1; cbn [negb andb orb]; [eexists _, _; split; [reflexivity|]; cbn [t_done t_done2 t_new t_new2 t_queued]; repeat split; try lia; try exact I; intros [_ [H _]]; discriminate H|].
    destruct (Nat.eqb_spec (a_prime a) prime_it) as [A2|A2]; cbn [negb andb orb]; [|eexists _, _; split; [reflexivity|]; cbn [t_done t_done2 t_new t_new2 t_queued]; repeat split; try lia; try exact I; intros [_ [_ [H _]]]; congruence].
    destruct (c_done a) eqn:A3; cbn [negb andb orb]; [eexists _, _; split; [reflexivity|]; cbn [t_done t_done2 t_new t_new2 t_queued]; repeat split; try lia; try exact I; intros [_ [_ [_ [H _]]]]; discriminate H|].
    destruct (Nat.ltb_spec prime_it (c_prime a)) as [A4|A4]; [eexists _, _; split; [reflexivity|]; cbn [t_done t_done2 t_new t_new2 t_queued]; repeat split; try lia; try exact I; intros [_ [_ [_ [_ H]]]]; lia|].
    destruct (negb safe_mode && negb (prime_it =? 0)) eqn:Lm.
    - destruct (needed_ok (c_needed a) s I) as [B [[C1 [C2 [C3 C4]]] [D [E F]]]]. eexists _, _. split; [reflexivity|]. split; [exact B|]. split; [lia|]. split; [lia|]. split; [reflexivity|]. split; [exact D|].
      assert (W : forall z c, wants a z c <-> exists y, In (y, c) (c_needed a) /\ 0 < c /\ z = eo y) by (intros z c; unfold ContinueSpec.wants, later_mode; rewrite Lm; reflexivity).
      split; [intros _ z c H; apply W in H as [y [H1 [H2 ->]]]; apply (E y c H1 H2)|]. intros z H. split; [repeat split; (assumption || reflexivity)|]. destruct (F z H) as [y [c [H1 [H2 H3]]]]. exists c. apply W. exists y. split; [exact H1|split; assumption].
    - destruct (first_ok a s Ht Lm Hs I) as [s' [Q [B [[C1 [C2 [C3 C4]]] [D [E F]]]]]]. rewrite Q. cbn [obind]. eexists _, _. split; [reflexivity|]. split; [exact B|]. split; [lia|]. split; [lia|]. split; [reflexivity|]. split; [exact D|]. split; [intros _; exact E|].
      intros z H. split; [repeat split; (assumption || reflexivity)|exact (F z H)].
  Qed.
  Definition tally {A} (f : A -> bool) (l : list A) : nat := length (filter f l).
  Lemma tally_cons {A} (f : A -> bool) x l : tally f (x :: l) = (if f x then 1 else 0) + tally f l. Proof. unfold tally. cbn [filter]. destruct (f x); reflexivity. Qed.
  Lemma all_ok l : 0 < thr -> Forall (fun e => fst e <> Delete /\ sensible factor_scan (snd e)) l -> forall s, tinv s -> exists sts s', att_all n thr prime_it safe_mode factor_scan l s = Ret (sts, s') /\ tinv s' /\
    t_done s' + t_done2 s' = t_done s + t_done2 s + tally readyb l /\ t_new s' + t_new2 s' = t_new s + t_new2 s + tally (waits prime_it) l /\
    sts = map (fun e => if readyb e then Done else Reconstructing) l /\ (forall z, started_for z (t_queued s) <= started_for z (t_queued s')) /\
    (forall e, In e l -> unfinished e -> forall z c, wants (snd e) z c -> c <= started_for z (t_queued s')) /\
    (forall z, started_for z (t_queued s) < started_for z (t_queued s') -> exists e c, In e l /\ unfinished e /\ wants (snd e) z c).
  Proof.
    intros Ht. induction 1 as [|e l [H1 H2] F IH]; intros s I.
    - exists [], s. split; [reflexivity|]. split; [exact I|]. unfold tally. cbn [filter length]. split; [lia|]. split; [lia|]. split; [reflexivity|]. split; [intros; lia|]. split; [intros ? []|intros; lia].
    - destruct (one_ok e s Ht H1 H2 I) as [st [s1 [E1 [I1 [D1 [W1 [S1 [G1 [N1 M1]]]]]]]]]. destruct (IH s1 I1) as [sts [s2 [E2 [I2 [D2 [W2 [S2 [G2 [N2 M2]]]]]]]]]. exists (st :: sts), s2.
      cbn [att_all]. rewrite E1. cbn [obind fst snd]. rewrite E2. cbn [obind fst snd]. split; [reflexivity|]. split; [exact I2|]. rewrite !tally_cons. split; [lia|]. split; [lia|]. split; [cbn [map]; congruence|]. split; [intros z; specialize (G1 z); specialize (G2 z); lia|]. split.
      + intros e' [<-|J] U z c H; [specialize (N1 U z c H); specialize (G2 z); lia|apply (N2 e' J U z c H)].
      + intros z H. destruct (Nat.lt_ge_cases (started_for z (t_queued s)) (started_for z (t_queued s1))) as [L|L].
        * destruct (M1 z L) as [U [c Hc]]. exists e, c. split; [left; reflexivity|split; assumption].
        * destruct (M2 z ltac:(lia)) as [e' [c [J K]]]. exists e', c. split; [right; exact J|exact K].
  Qed.
  Lemma tally_le {A} (f : A -> bool) l : tally f l <= length l. Proof. induction l as [|x l IH]; [unfold tally; cbn; lia|]. rewrite tally_cons. cbn [length]. destruct (f x); lia. Qed.
  Lemma tally_all {A} (f : A -> bool) l : tally f l = length l <-> forall x, In x l -> f x = true.
  Proof.
    induction l as [|x l IH]; [split; [intros _ ? []|reflexivity]|]. rewrite tally_cons. cbn [length]. pose proof (tally_le f l). split.
    - intros H0. destruct (f x) eqn:E; [|lia]. intros y [<-|J]; [exact E|]. apply IH; [lia|exact J].
    - intros H0. rewrite (H0 x (or_introl eq_refl)). cbn [Nat.add]. f_equal. apply IH. intros y J. apply H0. right. exact J.
  Qed.
  Lemma tally_two {A} (f g : A -> bool) l : (forall x, f x = true -> g x = true -> False) -> tally f l + tally g l = tally (fun x => f x || g x) l.
  Proof. intros H. induction l as [|x l IH]; [reflexivity|]. rewrite !tally_cons. specialize (H x). destruct (f x), (g x); cbn [orb]; try lia. Qed.
  Lemma ready_not_waiting e : readyb e = true -> waits prime_it e = true -> False.
  Proof. intros A B. apply readyb_spec in A. apply waits_spec in B. destruct B as [B1 [B2 B3]]. destruct A as [A|[_ [A|[A1 A2]]]]; [congruence|congruence|]. destruct B3 as [B3|[B3 _]]; congruence. Qed.
  Lemma cases3 e : fst e <> Delete -> ready e \/ waiting e \/ unfinished e.
  Proof.
    intros H. destruct (readyb e) eqn:R; [left; apply readyb_spec; exact R|]. destruct (waits prime_it e) eqn:W; [right; left; apply waits_spec; exact W|]. right. right. destruct e as [st a]. unfold readyb, waits, ContinueSpec.unfinished in *. cbn [fst snd] in *. destruct st; try congruence.
    apply orb_false_iff in R as [R1 R2]. rewrite R1 in W. cbn [negb andb] in W. apply orb_false_iff in W as [W1 W2]. apply negb_false_iff in W1. rewrite W1 in R2. cbn [andb] in R2. rewrite R2 in W2. cbn [negb andb] in W2. apply Nat.eqb_eq in W1. apply Nat.ltb_ge in W2. repeat split; assumption.
  Qed.
  Lemma not_both e : unfinished e -> ~ ready e /\ ~ waiting e.
  Proof. intros [A [B [C [D E]]]]. split; [intros [H|[_ [H|[_ H]]]]; congruence|]. intros [_ [_ [H|[_ H]]]]; [congruence|lia]. Qed.
End Attempt.

(** ---- the counters ---- *)
Section Counts.
  Variables (n thr : nat) (safe_mode factor_scan : bool) (next : nat) (copy : list (list nat * nat)).
  Notation step := (cstep n thr safe_mode factor_scan next copy). Notation run := (crun n thr safe_mode factor_scan next copy).
  Definition rec_ (x : status * bool) : bool := match fst x with Reconstructing => true | _ => false end.
  Definition open_ (x : status * bool) : bool := match x with (Reconstructing, false) => true | _ => false end.
  Definition live_ (x : status * bool) : bool := match fst x with Delete => false | _ => true end.
  (** whatever the answers are: the counters after the call *)
  Lemma att_counts p l : forall s sts s', att_all n thr p safe_mode factor_scan l s = Ret (sts, s') ->
    let es := combine sts (map (waits p) l) in length es = length l /\
    t_done s' + t_done2 s' = t_done s + t_done2 s + tally (fun x => match fst x with Done => true | _ => false end) es /\ t_new s' + t_new2 s' = t_new s + t_new2 s + tally (fun x => rec_ x && snd x) es /\
    map live_ es = map (fun e => match fst e with Delete => false | _ => true end) l /\ (Forall (fun x => fst x <> Reconstructing -> snd x = false) es) /\ Forall2 (fun e x => fst e <> Reconstructing -> fst x = fst e) l es.
  Proof.
    induction l as [|e l IH]; intros s sts s' H; cbn [att_all] in H.
    - injection H as <- <-. cbn [combine map length]. unfold tally. cbn [filter length]. repeat split; try lia; constructor.
    - destruct (att_one n thr p safe_mode factor_scan e s) as [[st s1]| | | |] eqn:E; try discriminate H. cbn [obind fst snd] in H. destruct (att_all n thr p safe_mode factor_scan l s1) as [[sts1 s2]| | | |] eqn:A; try discriminate H. cbn [obind fst snd] in H. injection H as <- <-.
      destruct (IH s1 sts1 s2 A) as [L [D [W [M [F G]]]]]. cbn [map combine]. set (es := combine sts1 (map (waits p) l)) in *. rewrite !tally_cons. cbn [length map fst snd rec_].
      assert (One : t_done s1 + t_done2 s1 = t_done s + t_done2 s + (match st with Done => 1 | _ => 0 end) /\ t_new s1 + t_new2 s1 = t_new s + t_new2 s + (match st with Reconstructing => if waits p e then 1 else 0 | _ => 0 end) /\
        (match st with Delete => false | _ => true end) = (match fst e with Delete => false | _ => true end) /\ (st <> Reconstructing -> waits p e = false) /\ (fst e <> Reconstructing -> st = fst e)).
      { clear - E. unfold att_one in E. unfold waits. destruct e as [st0 a]. cbn [fst snd] in *. destruct st0; [|injection E as <- <-; cbn; repeat split; try lia; congruence..].
        assert (Ne : forall l0 s0, t_done (start_needed n factor_scan l0 s0) = t_done s0 /\ t_done2 (start_needed n factor_scan l0 s0) = t_done2 s0 /\ t_new (start_needed n factor_scan l0 s0) = t_new s0 /\ t_new2 (start_needed n factor_scan l0 s0) = t_new2 s0).
        { induction l0 as [|[z c] l0 IH]; intros s0; [repeat split|]. cbn [start_needed]. destruct (c =? 0); [apply IH|]. destruct (ofind _ _) as [k|]; [destruct (k <? c)|]; rewrite !(proj1 (IH _)), !(proj1 (proj2 (IH _))), !(proj1 (proj2 (proj2 (IH _)))), !(proj2 (proj2 (proj2 (IH _)))); repeat split. }
        assert (Or : forall sy l0 s0, t_done (start_orders sy l0 s0) = t_done s0 /\ t_done2 (start_orders sy l0 s0) = t_done2 s0 /\ t_new (start_orders sy l0 s0) = t_new s0 /\ t_new2 (start_orders sy l0 s0) = t_new2 s0).
        { induction l0 as [|[z c] l0 IH]; intros s0; [repeat split|]. cbn [start_orders]. destruct (ofind _ _) as [k|]; [destruct (k <? sy)|]; rewrite !(proj1 (IH _)), !(proj1 (proj2 (IH _))), !(proj1 (proj2 (proj2 (IH _)))), !(proj2 (proj2 (proj2 (IH _)))); repeat split. }
        destruct (a_done a); [injection E as <- <-; cbn; repeat split; try lia; congruence|]. destruct (a_prime a =? p); cbn [negb andb orb] in *; [|injection E as <- <-; cbn; repeat split; try lia; congruence].
        destruct (c_done a); cbn [negb andb]; [injection E as <- <-; cbn; repeat split; try lia; congruence|]. destruct (p <? c_prime a); [injection E as <- <-; cbn; repeat split; try lia; congruence|].
        destruct (negb safe_mode && negb (p =? 0)); [injection E as <- <-; destruct (Ne (c_needed a) s) as [Q1 [Q2 [Q3 Q4]]]; repeat split; try lia; congruence|].
        unfold start_first in E. destruct (_ && _); [destruct (c_orders a) as [|[zo k] r]; [discriminate E|]; cbn [obind] in E; destruct (ofind zo (t_started s)); injection E as <- <-; cbn [queue_more t_done t_done2 t_new t_new2]; repeat split; try lia; congruence|].
        cbn [obind] in E. injection E as <- <-. destruct (Or (c_system a) (c_orders a) s) as [Q1 [Q2 [Q3 Q4]]]. repeat split; try lia; congruence. }
      destruct One as [O1 [O2 [O3 [O4 O5]]]]. split; [lia|]. split; [destruct st; cbn [fst]; lia|]. split; [destruct st; cbn [fst andb snd rec_] in *; destruct (waits p e); lia|]. split; [f_equal; [exact O3|exact M]|]. split; constructor; assumption.
  Qed.
  Lemma attempt_counts p items d w l r : attempt n thr p safe_mode factor_scan items d w next copy l = Ret r ->
    exists s', att_all n thr p safe_mode factor_scan l (mk_att 0 0 0 0 [] [] next) = Ret (r_status r, s') /\ r_items_done r = t_done s' + t_done2 s' /\ r_items_new r = t_new s' + t_new2 s' /\ r_queued r = t_queued s' /\
    (r_verdict r = AllDone <-> r_items_done r = items) /\ (r_verdict r = NextPrime <-> r_items_done r <> items /\ r_items_done r + r_items_new r = items) /\ (r_verdict r = CannotContinue <-> r_items_done r <> items /\ r_items_done r + r_items_new r <> items /\ t_started s' = []).
  Proof.
    intros H. unfold attempt in H. destruct (att_all _ _ _ _ _ l _) as [[sts t]| | | |]; try discriminate H. cbn [obind fst snd] in H. exists t.
    set (dd := if negb (d =? t_done t) || negb (t_done2 t =? 0) then t_done t + t_done2 t else d) in *. set (ww := if negb (w =? t_new t) || negb (t_new2 t =? 0) then t_new t + t_new2 t else w) in *.
    assert (Ed : dd = t_done t + t_done2 t) by (unfold dd; destruct (Nat.eqb_spec d (t_done t)), (Nat.eqb_spec (t_done2 t) 0); cbn [negb orb]; lia).
    assert (Ew : ww = t_new t + t_new2 t) by (unfold ww; destruct (Nat.eqb_spec w (t_new t)), (Nat.eqb_spec (t_new2 t) 0); cbn [negb orb]; lia).
    clearbody dd ww. destruct (Nat.eqb_spec dd items) as [C1|C1]; [injection H as <-; cbn; repeat split; try congruence; try tauto; discriminate|]. destruct (Nat.eqb_spec (dd + ww) items) as [C2|C2]; [injection H as <-; cbn; repeat split; try congruence; try tauto; try discriminate|].
    destruct (t_started t) as [|x st] eqn:S; [injection H as <-; cbn; repeat split; try congruence; try tauto; try discriminate|].
    destruct (ofind _ (x :: st)) as [k|]; [destruct (length (x :: st) =? 1); [destruct (ofind _ copy); [|discriminate H]|]|]; injection H as <-; cbn; repeat split; try congruence; try tauto; try discriminate; intros [_ [_ Q]]; discriminate Q.
  Qed.
  Definition no_attempt_after_early (es : list cevent) : Prop := forall a l b, es = a ++ CAttempt l :: b -> ~ In CEarly a.
  (** items_done counts the functions that are not being reconstructed any more, items_new_prime the others that are counted *)
  Definition kinv (s : counts) : Prop := k_done s + tally rec_ (k_entries s) = k_items s /\ k_new s = tally (fun x => rec_ x && snd x) (k_entries s).
  Lemma tally_ext {A} (f g : A -> bool) l : (forall x, f x = g x) -> tally f l = tally g l. Proof. intros E. induction l as [|x l IH]; [reflexivity|]. rewrite !tally_cons, E, IH. reflexivity. Qed.
  Lemma tally_map {A B} (h : A -> B) f l : tally f (map h l) = tally (fun x => f (h x)) l. Proof. induction l as [|x l IH]; [reflexivity|]. cbn [map]. rewrite !tally_cons, IH. reflexivity. Qed.
  Lemma tally_upd (f : status * bool -> bool) i e old : forall l, nth_error l i = Some old -> tally f (upd_entry i e l) + (if f old then 1 else 0) = tally f l + (if f e then 1 else 0).
  Proof. revert i. induction i as [|i IH]; intros [|x l] H; try discriminate H; cbn [nth_error upd_entry] in *; rewrite !tally_cons; [injection H as ->; lia|]. specialize (IH l H). lia. Qed.
  Lemma upd_len i e : forall l, length (upd_entry i e l) = length l. Proof. induction i as [|i IH]; intros [|x l]; cbn [upd_entry length]; try reflexivity. f_equal. apply IH. Qed.
  Lemma step_inv e s s' : step e s = Some s' -> kinv s -> match e with CAttempt _ => k_items s = length (k_entries s) /\ tally live_ (k_entries s) = length (k_entries s) | _ => True end -> kinv s' /\ k_items s' = k_items s.
  Proof.
    intros H [I1 I2] Hc. destruct e as [i|i| | |l]; cbn [cstep] in H.
    - destruct (nth_error (k_entries s) i) as [[[] []]|] eqn:E; try discriminate H. injection H as <-. unfold kinv. cbn [k_done k_entries k_items k_new]. pose proof (tally_upd rec_ i (Done, false) _ _ E) as T1. pose proof (tally_upd (fun x => rec_ x && snd x) i (Done, false) _ _ E) as T2. cbn in T1, T2. repeat split; lia.
    - destruct (nth_error (k_entries s) i) as [[[] []]|] eqn:E; try discriminate H. injection H as <-. unfold kinv. cbn [k_done k_entries k_items k_new]. pose proof (tally_upd rec_ i (Reconstructing, true) _ _ E) as T1. pose proof (tally_upd (fun x => rec_ x && snd x) i (Reconstructing, true) _ _ E) as T2. cbn in T1, T2. repeat split; lia.
    - injection H as <-. unfold kinv. cbn [k_done k_entries k_items k_new]. rewrite !tally_map. rewrite (tally_ext (fun x => rec_ match fst x with Done => (Delete, snd x) | _ => x end) rec_ (k_entries s)) by (intros [[] w]; reflexivity). split; [split; [exact I1|]|reflexivity]. rewrite I2. apply tally_ext. intros [[] w]; reflexivity.
    - destruct (_ && _); [|discriminate H]. injection H as <-. unfold kinv. cbn [k_done k_entries k_items k_new]. rewrite !tally_map. split; [|reflexivity]. split.
      + replace (tally _ (filter _ (k_entries s))) with (tally rec_ (k_entries s)); [exact I1|]. clear. induction (k_entries s) as [|[[] w] l IH]; [reflexivity|..]; cbn [filter fst]; rewrite ?tally_cons; cbn [rec_ fst]; lia.
      + clear. induction (filter _ (k_entries s)) as [|x l IH]; [reflexivity|]. rewrite tally_cons, <- IH. cbn [snd]. rewrite andb_false_r. reflexivity.
    - destruct (Nat.eqb_spec (length l) (length (k_entries s))) as [L|]; [|discriminate H]. destruct (attempt _ _ _ _ _ _ _ _ _ _ _) as [r| | | |] eqn:A; try discriminate H. injection H as <-. unfold kinv. cbn [k_done k_entries k_items k_new].
      destruct (attempt_counts _ _ _ _ _ _ A) as [t [T1 [T2 [T3 _]]]]. destruct (att_counts _ _ _ _ _ T1) as [P1 [P2 [P3 [P4 [P5 P6]]]]]. set (es := combine (r_status r) (map (waits (k_prime s)) (combine (map fst (k_entries s)) l))) in *. cbn [t_done t_done2 t_new t_new2] in P2, P3. rewrite T2, T3.
      split; [|reflexivity]. split; [|lia]. destruct Hc as [Hc1 Hc2]. rewrite P2. cbn [Nat.add]. rewrite Hc1.
      assert (Ll : length (combine (map fst (k_entries s)) l) = length (k_entries s)) by (rewrite combine_length, map_length; lia). rewrite Ll in P1.
      assert (Lv : forall x, In x es -> live_ x = true).
      { intros x J. assert (K : In (live_ x) (map live_ es)) by (apply in_map; exact J). rewrite P4 in K. apply in_map_iff in K as [[st a] [K1 K2]]. cbn [fst] in K1. apply in_combine_l in K2. apply in_map_iff in K2 as [y [K2 K3]]. rewrite <- K1, <- K2. apply (proj1 (tally_all live_ (k_entries s)) Hc2 y K3). }
      rewrite tally_two by (intros [[] w] X Y; discriminate X || discriminate Y). rewrite <- P1. apply tally_all. intros x J. specialize (Lv x J). destruct x as [[] w]; cbn in *; congruence.
  Qed.
  (** before get_early_results: all entries are there *)
  Definition kfull (s : counts) : Prop := k_items s = length (k_entries s) /\ tally live_ (k_entries s) = length (k_entries s).
  Lemma step_full e s s' : step e s = Some s' -> e <> CEarly -> kfull s -> kfull s'.
  Proof.
    intros H Ne [F1 F2]. destruct e as [i|i| | |l]; cbn [cstep] in H.
    - destruct (nth_error (k_entries s) i) as [[[] []]|] eqn:E; try discriminate H. injection H as <-. unfold kfull. cbn [k_done k_entries k_items k_new]. pose proof (tally_upd live_ i (Done, false) _ _ E) as T1. cbn in T1. rewrite upd_len. lia.
    - destruct (nth_error (k_entries s) i) as [[[] []]|] eqn:E; try discriminate H. injection H as <-. unfold kfull. cbn [k_done k_entries k_items k_new]. pose proof (tally_upd live_ i (Reconstructing, true) _ _ E) as T1. cbn in T1. rewrite upd_len. lia.
    - congruence.
    - destruct (_ && _); [|discriminate H]. injection H as <-. unfold kfull. cbn [k_done k_entries k_items k_new]. rewrite map_length, tally_map.
      assert (Fi : filter (fun x => match fst x with Delete => false | _ => true end) (k_entries s) = k_entries s).
      { pose proof (proj1 (tally_all live_ (k_entries s)) F2) as Q. clear - Q. induction (k_entries s) as [|x l IH]; [reflexivity|]. cbn [filter]. pose proof (Q x (or_introl eq_refl)) as X. unfold live_ in X. rewrite X. f_equal. apply IH. intros y J. apply Q. right. exact J. }
      rewrite Fi. split; [exact F1|]. rewrite (tally_ext _ live_); [exact F2|]. intros [[] w]; reflexivity.
    - destruct (Nat.eqb_spec (length l) (length (k_entries s))) as [L|]; [|discriminate H]. destruct (attempt _ _ _ _ _ _ _ _ _ _ _) as [r| | | |] eqn:A; try discriminate H. injection H as <-. unfold kfull. cbn [k_done k_entries k_items k_new].
      destruct (attempt_counts _ _ _ _ _ _ A) as [t [T1 _]]. destruct (att_counts _ _ _ _ _ T1) as [P1 [_ [_ [P4 _]]]]. set (es := combine (r_status r) (map (waits (k_prime s)) (combine (map fst (k_entries s)) l))) in *.
      assert (Ll : length (combine (map fst (k_entries s)) l) = length (k_entries s)) by (rewrite combine_length, map_length; lia). rewrite Ll in P1. split; [lia|]. apply tally_all.
      intros x J. assert (K : In (live_ x) (map live_ es)) by (apply in_map; exact J). rewrite P4 in K. apply in_map_iff in K as [[st a] [K1 K2]]. cbn [fst] in K1. apply in_combine_l in K2. apply in_map_iff in K2 as [y [K2 K3]]. rewrite <- K1, <- K2. apply (proj1 (tally_all live_ (k_entries s)) F2 y K3).
  Qed.
  Lemma run_inv es : forall s s' (early : bool), run es s = Some s' -> kinv s -> (early = false -> kfull s) -> (forall a l b, es = a ++ CAttempt l :: b -> early = false /\ ~ In CEarly a) -> kinv s' /\ k_items s' = k_items s /\ (early = false -> ~ In CEarly es -> kfull s').
  Proof.
    induction es as [|e es IH]; intros s s' early H I F N; cbn [crun] in H; [injection H as <-; split; [exact I|split; [reflexivity|intros E _; apply F; exact E]]|].
    destruct (step e s) as [s1|] eqn:E; [|discriminate H]. destruct (step_inv e s s1 E I) as [I1 K1]; [destruct e; try exact Logic.I; apply F; exact (proj1 (N [] l es eq_refl))|].
    destruct (IH s1 s' (early || match e with CEarly => true | _ => false end) H I1) as [A [B C]].
    - intros X. apply orb_false_iff in X as [X1 X2]. apply (step_full e s s1 E); [intros ->; discriminate X2|apply F; exact X1].
    - intros a l b Q. destruct (N (e :: a) l b ltac:(cbn [app]; rewrite Q; reflexivity)) as [N1 N2]. split; [rewrite N1; destruct e; try reflexivity; exfalso; apply N2; left; reflexivity|intros X; apply N2; right; exact X].
    - split; [exact A|]. split; [congruence|]. intros X Y. apply C; [rewrite X; destruct e; try reflexivity; exfalso; apply Y; left; reflexivity|intros Z; apply Y; right; exact Z].
  Qed.
  (** after attempt_to_continue with a deleted entry *)
  Definition kdead (s : counts) : Prop := k_done s + k_new s + tally open_ (k_entries s) < k_items s /\ tally live_ (k_entries s) < k_items s.
  Lemma dead_step e s s' : step e s = Some s' -> kdead s -> kdead s' /\ k_items s' = k_items s.
  Proof.
    intros H [I1 I2]. destruct e as [i|i| | |l]; cbn [cstep] in H.
    - destruct (nth_error (k_entries s) i) as [[[] []]|] eqn:E; try discriminate H. injection H as <-. unfold kdead. cbn [k_done k_entries k_items k_new]. pose proof (tally_upd open_ i (Done, false) _ _ E) as T1. pose proof (tally_upd live_ i (Done, false) _ _ E) as T2. cbn in T1, T2. repeat split; lia.
    - destruct (nth_error (k_entries s) i) as [[[] []]|] eqn:E; try discriminate H. injection H as <-. unfold kdead. cbn [k_done k_entries k_items k_new]. pose proof (tally_upd open_ i (Reconstructing, true) _ _ E) as T1. pose proof (tally_upd live_ i (Reconstructing, true) _ _ E) as T2. cbn in T1, T2. repeat split; lia.
    - injection H as <-. unfold kdead. cbn [k_done k_entries k_items k_new]. rewrite !tally_map. rewrite (tally_ext _ open_) by (intros [[] w]; reflexivity). split; [|reflexivity]. split; [exact I1|].
      enough (X : tally (fun x => live_ (match fst x with Done => (Delete, snd x) | _ => x end)) (k_entries s) <= tally live_ (k_entries s)) by lia. clear. induction (k_entries s) as [|[[] w] l IH]; [unfold tally; cbn; lia|..]; rewrite !tally_cons; cbn [live_ fst snd]; lia.
    - destruct (Nat.eqb_spec (k_done s + k_new s) (k_items s)); [lia|]. rewrite andb_false_r in H. discriminate H.
    - destruct (Nat.eqb_spec (length l) (length (k_entries s))) as [L|]; [|discriminate H]. destruct (attempt _ _ _ _ _ _ _ _ _ _ _) as [r| | | |] eqn:A; try discriminate H. injection H as <-. unfold kdead. cbn [k_done k_entries k_items k_new]. split; [|reflexivity].
      destruct (attempt_counts _ _ _ _ _ _ A) as [t [T1 [T2 [T3 _]]]]. destruct (att_counts _ _ _ _ _ T1) as [P1 [P2 [P3 [P4 [P5 P6]]]]]. set (es := combine (r_status r) (map (waits (k_prime s)) (combine (map fst (k_entries s)) l))) in *. cbn [t_done t_done2 t_new t_new2] in P2, P3.
      assert (Lv : tally live_ es = tally live_ (k_entries s)).
      { transitivity (tally (fun b : bool => b) (map live_ es)); [rewrite tally_map; reflexivity|]. rewrite P4, tally_map. clear - L. revert l L. induction (k_entries s) as [|x k IH]; intros [|a l] L; try discriminate L; [reflexivity|]. cbn [map combine]. rewrite !tally_cons. cbn [fst]. rewrite IH by (cbn [length] in L; lia). reflexivity. }
      rewrite Lv. split; [|exact I2]. rewrite T2, T3, P2, P3. rewrite <- Lv in I2. enough (X : tally (fun x : status * bool => match fst x with Done => true | _ => false end) es + tally (fun x => rec_ x && snd x) es + tally open_ es <= tally live_ es) by lia.
      clear. induction es as [|[[] []] k IH]; [unfold tally; cbn; lia|..]; rewrite !tally_cons; cbn; lia.
  Qed.
  Lemma dead_run es : forall s s', run es s = Some s' -> kdead s -> kdead s' /\ k_items s' = k_items s.
  Proof. induction es as [|e es IH]; intros s s' H D; cbn [crun] in H; [injection H as <-; split; [exact D|reflexivity]|]. destruct (step e s) as [s1|] eqn:E; [|discriminate H]. destruct (dead_step e s s1 E D) as [D1 K1]. destruct (IH s1 s' H D1) as [D2 K2]. split; [exact D2|congruence]. Qed.
  Lemma dead_start l s s' : step (CAttempt l) s = Some s' -> tally live_ (k_entries s) < k_items s -> kdead s' /\ k_items s' = k_items s.
  Proof.
    intros H I2. cbn [cstep] in H. destruct (Nat.eqb_spec (length l) (length (k_entries s))) as [L|]; [|discriminate H]. destruct (attempt _ _ _ _ _ _ _ _ _ _ _) as [r| | | |] eqn:A; try discriminate H. injection H as <-. unfold kdead. cbn [k_done k_entries k_items k_new]. split; [|reflexivity].
    destruct (attempt_counts _ _ _ _ _ _ A) as [t [T1 [T2 [T3 _]]]]. destruct (att_counts _ _ _ _ _ T1) as [P1 [P2 [P3 [P4 [P5 P6]]]]]. set (es := combine (r_status r) (map (waits (k_prime s)) (combine (map fst (k_entries s)) l))) in *. cbn [t_done t_done2 t_new t_new2] in P2, P3.
    assert (Lv : tally live_ es = tally live_ (k_entries s)).
    { transitivity (tally (fun b : bool => b) (map live_ es)); [rewrite tally_map; reflexivity|]. rewrite P4, tally_map. clear - L. revert l L. induction (k_entries s) as [|x k IH]; intros [|a l] L; try discriminate L; [reflexivity|]. cbn [map combine]. rewrite !tally_cons. cbn [fst]. rewrite IH by (cbn [length] in L; lia). reflexivity. }
    rewrite Lv. split; [|exact I2]. rewrite T2, T3, P2, P3. rewrite <- Lv in I2. enough (X : tally (fun x : status * bool => match fst x with Done => true | _ => false end) es + tally (fun x => rec_ x && snd x) es + tally open_ es <= tally live_ es) by lia.
    clear. induction es as [|[[] []] k IH]; [unfold tally; cbn; lia|..]; rewrite !tally_cons; cbn; lia.
  Qed.
End Counts.

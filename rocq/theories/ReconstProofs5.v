(** Invariants of the scheduler model: all together, progress *)
From Coq Require Import ZArith List Bool Arith Lia.
From Verif Require Import Machine FeedQueue Combi CombiProofs2 Reconst ReconstSpec ReconstProofs ReconstProofs2 ReconstProofs3 ReconstProofs4.
Import ListNotations.
Local Open Scope nat_scope.
Section Step.
Variable bb : nat -> point -> list Z.
Variables thr bs : Z.
Variable scan : bool.
Notation step := (sstep bb thr bs scan).
Record all_inv (s : st) : Prop := { v_idx : A_idx s; v_look : A_look s; v_pos : A_pos s; v_queued : A_queued s; v_feed : A_feed s; v_int : A_int s; v_visit : A_visit s; v_D : D bb s;
  v_B : B scan s; v_C : C_cnt s; v_Q : Q bb s; v_ch : A_ch s; v_wait : A_wait s; v_job : A_job s }.
Lemma all_step e s s' : all_inv s -> step e s = Some s' -> all_inv s'.
Proof.
  intros [V1 V2 V3 V4 V5 V6 V7 V8 V9 V10 V11 V12 V13 V14] H. assert (V4' : A_queued s') by (apply (A_queued_step _ _ _ _ _ _ _ V4 H)). constructor.
  - apply (A_idx_step _ _ _ _ _ _ _ V1 H).
  - apply (A_look_step _ _ _ _ _ _ _ V2 H).
  - apply (A_pos_step _ _ _ _ _ _ _ V3 H).
  - exact V4'.
  - apply (A_feed_step _ _ _ _ _ _ _ V5 H).
  - apply (A_int_step _ _ _ _ _ _ _ V3 V6 H).
  - apply (A_visit_step _ _ _ _ _ _ _ V3 V7 H).
  - apply (D_step _ _ _ _ _ _ _ V1 V8 H).
  - apply (B_step _ _ _ _ _ _ _ V8 V9 V10 H).
  - apply (C_step _ _ _ _ _ _ _ V8 V9 V10 H).
  - apply (Q_step _ _ _ _ _ _ _ V8 V9 V11 H).
  - apply (A_ch_step _ _ _ _ _ _ _ V12 H).
  - apply (A_wait_step _ _ _ _ _ _ _ V4 V4' V13 H).
  - apply (A_job_step _ _ _ _ _ _ _ V14 H).
Qed.
Lemma start_inv n : all_inv (start_st n).
Proof.
  constructor.
  - intros i. reflexivity.
  - intros i. reflexivity.
  - constructor.
  - reflexivity.
  - reflexivity.
  - reflexivity.
  - intros k i. change (0 = 0 + (if k <? items (start_st n) then 0 else 0)). destruct (k <? items (start_st n)); reflexivity.
  - constructor; cbn; try constructor; try reflexivity; lia.
  - split; [|intros j []]. intros k r X. cbn in X. assert (r = start_rec) as -> by (apply nth_error_In, repeat_spec in X; exact X). constructor; cbn; try discriminate; try (intros; lia); try (intros _ E; elim (E eq_refl); fail); auto; try (intros _; left; repeat split; auto; fail); intros; congruence.
  - split; [|split; [|exact I]]; cbn; induction n; cbn; auto.
  - intros k r X. apply nth_error_In, repeat_spec in X. subst r. split; constructor.
  - intros p. split; [reflexivity|]. cbn. lia.
  - exact I.
  - constructor.
Qed.
Lemma reach_inv n s : sreach bb thr bs scan n s -> all_inv s.
Proof. induction 1 as [|s e s' R IH H]; [apply start_inv|apply (all_step e s); assumption]. Qed.
Lemma items_step e s s' : step e s = Some s' -> items s' = items s.
Proof. intros H. inv_step H; unfold items; ss; rewrite ?set_length, ?map_length; reflexivity. Qed.
Lemma reach_items n s : sreach bb thr bs scan n s -> items s = n.
Proof. induction 1 as [|s e s' R IH H]; [apply repeat_length|rewrite (items_step _ _ _ H); exact IH]. Qed.

(** ** progress *)
Notation run := (run bb thr bs scan).
Lemma worker_same e s s' : worker e = true -> step e s = Some s' -> main s' = main s /\ prime_it s' = prime_it s.
Proof. intros W H. inv_step H; try discriminate W; split; reflexivity. Qed.
Definition wi (j : ijob) : nat := match j with IPend _ => 6 | IBody _ => 5 | IPost _ _ _ _ => 4 | IQueue _ _ ps o => 1 + 2 * length ps + o end.
Definition wf (n : nat) (j : fjob) : nat := match j with FWait b => n * (length b + 7) + 3 | FLook b => n * (length b + 7) + 2 | FLoop _ pts _ k _ => (n - k) * (length pts + 7) + 1 end.
Definition meas (s : st) : nat := sumf (wf (items s)) (feeds s) + sumf wi (ijobs s) + sumf (fun r => length (queue (r_obj r))) (recs s).
Lemma feed_some it P o : it <> [] -> P < 299 -> prime_number o = P -> exists o' x, feed_vec scan it P o = Fed o' x /\ length (queue o') <= length (queue o) + length it.
Proof.
  intros Ne L Pn. unfold feed_vec. destruct (negb (done o) && (P =? prime_number o)); [|eexists _, _; split; [reflexivity|lia]].
  assert (L1 : (300 <=? S (prime_number o)) = false) by (apply Nat.leb_gt; lia). assert (L2 : (S (prime_number o) =? 300) = false) by (apply Nat.eqb_neq; lia).
  destruct (first_feed o && negb scan).
  - destruct it as [|[[t v] z] it]; [elim (Ne eq_refl)|]. destruct (v =? 0)%Z.
    + rewrite L1, L2, andb_false_r. eexists _, _. split; [reflexivity|]. cbn. lia.
    + eexists _, _. split; [reflexivity|]. cbn [queue]. rewrite app_length, map_length. lia.
  - eexists _, _. split; [reflexivity|]. cbn [queue]. rewrite app_length, map_length. lia.
Qed.
Lemma bunch_len k pts res : length (bunch_for k pts res) <= length pts.
Proof. unfold bunch_for. rewrite map_length, combine_length. lia. Qed.
Lemma start_len o : let (o', x) := start_obj o in length (queue o') <= length (queue o).
Proof. unfold start_obj. destruct (fed_zero o); [cbn; lia|]. destruct (is_interpolating o); [lia|]. destruct (queue o) eqn:E; cbn; rewrite ?E; cbn; lia. Qed.
Lemma return_len o : let (o', x) := return_obj o in length (queue o') + match x with None => 1 | _ => 0 end <= length (queue o).
Proof. unfold return_obj. destruct (queue o); cbn; lia. Qed.
Lemma mul_step n k m : k < n -> (n - k) * m = (n - S k) * m + m.
Proof. intros H. replace (n - k) with (S (n - S k)) by lia. cbn [Nat.mul]. lia. Qed.
Lemma nth_lt {A} (l : list A) k : k < length l -> exists x, nth_error l k = Some x.
Proof. intros H. destruct (nth_error l k) as [x|] eqn:E; [exists x; reflexivity|]. apply nth_error_None in E. lia. Qed.
Lemma progress1 s : all_inv s -> prime_it s < 299 -> feeds s <> [] \/ ijobs s <> [] -> exists e s', worker e = true /\ step e s = Some s' /\ meas s' < meas s.
Proof.
  intros V P H. destruct (ijobs s) as [|j js] eqn:J.
  - destruct (feeds s) as [|f fs] eqn:F; [destruct H as [H|H]; elim (H eq_refl)|]. clear H. pose proof (forall_nth _ 0 _ f (v_pos _ V) ltac:(rewrite F; reflexivity)) as Pos. destruct f as [b|b|ix pts res k c].
    + eexists (FCount 0), _. split; [reflexivity|]. split; [cbn [sstep]; rewrite F; reflexivity|]. unfold meas, items. ss. rewrite F. cbn [set_nth sumf wf]. lia.
    + destruct (look_all (map fst b) (imap s)) as [[pts m]|] eqn:L.
      * assert (Lp : length pts = length b). { destruct (held_nodup s 0 b (v_idx _ V) ltac:(rewrite F; reflexivity)) as [ND _]. destruct (look_all_spec _ _ _ _ ND L) as [E _]. apply (f_equal (@length _)) in E. rewrite !map_length in E. congruence. }
        eexists (FLookup 0), _. split; [reflexivity|]. split; [cbn [sstep]; rewrite F; cbn [nth_error]; rewrite L; reflexivity|]. unfold meas, items. ss. rewrite F. cbn [set_nth sumf wf]. rewrite Lp, Nat.sub_0_r. lia.
      * exfalso. destruct (held_nodup s 0 b (v_idx _ V) ltac:(rewrite F; reflexivity)) as [ND LK]. revert L. apply look_all_ok; [exact ND|]. intros i Hi. rewrite (d_imap _ _ (v_D _ V)), (LK i Hi). cbn.
        pose proof (forall_nth _ 0 _ (FLook b) (d_feeds _ _ (v_D _ V)) ltac:(rewrite F; reflexivity)) as [_ Fb]. apply in_map_iff in Hi as [x [<- Hx]]. rewrite Forall_forall in Fb. destruct (Fb x Hx) as [p [E _]]. rewrite E. discriminate.
    + cbn [fjob_ok] in Pos. destruct (Nat.eq_dec k (items s)) as [->|Nk].
      * eexists (FFinish 0), _. split; [reflexivity|]. split; [cbn [sstep]; rewrite F; cbn [nth_error]; rewrite Nat.eqb_refl; reflexivity|]. unfold meas, items. ss. rewrite F. cbn [del sumf wf]. rewrite Nat.sub_diag. lia.
      * destruct (nth_lt (recs s) k) as [r R]; [unfold items in *; lia|].
        pose proof (forall_nth _ 0 _ (FLoop ix pts res k c) (d_feeds _ _ (v_D _ V)) ltac:(rewrite F; reflexivity)) as [N1 [N2 N3]]. assert (Lp : pts <> []) by (intros ->; destruct ix; [elim (N1 eq_refl)|discriminate]).
        destruct (r_fin r || done (r_obj r) || negb (prime_number (r_obj r) =? prime_it s)) eqn:G.
        -- eexists (FVisit 0), _. split; [reflexivity|]. split; [cbn [sstep]; rewrite F; cbn [nth_error]; rewrite R; ss; rewrite G; reflexivity|]. unfold meas, items. ss. rewrite F. cbn [set_nth sumf wf]. unfold items in *. rewrite (mul_step _ k) by lia. lia.
        -- apply orb_false_elim in G as [G1 G2]. apply negb_false_iff in G2. pose proof G2 as G3. apply Nat.eqb_eq in G3. 
           destruct (feed_some (bunch_for k pts res) (prime_it s) (r_obj r)) as [o' [x [Fd Ln]]]; [apply bunch_nonempty; [exact Lp|rewrite N3; apply map_length]|exact P|exact G3|]. pose proof (bunch_len k pts res) as BL.
           pose proof (sum_set (fun r => length (queue (r_obj r))) (recs s) k r (mk_rec o' (r_fin r) (r_cnt r)) R) as S0. oo.
           destruct x.
           ++ eexists (FVisit 0), _. split; [reflexivity|]. split; [cbn [sstep]; rewrite F; cbn [nth_error]; rewrite R; ss; rewrite G1, G2; cbn [orb negb]; rewrite Fd; reflexivity|]. unfold meas, items. ss. rewrite F, J, set_length. cbn [set_nth sumf wf app wi]. unfold items in *. rewrite (mul_step _ k) by lia. lia.
           ++ eexists (FVisit 0), _. split; [reflexivity|]. split; [cbn [sstep]; rewrite F; cbn [nth_error]; rewrite R; ss; rewrite G1, G2; cbn [orb negb]; rewrite Fd; reflexivity|]. unfold meas, items. ss. rewrite F, J, set_length. cbn [set_nth sumf wf app wi]. unfold items in *. rewrite (mul_step _ k) by lia. lia.
  - pose proof (forall_nth _ 0 _ j (v_job _ V) ltac:(rewrite J; reflexivity)) as K. destruct (nth_lt (recs s) (job_rec j) K) as [r R]. destruct j as [k|k|k rr d pr|k m ps o]; cbn [job_rec] in *.
    + destruct (r_fin r) eqn:Fi.
      * eexists (IStart 0), _. split; [reflexivity|]. split; [cbn [sstep]; rewrite J; cbn [nth_error]; rewrite R, Fi; reflexivity|]. unfold meas, items. ss. rewrite J. cbn [set_nth sumf wi length]. lia.
      * destruct (start_obj (r_obj r)) as [o' x] eqn:So. pose proof (start_len (r_obj r)) as Sl. rewrite So in Sl. pose proof (sum_set (fun r => length (queue (r_obj r))) (recs s) k r (mk_rec o' (r_fin r) (r_cnt r)) R) as S0. oo.
        destruct x as [x|]; (eexists (IStart 0), _; split; [reflexivity|]; split; [cbn [sstep]; rewrite J; cbn [nth_error]; rewrite R, Fi, So; reflexivity|]; unfold meas, items; ss; rewrite J, set_length; rewrite Fi in S0; cbn [set_nth sumf wi length]; lia).
    + destruct (return_obj (r_obj r)) as [o' x] eqn:So. pose proof (return_len (r_obj r)) as Sl. rewrite So in Sl. pose proof (sum_set (fun r => length (queue (r_obj r))) (recs s) k r (mk_rec o' (r_fin r) (r_cnt r)) R) as S0. oo.
      destruct x as [x|]; (eexists (IRet 0), _; split; [reflexivity|]; split; [cbn [sstep]; rewrite J; cbn [nth_error]; rewrite R, So; reflexivity|]; unfold meas, items; ss; rewrite ?J, set_length; cbn [set_nth sumf wi length]; lia).
    + pose proof (fun f => sum_set (fun r => length (queue (r_obj r))) (recs s) k r (mk_rec (r_obj r) f (r_cnt r)) R) as S0. pose proof (fun f => sum_set (fun r => length (queue (r_obj r))) (recs s) k r (mk_rec (r_obj r) (r_fin r) f) R) as S1. oo. pose proof (S0 true). pose proof (S1 true). clear S0 S1.
      destruct (step (ICount 0) s) as [s'|] eqn:St.
      * exists (ICount 0), s'. split; [reflexivity|]. split; [exact St|]. cbn [sstep] in St. rewrite J in St. cbn [nth_error] in St. rewrite R in St. destruct (negb rr); [|destruct (negb d); [destruct (prime_it s <? pr)|destruct (r_fin r)]]; injection St as <-; unfold meas, items; ss; rewrite ?J, ?set_length; cbn [set_nth sumf wi length]; lia.
      * exfalso. cbn [sstep] in St. rewrite J in St. cbn [nth_error] in St. rewrite R in St. destruct (negb rr); [discriminate|destruct (negb d); [destruct (prime_it s <? pr); discriminate|destruct (r_fin r); discriminate]].
    + destruct ps as [|p ps]; [destruct o as [|o]|].
      * eexists (IEnd 0), _. split; [reflexivity|]. split; [cbn [sstep]; rewrite J; reflexivity|]. unfold meas, items. ss. rewrite J. cbn [del sumf wi length]. lia.
      * eexists (ISubmit 0), _. split; [reflexivity|]. split; [cbn [sstep]; rewrite J; reflexivity|]. unfold meas, items. ss. rewrite J. cbn [set_nth sumf wi length]. lia.
      * eexists (IInsert 0 false), _. split; [reflexivity|]. split; [cbn [sstep]; rewrite J; reflexivity|]. unfold meas, items. ss. rewrite J. cbn [set_nth sumf wi length]. lia.
Qed.
Lemma drain m : forall s, meas s < m -> all_inv s -> prime_it s < 299 -> exists es s', forallb worker es = true /\ run es s = Some s' /\ feeds s' = [] /\ ijobs s' = [] /\ main s' = main s /\ prime_it s' = prime_it s.
Proof.
  induction m as [|m IH]; intros s L V P; [lia|].
  assert (C : (feeds s = [] /\ ijobs s = []) \/ (feeds s <> [] \/ ijobs s <> [])) by (destruct (feeds s); [destruct (ijobs s); [left; split; reflexivity|right; right; discriminate]|right; left; discriminate]).
  destruct C as [[C1 C2]|C]; [exists [], s; repeat split; auto|]. destruct (progress1 s V P C) as [e [s1 [W [St Ms]]]]. destruct (worker_same _ _ _ W St) as [M1 M2].
  destruct (IH s1) as [es [s' [E1 [E2 [E3 [E4 [E5 E6]]]]]]]; [lia|apply (all_step e s); assumption|congruence|]. exists (e :: es), s'. cbn [forallb run]. rewrite W, St. repeat split; auto; congruence.
Qed.
Lemma run_reach n es : forall s s', sreach bb thr bs scan n s -> run es s = Some s' -> sreach bb thr bs scan n s'.
Proof. induction es as [|e es IH]; intros s s' R H; cbn [run] in H; [injection H as <-; exact R|]. destruct (step e s) as [s1|] eqn:E; [|discriminate]. apply (IH s1); [apply (sreach_step _ _ _ _ _ s e); assumption|exact H]. Qed.
End Step.

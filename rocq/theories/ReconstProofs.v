(** Invariants of the scheduler model *)
From Coq Require Import ZArith List Bool Arith Lia.
From Verif Require Import Machine FeedQueue Combi Reconst.
Import ListNotations.
Local Open Scope nat_scope.

Ltac ss := cbn [recs prime_it ind requested imap chosen probes_queued pool_get computing computed main feeds ijobs feed_jobs interpolate_jobs items_done items_new_prime hist looked finished_ix visits set_recs set_prime_it set_ind set_requested set_imap set_chosen set_probes_queued set_pool_get set_computing set_computed set_main set_feeds set_ijobs set_feed_jobs set_interpolate_jobs set_items_done set_items_new_prime set_hist set_looked set_finished_ix set_visits set_rec set_ijob set_fjob add_ijob insert items option_map r_obj r_fin r_cnt].
Ltac ssin H := cbn [recs prime_it ind requested imap chosen probes_queued pool_get computing computed main feeds ijobs feed_jobs interpolate_jobs items_done items_new_prime hist looked finished_ix visits set_recs set_prime_it set_ind set_requested set_imap set_chosen set_probes_queued set_pool_get set_computing set_computed set_main set_feeds set_ijobs set_feed_jobs set_interpolate_jobs set_items_done set_items_new_prime set_hist set_looked set_finished_ix set_visits set_rec set_ijob set_fjob add_ijob insert items option_map r_obj r_fin r_cnt] in H.
Fixpoint sumf {A} (f : A -> nat) (l : list A) : nat := match l with [] => 0 | x :: r => f x + sumf f r end.
Lemma sum_app {A} (f : A -> nat) a b : sumf f (a ++ b) = sumf f a + sumf f b.
Proof. induction a as [|x a IH]; cbn; [reflexivity|]. rewrite IH. lia. Qed.
Lemma sum_one {A} (f : A -> nat) x : sumf f [x] = f x.
Proof. cbn. lia. Qed.
Lemma sum_set {A} (f : A -> nat) l : forall i x y, nth_error l i = Some x -> sumf f (set_nth i y l) + f x = sumf f l + f y.
Proof.
  induction l as [|z l IH]; intros [|i] x y H; try discriminate; cbn in H.
  - injection H as ->. cbn. lia.
  - specialize (IH _ _ y H). cbn. lia.
Qed.
Lemma sum_del {A} (f : A -> nat) l : forall i x, nth_error l i = Some x -> sumf f (del i l) + f x = sumf f l.
Proof.
  induction l as [|z l IH]; intros [|i] x H; try discriminate; cbn in H.
  - injection H as ->. cbn. lia.
  - specialize (IH _ _ H). cbn. lia.
Qed.
Lemma sum_ge {A} (f : A -> nat) l : forall i x, nth_error l i = Some x -> f x <= sumf f l.
Proof. intros i x H. pose proof (sum_del f l i x H). lia. Qed.
Lemma sum_in {A} (f : A -> nat) l x : In x l -> f x <= sumf f l.
Proof. intros H. apply In_nth_error in H as [i H]. apply (sum_ge f l i x H). Qed.
Lemma sum_ext {A} (f g : A -> nat) l : (forall x, In x l -> f x = g x) -> sumf f l = sumf g l.
Proof. induction l as [|x l IH]; intros H; cbn; [reflexivity|]. rewrite (H x (or_introl eq_refl)), IH; [reflexivity|]. intros y Hy. apply H. right. exact Hy. Qed.
Lemma sum_zero {A} (f : A -> nat) l : sumf f l = 0 -> forall x, In x l -> f x = 0.
Proof. intros H x Hx. pose proof (sum_in f l x Hx). lia. Qed.
Lemma set_length {A} (y : A) l : forall i, length (set_nth i y l) = length l.
Proof. induction l as [|x l IH]; intros [|i]; cbn; auto. Qed.
Lemma del_length {A} (l : list A) : forall i x, nth_error l i = Some x -> S (length (del i l)) = length l.
Proof. induction l as [|y l IH]; intros [|i] x H; try discriminate; cbn in *; [reflexivity|]. rewrite (IH _ _ H). reflexivity. Qed.
Lemma in_set {A} (i : nat) (y : A) l z : In z (set_nth i y l) -> z = y \/ In z l.
Proof.
  revert i. induction l as [|x l IH]; intros [|i] H; cbn in H; try contradiction.
  - destruct H as [<-|H]; [left; reflexivity|right; right; exact H].
  - destruct H as [<-|H]; [right; left; reflexivity|]. destruct (IH i H) as [->|H']; [left; reflexivity|right; right; exact H'].
Qed.
Lemma in_del {A} (l : list A) : forall i z, In z (del i l) -> In z l.
Proof. induction l as [|x l IH]; intros [|i] z H; cbn in H; try contradiction; [right; exact H|]. destruct H as [<-|H]; [left; reflexivity|right; apply (IH i z H)]. Qed.
Lemma nth_set_eq {A} (l : list A) : forall i x y, nth_error l i = Some x -> nth_error (set_nth i y l) i = Some y.
Proof. induction l as [|z l IH]; intros [|i] x y H; try discriminate; cbn in *; [reflexivity|]. apply (IH _ _ _ H). Qed.
Lemma nth_set_ne {A} (l : list A) : forall i j y, i <> j -> nth_error (set_nth i y l) j = nth_error l j.
Proof. induction l as [|z l IH]; intros [|i] [|j] y H; cbn; try reflexivity; try congruence. apply IH. congruence. Qed.
Lemma nth_set_cases {A} (l : list A) i j y z x : nth_error l i = Some x -> nth_error (set_nth i y l) j = Some z -> (j = i /\ z = y) \/ (j <> i /\ nth_error l j = Some z).
Proof.
  intros N H. destruct (Nat.eq_dec j i) as [->|D]; [left; rewrite (nth_set_eq _ _ _ _ N) in H; injection H as <-; split; reflexivity|right].
  rewrite nth_set_ne in H by congruence. split; assumption.
Qed.

Definition cnt (i : nat) (l : list nat) : nat := count_occ Nat.eq_dec l i.
Lemma cnt_app i a b : cnt i (a ++ b) = cnt i a + cnt i b.
Proof. apply count_occ_app. Qed.
Lemma cnt_in i l : 1 <= cnt i l <-> In i l.
Proof. unfold cnt. pose proof (count_occ_In Nat.eq_dec l i). unfold gt in *. rewrite H. lia. Qed.
Lemma cnt_cons i j l : cnt i (j :: l) = (if i =? j then 1 else 0) + cnt i l.
Proof. unfold cnt. cbn. destruct (Nat.eq_dec j i) as [->|D]; [rewrite Nat.eqb_refl; reflexivity|]. destruct (Nat.eqb_spec i j); [congruence|reflexivity]. Qed.
Definition ix {B} (b : list (nat * B)) : list nat := map fst b.

Definition held_main (m : main_pc) : list (nat * list Z) := match m with MGot b | MFeed1 b | MFeed2 b => b | _ => [] end.
Definition held_feed (j : fjob) : list (nat * list Z) := match j with FWait b | FLook b => b | _ => [] end.
Definition loop_ix (j : fjob) : list nat := match j with FLoop i _ _ _ _ => i | _ => [] end.
Definition credit (n : nat) (j : fjob) : nat := match j with FWait _ => 0 | FLook _ => n | FLoop _ _ _ _ c => n - c end.
Definition main_picks (m : main_pc) : list point := match m with MQueue p _ => p | _ => [] end.
Definition job_picks (j : ijob) : list point := match j with IQueue _ _ p _ => p | _ => [] end.
Definition main_owed (m : main_pc) : nat := match m with MQueue _ w => w | _ => 0 end.
Definition job_owed (j : ijob) : nat := match j with IQueue _ _ _ w => w | _ => 0 end.
Definition job_rec (j : ijob) : nat := match j with IPend k | IBody k | IPost k _ _ _ | IQueue k _ _ _ => k end.

Ltac inv_step H :=
  match type of H with sstep _ _ _ _ ?e _ = _ => unfold sstep, choose, option_map in H; destruct e end;
  repeat (match type of H with context[match ?x with _ => _ end] => destruct x eqn:?; try discriminate H end);
  repeat match goal with G : (if ?b then None else Some _) = Some _ |- _ => destruct b eqn:?; [discriminate G|injection G as <-] end;
  injection H as <-; unfold next_prime, insert; repeat match goal with b : bool |- context[if ?b then (ind _, _) :: _ else _] => destruct b end.
Ltac fix_goal :=
  repeat match goal with
  | E : main ?s = _ |- context[main ?s] => rewrite E
  | E : requested ?s = _ |- context[requested ?s] => rewrite E
  | E : computed ?s = _ |- context[computed ?s] => rewrite E
  | E : computing ?s = _ |- context[computing ?s] => rewrite E
  end.
(** sums over updated lists *)
Ltac sums :=
  repeat match goal with
  | |- context[sumf ?f (set_nth ?i ?y ?l)] => match goal with N : nth_error l i = Some ?x |- _ => let E := fresh "E" in pose proof (sum_set f l i x y N) as E; cbv beta iota in E; revert E; generalize (sumf f (set_nth i y l)); intros ? E end
  | |- context[sumf ?f (del ?i ?l)] => match goal with N : nth_error l i = Some ?x |- _ => let E := fresh "E" in pose proof (sum_del f l i x N) as E; cbv beta iota in E; revert E; generalize (sumf f (del i l)); intros ? E end
  | |- context[sumf ?f (?a ++ ?b)] => rewrite (sum_app f a b)
  | |- context[sumf ?f [?x]] => rewrite (sum_one f x)
  end.

Section Inv.
Variable bb : nat -> point -> list Z.
Variables thr bs : Z.
Variable scan : bool.
Notation step := (sstep bb thr bs scan).

(** every index is in exactly one place *)
Definition places (s : st) (i : nat) : nat :=
  cnt i (ix (requested s)) + sumf (fun b => cnt i (ix b)) (computing s) + sumf (fun b => cnt i (ix b)) (computed s) + cnt i (ix (held_main (main s))) + sumf (fun j => cnt i (ix (held_feed j))) (feeds s) + cnt i (looked s).
Definition A_idx (s : st) : Prop := forall i, places s i = if i <? ind s then 1 else 0.
Lemma cnt_firstn i b l : cnt i (map fst (firstn b l)) + cnt i (map fst (skipn b l)) = cnt i (@map (nat * point) nat fst l).
Proof. rewrite <- cnt_app, <- map_app, firstn_skipn. reflexivity. Qed.
Lemma cnt_nil i : cnt i [] = 0.
Proof. reflexivity. Qed.
Lemma lt_S i n : (if i <? S n then 1 else 0) = (if i <? n then 1 else 0) + (if i =? n then 1 else 0).
Proof. destruct (Nat.ltb_spec i (S n)), (Nat.ltb_spec i n), (Nat.eqb_spec i n); lia. Qed.
Lemma map_fst_bb (f : point -> list Z) (l : list (nat * point)) : map fst (map (fun x => (fst x, f (snd x))) l) = map fst l.
Proof. rewrite map_map. reflexivity. Qed.
Lemma A_idx_step e s s' : A_idx s -> step e s = Some s' -> A_idx s'.
Proof.
  unfold A_idx, places. intros A H i. specialize (A i). inv_step H; ss; fix_goal; sums; unfold ix in *.
  all: repeat match goal with E : main _ = _ |- _ => rewrite E in A; clear E end.
  all: cbn [held_main held_feed map sumf fst] in *; rewrite ?map_fst_bb, ?map_app, ?cnt_app, ?cnt_cons, ?cnt_nil, ?lt_S in *; cbn [map fst] in *; rewrite ?cnt_cons, ?cnt_nil in *.
  all: try lia.
  - destruct (i <? 0) eqn:L; [apply Nat.ltb_lt in L; lia|reflexivity].
  - pose proof (cnt_firstn i (Z.to_nat z) (p :: l)) as C. cbn [map] in C. rewrite cnt_cons in C. lia.
Qed.

(** indices looked up are in the loop of a feed job or finished *)
Definition A_look (s : st) : Prop := forall i, cnt i (looked s) = sumf (fun j => cnt i (loop_ix j)) (feeds s) + cnt i (finished_ix s).
Lemma A_look_step e s s' : A_look s -> step e s = Some s' -> A_look s'.
Proof.
  unfold A_look. intros A H i. specialize (A i). inv_step H; ss; fix_goal; sums; cbn [loop_ix sumf] in *; rewrite ?cnt_app, ?cnt_nil in *; lia.
Qed.
(** positions in the loops *)
Definition fjob_ok (n : nat) (j : fjob) : Prop := match j with FLoop _ _ _ k c => c <= k /\ k <= n | _ => True end.
Definition A_pos (s : st) : Prop := Forall (fjob_ok (items s)) (feeds s).
Lemma forall_set {A} (P : A -> Prop) i y l : P y -> Forall P l -> Forall P (set_nth i y l).
Proof. intros Py. revert i. induction l as [|x l IH]; intros [|i] F; cbn; [constructor|constructor|..]; inversion F; subst; constructor; auto. Qed.
Lemma forall_del {A} (P : A -> Prop) i l : Forall P l -> Forall P (del i l).
Proof. revert i. induction l as [|x l IH]; intros [|i] F; cbn; [constructor|constructor|..]; inversion F; subst; auto. Qed.
Lemma forall_nth {A} (P : A -> Prop) i l x : Forall P l -> nth_error l i = Some x -> P x.
Proof. intros F H. apply nth_error_In in H. apply (proj1 (Forall_forall _ _) F x H). Qed.
Lemma A_pos_step e s s' : A_pos s -> step e s = Some s' -> A_pos s'.
Proof.
  unfold A_pos. intros A H. inv_step H; unfold items in *; ss; rewrite ?set_length, ?map_length; try exact A; try (apply forall_set; [|exact A]); try (apply forall_del; exact A).
  all: try exact I.
  all: try (apply Forall_app; split; [exact A|repeat constructor]).
  all: try solve [constructor].
  all: try match goal with N : nth_error (feeds _) _ = Some _ |- _ => pose proof (forall_nth _ _ _ _ A N) as F; cbn [fjob_ok] in * end.
  all: try match goal with N : nth_error (recs ?t) ?q = Some _ |- _ => assert (q < length (recs t)) by (apply nth_error_Some; rewrite N; discriminate) end.
  all: lia.
Qed.

(** the counters *)
Definition got (m : main_pc) : nat := match m with MGot b => length b | _ => 0 end.
Definition fed2 (m : main_pc) : nat := match m with MFeed2 _ => 1 | _ => 0 end.
Definition A_queued (s : st) : Prop := probes_queued s = Z.of_nat (length (requested s) + sumf (@length _) (computing s) + sumf (@length _) (computed s) + got (main s)).
Lemma A_queued_step e s s' : A_queued s -> step e s = Some s' -> A_queued s'.
Proof.
  unfold A_queued. intros A H. inv_step H; ss; fix_goal; sums.
  all: repeat match goal with E : main _ = _ |- _ => rewrite E in A; clear E end.
  all: cbn [got sumf length] in *; rewrite ?app_length, ?map_length in *; cbn [length] in *; try lia.
  pose proof (firstn_skipn (Z.to_nat z) (p :: l)) as C. apply (f_equal (@length _)) in C. rewrite app_length in C. cbn [length] in C. lia.
Qed.
Definition A_feed (s : st) : Prop := feed_jobs s = Z.of_nat (length (feeds s) + fed2 (main s)).
Lemma A_feed_step e s s' : A_feed s -> step e s = Some s' -> A_feed s'.
Proof.
  unfold A_feed. intros A H. inv_step H; ss; fix_goal.
  all: repeat match goal with E : main _ = _ |- _ => rewrite E in A; clear E end.
  all: repeat match goal with N : nth_error (feeds ?s) ?j = Some _ |- context[del ?j (feeds ?s)] => pose proof (del_length _ _ _ N); revert H; generalize (length (del j (feeds s))); intros ? H end.
  all: cbn [fed2 length] in *; rewrite ?app_length, ?set_length in *; cbn [length] in *; lia.
Qed.
Definition A_int (s : st) : Prop := interpolate_jobs s = Z.of_nat (length (ijobs s) + sumf (credit (items s)) (feeds s)).
Lemma A_int_step e s s' : A_pos s -> A_int s -> step e s = Some s' -> A_int s'.
Proof.
  unfold A_int, A_pos. intros P A H. inv_step H; unfold items in *; ss; fix_goal; rewrite ?set_length, ?map_length; sums.
  all: repeat match goal with N : nth_error (ijobs ?s) ?j = Some _ |- context[del ?j (ijobs ?s)] => pose proof (del_length _ _ _ N); revert H; generalize (length (del j (ijobs s))); intros ? H end.
  all: try match goal with N : nth_error (feeds _) _ = Some _ |- _ => pose proof (forall_nth _ _ _ _ P N) as F; cbn [fjob_ok] in * end.
  all: try match goal with N : nth_error (recs ?t) ?q = Some _ |- _ => assert (q < length (recs t)) by (apply nth_error_Some; rewrite N; discriminate) end.
  all: cbn [credit length sumf] in *; rewrite ?app_length, ?set_length in *; cbn [length] in *; lia.
Qed.
(** every function is visited exactly once for every index *)
Definition cv (k i : nat) (l : list (nat * nat)) : nat := sumf (fun x => if (fst x =? k) && (snd x =? i) then 1 else 0) l.
Lemma cv_app k i a b : cv k i (a ++ b) = cv k i a + cv k i b.
Proof. apply sum_app. Qed.
Lemma cv_pair k i k' l : cv k i (map (pair k') l) = if k' =? k then cnt i l else 0.
Proof.
  induction l as [|x l IH]; [cbn; destruct (k' =? k); reflexivity|]. unfold cv in *. cbn [map sumf fst snd]. rewrite IH, cnt_cons, (Nat.eqb_sym x i). destruct (k' =? k); cbn [andb]; destruct (i =? x); reflexivity.
Qed.
Definition seen (k i : nat) (j : fjob) : nat := match j with FLoop l _ _ pos _ => if k <? pos then cnt i l else 0 | _ => 0 end.
Definition A_visit (s : st) : Prop := forall k i, cv k i (visits s) = sumf (seen k i) (feeds s) + (if k <? items s then cnt i (finished_ix s) else 0).
Lemma seen_S k i l p r pos c c' : seen k i (FLoop l p r (S pos) c) = (if pos =? k then cnt i l else 0) + seen k i (FLoop l p r pos c').
Proof. unfold seen. destruct (Nat.ltb_spec k (S pos)), (Nat.ltb_spec k pos), (Nat.eqb_spec pos k); lia. Qed.
Lemma A_visit_step e s s' : A_pos s -> A_visit s -> step e s = Some s' -> A_visit s'.
Proof.
  unfold A_visit, A_pos. intros P A H k i. specialize (A k i). inv_step H; unfold items in *; ss; fix_goal; rewrite ?set_length, ?map_length; sums.
  all: rewrite ?cv_app, ?cv_pair, ?cnt_app, ?cnt_nil in *.
  all: try (rewrite (seen_S _ _ _ _ _ _ _ c) in E).
  all: try match goal with N : (_ =? _) = true |- _ => apply Nat.eqb_eq in N; subst end.
  all: cbn [seen sumf] in *; try lia.
  all: change (k <? 0) with false in *; cbv iota in *; destruct (k <? length (recs _)); try lia; reflexivity.
Qed.

(** ** the contents *)
Lemma look_erase i j m : lookup j (erase i m) = if j =? i then None else lookup j m.
Proof.
  induction m as [|[x p] m IH]; [cbn; destruct (j =? i); reflexivity|]. cbn [erase]. destruct (Nat.eqb_spec i x) as [->|D].
  - rewrite IH. cbn. destruct (Nat.eqb_spec j x); reflexivity.
  - cbn [lookup]. rewrite IH. destruct (Nat.eqb_spec j x) as [->|D']; [|reflexivity]. destruct (Nat.eqb_spec x i); [congruence|reflexivity].
Qed.
Lemma look_all_spec l : forall m pts m', NoDup l -> look_all l m = Some (pts, m') ->
  map (fun i => lookup i m) l = map Some pts /\ (forall i, lookup i m' = if cnt i l =? 0 then lookup i m else None).
Proof.
  induction l as [|i l IH]; intros m pts m' ND H; cbn [look_all] in H.
  - injection H as <- <-. split; reflexivity.
  - inversion ND as [|? ? N1 N2]; subst. destruct (lookup i m) as [p|] eqn:L; [|discriminate]. destruct (look_all l (erase i m)) as [[ps m1]|] eqn:R; [|discriminate]. injection H as <- <-.
    destruct (IH _ _ _ N2 R) as [A B]. split.
    + cbn [map]. rewrite L. f_equal. rewrite <- A. apply map_ext_in. intros j Hj. rewrite look_erase. destruct (Nat.eqb_spec j i) as [->|D]; [elim (N1 Hj)|reflexivity].
    + intros j. rewrite B, look_erase, cnt_cons. destruct (Nat.eqb_spec j i) as [->|D]; [|reflexivity]. destruct (cnt i l =? 0); reflexivity.
Qed.
Lemma look_all_ok l : forall m, NoDup l -> (forall i, In i l -> lookup i m <> None) -> look_all l m <> None.
Proof.
  induction l as [|i l IH]; intros m ND H; cbn [look_all]; [discriminate|]. inversion ND as [|? ? N1 N2]; subst. destruct (lookup i m) as [p|] eqn:L; [|elim (H i (or_introl eq_refl) L)].
  destruct (look_all l (erase i m)) as [[ps m1]|] eqn:R; [discriminate|]. elim (IH (erase i m) N2); [|exact R]. intros j Hj. rewrite look_erase. destruct (Nat.eqb_spec j i) as [->|D]; [elim (N1 Hj)|apply H; right; exact Hj].
Qed.
Definition dreq (h l : list (nat * point)) : Prop := Forall (fun x => lookup (fst x) h = Some (snd x)) l.
Definition dbun (h b : list (nat * point)) : Prop := b <> [] /\ dreq h b.
Definition dres (P : nat) (h : list (nat * point)) (b : list (nat * list Z)) : Prop := b <> [] /\ Forall (fun x => exists p, lookup (fst x) h = Some p /\ snd x = bb P p) b.
Definition dmain (P : nat) (h : list (nat * point)) (m : main_pc) : Prop := match m with MGot b | MFeed1 b | MFeed2 b => dres P h b | _ => True end.
Definition dfeed (P : nat) (h : list (nat * point)) (j : fjob) : Prop :=
  match j with FWait b | FLook b => dres P h b | FLoop l pts res _ _ => l <> [] /\ map (fun i => lookup i h) l = map Some pts /\ res = map (bb P) pts end.
Definition sub (h h' : list (nat * point)) : Prop := forall i p, lookup i h = Some p -> lookup i h' = Some p.
Lemma dreq_sub h h' l : sub h h' -> dreq h l -> dreq h' l.
Proof. intros S. apply Forall_impl. intros x. apply S. Qed.
Lemma dbun_sub h h' b : sub h h' -> dbun h b -> dbun h' b.
Proof. intros S [A B]. split; [exact A|apply (dreq_sub h); assumption]. Qed.
Lemma dres_sub P h h' b : sub h h' -> dres P h b -> dres P h' b.
Proof. intros S [A B]. split; [exact A|]. revert B. apply Forall_impl. intros x [p [L E]]. exists p. split; [apply S; exact L|exact E]. Qed.
Lemma dmain_sub P h h' m : sub h h' -> dmain P h m -> dmain P h' m.
Proof. intros S. destruct m; cbn; try tauto; apply dres_sub; exact S. Qed.
Lemma look_some_sub h h' l : forall pts, sub h h' -> map (fun i => lookup i h) l = map Some pts -> map (fun i => lookup i h') l = map Some pts.
Proof.
  induction l as [|i l IH]; intros [|p pts] S H; try discriminate; [reflexivity|]. cbn [map] in *. injection H as E1 E2. rewrite (S _ _ E1). f_equal. apply IH; assumption.
Qed.
Lemma dfeed_sub P h h' j : sub h h' -> dfeed P h j -> dfeed P h' j.
Proof. intros S. destruct j; cbn; try (apply dres_sub; exact S). intros [A [B C]]. split; [exact A|split; [apply (look_some_sub h); assumption|exact C]]. Qed.
Record D (s : st) : Prop := {
  d_hist : forall i, lookup i (hist s) = None <-> ind s <= i;
  d_imap : forall i, lookup i (imap s) = if cnt i (looked s) =? 0 then lookup i (hist s) else None;
  d_req : dreq (hist s) (requested s);
  d_cpt : Forall (dbun (hist s)) (computing s);
  d_cpd : Forall (dres (prime_it s) (hist s)) (computed s);
  d_main : dmain (prime_it s) (hist s) (main s);
  d_feeds : Forall (dfeed (prime_it s) (hist s)) (feeds s) }.
Lemma sub_new s p : D s -> sub (hist s) ((ind s, p) :: hist s).
Proof. intros Ds i q H. cbn [lookup]. destruct (Nat.eqb_spec i (ind s)) as [->|N]; [|exact H]. rewrite (proj2 (d_hist s Ds (ind s)) (le_n _)) in H. discriminate. Qed.
Lemma cnt_nodup l : (forall i, cnt i l <= 1) -> NoDup l.
Proof. intros H. apply (NoDup_count_occ Nat.eq_dec). exact H. Qed.
Lemma insert_D s p q : A_idx s -> D s -> (q = (ind s, p) :: requested s \/ q = requested s ++ [(ind s, p)]) ->
  D (set_requested q (set_imap ((ind s, p) :: imap s) (set_hist ((ind s, p) :: hist s) (set_ind (S (ind s)) (set_probes_queued (probes_queued s + 1)%Z s))))).
Proof.
  intros A Ds Q. pose proof (sub_new s p Ds) as S. destruct Ds as [H1 H2 H3 H4 H5 H6 H7]. constructor; ss.
  - intros i. cbn [lookup]. destruct (Nat.eqb_spec i (ind s)) as [->|N]; [split; [discriminate|lia]|]. rewrite H1. lia.
  - intros i. cbn [lookup]. destruct (Nat.eqb_spec i (ind s)) as [->|N]; [|apply H2]. specialize (A (ind s)). unfold places in A. rewrite Nat.ltb_irrefl in A. replace (cnt (ind s) (looked s)) with 0 by lia. reflexivity.
  - assert (R : dreq ((ind s, p) :: hist s) [(ind s, p)]) by (constructor; [cbn; rewrite Nat.eqb_refl; reflexivity|constructor]).
    assert (R' : dreq ((ind s, p) :: hist s) (requested s)) by (apply (dreq_sub (hist s)); assumption).
    destruct Q as [->| ->]; [constructor; [inversion R; assumption|exact R']|apply Forall_app; split; assumption].
  - revert H4. apply Forall_impl. intros b. apply dbun_sub. exact S.
  - revert H5. apply Forall_impl. intros b. apply dres_sub. exact S.
  - apply (dmain_sub _ (hist s)); assumption.
  - revert H7. apply Forall_impl. intros b. apply dfeed_sub. exact S.
Qed.
Lemma places_le s i : A_idx s -> places s i <= 1.
Proof. intros A. rewrite A. destruct (i <? ind s); lia. Qed.
Lemma held_nodup s j b : A_idx s -> nth_error (feeds s) j = Some (FLook b) -> NoDup (map fst b) /\ (forall i, In i (map fst b) -> cnt i (looked s) = 0).
Proof.
  intros A N. assert (L : forall i, cnt i (map fst b) + cnt i (looked s) <= 1).
  { intros i. pose proof (places_le s i A) as L. unfold places in L. pose proof (sum_ge (fun j => cnt i (ix (held_feed j))) _ _ _ N) as G. cbn [held_feed] in G. unfold ix in *. lia. }
  split; [apply cnt_nodup; intros i; specialize (L i); lia|]. intros i Hi. apply cnt_in in Hi. specialize (L i). lia.
Qed.
Lemma dres_look P h b : forall pts, Forall (fun x => exists p, lookup (fst x) h = Some p /\ snd x = bb P p) b -> map (fun i => lookup i h) (map fst b) = map Some pts -> map snd b = map (bb P) pts.
Proof.
  induction b as [|[i r] b IH]; intros [|p pts] F H; try discriminate; [reflexivity|]. cbn [map fst snd] in *. injection H as E1 E2. inversion F as [|? ? [q [L E]] F2]; subst. cbn [fst snd] in *. rewrite E1 in L. injection L as ->. rewrite E. f_equal. apply IH; assumption.
Qed.
Lemma lookup_D s j b pts m : A_idx s -> D s -> nth_error (feeds s) j = Some (FLook b) -> look_all (map fst b) (imap s) = Some (pts, m) ->
  D (set_fjob j (FLoop (map fst b) pts (map snd b) 0 0) (set_imap m (set_looked (map fst b ++ looked s) s))).
Proof.
  intros A [H1 H2 H3 H4 H5 H6 H7] N L. destruct (held_nodup _ _ _ A N) as [ND LK]. destruct (look_all_spec _ _ _ _ ND L) as [E1 E2]. constructor; ss; try assumption.
  - intros i. rewrite E2, H2, cnt_app. destruct (cnt i (map fst b)); reflexivity.
  - apply forall_set; [|exact H7]. pose proof (forall_nth _ _ _ _ H7 N) as [NE F]. cbn [dfeed] in *. 
    assert (E3 : map (fun i => lookup i (hist s)) (map fst b) = map Some pts).
    { rewrite <- E1. apply map_ext_in. intros i Hi. rewrite H2, (LK i Hi). reflexivity. }
    split; [intros E; apply map_eq_nil in E; exact (NE E)|split; [exact E3|apply (dres_look _ (hist s)); assumption]].
Qed.
Lemma D_step e s s' : A_idx s -> D s -> step e s = Some s' -> D s'.
Proof.
  intros A Ds H. inv_step H.
  all: try match goal with |- D (set_main _ (set_requested ?q (set_imap ((ind ?s, ?p) :: _) _))) => 
     assert (DI := insert_D s p q A Ds ltac:(first [left; reflexivity|right; reflexivity])); destruct DI as [H1 H2 H3 H4 H5 H6 H7]; constructor; ss; try assumption; exact I end.
  all: try match goal with |- D (set_ijob _ _ (set_requested ?q (set_imap ((ind ?s, ?p) :: _) _))) => 
     assert (DI := insert_D s p q A Ds ltac:(first [left; reflexivity|right; reflexivity])); destruct DI as [H1 H2 H3 H4 H5 H6 H7]; constructor; ss; assumption end.
  all: try (match goal with |- D (set_fjob _ (FLoop _ _ _ 0 0) _) => idtac end; apply lookup_D; assumption).
  all: destruct Ds as [H1 H2 H3 H4 H5 H6 H7].
  all: repeat match goal with E : main _ = _ |- _ => rewrite E in H6 end.
  all: constructor; ss; fix_goal; try assumption; try exact I; cbn [dmain dfeed] in *; try assumption.
  all: try (apply forall_set; [|assumption]; match goal with N : nth_error (feeds _) _ = Some _ |- _ => pose proof (forall_nth _ _ _ _ H7 N) as F; exact F end).
  all: try (apply forall_del; assumption).
  all: try (match goal with E : computed _ = _ |- _ => rewrite E in H5; inversion H5; subst; assumption end).
  all: try (apply Forall_app; split; [assumption|constructor; [assumption|constructor]]).
  all: try solve [constructor].
  - intros i. split; [lia|reflexivity].
  - rewrite Heql in H3. unfold dreq in *. rewrite <- (firstn_skipn (Z.to_nat z) (p :: l)) in H3. apply Forall_app in H3. exact (proj2 H3).
  - apply Forall_app. split; [assumption|]. constructor; [|constructor]. split.
    + apply existsb_exists in Heqb as [w [W E]]. apply Z.eqb_eq in E. subst w. assert (1 <= Z.to_nat z) by (cbn in W; lia). destruct (Z.to_nat z); [lia|discriminate].
    + unfold dreq in *. rewrite Heql in H3. rewrite <- (firstn_skipn (Z.to_nat z) (p :: l)) in H3. apply Forall_app in H3. exact (proj1 H3).
  - rewrite Heql in H3. exact H3.
  - apply Forall_app. split; [assumption|]. constructor; [|constructor]. pose proof (forall_nth _ _ _ _ H4 Heqo) as [NE F]. split; [intros E; apply map_eq_nil in E; exact (NE E)|].
    apply Forall_map. revert F. apply Forall_impl. intros x X. exists (snd x). split; [exact X|reflexivity].

Qed.
End Inv.

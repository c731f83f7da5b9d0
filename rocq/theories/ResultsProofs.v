(** Proofs for C52: order of variables, points, queue, results *)
From Coq Require Import Ascii String Znumtheory Permutation Sorted.
From Verif Require Import Machine FFInt FFIntProofs RatNum SYParse SYEval SYObj DecPrint Printers PrintSpec Results ResultsSpec.
From Coq Require Import List.
Import ListNotations.
Open Scope nat_scope.

(** ---- order ---- *)
Section Order.
  Variable deg : nat -> nat.
  Definition before (i j : nat) : Prop := deg j < deg i \/ (deg i = deg j /\ i < j).
  Lemma insert_perm i l : Permutation (insert_desc deg i l) (i :: l).
  Proof. induction l as [|j r IH]; [reflexivity|]. cbn [insert_desc]. destruct (deg j <? deg i); [reflexivity|]. rewrite IH. apply perm_swap. Qed.
  Lemma insert_sorted i l : (forall j, In j l -> j < i) -> StronglySorted before l -> StronglySorted before (insert_desc deg i l).
  Proof.
    intros H S. induction S as [|j r Sr IH Fr]; [constructor; constructor|]. cbn [insert_desc]. destruct (deg j <? deg i) eqn:E.
    - apply Nat.ltb_lt in E. constructor; [constructor; assumption|]. constructor; [left; exact E|]. eapply Forall_impl; [|exact Fr]. intros k [K|[K _]]; left; lia.
    - apply Nat.ltb_ge in E. constructor; [apply IH; intros k K; apply H; right; exact K|]. rewrite (insert_perm i r). constructor; [|exact Fr].
      specialize (H j (or_introl eq_refl)). unfold before. lia.
  Qed.
  Lemma sort_ok n : Permutation (sort_indices deg n) (seq 0 n) /\ StronglySorted before (sort_indices deg n).
  Proof.
    induction n as [|n IH]; [split; [reflexivity|constructor]|]. unfold sort_indices in *. rewrite seq_S, fold_left_app. cbn [fold_left Nat.add]. destruct IH as [P S]. split.
    - rewrite insert_perm, P. apply Permutation_cons_append.
    - apply insert_sorted; [|exact S]. intros j I. apply (Permutation_in _ P) in I. apply in_seq in I. lia.
  Qed.
  Lemma order_renumbers n : renumbering n (optimal_var_order deg n).
  Proof.
    destruct (sort_ok n) as [P _]. unfold optimal_var_order, renumbering. assert (L : length (sort_indices deg n) = n) by (rewrite (Permutation_length P); apply seq_length).
    assert (E1 : map fst (combine (seq 0 n) (sort_indices deg n)) = seq 0 n). { revert L. generalize (sort_indices deg n). generalize 0. clear. induction n as [|n IH]; intros a [|x l] L; try discriminate; [reflexivity|]. cbn. f_equal. apply IH. cbn in L. lia. }
    assert (E2 : map snd (combine (seq 0 n) (sort_indices deg n)) = sort_indices deg n). { revert L. generalize (sort_indices deg n). generalize 0. clear. induction n as [|n IH]; intros a [|x l] L; try discriminate; [reflexivity|]. cbn. f_equal. apply IH. cbn in L. lia. }
    rewrite E1, E2. split; [apply seq_NoDup|]. split; [intros i; rewrite in_seq; lia|]. split; [apply (Permutation_NoDup (Permutation_sym P)), seq_NoDup|]. intros j I. apply (Permutation_in _ P) in I. apply in_seq in I. lia.
  Qed.
End Order.

(** ---- points ---- *)
Lemma upd_len {A} (l : list A) i a : length (upd_l l i a) = length l.
Proof. revert i. induction l as [|x l IH]; intros [|i]; cbn; auto. Qed.
Lemma upd_at {A} (d : A) (l : list A) i a j : i < length l -> nth j (upd_l l i a) d = if i =? j then a else nth j l d.
Proof.
  revert i j. induction l as [|x l IH]; intros i j H; [cbn in H; lia|]. destruct i as [|i]; destruct j as [|j]; cbn; try reflexivity. apply IH. cbn in H. lia.
Qed.
Section Points.
  Variables (p t : Z) (y s : list Z).
  Hypothesis Hp : (0 < p < two63)%Z.
  Hypothesis Ht : (0 <= t < p)%Z.
  Hypothesis Hy : Forall (fun v => (0 <= v < p)%Z) y.
  Hypothesis Hs : Forall (fun v => (0 <= v < p)%Z) s.
  Definition coord (i : nat) : Z := match i with O => ((t + nth 0 s 0) mod p)%Z | S j => ((nth j y 0 * t + nth i s 0) mod p)%Z end.
  Lemma coordinate_ok n i : length s = n -> S (length y) = n -> i < n -> ray_coordinate p t y s i = Ret (coord i).
  Proof.
    intros Ls Ly Hi. assert (NS : forall k, k < n -> exists v, nth_error s k = Some v /\ nth k s 0%Z = v /\ (0 <= v < p)%Z).
    { intros k Hk. destruct (nth_error s k) as [v|] eqn:E; [|apply nth_error_None in E; lia]. exists v. split; [reflexivity|]. split; [apply nth_error_nth; exact E|]. rewrite Forall_forall in Hs. apply Hs. apply (nth_error_In _ _ E). }
    destruct i as [|j].
    - unfold ray_coordinate, coord. destruct (NS 0 Hi) as [v [-> [-> B]]]. f_equal. apply ff_add_correct; lia.
    - unfold ray_coordinate, coord. destruct (NS (S j) Hi) as [v [-> [-> B]]]. destruct (nth_error y j) as [w|] eqn:E; [|apply nth_error_None in E; lia]. rewrite (nth_error_nth _ _ 0%Z E).
      assert (Bw : (0 <= w < p)%Z) by (rewrite Forall_forall in Hy; apply Hy; apply (nth_error_In _ _ E)).
      f_equal. rewrite ff_mul_correct by lia. rewrite ff_add_correct; [apply Zplus_mod_idemp_l|lia|apply Z.mod_pos_bound; lia|lia].
  Qed.
  Lemma fill_ok n : length s = n -> S (length y) = n -> forall places values, NoDup (map snd places) -> Forall (fun e => fst e < n /\ snd e < n) places -> length values = n ->
    exists r, fill p t y s places values = Ret r /\ length r = n /\ (forall e, In e places -> nth (snd e) r 0%Z = coord (fst e)) /\ (forall j, ~ In j (map snd places) -> nth j r 0%Z = nth j values 0%Z).
  Proof.
    intros Ls Ly. induction places as [|[i j] places IH]; intros values N F L; [exists values; repeat split; auto; intros e []|].
    cbn [map snd] in N. apply NoDup_cons_iff in N as [Nj N']. apply Forall_cons_iff in F as [[Hi Hj] F']. cbn [fst snd] in Hi, Hj, Nj. cbn [fill]. rewrite (coordinate_ok _ i Ls Ly Hi). cbn [obind].
    destruct (Nat.ltb_spec j (length values)) as [Q|Q]; [|lia]. destruct (IH (upd_l values j (coord i)) N' F' ltac:(rewrite upd_len; exact L)) as [r [E [Lr [A B]]]].
    exists r. split; [exact E|]. split; [exact Lr|]. split.
    - intros e [<-|I]; [|apply A; exact I]. cbn [fst snd]. rewrite (B j Nj), (upd_at 0%Z) by exact Q. rewrite Nat.eqb_refl. reflexivity.
    - intros k Hk. cbn [map In snd] in Hk. rewrite B by tauto. rewrite (upd_at 0%Z) by exact Q. destruct (Nat.eqb_spec j k) as [->|_]; [tauto|reflexivity].
  Qed.
End Points.
Lemma image_in o i : NoDup (map fst o) -> In i (map fst o) -> In (i, image o i) o.
Proof.
  intros N I. unfold image. destruct (find (fun e => fst e =? i) o) as [e|] eqn:E.
  - apply find_some in E as [E1 E2]. apply Nat.eqb_eq in E2. destruct e as [a b]. cbn in *. subst. exact E1.
  - exfalso. apply in_map_iff in I as [e [<- I]]. pose proof (find_none _ _ E e I) as X. cbn in X. rewrite Nat.eqb_refl in X. discriminate X.
Qed.
Lemma point_ok p n (change : bool) order t y s : (0 < p < two63)%Z -> (0 <= t < p)%Z -> Forall (fun v => (0 <= v < p)%Z) y -> Forall (fun v => (0 <= v < p)%Z) s ->
  length s = n -> S (length y) = n -> (change = true -> renumbering n order) ->
  exists values, probe_point p n change order y s t = Ret values /\ canonical_point p n values /\ reorder 0%Z (if change then order else []) values = ray p n t y s.
Proof.
  intros Hp Ht Hy Hs Ls Ly Ho. unfold probe_point. set (places := if change then order else map (fun i => (i, i)) (seq 0 n)).
  assert (R : renumbering n places).
  { unfold places. destruct change; [apply Ho; reflexivity|]. unfold renumbering. rewrite !map_map. cbn [fst snd]. rewrite map_id. split; [apply seq_NoDup|]. split; [intros i; rewrite in_seq; lia|]. split; [apply seq_NoDup|]. intros j I. apply in_seq in I. lia. }
  destruct R as [N1 [I1 [N2 I2]]].
  assert (F : Forall (fun e => fst e < n /\ snd e < n) places) by (apply Forall_forall; intros e I; split; [apply I1, in_map; exact I|apply I2, in_map; exact I]).
  destruct (fill_ok p t y s Hp Ht Hy Hs n Ls Ly places (repeat 0%Z n) N2 F (repeat_length _ _)) as [r [E [Lr [A B]]]]. exists r. split; [exact E|].
  assert (Im : forall i, i < n -> nth (image places i) r 0%Z = coord p t y s i) by (intros i Hi; apply (A (i, image places i)); apply image_in; [exact N1|apply I1; exact Hi]).
  split.
  - split; [exact Lr|]. apply Forall_forall. intros v I. apply (In_nth _ _ 0%Z) in I as [j [Hj <-]].
    destruct (in_dec Nat.eq_dec j (map snd places)) as [J|J].
    + apply in_map_iff in J as [e [<- J]]. rewrite (A e J). unfold coord. destruct (fst e); apply Z.mod_pos_bound; lia.
    + rewrite (B j J), nth_repeat. lia.
  - assert (Q : map (fun i => nth (image places i) r 0%Z) (seq 0 n) = ray p n t y s). { unfold ray. apply map_ext_in. intros i I. apply in_seq in I. rewrite Im by lia. unfold coord. reflexivity. }
    unfold places in Q. destruct change.
    + unfold reorder. destruct order as [|e o]; [|rewrite Lr; exact Q]. cbn [places map] in I1. destruct n as [|n]; [|exfalso; assert (X : In 0 (map (@fst nat nat) [])) by (apply I1; lia); destruct X]. destruct r as [|z r]; [reflexivity|cbn in Lr; lia].
    + cbn [reorder]. rewrite <- Q. transitivity (map (fun i => nth i r 0%Z) (seq 0 n)).
      * apply nth_ext with (d := 0%Z) (d' := 0%Z); [rewrite map_length, seq_length; exact Lr|]. intros i Hi. rewrite (nth_indep (map (fun i => nth i r 0%Z) (seq 0 n)) 0%Z (nth (length r) r 0%Z)) by (rewrite map_length, seq_length; lia). rewrite (map_nth (fun i => nth i r 0%Z)). f_equal.
        rewrite Lr in *. rewrite (nth_indep (seq 0 n) n 0) by (rewrite seq_length; lia). rewrite seq_nth by lia. reflexivity.
      * apply map_ext_in. intros i I. apply in_seq in I. f_equal. symmetry.
        assert (X : In (i, image (map (fun i => (i, i)) (seq 0 n)) i) (map (fun i => (i, i)) (seq 0 n))) by (apply image_in; [exact N1|apply I1; lia]).
        apply in_map_iff in X as [k [X _]]. injection X as -> <-. reflexivity.
Qed.

(** ---- the queue ---- *)
Lemma new_t_ok rnd used : forall fuel k, (exists j, j < fuel /\ ~ In (rnd (k + j)) used) -> exists t k', new_t fuel rnd used k = Ret (t, k') /\ ~ In t used /\ exists i, t = rnd i.
Proof.
  induction fuel as [|fuel IH]; intros k [j [Hj N]]; [lia|]. cbn [new_t]. destruct (existsb (Z.eqb (rnd k)) used) eqn:E.
  - apply IH. destruct j as [|j]; [|exists j; split; [lia|]; replace (S k + j) with (k + S j) by lia; exact N]. exfalso. apply N. rewrite Nat.add_0_r. apply existsb_exists in E as [x [I X]]. apply Z.eqb_eq in X. rewrite X. exact I.
  - exists (rnd k), (S k). split; [reflexivity|]. split; [|exists k; reflexivity]. intros I. assert (X : existsb (Z.eqb (rnd k)) used = true) by (apply existsb_exists; exists (rnd k); split; [exact I|apply Z.eqb_refl]). congruence.
Qed.
Lemma same_order_ok a b : same_order a b = true <-> a = b.
Proof. unfold same_order. destruct (list_eq_dec Nat.eq_dec a b) as [E|E]; split; intros H; congruence. Qed.
Definition used_for (zi : list nat) (l : list (list nat * list Z)) : list Z := match chosen_for zi l with Some ts => ts | None => [] end.
Lemma used_put zi t l z : used_for z (put_chosen zi t l) = if same_order zi z then t :: used_for z l else used_for z l.
Proof.
  unfold used_for. induction l as [|[a ts] l IH]; cbn [put_chosen chosen_for].
  - destruct (same_order zi z); reflexivity.
  - destruct (same_order a zi) eqn:E; cbn [chosen_for].
    + apply same_order_ok in E. subst a. destruct (same_order zi z) eqn:E2; reflexivity.
    + destruct (same_order a z) eqn:E2; [|exact IH]. destruct (same_order zi z) eqn:E3; [|reflexivity]. apply same_order_ok in E2, E3. subst. unfold same_order in E. destruct (list_eq_dec Nat.eq_dec z z); congruence.
Qed.
Section QueueProofs.
  Variables (p : Z) (n : nat) (change : bool) (order : list (nat * nat)) (shift : list Z) (rz : list nat -> list Z) (rnd : nat -> Z) (fuel M : nat).
  Hypothesis Hpt : forall zi i, exists values, probe_point p n change order (rz zi) shift (rnd i) = Ret values.
  Hypothesis Hrnd : forall used k, length used < M -> exists j, j < fuel /\ ~ In (rnd (k + j)) used.
  Definition as_requested (e : nat * (Z * list nat)) : nat * outcome (list Z) := (fst e, probe_point p n change order (rz (snd (snd e))) shift (fst (snd e))).
  Definition qinv (q : queue) (m : nat) : Prop :=
    q_ind q = m /\ map fst (q_index q) = seq 0 m /\ NoDup (map snd (q_index q)) /\
    (forall zi, length (used_for zi (q_chosen q)) <= m /\ forall t, In t (used_for zi (q_chosen q)) <-> In (t, zi) (map snd (q_index q))) /\
    Permutation (map (fun r => (fst r, Ret (snd r))) (q_requested q)) (map as_requested (q_index q)) /\ (forall e, In e (q_index q) -> exists i, fst (snd e) = rnd i).
  Lemma queue_one_ok ones zi q m : m < M -> qinv q m -> exists q', queue_one p n change order shift rz rnd fuel ones zi q = Ret q' /\ qinv q' (S m) /\ exists t, q_index q' = q_index q ++ [(m, (t, zi))].
  Proof.
    intros Hm [I1 [I2 [I3 [I4 [I5 I6]]]]]. unfold queue_one. change (match chosen_for zi (q_chosen q) with Some ts => ts | None => [] end) with (used_for zi (q_chosen q)).
    destruct (I4 zi) as [L U]. destruct (new_t_ok rnd (used_for zi (q_chosen q)) fuel (q_drawn q) (Hrnd (used_for zi (q_chosen q)) (q_drawn q) ltac:(lia))) as [t [k' [E [N [i Ei]]]]]. rewrite E. cbn [obind fst snd].
    destruct (Hpt zi i) as [values V]. rewrite Ei, V. cbn [obind]. rewrite <- Ei in *. eexists. split; [reflexivity|]. rewrite I1 in *. split; [|exists t; reflexivity].
    unfold qinv. cbn [q_ind q_index q_chosen q_requested]. split; [reflexivity|]. split; [rewrite map_app, I2, seq_S; reflexivity|]. split; [|split; [|split]].
    - rewrite map_app. cbn [map snd]. apply (Permutation_NoDup (Permutation_cons_append _ _)). constructor; [|exact I3]. intros J. apply N. apply U. exact J.
    - intros z. rewrite used_put. destruct (I4 z) as [Lz Uz]. split; [destruct (same_order zi z); cbn [length]; lia|]. intros u. rewrite map_app, in_app_iff. cbn [map snd In]. destruct (same_order zi z) eqn:Es.
      + apply same_order_ok in Es. subst z. cbn [In]. rewrite Uz. split; [intros [->|J]; [right; left; reflexivity|left; exact J]|intros [J|[J|[]]]; [right; exact J|left; congruence]].
      + rewrite Uz. split; [intros J; left; exact J|]. intros [J|[J|[]]]; [exact J|]. exfalso. injection J as _ J. apply same_order_ok in J. congruence.
    - rewrite map_app. cbn [map]. unfold as_requested at 2. cbn [fst snd]. rewrite V. destruct ones.
      + cbn [map fst snd]. rewrite I5. apply Permutation_cons_append.
      + rewrite map_app. cbn [map fst snd]. apply Permutation_app_tail. exact I5.
    - intros e J. apply in_app_iff in J as [J|[<-|[]]]; [apply I6; exact J|]. exists i. exact Ei.
  Qed.
  Lemma queue_probes_ok ones zi : forall k q m, m + k <= M -> qinv q m ->
    exists q', queue_probes p n change order shift rz rnd fuel ones zi k q = Ret q' /\ qinv q' (m + k) /\ map (fun e => snd (snd e)) (q_index q') = map (fun e => snd (snd e)) (q_index q) ++ repeat zi k.
  Proof.
    induction k as [|k IH]; intros q m H I; cbn [queue_probes].
    - exists q. rewrite Nat.add_0_r, app_nil_r. auto.
    - destruct (queue_one_ok ones zi q m ltac:(lia) I) as [q1 [E [I' [t Et]]]]. rewrite E. cbn [obind]. destruct (IH q1 (S m) ltac:(lia) I') as [q2 [E2 [I2 R]]]. exists q2. split; [exact E2|]. split; [replace (m + S k) with (S m + k) by lia; exact I2|].
      rewrite R, Et, map_app. cbn [map snd repeat]. rewrite <- app_assoc. reflexivity.
  Qed.
  Definition total_calls (calls : list (bool * list nat * nat)) : nat := fold_right (fun c a => snd c + a) 0 calls.
  Definition all_orders (calls : list (bool * list nat * nat)) : list (list nat) := flat_map (fun c => repeat (snd (fst c)) (snd c)) calls.
  Lemma queue_all_ok : forall calls q m, m + total_calls calls <= M -> qinv q m ->
    exists q', queue_all p n change order shift rz rnd fuel calls q = Ret q' /\ qinv q' (m + total_calls calls) /\ map (fun e => snd (snd e)) (q_index q') = map (fun e => snd (snd e)) (q_index q) ++ all_orders calls.
  Proof.
    induction calls as [|[[ones zi] k] calls IH]; intros q m H I; cbn [queue_all total_calls fold_right all_orders flat_map fst snd] in *.
    - exists q. rewrite Nat.add_0_r, app_nil_r. auto.
    - destruct (queue_probes_ok ones zi k q m ltac:(lia) I) as [q1 [E [I' R]]]. rewrite E. cbn [obind]. destruct (IH q1 (m + k) ltac:(unfold total_calls; lia) I') as [q2 [E2 [I2 R2]]]. exists q2. split; [exact E2|].
      split; [rewrite Nat.add_assoc; exact I2|]. rewrite R2, R, <- app_assoc. reflexivity.
  Qed.
  Lemma empty_inv : qinv empty_queue 0.
  Proof. split; [reflexivity|]. split; [reflexivity|]. split; [constructor|]. split; [intros zi; split; [apply le_n|intros t; reflexivity]|]. split; [reflexivity|]. intros e []. Qed.
End QueueProofs.

(** ---- results ---- *)
Lemma combine_seq {A} (d : A) l : combine (seq 0 (length l)) l = map (fun i => (i, nth i l d)) (seq 0 (length l)).
Proof.
  assert (G : forall l k, combine (seq k (length l)) l = map (fun i => (i, nth (i - k) l d)) (seq k (length l))).
  { clear. induction l as [|a l IH]; intros k; [reflexivity|]. cbn [length seq combine map]. rewrite Nat.sub_diag. cbn [nth]. f_equal. rewrite IH. apply map_ext_in. intros i I. apply in_seq in I. f_equal. destruct (i - k) as [|m] eqn:E; [lia|]. cbn [nth]. f_equal. lia. }
  rewrite G. apply map_ext. intros i. rewrite Nat.sub_0_r. reflexivity.
Qed.
Section Events.
  Variables (change : bool) (order : list (nat * nat)) (frf : list (nat * list (poly * poly))) (results : list ratfun).
  Local Notation complete i f := (with_factors change order frf i f).
  Definition res (i : nat) : ratfun := nth i results (mk_ratfun (mk_poly [] 0 0) (mk_poly [] 0 0) [] []).
  (** entries with increasing indices and their results *)
  Definition einv (l : list entry) : Prop := StronglySorted lt (map en_index l) /\ Forall (fun e => en_index e < length results /\ en_result e = res (en_index e)) l.
  Lemma start_inv : einv (start_entries results) /\ map en_index (start_entries results) = seq 0 (length results) /\ Forall (fun e => en_status e = Reconstructing) (start_entries results).
  Proof.
    unfold start_entries. set (n := length results). assert (E : combine (seq 0 n) results = map (fun i => (i, res i)) (seq 0 n)).
    { unfold n, res. apply combine_seq. }
    rewrite E, map_map. cbn [fst snd]. assert (I : map en_index (map (fun i => mk_entry i Reconstructing (res i)) (seq 0 n)) = seq 0 n) by (rewrite map_map; cbn; apply map_id).
    split; [|split; [exact I|apply Forall_map, Forall_forall; reflexivity]]. split.
    - rewrite I. generalize 0. clear. induction n as [|n IH]; intros a; [constructor|]. cbn [seq]. constructor; [apply IH|]. apply Forall_forall. intros x H. apply in_seq in H. lia.
    - apply Forall_map, Forall_forall. intros i H. apply in_seq in H. cbn. unfold n in H. split; [lia|reflexivity].
  Qed.
  Lemma sorted_map_same (g : entry -> entry) l : (forall e, en_index (g e) = en_index e /\ en_result (g e) = en_result e) -> einv l -> einv (map g l).
  Proof.
    intros H [A B]. split.
    - rewrite map_map. erewrite map_ext; [exact A|]. intros e. apply H.
    - apply Forall_map. eapply Forall_impl; [|exact B]. intros e. cbn. destruct (H e) as [-> ->]. auto.
  Qed.
  Lemma sorted_filter (g : entry -> bool) l : einv l -> einv (filter g l).
  Proof.
    intros [A B]. split; [|apply Forall_forall; intros e I; apply filter_In in I as [I _]; rewrite Forall_forall in B; apply B; exact I].
    clear B. induction l as [|e l IH]; [constructor|]. cbn in A. inversion A as [|x r Sr Fr [Ex Er]]; subst. cbn [filter]. destruct (g e); [|apply IH; exact Sr]. cbn [map]. constructor; [apply IH; exact Sr|].
    apply Forall_forall. intros x I. apply in_map_iff in I as [y [<- I]]. apply filter_In in I as [I _]. rewrite Forall_forall in Fr. apply Fr. apply in_map. exact I.
  Qed.
  Definition fin (evs : list event) (i : nat) : Prop := In (Finish i) evs.
  Lemma finish_same i e : en_index (if (en_index e =? i) && is_reconstructing e then mk_entry (en_index e) Done (en_result e) else e) = en_index e /\ en_result (if (en_index e =? i) && is_reconstructing e then mk_entry (en_index e) Done (en_result e) else e) = en_result e.
  Proof. destruct ((en_index e =? i) && is_reconstructing e); auto. Qed.
  Lemma mark_same e : en_index (if is_done e then mk_entry (en_index e) Delete (en_result e) else e) = en_index e /\ en_result (if is_done e then mk_entry (en_index e) Delete (en_result e) else e) = en_result e.
  Proof. destruct (is_done e); auto. Qed.

  (** the indices of the finished functions that have not been reported *)
  Definition open_done (l : list entry) : list nat := map en_index (filter is_done l).
  Definition running (l : list entry) : list nat := map en_index (filter is_reconstructing l).
  (** a run reports some indices; afterwards reported, open and running ones are those of before *)
  Lemma events_ok : forall evs l, einv l -> exists rep : list (list nat),
    fst (run_events change order frf evs l) = map (map (fun i => (print (Z.of_nat i), complete i (res i)))) rep /\ einv (snd (run_events change order frf evs l)) /\
    Permutation (concat rep ++ open_done (snd (run_events change order frf evs l)) ++ running (snd (run_events change order frf evs l))) (open_done l ++ running l) /\
    (forall i, In i (running (snd (run_events change order frf evs l))) <-> In i (running l) /\ ~ fin evs i) /\ (~ In Early evs -> rep = []) /\ length rep = length (filter (fun e => match e with Early => true | _ => false end) evs).
  Proof.
    induction evs as [|ev evs IH]; intros l Il; cbn [run_events].
    - exists []. split; [reflexivity|]. split; [exact Il|]. split; [reflexivity|]. split; [intros i; unfold fin; cbn; tauto|]. split; reflexivity.
    - destruct ev as [i| |].
      + assert (If : einv (finish i l)) by (apply sorted_map_same; [apply finish_same|exact Il]). destruct (IH _ If) as [rep [R1 [R2 [R3 [R4 [R5 R6]]]]]]. exists rep. split; [exact R1|]. split; [exact R2|].
        assert (Rf : forall k, In k (running (finish i l)) <-> In k (running l) /\ k <> i).
        { intros k. unfold running, finish. split.
          - intros H. apply in_map_iff in H as [e [<- H]]. apply filter_In in H as [H1 H2]. apply in_map_iff in H1 as [e0 [E H1]]. subst e. destruct ((en_index e0 =? i) && is_reconstructing e0) eqn:Q; [discriminate H2|]. split; [apply in_map, filter_In; auto|]. rewrite H2, andb_true_r in Q. apply Nat.eqb_neq in Q. exact Q.
          - intros [H N]. apply in_map_iff in H as [e [<- H]]. apply filter_In in H as [H1 H2]. apply in_map, filter_In. split; [|exact H2]. apply in_map_iff. exists e. split; [|exact H1]. destruct (Nat.eqb_spec (en_index e) i); [contradiction|reflexivity]. }
        split; [|split; [|split]].
        * rewrite R3. unfold open_done, running, finish. destruct Il as [Sl _]. clear - Sl. induction l as [|e l IHl]; [reflexivity|]. cbn in Sl. inversion Sl as [|x r Sr Fr [Ex Er]]; subst. specialize (IHl Sr).
          clear Sl Sr Fr. destruct e as [k st f]. destruct st; cbn [map filter is_done is_reconstructing en_status en_index en_result andb]; rewrite ?andb_true_r, ?andb_false_r.
          -- destruct (k =? i); cbn [map filter is_done is_reconstructing en_status en_index app]; rewrite <- ?Permutation_middle; constructor; exact IHl.
          -- cbn [map filter is_done is_reconstructing en_status en_index app]. constructor. exact IHl.
          -- exact IHl.
        * intros k. rewrite R4, Rf. unfold fin. cbn [In]. split; [intros [[A B] C]; split; [exact A|intros [D|D]; [injection D as D; congruence|contradiction]]|intros [A B]; split; [split; [exact A|intros ->; apply B; left; reflexivity]|intros D; apply B; right; exact D]].
        * intros N. apply R5. intros E. apply N. right. exact E.
        * exact R6.
      + assert (If : einv (early_mark l)) by (apply sorted_map_same; [apply mark_same|exact Il]). destruct (IH _ If) as [rep [R1 [R2 [R3 [R4 [R5 R6]]]]]]. exists (open_done l :: rep). cbn [fst snd map concat].
        assert (Rn : running (early_mark l) = running l /\ open_done (early_mark l) = []).
        { unfold running, open_done, early_mark. clear. induction l as [|e l [IH1 IH2]]; [split; reflexivity|]. destruct e as [k st f]. destruct st; cbn [map filter is_done is_reconstructing en_status en_index en_result]; rewrite ?IH1, ?IH2; split; reflexivity. }
        destruct Rn as [Rn1 Rn2]. split; [|split; [exact R2|split; [|split; [|split]]]].
        * f_equal; [|exact R1]. unfold early_results, open_done. rewrite map_map. apply map_ext_in. intros e I. apply filter_In in I as [I _]. destruct Il as [_ F]. rewrite Forall_forall in F. destruct (F e I) as [_ ->]. reflexivity.
        * rewrite <- app_assoc. apply Permutation_app_head. rewrite R3, Rn1, Rn2. reflexivity.
        * intros k. rewrite R4, Rn1. unfold fin. cbn [In]. split; intros [A B]; (split; [exact A|]); [intros [D|D]; [discriminate D|contradiction]|intros D; apply B; right; exact D].
        * intros N. exfalso. apply N. left. reflexivity.
        * cbn [filter length]. rewrite R6. reflexivity.
      + assert (If : einv (clean_reconst l)) by (apply sorted_filter; exact Il). destruct (IH _ If) as [rep [R1 [R2 [R3 [R4 [R5 R6]]]]]]. exists rep. split; [exact R1|]. split; [exact R2|].
        assert (Rn : running (clean_reconst l) = running l /\ open_done (clean_reconst l) = open_done l).
        { unfold running, open_done, clean_reconst. clear. induction l as [|e l [IH1 IH2]]; [split; reflexivity|]. destruct e as [k st f]. destruct st; cbn [map filter is_delete is_done is_reconstructing en_status en_index en_result negb]; rewrite ?IH1, ?IH2; split; reflexivity. }
        destruct Rn as [Rn1 Rn2]. rewrite Rn1, Rn2 in R3. split; [exact R3|]. split; [|split; [|exact R6]].
        * intros k. rewrite R4. unfold fin. cbn [In]. unfold running, clean_reconst. split; intros [A B]; split; try (intros [D|D]; [discriminate D|contradiction]); try (intros D; apply B; right; exact D).
          -- apply in_map_iff in A as [e [<- A]]. apply filter_In in A as [A1 A2]. apply filter_In in A1 as [A1 _]. apply in_map, filter_In. auto.
          -- apply in_map_iff in A as [e [<- A]]. apply filter_In in A as [A1 A2]. apply in_map, filter_In. split; [|exact A2]. apply filter_In. split; [exact A1|]. unfold is_delete, is_reconstructing in *. destruct (en_status e); [reflexivity|discriminate A2|discriminate A2].
        * intros N. apply R5. intros E. apply N. right. exact E.
  Qed.
  (** get_result *)
  Lemma get_result_ok l k : einv l -> get_result change order frf k l = map (fun ki => complete (fst ki) (res (snd ki))) (combine (seq k (length (open_done l))) (open_done l)).
  Proof.
    intros [_ F]. revert k. unfold open_done. induction l as [|e l IH]; intros k; [reflexivity|]. inversion F as [|x r [_ He] Fr [Ex Er]]; subst. cbn [get_result filter]. destruct (is_done e); [|apply IH; exact Fr].
    cbn [map length seq combine fst snd]. rewrite He, IH by exact Fr. reflexivity.
  Qed.
End Events.

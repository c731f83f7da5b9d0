(** Invariants of the thread pool *)
From Coq Require Import List Arith Lia Bool Permutation Sorted.
From Verif Require Import ThreadPool ThreadPoolSpec.
Import ListNotations.
Open Scope nat_scope.

Lemma set_same {A} (f : nat -> A) i x : set f i x i = x.
Proof. unfold set. rewrite Nat.eqb_refl. reflexivity. Qed.
Lemma set_other {A} (f : nat -> A) i x j : j <> i -> set f i x j = f j.
Proof. intros H. unfold set. apply Nat.eqb_neq in H. rewrite H. reflexivity. Qed.
Lemma seq_split3 n i : i < n -> seq 0 n = seq 0 i ++ i :: seq (S i) (n - S i).
Proof. intros H. replace n with (i + S (n - S i)) at 1 by lia. rewrite seq_app. reflexivity. Qed.

Definition run_of (w : worker) : list task := match w with Running t => [t] | _ => [] end.
Definition running (n : nat) (w : nat -> worker) : list task := flat_map (fun i => run_of (w i)) (seq 0 n).

Lemma flat_map_set {A} (g : A -> list task) n (f : nat -> A) i x : i < n ->
  exists a b, flat_map (fun j => g (f j)) (seq 0 n) = a ++ g (f i) ++ b /\ flat_map (fun j => g (set f i x j)) (seq 0 n) = a ++ g x ++ b.
Proof.
  intros H. rewrite (seq_split3 n i H), !flat_map_app. cbn [flat_map].
  exists (flat_map (fun j => g (f j)) (seq 0 i)), (flat_map (fun j => g (f j)) (seq (S i) (n - S i))). split; [reflexivity|].
  rewrite set_same. f_equal; [|f_equal].
  - rewrite !flat_map_concat_map. f_equal. apply map_ext_in. intros j Hj. apply in_seq in Hj. rewrite set_other by lia. reflexivity.
  - rewrite !flat_map_concat_map. f_equal. apply map_ext_in. intros j Hj. apply in_seq in Hj. rewrite set_other by lia. reflexivity.
Qed.
Lemma running_set n w i x : i < n -> exists a b, running n w = a ++ run_of (w i) ++ b /\ running n (set w i x) = a ++ run_of x ++ b.
Proof. intros H. apply (flat_map_set run_of n w i x H). Qed.
Lemma running_wake n w : running n (wake_all w) = running n w.
Proof. unfold running. rewrite !flat_map_concat_map. f_equal. apply map_ext. intros i. unfold wake_all. destruct (w i); reflexivity. Qed.

Definition active (w : worker) : Prop := match w with Starting | Woken | Running _ => True | _ => False end.

Record pinv (n : nat) (s : pool) : Prop := {
  i_account : Permutation (submitted s) (tasks s ++ running n (workers s) ++ finished s ++ killed s);
  i_ids : map fst (submitted s) = seq 0 (length (submitted s));
  i_order : StronglySorted goes_first (tasks s);
  i_flag : forall i, i < n -> match workers s i with Running _ => idle s i = false | Blocked | Woken => idle s i = true | Exited => stopped s = true | _ => True end;
  i_wakeup : tasks s <> [] -> (exists i, i < n /\ active (workers s i)) \/ (0 < pending s /\ exists i, i < n /\ workers s i = Blocked);
  i_stop : stopped s = true -> stop_pending s = false -> forall i, i < n -> workers s i <> Blocked;
  i_stop2 : stop_pending s = true -> stopped s = true;
  i_clients : exists B, forall c, B <= c -> clients s c = Outside;
  i_empty : n = 0 -> tasks s = [] }.

Lemma lock_phase s i c cs : lock_worker s i c cs -> workers s i = Starting \/ workers s i = Woken.
Proof. intros []; auto. Qed.
Lemma notify_bound cs c cs' : notify_client cs c cs' -> (exists B, forall k, B <= k -> cs k = Outside) -> exists B, forall k, B <= k -> cs' k = Outside.
Proof.
  intros H [B HB]. destruct H as [H|c H]; [exists B; exact HB|]. exists B. intros k Hk. unfold set. destruct (Nat.eqb_spec k c) as [->|]; [|auto].
  rewrite (HB c Hk) in H. discriminate.
Qed.
Lemma lock_bound s i c cs : lock_worker s i c cs -> (exists B, forall k, B <= k -> clients s k = Outside) -> exists B, forall k, B <= k -> cs k = Outside.
Proof. intros [c' cs' _ H|_] HB; [apply (notify_bound _ _ _ H HB)|exact HB]. Qed.
Lemma set_bound cs c x : (exists B, forall k, B <= k -> cs k = Outside) -> exists B, forall k, B <= k -> set cs c x k = Outside.
Proof. intros [B HB]. exists (Nat.max B (S c)). intros k Hk. rewrite set_other by lia. apply HB. lia. Qed.

Lemma sorted_snoc l (x : task) : StronglySorted goes_first l -> Forall (fun y => goes_first y x) l -> StronglySorted goes_first (l ++ [x]).
Proof.
  intros H. induction H as [|y l S IH F]; intros G; cbn; [repeat constructor|]. inversion_clear G. constructor; [apply IH; assumption|].
  apply Forall_app. split; [exact F|]. constructor; [assumption|constructor].
Qed.

Lemma pinv_init n : pinv n init_pool.
Proof.
  constructor; cbn; auto; try congruence; try tauto.
  - unfold running. cbn. replace (flat_map _ _) with (@nil task); [constructor|]. induction (seq 0 n); [reflexivity|cbn; assumption].
  - constructor.
  - exists 0. reflexivity.
Qed.

Ltac setcase := unfold set in *; repeat match goal with
  | |- context [?j =? ?i] => destruct (Nat.eqb_spec j i); subst
  | H : context [?j =? ?i] |- _ => destruct (Nat.eqb_spec j i); subst end.

Lemma in_ids n s t : pinv n s -> In t (tasks s) -> fst t < length (submitted s).
Proof.
  intros I H. assert (In t (submitted s)). { eapply Permutation_in; [symmetry; apply (i_account n s I)|]. apply in_or_app. auto. }
  apply (in_map fst) in H0. rewrite (i_ids n s I) in H0. apply in_seq in H0. lia.
Qed.

Lemma ids_snoc (l : list task) p : map fst l = seq 0 (length l) -> map fst (l ++ [(length l, p)]) = seq 0 (length (l ++ [(length l, p)])).
Proof. intros H. rewrite map_app, H, app_length. cbn. rewrite Nat.add_1_r, seq_S. reflexivity. Qed.

Lemma perm_mid (t : task) q a b r : Permutation (t :: q ++ (a ++ b) ++ r) (q ++ (a ++ t :: b) ++ r).
Proof.
  replace (q ++ (a ++ t :: b) ++ r) with ((q ++ a) ++ t :: (b ++ r)) by (rewrite <- !app_assoc; reflexivity).
  replace (q ++ (a ++ b) ++ r) with ((q ++ a) ++ (b ++ r)) by (rewrite <- !app_assoc; reflexivity). apply Permutation_middle.
Qed.
Lemma perm_fin (t : task) q a b f r : Permutation (q ++ (a ++ t :: b) ++ f ++ r) (q ++ (a ++ b) ++ (f ++ [t]) ++ r).
Proof.
  replace (q ++ (a ++ t :: b) ++ f ++ r) with ((q ++ a) ++ t :: (b ++ f ++ r)) by (rewrite <- !app_assoc; reflexivity).
  replace (q ++ (a ++ b) ++ (f ++ [t]) ++ r) with ((q ++ a) ++ (b ++ f) ++ t :: r) by (rewrite <- !app_assoc; reflexivity).
  apply Permutation_app_head. replace (b ++ f ++ r) with ((b ++ f) ++ r) by (rewrite <- !app_assoc; reflexivity). apply Permutation_middle.
Qed.

Lemma pinv_step n s e s' : pinv n s -> step n s e s' -> pinv n s'.
Proof.
  intros I H. pose proof I as [A Id O F W St St2 C E0]. inversion H; subst; clear H; constructor; cbn [tasks stopped idle workers clients pending stop_pending submitted finished killed];
    try assumption; try (apply (lock_bound s i c cs); assumption); try (apply set_bound; assumption); try (intros H'; congruence); try tauto.
  (* submit *)
  - change t with (length (submitted s), p). destruct p.
    + rewrite <- Permutation_middle, app_nil_r. cbn. constructor. exact A.
    + rewrite <- !app_assoc. cbn. rewrite <- Permutation_middle, <- Permutation_middle, app_nil_r. constructor. exact A.
  - apply ids_snoc. exact Id.
  - destruct p.
    + constructor; [exact O|]. apply Forall_forall. intros y Hy. apply (in_ids n s y I) in Hy. unfold goes_first, t. cbn. destruct (snd y); [exact Hy|exact Logic.I].
    + apply sorted_snoc; [exact O|]. apply Forall_forall. intros y Hy. apply (in_ids n s y I) in Hy. unfold goes_first, t. cbn. destruct (snd y); [exact Logic.I|exact Hy].
  - intros _. destruct H1 as [i [Hi Hw]]. destruct (workers s i) eqn:Ew; try tauto; try (left; exists i; rewrite Ew; split; [exact Hi|exact Logic.I]).
    right. split; [lia|]. exists i. auto.
  - intros H. lia.
  (* submit inline *)
  - change t with (length (submitted s), p). assert (Permutation (submitted s ++ [(length (submitted s), p)]) ((length (submitted s), p) :: submitted s)) by (symmetry; apply Permutation_cons_append).
    etransitivity; [exact H|]. etransitivity; [apply perm_skip; exact A|]. set (x := (length (submitted s), p)).
    replace (tasks s ++ running 0 (workers s) ++ finished s ++ killed s) with ((tasks s ++ running 0 (workers s) ++ finished s) ++ killed s) by (rewrite <- !app_assoc; reflexivity).
    replace (tasks s ++ running 0 (workers s) ++ (finished s ++ [x]) ++ killed s) with ((tasks s ++ running 0 (workers s) ++ finished s) ++ x :: killed s) by (rewrite <- !app_assoc; reflexivity).
    apply Permutation_middle.
  - apply ids_snoc. exact Id.
  (* notify none *)
  - intros H. destruct (W H) as [G|[_ [i [Hi Hb]]]]; [left; exact G|]. exfalso. apply (H1 i Hi Hb).
  (* notify some *)
  - destruct (running_set n (workers s) i Woken H1) as [a [b [R1 R2]]]. rewrite R2. rewrite R1 in A. rewrite H2 in A. exact A.
  - intros j Hj. setcase; [|apply F; exact Hj]. specialize (F i Hj). rewrite H2 in F. exact F.
  - intros _. left. exists i. rewrite set_same. split; [exact H1|exact Logic.I].
  - intros Q1 Q2 j Hj. setcase; [discriminate|]. apply St; assumption.
  (* take *)
  - destruct (running_set n (workers s) i (Running t) H0) as [a [b [R1 R2]]]. rewrite R2. rewrite R1, H2 in A.
    assert (Z : run_of (workers s i) = []) by (destruct (lock_phase _ _ _ _ H1) as [-> | ->]; reflexivity). rewrite Z in A. cbn [app run_of] in *.
    etransitivity; [exact A|]. apply perm_mid.
  - rewrite H2 in O. inversion O; assumption.
  - intros j Hj. setcase; [reflexivity|apply F; exact Hj].
  - intros _. left. exists i. rewrite set_same. split; [exact H0|exact Logic.I].
  - intros Q1 Q2 j Hj. setcase; [discriminate|]. apply St; assumption.
  - intros H. lia.
  (* block *)
  - destruct (running_set n (workers s) i Blocked H0) as [a [b [R1 R2]]]. rewrite R2. rewrite R1 in A.
    assert (Z : run_of (workers s i) = []) by (destruct (lock_phase _ _ _ _ H1) as [-> | ->]; reflexivity). rewrite Z in A. exact A.
  - intros j Hj. setcase; [reflexivity|apply F; exact Hj].
  (* exit *)
  - destruct (running_set n (workers s) i Exited H0) as [a [b [R1 R2]]]. rewrite R2. rewrite R1 in A.
    assert (Z : run_of (workers s i) = []) by (destruct (lock_phase _ _ _ _ H1) as [-> | ->]; reflexivity). rewrite Z in A. exact A.
  - intros j Hj. setcase; [exact H3|apply F; exact Hj].
  - intros Q1 Q2 j Hj. setcase; [discriminate|]. apply St; assumption.
  (* finish *)
  - destruct (running_set n (workers s) i Starting H0) as [a [b [R1 R2]]]. rewrite R2. rewrite R1, H1 in A. cbn [app run_of] in *.
    etransitivity; [exact A|]. apply perm_fin.
  - intros j Hj. setcase; [exact Logic.I|apply F; exact Hj].
  - intros _. left. exists i. rewrite set_same. split; [exact H0|exact Logic.I].
  - intros Q1 Q2 j Hj. setcase; [discriminate|]. apply St; assumption.
  (* spurious *)
  - destruct (running_set n (workers s) i Woken H0) as [a [b [R1 R2]]]. rewrite R2. rewrite R1, H1 in A. exact A.
  - intros j Hj. setcase; [|apply F; exact Hj]. specialize (F i Hj). rewrite H1 in F. exact F.
  - intros _. left. exists i. rewrite set_same. split; [exact H0|exact Logic.I].
  - intros Q1 Q2 j Hj. setcase; [discriminate|]. apply St; assumption.
  (* kill *)
  - rewrite A. cbn [app]. rewrite (Permutation_app_comm (tasks s)). rewrite <- !app_assoc. reflexivity.
  - constructor.
  - rewrite A. cbn [app]. rewrite (Permutation_app_comm (tasks s)). rewrite <- !app_assoc. reflexivity.
  - constructor.
  (* stop *)
  - intros j Hj. specialize (F j Hj). destruct (workers s j); auto.
  (* notify all *)
  - rewrite running_wake. exact A.
  - intros j Hj. specialize (F j Hj). unfold wake_all. destruct (workers s j); auto.
  - intros Hq. destruct (W Hq) as [[i [Hi Ha]]|[_ [i [Hi Hb]]]]; left; exists i; (split; [exact Hi|]); unfold wake_all; [destruct (workers s i); cbn in *; tauto|rewrite Hb; exact Logic.I].
  - intros _ _ j Hj. unfold wake_all. destruct (workers s j); discriminate.
Qed.

Lemma execution_inv n tr s : execution n tr s -> pinv n s.
Proof. intros H. induction H as [|tr s e s' H IH S]; [apply pinv_init|]. apply (pinv_step n s e s' IH S). Qed.

(** ** events and histories *)
Ltac csimp := cbn [tasks stopped idle workers clients pending stop_pending submitted finished killed].
Lemma submits_app a b : submits (a ++ b) = submits a ++ submits b. Proof. apply flat_map_app. Qed.
Lemma starts_app a b : starts (a ++ b) = starts a ++ starts b. Proof. apply flat_map_app. Qed.
Lemma finishes_app a b : finishes (a ++ b) = finishes a ++ finishes b. Proof. apply flat_map_app. Qed.

Lemma submits_ok n tr s : execution n tr s -> submits tr = submitted s.
Proof.
  intros H. induction H as [|tr s e s' H IH S]; [reflexivity|]. rewrite submits_app, IH. inversion S; subst; csimp; cbn; rewrite ?app_nil_r; reflexivity.
Qed.
Lemma finishes_ok n tr s : 0 < n -> execution n tr s -> finishes tr = finished s.
Proof.
  intros Hn H. induction H as [|tr s e s' H IH S]; [reflexivity|]. rewrite finishes_app, IH. inversion S; subst; csimp; cbn; rewrite ?app_nil_r; try reflexivity. lia.
Qed.
Lemma starts_ok n tr s : 0 < n -> execution n tr s -> Permutation (starts tr) (running n (workers s) ++ finished s).
Proof.
  intros Hn H. induction H as [|tr s e s' H IH S].
  - cbn. unfold running. cbn. replace (flat_map _ _) with (@nil task); [constructor|]. induction (seq 0 n); [reflexivity|cbn; assumption].
  - pose proof (execution_inv n tr s H) as I. rewrite starts_app. inversion S; subst; csimp; cbn [starts flat_map app]; rewrite ?app_nil_r; try assumption.
    + lia.
    + destruct (running_set n (workers s) i Woken H1) as [a [b [R1 R2]]]. rewrite R2. rewrite R1 in IH. rewrite H2 in IH. exact IH.
    + destruct (running_set n (workers s) i (Running t) H0) as [a [b [R1 R2]]]. rewrite R2. rewrite R1 in IH.
      assert (Z : run_of (workers s i) = []) by (destruct (lock_phase _ _ _ _ H1) as [-> | ->]; reflexivity). rewrite Z in IH. cbn [app run_of] in *.
      rewrite <- Permutation_cons_append. etransitivity; [apply perm_skip; exact IH|]. rewrite <- !app_assoc. apply Permutation_middle.
    + destruct (running_set n (workers s) i Blocked H0) as [a [b [R1 R2]]]. rewrite R2. rewrite R1 in IH.
      assert (Z : run_of (workers s i) = []) by (destruct (lock_phase _ _ _ _ H1) as [-> | ->]; reflexivity). rewrite Z in IH. exact IH.
    + destruct (running_set n (workers s) i Exited H0) as [a [b [R1 R2]]]. rewrite R2. rewrite R1 in IH.
      assert (Z : run_of (workers s i) = []) by (destruct (lock_phase _ _ _ _ H1) as [-> | ->]; reflexivity). rewrite Z in IH. exact IH.
    + destruct (running_set n (workers s) i Starting H0) as [a [b [R1 R2]]]. rewrite R2. rewrite R1, H1 in IH. cbn [app run_of] in *.
      etransitivity; [exact IH|]. rewrite <- !app_assoc. apply Permutation_app_head. cbn [app]. rewrite (app_assoc b). apply Permutation_cons_append.
    + destruct (running_set n (workers s) i Woken H0) as [a [b [R1 R2]]]. rewrite R2. rewrite R1, H1 in IH. exact IH.
    + rewrite running_wake. exact IH.
Qed.
Lemma nodup_submitted n s : pinv n s -> NoDup (submitted s).
Proof. intros I. apply (NoDup_map_inv fst). rewrite (i_ids n s I). apply seq_NoDup. Qed.

(** ** progress *)
Definition weight (w : worker) : nat := match w with Starting => 3 | Woken => 1 | Running _ => 4 | _ => 0 end.
Definition cweight (c : client) : nat := match c with WaitWoken | KillWoken => 1 | _ => 0 end.
Definition total {A} (g : A -> nat) (n : nat) (f : nat -> A) : nat := list_sum (map (fun i => g (f i)) (seq 0 n)).
Definition measure (n B : nat) (s : pool) : nat :=
  10 * length (tasks s) + 2 * pending s + total weight n (workers s) + total cweight B (clients s) + (if stop_pending s then S n else 0).

Lemma total_set {A} (g : A -> nat) n f i x : i < n -> total g n (set f i x) + g (f i) = total g n f + g x.
Proof.
  intros H. unfold total. rewrite (seq_split3 n i H), !map_app, !list_sum_app. cbn [map list_sum fold_right].
  change (fold_right Nat.add 0) with list_sum. rewrite set_same.
  assert (E1 : map (fun j => g (set f i x j)) (seq 0 i) = map (fun j => g (f j)) (seq 0 i)).
  { apply map_ext_in. intros j Hj. apply in_seq in Hj. rewrite set_other by lia. reflexivity. }
  assert (E2 : map (fun j => g (set f i x j)) (seq (S i) (n - S i)) = map (fun j => g (f j)) (seq (S i) (n - S i))).
  { apply map_ext_in. intros j Hj. apply in_seq in Hj. rewrite set_other by lia. reflexivity. }
  rewrite E1, E2. lia.
Qed.
Lemma total_wake n w : total weight n (wake_all w) <= total weight n w + n.
Proof.
  unfold total. rewrite <- (seq_length n 0) at 3. induction (seq 0 n) as [|i l IH]; [cbn; lia|]. cbn [map list_sum fold_right length].
  change (fold_right Nat.add 0) with list_sum. unfold wake_all at 1. destruct (w i); cbn [weight]; lia.
Qed.

Definition outside_from (B : nat) (s : pool) : Prop := forall c, B <= c -> clients s c = Outside.
Lemma notify_total B cs c cs' : (forall k, B <= k -> cs k = Outside) -> notify_client cs c cs' ->
  total cweight B cs' <= total cweight B cs + 1 /\ forall k, B <= k -> cs' k = Outside.
Proof.
  intros HB [H|k H]; [split; [lia|exact HB]|]. assert (Hk : k < B) by (destruct (Nat.lt_ge_cases k B) as [G|G]; [exact G|rewrite (HB k G) in H; discriminate]).
  split; [|intros j Hj; rewrite set_other by lia; apply HB; exact Hj].
  pose proof (total_set cweight B cs k (wake_client (cs k)) Hk) as T. destruct (cs k); cbn in *; try discriminate; lia.
Qed.

Lemma lock_total B n s i c cs x : outside_from B s -> i < n -> lock_worker s i c cs ->
  (forall k, B <= k -> cs k = Outside) /\
  total weight n (set (workers s) i x) + total cweight B cs < total weight n (workers s) + total cweight B (clients s) + weight x.
Proof.
  intros HB Hi L. pose proof (total_set weight n (workers s) i x Hi) as T. destruct L as [c cs W N|W]; rewrite W in T; cbn [weight] in T.
  - destruct (notify_total B _ _ _ HB N) as [N1 N2]. split; [exact N2|]. lia.
  - split; [exact HB|]. lia.
Qed.

Lemma measure_step n B s e s' : outside_from B s -> step n s e s' -> internal e = true -> outside_from B s' /\ measure n B s' < measure n B s.
Proof.
  intros HB H He. unfold measure. inversion H; subst; try discriminate He; clear H; csimp.
  - split; [exact HB|lia].
  - split; [exact HB|]. pose proof (total_set weight n (workers s) i Woken H1) as T. rewrite H2 in T. cbn [weight] in T. lia.
  - destruct (lock_total B n s i c cs (Running t) HB H0 H1) as [L1 L2]. split; [exact L1|]. rewrite H2. cbn [length weight] in *. lia.
  - destruct (lock_total B n s i c cs Blocked HB H0 H1) as [L1 L2]. split; [exact L1|]. cbn [length weight] in *. lia.
  - destruct (lock_total B n s i c cs Exited HB H0 H1) as [L1 L2]. split; [exact L1|]. cbn [length weight] in *. lia.
  - split; [exact HB|]. pose proof (total_set weight n (workers s) i Starting H0) as T. rewrite H1 in T. cbn [weight] in T. lia.
  - assert (Hc : c < B) by (destruct (Nat.lt_ge_cases c B) as [G|G]; [exact G|rewrite (HB c G) in H0; discriminate]).
    split; [intros k Hk; csimp; rewrite set_other by lia; apply HB; exact Hk|].
    pose proof (total_set cweight B (clients s) c Outside Hc) as T. rewrite H0 in T. cbn [cweight] in T. lia.
  - cbn in He. subst again. assert (Hc : c < B) by (destruct (Nat.lt_ge_cases c B) as [G|G]; [exact G|rewrite (HB c G) in H0; discriminate]).
    split; [intros k Hk; csimp; rewrite set_other by lia; apply HB; exact Hk|].
    pose proof (total_set cweight B (clients s) c KillBlocked Hc) as T. rewrite H0 in T. cbn [cweight length] in *. lia.
  - cbn in He. subst again. assert (Hc : c < B) by (destruct (Nat.lt_ge_cases c B) as [G|G]; [exact G|rewrite (HB c G) in H0; discriminate]).
    split; [intros k Hk; csimp; rewrite set_other by lia; apply HB; exact Hk|].
    pose proof (total_set cweight B (clients s) c Outside Hc) as T. rewrite H0 in T. cbn [cweight length] in *. lia.
  - split; [exact HB|]. rewrite H0. pose proof (total_wake n (workers s)). lia.
Qed.

Inductive run_steps (n : nat) : pool -> list event -> pool -> Prop :=
| run_nil s : run_steps n s [] s
| run_cons s e s1 tr s' : step n s e s1 -> run_steps n s1 tr s' -> run_steps n s (e :: tr) s'.

Lemma internal_bounded n s : pinv n s -> exists N, forall tr s', run_steps n s tr s' -> Forall (fun e => internal e = true) tr -> length tr <= N.
Proof.
  intros I. destruct (i_clients n s I) as [B HB]. exists (measure n B s). intros tr s' R. clear I. revert HB.
  induction R as [|s e s1 tr s' S R IH]; intros HB F; [cbn; lia|]. inversion_clear F.
  destruct (measure_step n B s e s1 HB S H) as [H1 H2]. specialize (IH H1 H0). cbn [length]. lia.
Qed.

Lemma client_dec B (cs : nat -> client) : (exists c, blocked_client (cs c) = true) \/ forall c, c < B -> blocked_client (cs c) = false.
Proof.
  induction B as [|B [IH|IH]]; [right; lia|left; exact IH|]. destruct (blocked_client (cs B)) eqn:E; [left; exists B; exact E|]. right.
  intros c Hc. destruct (Nat.eq_dec c B) as [->|]; [exact E|apply IH; lia].
Qed.
Lemma notify_enabled s n : pinv n s -> exists c cs, notify_client (clients s) c cs.
Proof.
  intros I. destruct (i_clients n s I) as [B HB]. destruct (client_dec B (clients s)) as [[c Hc]|H].
  - eexists _, _. apply notify_client_some. exact Hc.
  - eexists _, _. apply notify_client_none. intros c. destruct (Nat.lt_ge_cases c B) as [G|G]; [apply H; exact G|rewrite (HB c G); reflexivity].
Qed.
Lemma lock_enabled n s i : pinv n s -> workers s i = Starting \/ workers s i = Woken -> exists c cs, lock_worker s i c cs.
Proof.
  intros I [H|H]; [destruct (notify_enabled s n I) as [c [cs N]]; exists c, cs; apply lock_start; assumption|eexists _, _; apply lock_woken; exact H].
Qed.
Lemma enter_enabled n s i : pinv n s -> i < n -> workers s i = Starting \/ workers s i = Woken -> exists e s', step n s e s' /\ internal e = true.
Proof.
  intros I Hi H. destruct (lock_enabled n s i I H) as [c [cs L]]. destruct (tasks s) as [|t q] eqn:T.
  - destruct (stopped s) eqn:St; [eexists _, _; split; [eapply step_exit; eassumption|reflexivity]|eexists _, _; split; [eapply step_block; eassumption|reflexivity]].
  - eexists _, _. split; [eapply step_take; eassumption|reflexivity].
Qed.
Lemma blocked_dec n (w : nat -> worker) : (exists i, i < n /\ w i = Blocked) \/ forall i, i < n -> w i <> Blocked.
Proof.
  induction n as [|n [[i [Hi IH]]|IH]]; [right; lia|left; exists i; split; [lia|exact IH]|]. destruct (w n) eqn:E; try (right; intros i Hi; destruct (Nat.eq_dec i n) as [->|]; [congruence|apply IH; lia]).
  left. exists n. split; [lia|exact E].
Qed.

Lemma quiescent_state n s : pinv n s -> 0 < n -> quiescent n s ->
  tasks s = [] /\ pending s = 0 /\ stop_pending s = false /\ (forall c, cweight (clients s c) = 0) /\
  forall i, i < n -> workers s i = Blocked \/ workers s i = Exited.
Proof.
  intros I Hn Q.
  assert (Hw : forall i, i < n -> workers s i = Blocked \/ workers s i = Exited).
  { intros i Hi. destruct (workers s i) eqn:E; auto; exfalso.
    - destruct (enter_enabled n s i I Hi (or_introl E)) as [e [s' [S X]]]. rewrite (Q e s' S) in X. discriminate.
    - destruct (enter_enabled n s i I Hi (or_intror E)) as [e [s' [S X]]]. rewrite (Q e s' S) in X. discriminate.
    - specialize (Q _ _ (step_finish n s i t Hi E)). discriminate. }
  assert (Hp : pending s = 0).
  { destruct (Nat.eq_dec (pending s) 0) as [|Np]; [assumption|exfalso]. destruct (blocked_dec n (workers s)) as [[i [Hi Hb]]|Hb].
    - specialize (Q _ _ (step_notify_some n s i ltac:(lia) Hi Hb)). discriminate.
    - specialize (Q _ _ (step_notify_none n s ltac:(lia) Hb)). discriminate. }
  split; [|split; [exact Hp|split; [|split; [|exact Hw]]]].
  - destruct (tasks s) eqn:T; [reflexivity|exfalso]. destruct (i_wakeup n s I) as [[i [Hi Ha]]|[G _]]; [rewrite T; discriminate| |lia].
    destruct (Hw i Hi) as [E|E]; rewrite E in Ha; exact Ha.
  - destruct (stop_pending s) eqn:S; [|reflexivity]. specialize (Q _ _ (step_notify_all n s S)). discriminate.
  - intros c. destruct (clients s c) eqn:E; try reflexivity; exfalso.
    + specialize (Q _ _ (step_wait_true n s c E)). discriminate.
    + destruct (all_threads_idle n (upd_tasks s [])) eqn:A.
      * specialize (Q _ _ (step_kill_done n s c true E A)). discriminate.
      * specialize (Q _ _ (step_kill_sleep n s c true E A)). discriminate.
Qed.

Lemma running_none n w : (forall i, i < n -> run_of (w i) = []) -> running n w = [].
Proof.
  intros H. unfold running. assert (G : forall i, In i (seq 0 n) -> run_of (w i) = []) by (intros i Hi; apply in_seq in Hi; apply H; lia).
  induction (seq 0 n) as [|i l IH]; [reflexivity|]. cbn. rewrite G by (left; reflexivity). apply IH. intros j Hj. apply G. right. exact Hj.
Qed.

(** ** one client *)
Lemma all_idle_spec n s : 0 < n -> all_threads_idle n s = true <-> forall i, i < n -> idle s i = true.
Proof.
  intros Hn. unfold all_threads_idle. destruct (Nat.eqb_spec n 0) as [|_]; [lia|]. rewrite forallb_forall. split.
  - intros H i Hi. apply H. apply in_seq. lia.
  - intros H i Hi. apply in_seq in Hi. apply H. lia.
Qed.
Lemma not_idle n s : 0 < n -> all_threads_idle n s = false -> exists i, i < n /\ idle s i = false.
Proof.
  intros Hn H. destruct (forallb (idle s) (seq 0 n)) eqn:E.
  - unfold all_threads_idle in H. destruct (Nat.eqb_spec n 0); [lia|congruence].
  - clear H. assert (G : exists i, In i (seq 0 n) /\ idle s i = false).
    { induction (seq 0 n) as [|i l IH]; [discriminate|]. cbn in E. destruct (idle s i) eqn:Ei.
      - destruct (IH E) as [j [Hj1 Hj2]]. exists j. split; [right; exact Hj1|exact Hj2].
      - exists i. split; [left; reflexivity|exact Ei]. }
    destruct G as [i [Hi Ei]]. apply in_seq in Hi. exists i. split; [lia|exact Ei].
Qed.

Record cinv (n : nat) (s : pool) : Prop := {
  c_one : forall c, c <> 0 -> clients s c = Outside;
  c_wait : stopped s = false -> blocked_client (clients s 0) = true ->
    exists i, i < n /\ idle s i = false /\ match workers s i with Starting | Running _ => True | _ => False end }.

Lemma idle_phase n s i : pinv n s -> stopped s = false -> i < n -> idle s i = false -> match workers s i with Starting | Running _ => True | _ => False end.
Proof.
  intros I St Hi H. pose proof (i_flag n s I i Hi) as F. destruct (workers s i); try exact Logic.I; congruence.
Qed.
Lemma idle_upd n s q : 0 < n -> all_threads_idle n (upd_tasks s q) = all_threads_idle n s.
Proof. intros Hn. unfold all_threads_idle. destruct (Nat.eqb_spec n 0); [lia|reflexivity]. Qed.

Lemma lock_cinv n s i c cs x fl : pinv n s -> cinv n s -> i < n -> lock_worker s i c cs ->
  (forall c, c <> 0 -> cs c = Outside) /\
  (stopped s = false -> blocked_client (cs 0) = true ->
   exists j, j < n /\ set (idle s) i fl j = false /\ match set (workers s) i x j with Starting | Running _ => True | _ => False end).
Proof.
  intros I [C1 C2] Hi L. destruct L as [c cs W N|W].
  - destruct N as [N|c N].
    + split; [exact C1|]. intros _ H. rewrite N in H. discriminate.
    + assert (c = 0) as -> by (destruct (Nat.eq_dec c 0) as [|Nc]; [assumption|rewrite (C1 c Nc) in N; discriminate]).
      split; [intros k Hk; rewrite set_other by exact Hk; apply C1; exact Hk|]. rewrite set_same. destruct (clients s 0); discriminate.
  - split; [exact C1|]. intros S H. destruct (C2 S H) as [j [Hj1 [Hj2 Hj3]]]. exists j. assert (j <> i) by (intros ->; rewrite W in Hj3; exact Hj3).
    rewrite !set_other by assumption. auto.
Qed.

Lemma cinv_step n s e s' : 0 < n -> pinv n s -> cinv n s -> step n s e s' -> one_client [e] -> cinv n s'.
Proof.
  intros Hn I C S O. inversion_clear O. clear H0. pose proof C as [C1 C2].
  inversion S; subst; clear S; try exact C; try (constructor; csimp; assumption); try subst c.
  - constructor; csimp; [exact C1|]. intros Q1 Q2. destruct (C2 Q1 Q2) as [j [Hj1 [Hj2 Hj3]]]. exists j. split; [exact Hj1|]. split; [exact Hj2|].
    setcase; [rewrite H2 in Hj3; exact Hj3|exact Hj3].
  - destruct (lock_cinv n s i c cs (Running t) false I C H0 H1) as [L1 L2]. constructor; csimp; assumption.
  - destruct (lock_cinv n s i c cs Blocked true I C H0 H1) as [L1 L2]. constructor; csimp; assumption.
  - destruct (lock_cinv n s i c cs Exited false I C H0 H1) as [L1 L2]. constructor; csimp; assumption.
  - constructor; csimp; [exact C1|]. intros Q1 Q2. destruct (C2 Q1 Q2) as [j [Hj1 [Hj2 Hj3]]]. exists j. split; [exact Hj1|]. split; [exact Hj2|].
    setcase; [exact Logic.I|exact Hj3].
  - constructor; csimp; [exact C1|]. intros Q1 Q2. destruct (C2 Q1 Q2) as [j [Hj1 [Hj2 Hj3]]]. exists j. split; [exact Hj1|]. split; [exact Hj2|].
    setcase; [rewrite H1 in Hj3; exact Hj3|exact Hj3].
  - constructor; csimp; [intros k Hk; rewrite set_other by exact Hk; apply C1; exact Hk|]. rewrite set_same. destruct (clients s 0); discriminate.
  - constructor; csimp; [intros k Hk; rewrite set_other by exact Hk; apply C1; exact Hk|]. intros Q1 _. destruct (not_idle n s Hn H1) as [i [Hi Ei]].
    exists i. split; [exact Hi|]. split; [exact Ei|]. apply (idle_phase n s i I Q1 Hi Ei).
  - constructor; csimp; [intros k Hk; rewrite set_other by exact Hk; apply C1; exact Hk|]. rewrite set_same. discriminate.
  - constructor; csimp; [intros k Hk; rewrite set_other by exact Hk; apply C1; exact Hk|]. intros Q1 _. rewrite idle_upd in H1 by exact Hn.
    destruct (not_idle n s Hn H1) as [i [Hi Ei]]. exists i. split; [exact Hi|]. split; [exact Ei|]. apply (idle_phase n s i I Q1 Hi Ei).
  - constructor; csimp; [intros k Hk; rewrite set_other by exact Hk; apply C1; exact Hk|]. rewrite set_same. discriminate.
  - constructor; csimp; [exact C1|]. intros Q1 Q2. discriminate.
  - constructor; csimp; [exact C1|]. intros Q1 Q2. destruct (C2 Q1 Q2) as [j [Hj1 [Hj2 Hj3]]]. exists j. split; [exact Hj1|]. split; [exact Hj2|].
    unfold wake_all. destruct (workers s j); auto.
Qed.
Lemma execution_cinv n tr s : 0 < n -> execution n tr s -> one_client tr -> cinv n s.
Proof.
  intros Hn H. induction H as [|tr s e s' H IH S]; intros O.
  - constructor; cbn; [reflexivity|discriminate].
  - apply Forall_app in O as [O1 O2]. apply (cinv_step n s e s' Hn (execution_inv n tr s H) (IH O1) S O2).
Qed.

(** Invariants of the scheduler model: points, progress *)
From Coq Require Import ZArith List Bool Arith Lia.
From Verif Require Import Machine FeedQueue Combi CombiProofs2 Reconst ReconstProofs ReconstProofs2.
Import ListNotations.
Local Open Scope nat_scope.
Section Step.
Variable bb : nat -> point -> list Z.
Variables thr bs : Z.
Variable scan : bool.
Notation step := (sstep bb thr bs scan).
(** the chosen points: each one is still to be queued by exactly one thread or in the history, and none twice *)
Definition pdec : forall a b : point, {a = b} + {a <> b}.
Proof. decide equality; [apply (list_eq_dec Nat.eq_dec)|apply Z.eq_dec]. Defined.
Definition cp (p : point) (l : list point) : nat := count_occ pdec l p.
Lemma cp_cons p x l : cp p (x :: l) = (if pdec x p then 1 else 0) + cp p l.
Proof. unfold cp. cbn. destruct (pdec x p); reflexivity. Qed.
Definition A_ch (s : st) : Prop := forall p, cp p (main_picks (main s)) + sumf (fun j => cp p (job_picks j)) (ijobs s) + cp p (map snd (hist s)) = cp p (chosen s) /\ cp p (chosen s) <= 1.
Lemma point_eqb_eq a b : point_eqb a b = true <-> a = b.
Proof. unfold point_eqb. destruct a as [a1 a2], b as [b1 b2]. cbn [fst snd]. destruct (list_eq_dec Nat.eq_dec a2 b2) as [->|N]; destruct (Z.eqb_spec a1 b1) as [->|M]; cbn; split; intros X; try reflexivity; try discriminate; congruence. Qed.
Lemma choose_new p l : existsb (point_eqb p) l = false -> cp p l = 0.
Proof.
  intros H. apply count_occ_not_In. intros I0. assert (X : existsb (point_eqb p) l = true) by (apply existsb_exists; exists p; split; [exact I0|apply point_eqb_eq; reflexivity]). congruence.
Qed.
Lemma cp_nil p : cp p [] = 0. Proof. reflexivity. Qed.
Lemma A_ch_step e s s' : A_ch s -> step e s = Some s' -> A_ch s'.
Proof.
  unfold A_ch. intros A H pt. specialize (A pt). inv_step H; ss; fix_goal; sums.
  all: repeat match goal with E : main _ = _ |- _ => rewrite E in A; clear E end.
  all: repeat match goal with X : existsb (point_eqb _) _ = false |- _ => apply choose_new in X end.
  all: cbn [main_picks job_picks map snd] in *; rewrite ?cp_cons, ?cp_nil in *; cbn [sumf]; try lia.
  all: match goal with |- context[pdec ?x ?y] => destruct (pdec x y) as [<-|] end; lia.
Qed.

(** the main thread waits for a probe only if one is under way *)
Definition A_wait (s : st) : Prop := match main s with MGet => (probes_queued s > 0)%Z | _ => True end.
Lemma A_wait_step e s s' : A_queued s -> A_queued s' -> A_wait s -> step e s = Some s' -> A_wait s'.
Proof.
  unfold A_wait. intros A0 A' A H. inv_step H; ss; fix_goal; try exact I; try assumption.
  all: try (unfold A_queued in A0, A'; apply Z.eqb_neq in Heqb; lia).
  all: try (unfold A_queued in A0, A'; apply Z.eqb_neq in Heqb0; lia).
  all: destruct (main s); try exact I; lia.
Qed.
(** enough get_job tasks for the requested probes *)
Definition A_get (s : st) : Prop := length (requested s) <= pool_get s + main_owed (main s) + sumf job_owed (ijobs s).
Definition good_size : Prop := In bs bunch_sizes /\ (1 <= thr < two32)%Z.
Lemma bunch_in (q : Z) : good_size -> (1 <= q < two31)%Z -> exists b, compute_bunch_size q thr bs = Some b /\ In b bunch_sizes /\ (1 <= b <= q)%Z.
Proof.
  intros [G T] Hq. assert (M : (1 <= bs < two32)%Z) by (cbn in G; unfold two32; lia). assert (D0 : (q / thr < two31)%Z) by (apply Z.div_lt_upper_bound; nia).
  destruct (compute_bunch_size_ok q thr bs ltac:(unfold two31, two32 in *; lia) T M D0) as [b [E [Hb [Hq' X]]]]. exists b. split; [exact E|].
  split; [|split; [lia|apply Hq'; lia]]. destruct X as [[-> |[k [K ->]]] _]; [exact G|].
  assert (B128 : (2 ^ k <= 2 ^ 7)%Z) by (cbn in G; lia). apply Z.pow_le_mono_r_iff in B128; [|lia|lia].
  assert (C : (k = 0 \/ k = 1 \/ k = 2 \/ k = 3 \/ k = 4 \/ k = 5 \/ k = 6 \/ k = 7)%Z) by lia. decompose [or] C; subst k; cbn; tauto.
Qed.
Lemma A_get_step e s s' : good_size -> (Z.of_nat (length (requested s)) < two31)%Z -> A_get s -> step e s = Some s' -> A_get s'.
Proof.
  intros G Sm A H. unfold A_get in *. destruct (requested s) as [|p0 l0] eqn:R.
  - assert (A0 : A_get s) by (unfold A_get; rewrite R; cbn; lia). unfold A_get in A0. rewrite R in A0. clear A.
    inv_step H; ss; fix_goal; sums; try congruence; rewrite ?R in *.
    all: repeat match goal with E : main _ = _ |- _ => rewrite E in A0; clear E end.
    all: cbn [main_owed job_owed length app] in *; rewrite ?app_length in *; cbn [length sumf] in *; try lia.
  - destruct (bunch_in (Z.of_nat (length (requested s)))) as [b [E [Hb [Hb1 Hb2]]]]; [exact G|rewrite R; cbn [length] in *; lia|].
    inv_step H; ss; fix_goal; sums; rewrite ?R in *; try congruence.
    all: repeat match goal with Em : main _ = _ |- _ => rewrite Em in A; clear Em end.
    all: cbn [main_owed job_owed] in *; rewrite ?app_length in *; cbn [length sumf] in *; try lia.
    + injection E as ->. rewrite skipn_length. cbn [length] in *. lia.
    + exfalso. injection E as ->.
      assert (X : existsb (Z.eqb b) bunch_sizes = true) by (apply existsb_exists; exists b; split; [exact Hb|apply Z.eqb_refl]). congruence.
Qed.
(** the functions of the interpolation jobs exist *)
Definition A_job (s : st) : Prop := Forall (fun j => job_rec j < items s) (ijobs s).
Lemma A_job_step e s s' : A_job s -> step e s = Some s' -> A_job s'.
Proof.
  unfold A_job. intros A H. inv_step H; unfold items in *; ss; rewrite ?set_length, ?map_length; try exact A.
  all: try solve [constructor].
  all: try (apply forall_set; [|exact A]).
  all: try (apply forall_del; exact A).
  all: try (match goal with N : nth_error (ijobs _) _ = Some _ |- _ => pose proof (forall_nth _ _ _ _ A N) as F; exact F end).
  - apply Forall_app. split; [exact A|]. constructor; [|constructor]. cbn [job_rec]. apply nth_error_Some. congruence.
Qed.
End Step.

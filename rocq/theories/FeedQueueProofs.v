(** Invariants of the feed/interpolate protocol *)
From Coq Require Import ZArith List Bool Arith Lia.
From Verif Require Import FeedQueue.
Import ListNotations.

Definition pending (j : job) : bool := match j with Pending => true | _ => false end.
Definition count (f : job -> bool) (l : list job) : nat := length (filter f l).
Definition b2n (b : bool) : nat := if b then 1 else 0.
Lemma count_app f a b : count f (a ++ b) = count f a + count f b.
Proof. unfold count. rewrite filter_app, app_length. reflexivity. Qed.
Lemma count_set f l : forall i x y, nth_error l i = Some x -> count f (set_nth i y l) + b2n (f x) = count f l + b2n (f y).
Proof.
  unfold count. induction l as [|z l IH]; intros [|i] x y H; try discriminate; cbn in H.
  - injection H as ->. cbn. destruct (f x), (f y); cbn; lia.
  - specialize (IH _ _ y H). cbn. destruct (f z); cbn; lia.
Qed.
Lemma count_pos f l i x : nth_error l i = Some x -> f x = true -> 1 <= count f l.
Proof.
  unfold count. revert i. induction l as [|z l IH]; intros [|i] H F; try discriminate; cbn in H.
  - injection H as ->. cbn. rewrite F. cbn. lia.
  - specialize (IH i H F). cbn. destruct (f z); cbn; lia.
Qed.
Lemma skipn_app_exact {A} (a b : list A) : skipn (length a) (a ++ b) = b.
Proof. induction a; [reflexivity|]. assumption. Qed.
Lemma skipn_self {A} (a : list A) : skipn (length a) a = [].
Proof. induction a; [reflexivity|]. assumption. Qed.

Record inv (scan tag : bool) (s : sys) : Prop := {
  i_order : map fst (out s) ++ queue (ob s) = accepted s;
  i_active : count active (jobs s) = b2n (is_interpolating (ob s));
  i_first : scan = false -> first_feed (ob s) = true -> queue (ob s) = [];
  i_scan : scan = true -> first_feed (ob s) = true /\ fed_zero (ob s) = false;
  i_start : start_interpolation (ob s) = false -> first_feed (ob s) = false -> is_interpolating (ob s) = false -> queue (ob s) <> [];
  i_zero : b2n (fed_zero (ob s)) <= count pending (jobs s);
  i_work : queue (ob s) <> [] -> is_interpolating (ob s) = false -> 1 + b2n (fed_zero (ob s)) <= count pending (jobs s);
  i_prime : tag = false -> (forall j, In j (jobs s) -> match j with Clearing _ => False | _ => True end) /\
     (forall x, In x (queue (ob s)) -> p_prime x = prime_number (ob s)) /\ (forall x, In (x, false) (out s) -> p_prime x < prime_number (ob s)) }.

Lemma in_set_nth {A} (i : nat) (y : A) l z : In z (set_nth i y l) -> z = y \/ In z l.
Proof.
  revert i. induction l as [|x l IH]; intros [|i] H; cbn in H; try contradiction.
  - destruct H as [<-|H]; [left; reflexivity|right; right; exact H].
  - destruct H as [<-|H]; [right; left; reflexivity|]. destruct (IH i H) as [->|H']; [left; reflexivity|right; right; exact H'].
Qed.

Lemma feed_inv scan tag items fp s o' b : items <> [] -> inv scan tag s -> feed_vec scan items fp (ob s) = Fed o' b ->
  inv scan tag (mk_sys o' (if b then jobs s ++ [Pending] else jobs s) (out s) (accepted s ++ pushed (ob s) o')).
Proof.
  intros Ne [I1 I2 I3 I4 I5 I6 I7 I8] F. unfold feed_vec in F. destruct s as [o js ou ac]. cbn [ob jobs out accepted] in *.
  destruct (negb (done o) && (fp =? prime_number o)) eqn:G.
  2: { injection F as <- <-. unfold pushed. rewrite skipn_self, app_nil_r. constructor; cbn [ob jobs out accepted]; assumption. }
  apply andb_prop in G as [_ G]. apply Nat.eqb_eq in G. subst fp.
  set (q := map (fun x => mk_probe (fst (fst x)) (snd (fst x)) (snd x) (prime_number o)) items) in *.
  assert (Nq : q <> []) by (unfold q; destruct items; [elim (Ne eq_refl)|discriminate]).
  assert (Qp : forall x, In x q -> p_prime x = prime_number o). { intros x Hx. unfold q in Hx. apply in_map_iff in Hx as [y [<- _]]. reflexivity. }
  assert (C1 : forall f, count f (js ++ [Pending]) = count f js + b2n (f Pending)) by (intros f; rewrite count_app; unfold count; cbn; destruct (f Pending); reflexivity).
  assert (Push : forall st ff, st = (if first_feed o then true else start_interpolation o) -> (scan = false -> ff = false) -> (scan = true -> ff = true) ->
    inv scan tag (mk_sys (mk_obj (queue o ++ q) ff (if st then false else st) (is_interpolating o) (fed_zero o) (done o) (prime_number o) (zero_counter o) (combined_at o) (zero_result o))
      (if st then js ++ [Pending] else js) ou (ac ++ pushed o (mk_obj (queue o ++ q) ff (if st then false else st) (is_interpolating o) (fed_zero o) (done o) (prime_number o) (zero_counter o) (combined_at o) (zero_result o))))).
  { intros st ff Est Ef1 Ef2. unfold pushed. cbn [queue]. rewrite skipn_app_exact. constructor; cbn [ob jobs out accepted queue first_feed start_interpolation is_interpolating fed_zero prime_number].
    - rewrite app_assoc, I1. reflexivity.
    - destruct st; [rewrite C1; cbn; lia|exact I2].
    - intros Hs Hf. rewrite (Ef1 Hs) in Hf. discriminate.
    - intros Hs. rewrite (Ef2 Hs). split; [reflexivity|apply I4; exact Hs].
    - intros _ _ _ E. apply app_eq_nil in E as [_ E]. exact (Nq E).
    - destruct st; [rewrite C1; lia|exact I6].
    - intros _ Hi. destruct st; [rewrite C1; cbn; lia|]. destruct (first_feed o) eqn:FF; [discriminate|]. apply I7; [apply I5; auto|exact Hi].
    - intros T. destruct (I8 T) as [J1 [J2 J3]]. split; [|split].
      + intros j Hj. destruct st; [apply in_app_or in Hj as [Hj|[<-|[]]]; [apply J1; exact Hj|exact I]|apply J1; exact Hj].
      + intros x Hx. apply in_app_or in Hx as [Hx|Hx]; [apply J2; exact Hx|apply Qp; exact Hx].
      + exact J3. }
  destruct (first_feed o && negb scan) eqn:FS.
  - apply andb_prop in FS as [FF NS]. apply negb_true_iff in NS. rewrite FF in *. destruct items as [|[[t0 n0] o0] items]; [elim (Ne eq_refl)|]. destruct (n0 =? 0)%Z.
    + destruct ((S (zero_counter o) =? S (prime_number o)) && (300 <=? S (prime_number o))); [discriminate|]. destruct (S (prime_number o) =? 300); [discriminate|].
      injection F as <- <-. unfold pushed. cbn [queue]. rewrite skipn_self, app_nil_r.
      constructor; cbn [ob jobs out accepted queue first_feed start_interpolation is_interpolating fed_zero prime_number]; try assumption.
      * rewrite C1. cbn. lia.
      * intros Hs. congruence.
      * intros _ Hf. congruence.
      * rewrite C1. cbn. lia.
      * intros Hq. elim Hq. apply I3; [exact NS|reflexivity].
      * intros T. destruct (I8 T) as [J1 [J2 J3]]. rewrite (I3 NS eq_refl). split; [|split; [intros x []|]].
        -- intros j Hj. apply in_app_or in Hj as [Hj|[<-|[]]]; [apply J1; exact Hj|exact I].
        -- intros x Hx. specialize (J3 x Hx). lia.
    + injection F as <- <-. apply (Push true false); [reflexivity|reflexivity|congruence].
  - injection F as <- <-. apply Push; [reflexivity| |].
    + intros Hs. rewrite Hs in FS. cbn in FS. rewrite andb_true_r in FS. exact FS.
    + intros Hs. apply I4. exact Hs.
Qed.

Lemma step_inv scan tag e s s' : nonempty_feed e -> inv scan tag s -> step scan tag e s = Some s' -> inv scan tag s'.
Proof.
  intros Ne Iv H. destruct e as [items fp| |i|i b|i|i|i|i]; unfold step in H.
  - destruct (feed_vec scan items fp (ob s)) as [| |o' b] eqn:F; try discriminate. injection H as <-. apply (feed_inv _ _ items fp); [destruct items; [elim Ne|discriminate]|exact Iv|exact F].
  - injection H as <-. destruct Iv as [I1 I2 I3 I4 I5 I6 I7 I8]. 
    assert (C1 : forall f, count f (jobs s ++ [Pending]) = count f (jobs s) + b2n (f Pending)) by (intros f; rewrite count_app; unfold count; cbn; destruct (f Pending); reflexivity).
    constructor; cbn [ob jobs out accepted]; rewrite ?C1; change (b2n (active Pending)) with 0; change (b2n (pending Pending)) with 1; try assumption; try lia.
    + intros T. destruct (I8 T) as [J1 J2]. split; [|exact J2]. intros j Hj. apply in_app_or in Hj as [Hj|[<-|[]]]; [apply J1; exact Hj|exact I].
  - destruct (nth_error (jobs s) i) as [[]|] eqn:N; try discriminate. destruct Iv as [I1 I2 I3 I4 I5 I6 I7 I8].
    assert (CA : forall y, count active (set_nth i y (jobs s)) = count active (jobs s) + b2n (active y)) by (intros y; pose proof (count_set active _ _ _ y N); cbn in *; lia).
    assert (CP : forall y, pending y = false -> S (count pending (set_nth i y (jobs s))) = count pending (jobs s)) by (intros y Hy; pose proof (count_set pending _ _ _ y N) as C; rewrite Hy in C; cbn in C; lia).
    assert (CJ : forall y, match y with Clearing _ => False | _ => True end -> (forall j, In j (jobs s) -> match j with Clearing _ => False | _ => True end) ->
      forall j, In j (set_nth i y (jobs s)) -> match j with Clearing _ => False | _ => True end) by (intros y Hy HJ j Hj; apply in_set_nth in Hj as [->|Hj]; [exact Hy|apply HJ; exact Hj]).
    destruct (fed_zero (ob s)) eqn:FZ; [|destruct (is_interpolating (ob s)) eqn:II; [|destruct (queue (ob s)) as [|x q] eqn:Q]]; injection H as <-.
    + constructor; cbn [ob jobs out accepted queue first_feed start_interpolation is_interpolating fed_zero prime_number]; try assumption.
      * rewrite CA. cbn. lia.
      * intros Hs. destruct (I4 Hs). discriminate.
      * cbn. lia.
      * intros Hq Hi. specialize (I7 Hq Hi). pose proof (CP (Returned true) eq_refl). cbn in *. lia.
      * intros T. destruct (I8 T) as [J1 J2]. split; [apply CJ; [exact I|exact J1]|exact J2].
    + constructor; cbn [ob jobs out accepted]; rewrite ?FZ, ?II; try assumption.
      * rewrite CA. cbn in *. lia.
      * cbn. lia.
      * intros _ Hi. discriminate.
      * intros T. destruct (I8 T) as [J1 J2]. split; [apply CJ; [exact I|exact J1]|exact J2].
    + constructor; cbn [ob jobs out accepted]; rewrite ?FZ, ?II, ?Q; try assumption.
      * rewrite CA. cbn in *. lia.
      * cbn. lia.
      * intros Hq. elim (Hq eq_refl).
      * intros T. destruct (I8 T) as [J1 J2]. split; [apply CJ; [exact I|exact J1]|exact J2].
    + constructor; cbn [ob jobs out accepted set_interp queue first_feed start_interpolation is_interpolating fed_zero prime_number]; rewrite ?FZ; try assumption.
      * rewrite map_app, <- app_assoc. cbn. exact I1.
      * rewrite CA. cbn in *. lia.
      * intros Hs Hf. specialize (I3 Hs Hf). discriminate.
      * intros _ _ Hi. discriminate.
      * cbn. lia.
      * intros _ Hi. discriminate.
      * intros T. destruct (I8 T) as [J1 [J2 J3]]. split; [apply CJ; [exact I|exact J1]|split].
        -- intros y Hy. apply J2. right. exact Hy.
        -- intros y Hy. apply in_app_or in Hy as [Hy|[Hy|[]]]; [apply J3; exact Hy|discriminate].
  - destruct (nth_error (jobs s) i) as [[| | |]|] eqn:N; try discriminate. injection H as <-. destruct Iv as [I1 I2 I3 I4 I5 I6 I7 I8].
    constructor; cbn [ob jobs out accepted queue first_feed start_interpolation is_interpolating fed_zero prime_number]; assumption.
  - destruct (nth_error (jobs s) i) as [[| | |]|] eqn:N; try discriminate. destruct (S (prime_number (ob s)) =? 300); [discriminate|]. injection H as <-. destruct Iv as [I1 I2 I3 I4 I5 I6 I7 I8].
    constructor; cbn [ob jobs out accepted queue first_feed start_interpolation is_interpolating fed_zero prime_number]; try assumption.
    + rewrite map_app, map_map, map_id, app_nil_r. exact I1.
    + reflexivity.
    + intros Hs. split; [reflexivity|apply I4; exact Hs].
    + intros _ Hf. discriminate.
    + intros Hq. elim (Hq eq_refl).
    + intros T. destruct (I8 T) as [J1 [J2 J3]]. split; [exact J1|split; [intros y []|]].
      intros y Hy. apply in_app_or in Hy as [Hy|Hy]; [specialize (J3 y Hy); lia|]. apply in_map_iff in Hy as [z [E Hz]]. injection E as ->. rewrite (J2 y Hz). lia.
  - destruct (nth_error (jobs s) i) as [[| | |]|] eqn:N; try discriminate. destruct tag; [|discriminate]. injection H as <-. destruct Iv as [I1 I2 I3 I4 I5 I6 I7 I8].
    pose proof (count_set active _ _ _ (Clearing x) N) as CA. pose proof (count_set pending _ _ _ (Clearing x) N) as CP. cbn in CA, CP.
    constructor; cbn [ob jobs out accepted queue first_feed start_interpolation is_interpolating fed_zero prime_number]; try assumption; try lia; try discriminate.
    intros Hq Hi. specialize (I7 Hq Hi). lia.
  - destruct (nth_error (jobs s) i) as [[| | |]|] eqn:N; try discriminate. destruct (prime_number (ob s) =? 300); [discriminate|]. injection H as <-. destruct Iv as [I1 I2 I3 I4 I5 I6 I7 I8].
    pose proof (count_set active _ _ _ (Body x) N) as CA. pose proof (count_set pending _ _ _ (Body x) N) as CP. cbn in CA, CP.
    constructor; cbn [ob jobs out accepted queue first_feed start_interpolation is_interpolating fed_zero prime_number]; try assumption; try lia.
    + rewrite map_app, map_map, map_id, app_nil_r. exact I1.
    + reflexivity.
    + intros Hs. split; [reflexivity|apply I4; exact Hs].
    + intros Hq. elim (Hq eq_refl).
    + intros T. destruct (I8 T) as [J1 _]. apply nth_error_In in N. elim (J1 _ N).
  - destruct (nth_error (jobs s) i) as [[| | |]|] eqn:N; try discriminate. destruct Iv as [I1 I2 I3 I4 I5 I6 I7 I8].
    pose proof (count_pos active _ _ _ N eq_refl) as P1. destruct (is_interpolating (ob s)) eqn:II; [|cbn in I2; lia].
    destruct (queue (ob s)) as [|y q] eqn:Q; injection H as <-.
    + pose proof (count_set active _ _ _ (Returned true) N) as CA. pose proof (count_set pending _ _ _ (Returned true) N) as CP. cbn in CA, CP, I2.
      constructor; cbn [ob jobs out accepted queue first_feed start_interpolation is_interpolating fed_zero prime_number]; try assumption; try lia; try (cbn; lia); try discriminate; try (intros Hq; elim (Hq eq_refl)).
      * intros T. destruct (I8 T) as [J1 J2]. split; [|exact J2]. intros j Hj. apply in_set_nth in Hj as [->|Hj]; [exact I|apply J1; exact Hj].
    + pose proof (count_set active _ _ _ (Body y) N) as CA. pose proof (count_set pending _ _ _ (Body y) N) as CP. cbn in CA, CP, I2.
      constructor; cbn [ob jobs out accepted upd_queue queue first_feed start_interpolation is_interpolating fed_zero prime_number]; rewrite ?II; try assumption; try lia; try (cbn; lia); try discriminate; try (intros _ _ Hi; discriminate Hi); try (intros _ Hi; discriminate Hi).
      * rewrite map_app, <- app_assoc. cbn. exact I1.
      * intros Hs Hf. specialize (I3 Hs Hf). discriminate.
      * intros T. destruct (I8 T) as [J1 [J2 J3]]. split; [|split].
        -- intros j Hj. apply in_set_nth in Hj as [->|Hj]; [exact I|apply J1; exact Hj].
        -- intros z Hz. apply J2. right. exact Hz.
        -- intros z Hz. apply in_app_or in Hz as [Hz|[Hz|[]]]; [apply J3; exact Hz|discriminate].
Qed.
Lemma start_inv scan tag : inv scan tag sys_start.
Proof. constructor; cbn; auto; try lia; try discriminate; try (intros Hq; elim (Hq eq_refl)). intros _. split; [intros j []|split; [intros x []|intros x []]]. Qed.
Lemma reachable_inv scan tag s : reachable_ne scan tag s -> inv scan tag s.
Proof. induction 1 as [|s e s' _ IH Ne H]; [apply start_inv|]. apply (step_inv _ _ e s); assumption. Qed.
Lemma finished_counts js : Forall finished js -> count active js = 0 /\ count pending js = 0.
Proof. unfold count. induction 1 as [|j js Hj _ [A B]]; [split; reflexivity|]. destruct j; try elim Hj. cbn. rewrite A, B. split; reflexivity. Qed.

(** ** draining *)
Definition work (s : sys) : nat := length (queue (ob s)) + 2 * count pending (jobs s) + count active (jobs s).
Definition no_window (js : list job) : Prop := forall j, In j js -> match j with Clearing _ => False | _ => True end.
Lemma not_finished js : no_window js -> Forall finished js \/ exists i, nth_error js i = Some Pending \/ exists x, nth_error js i = Some (Body x).
Proof.
  induction js as [|j js IH]; intros W; [left; constructor|]. destruct j as [|x|x|r].
  - right. exists 0. left. reflexivity.
  - right. exists 0. right. exists x. reflexivity.
  - elim (W (Clearing x)). left. reflexivity.
  - destruct IH as [IH|[i [H|[x H]]]]; [intros j Hj; apply W; right; exact Hj|left; constructor; [exact I|exact IH]|right; exists (S i)..]; [left; exact H|right; exists x; exact H].
Qed.
Lemma no_window_set i y js : match y with Clearing _ => False | _ => True end -> no_window js -> no_window (set_nth i y js).
Proof. intros Hy W j Hj. apply in_set_nth in Hj as [->|Hj]; [exact Hy|apply W; exact Hj]. Qed.
Lemma start_works scan tag s i : no_window (jobs s) -> nth_error (jobs s) i = Some Pending -> exists s', step scan tag (Start i) s = Some s' /\ work s' < work s /\ no_window (jobs s').
Proof.
  intros W N. cbn [step]. rewrite N. 
  assert (CA : forall y, count active (set_nth i y (jobs s)) = count active (jobs s) + b2n (active y)) by (intros y; pose proof (count_set active _ _ _ y N); cbn in *; lia).
  assert (CP : forall y, pending y = false -> S (count pending (set_nth i y (jobs s))) = count pending (jobs s)) by (intros y Hy; pose proof (count_set pending _ _ _ y N) as C; rewrite Hy in C; cbn in C; lia).
  unfold work. destruct (fed_zero (ob s)); [|destruct (is_interpolating (ob s)); [|destruct (queue (ob s)) as [|x q] eqn:Q]]; (eexists; split; [reflexivity|]; cbn [jobs ob queue set_interp]; split; [|apply no_window_set; [exact I|exact W]]); rewrite ?CA, ?Q.
  - pose proof (CP (Returned true) eq_refl). cbn [b2n active]. lia.
  - pose proof (CP (Returned false) eq_refl). cbn [b2n active]. lia.
  - pose proof (CP (Returned false) eq_refl). cbn [b2n active]. lia.
  - pose proof (CP (Body x) eq_refl). cbn [b2n active length]. lia.
Qed.
Lemma return_works scan tag s i x : no_window (jobs s) -> nth_error (jobs s) i = Some (Body x) -> exists s', step scan tag (Return i) s = Some s' /\ work s' < work s /\ no_window (jobs s').
Proof.
  intros W N. cbn [step]. rewrite N. unfold work.
  destruct (queue (ob s)) as [|y q] eqn:Q; (eexists; split; [reflexivity|]; cbn [jobs ob queue upd_queue]; split; [|apply no_window_set; [exact I|exact W]]).
  - pose proof (count_set active _ _ _ (Returned true) N) as CA. pose proof (count_set pending _ _ _ (Returned true) N) as CP. cbn [active pending b2n] in CA, CP. cbn [length]. lia.
  - pose proof (count_set active _ _ _ (Body y) N) as CA. pose proof (count_set pending _ _ _ (Body y) N) as CP. cbn [active pending b2n] in CA, CP. cbn [length]. lia.
Qed.
Lemma drains_all scan tag : forall n s, work s < n -> no_window (jobs s) -> exists s', drains scan tag s s' /\ Forall finished (jobs s').
Proof.
  induction n as [|n IH]; intros s L W; [lia|]. destruct (not_finished (jobs s) W) as [F|[i [N|[x N]]]].
  - exists s. split; [constructor|exact F].
  - destruct (start_works scan tag s i W N) as [s1 [S1 [L1 W1]]]. destruct (IH s1 ltac:(lia) W1) as [s2 [D F]]. exists s2. split; [apply (drain_start _ _ s i s1); assumption|exact F].
  - destruct (return_works scan tag s i x W N) as [s1 [S1 [L1 W1]]]. destruct (IH s1 ltac:(lia) W1) as [s2 [D F]]. exists s2. split; [apply (drain_return _ _ s i s1); assumption|exact F].
Qed.
Lemma drains_reach scan tag s s' : reachable_ne scan tag s -> drains scan tag s s' -> reachable_ne scan tag s'.
Proof. intros R D. induction D as [|s i s1 s2 H _ IH|s i s1 s2 H _ IH]; [exact R|apply IH; apply (reach_ne_step _ _ s (Start i)); [exact R|exact I|exact H]|apply IH; apply (reach_ne_step _ _ s (Return i)); [exact R|exact I|exact H]]. Qed.
Lemma drains_accepted scan tag s s' : drains scan tag s s' -> accepted s' = accepted s.
Proof.
  intros D. induction D as [|s i s1 s2 H _ IH|s i s1 s2 H _ IH]; [reflexivity|rewrite IH..]; cbn [step] in H; destruct (nth_error (jobs s) i) as [[]|]; try discriminate.
  - destruct (fed_zero (ob s)); [|destruct (is_interpolating (ob s)); [|destruct (queue (ob s))]]; injection H as <-; reflexivity.
  - destruct (queue (ob s)); injection H as <-; reflexivity.
Qed.

(** ** zero functions *)
Record zinv (s : sys) : Prop := {
  z_le : zero_counter (ob s) <= prime_number (ob s);
  z_acc : zero_counter (ob s) = prime_number (ob s) -> first_feed (ob s) = true -> accepted s = [];
  z_body : accepted s = [] -> first_feed (ob s) = true /\ zero_counter (ob s) = prime_number (ob s) /\ Forall (fun j => active j = false) (jobs s) /\ queue (ob s) = [];
  z_win : forall x, In (Clearing x) (jobs s) -> zero_counter (ob s) < prime_number (ob s);
  z_res : zero_result (ob s) = true -> done (ob s) = true /\ prime_number (ob s) = 3 /\ zero_counter (ob s) = 3 /\ accepted s = [];
  z_done : accepted s = [] -> (done (ob s) = true <-> prime_number (ob s) = 3) /\ (zero_result (ob s) = true <-> prime_number (ob s) = 3) /\ prime_number (ob s) <= 3 }.

Lemma forall_set (P : job -> Prop) i y l : P y -> Forall P l -> Forall P (set_nth i y l).
Proof. intros Py. revert i. induction l as [|x l IH]; intros [|i] F; cbn; [constructor|constructor|..]; inversion F; subst; constructor; auto. Qed.
Lemma active_not js i x : Forall (fun j => active j = false) js -> nth_error js i = Some (Body x) -> False.
Proof. intros F N. apply nth_error_In in N. apply (proj1 (Forall_forall _ _) F) in N. discriminate. Qed.
Lemma start_zinv : zinv sys_start.
Proof. constructor; cbn; auto; try lia; try discriminate. Qed.
Lemma feed_zinv items fp s o' b : items <> [] -> zinv s -> feed_vec false items fp (ob s) = Fed o' b ->
  zinv (mk_sys o' (if b then jobs s ++ [Pending] else jobs s) (out s) (accepted s ++ pushed (ob s) o')).
Proof.
  intros Ne [Z1 Z2 Z3 Z4 Z5 Z6] F. unfold feed_vec in F. destruct s as [o js ou ac]. cbn [ob jobs out accepted] in *.
  destruct (negb (done o) && (fp =? prime_number o)) eqn:G.
  2: { injection F as <- <-. unfold pushed. rewrite skipn_self, app_nil_r. constructor; cbn [ob jobs out accepted]; assumption. }
  apply andb_prop in G as [ND G]. apply negb_true_iff in ND. apply Nat.eqb_eq in G. subst fp.
  set (q := map (fun x => mk_probe (fst (fst x)) (snd (fst x)) (snd x) (prime_number o)) items) in *.
  assert (Nq : q <> []) by (unfold q; destruct items; [elim (Ne eq_refl)|discriminate]).
  assert (NZ : zero_result o = false). { destruct (zero_result o) eqn:E; [|reflexivity]. destruct (Z5 eq_refl) as [D _]. congruence. }
  assert (CJ : forall (b : bool) x, In (Clearing x) (if b then js ++ [Pending] else js) -> In (Clearing x) js).
  { intros [|] x H; [|exact H]. apply in_app_or in H as [H|[H|[]]]; [exact H|discriminate]. }
  assert (Push : forall st ff (bb : bool), ff = false ->
    zinv (mk_sys (mk_obj (queue o ++ q) ff st (is_interpolating o) (fed_zero o) (done o) (prime_number o) (zero_counter o) (combined_at o) (zero_result o))
      (if bb then js ++ [Pending] else js) ou (ac ++ pushed o (mk_obj (queue o ++ q) ff st (is_interpolating o) (fed_zero o) (done o) (prime_number o) (zero_counter o) (combined_at o) (zero_result o))))).
  { intros st ff bb ->. unfold pushed. cbn [queue]. rewrite skipn_app_exact.
    assert (NA : ac ++ q <> []) by (intros E; apply app_eq_nil in E as [_ E]; exact (Nq E)).
    constructor; cbn [ob jobs out accepted queue first_feed start_interpolation is_interpolating fed_zero prime_number zero_counter zero_result done]; try assumption; try (intros E; elim (NA E)); try congruence.
    intros x Hx. apply (Z4 x). apply (CJ bb). exact Hx. }
  rewrite andb_true_r in F. destruct (first_feed o) eqn:FF.
  - destruct items as [|[[t0 n0] o0] items]; [elim (Ne eq_refl)|]. destruct (n0 =? 0)%Z.
    + destruct ((S (zero_counter o) =? S (prime_number o)) && (300 <=? S (prime_number o))); [discriminate|]. destruct (S (prime_number o) =? 300); [discriminate|].
      injection F as <- <-. unfold pushed. cbn [queue]. rewrite skipn_self, app_nil_r.
      constructor; cbn [ob jobs out accepted queue first_feed start_interpolation is_interpolating fed_zero prime_number zero_counter zero_result done];
      set (z := (zero_counter o =? 2) && (prime_number o =? 2)) in *;
      (assert (Hz : z = true <-> S (zero_counter o) = 3 /\ S (prime_number o) = 3) by (unfold z; rewrite andb_true_iff, !Nat.eqb_eq; lia)); clearbody z.
      * lia.
      * intros E _. apply Z2; [lia|reflexivity].
      * intros E. destruct (Z3 E) as [A [B [C D]]]. split; [reflexivity|split; [lia|split; [|exact D]]]. apply Forall_app. split; [exact C|repeat constructor].
      * intros x Hx. specialize (Z4 x (CJ true x Hx)). lia.
      * destruct z eqn:Ez; [|rewrite NZ; discriminate]. intros _. destruct (proj1 Hz eq_refl) as [E1 E2]. split; [reflexivity|split; [exact E2|split; [exact E1|]]]. apply Z2; [lia|reflexivity].
      * intros E. destruct (Z3 E) as [_ [B _]]. destruct (Z6 E) as [Z7 [Z8 Z9]].
        assert (prime_number o <> 3). { intros E3. apply Z7 in E3. congruence. }
        destruct z eqn:Ez; [assert (E3 := proj1 Hz eq_refl)|assert (E3 : ~ (S (zero_counter o) = 3 /\ S (prime_number o) = 3)) by (intros E3; apply Hz in E3; discriminate)].
        -- repeat split; try reflexivity; try lia.
        -- rewrite ND, NZ. repeat split; try lia; intros; try discriminate; lia.
    + injection F as <- <-. apply (Push false false true); reflexivity.
  - injection F as <- <-. apply Push. reflexivity.
Qed.
Lemma step_zinv tag e s s' : nonempty_feed e -> inv false tag s -> zinv s -> step false tag e s = Some s' -> zinv s'.
Proof.
  intros Ne Iv Zv H. destruct e as [items fp| |i|i b|i|i|i|i]; unfold step in H.
  1: { destruct (feed_vec false items fp (ob s)) as [| |o' b] eqn:F; try discriminate. injection H as <-. apply (feed_zinv items fp); [destruct items; [elim Ne|discriminate]|exact Zv|exact F]. }
  all: destruct Zv as [Z1 Z2 Z3 Z4 Z5 Z6].
  1: { injection H as <-. constructor; cbn [ob jobs out accepted]; try assumption.
       - intros E. destruct (Z3 E) as [A [B [C D]]]. repeat split; try assumption. apply Forall_app. split; [exact C|repeat constructor].
       - intros x Hx. apply in_app_or in Hx as [Hx|[Hx|[]]]; [apply (Z4 x Hx)|discriminate]. }
  all: destruct (nth_error (jobs s) i) as [[|y|y|]|] eqn:N; try discriminate.
  - (* Start *)
    assert (CJ : forall y, match y with Clearing _ => False | _ => True end -> forall x, In (Clearing x) (set_nth i y (jobs s)) -> In (Clearing x) (jobs s)) by (intros y Hy x Hx; apply in_set_nth in Hx as [<-|Hx]; [elim Hy|exact Hx]).
    destruct (fed_zero (ob s)); [|destruct (is_interpolating (ob s)) eqn:II; [|destruct (queue (ob s)) as [|x q] eqn:Q]]; injection H as <-.
    4: { constructor; cbn [ob jobs out accepted set_interp queue first_feed start_interpolation is_interpolating fed_zero prime_number zero_counter zero_result done]; try assumption.
      - intros E. destruct (Z3 E) as [_ [_ [_ D]]]. congruence.
      - intros x0 Hx. apply (Z4 x0). apply (CJ (Body x)); [exact I|exact Hx]. }
    all: constructor; cbn [ob jobs out accepted queue first_feed start_interpolation is_interpolating fed_zero prime_number zero_counter zero_result done]; try assumption.
    all: try (intros E; destruct (Z3 E) as [A [B [C D]]]; repeat split; try assumption; apply forall_set; [reflexivity|exact C]).
    all: try (intros x Hx; apply (Z4 x); eapply CJ; [|exact Hx]; exact I).
  - (* SetDone *)
    assert (NA : accepted s <> []) by (intros E; destruct (Z3 E) as [_ [_ [C _]]]; exact (active_not _ _ _ C N)).
    injection H as <-. constructor; cbn [ob jobs out accepted queue first_feed start_interpolation is_interpolating fed_zero prime_number zero_counter zero_result done]; try assumption; try (intros E; elim (NA E)).
    intros E. destruct (Z5 E) as [_ [_ [_ E']]]. elim (NA E').
  - (* NewPrime *)
    assert (NA : accepted s <> []) by (intros E; destruct (Z3 E) as [_ [_ [C _]]]; exact (active_not _ _ _ C N)).
    destruct (S (prime_number (ob s)) =? 300); [discriminate|].
    injection H as <-. constructor; cbn [ob jobs out accepted queue first_feed start_interpolation is_interpolating fed_zero prime_number zero_counter zero_result done]; try assumption; try (intros E; elim (NA E)); try lia.
    + intros E. destruct (Z5 E) as [_ [_ [_ E']]]. elim (NA E').
  - (* NewPrimeFirst *)
    assert (NA : accepted s <> []) by (intros E; destruct (Z3 E) as [_ [_ [C _]]]; exact (active_not _ _ _ C N)).
    destruct tag; [|discriminate].
    injection H as <-. constructor; cbn [ob jobs out accepted queue first_feed start_interpolation is_interpolating fed_zero prime_number zero_counter zero_result done]; try assumption; try (intros E; elim (NA E)); try lia.
    + intros E. destruct (Z5 E) as [_ [_ [_ E']]]. elim (NA E').
  - (* NewPrimeSecond *)
    assert (NA : accepted s <> []). { intros E; destruct (Z3 E) as [_ [_ [C _]]]. apply nth_error_In in N. apply (proj1 (Forall_forall _ _) C) in N. discriminate. }
    destruct (prime_number (ob s) =? 300); [discriminate|]. assert (L : zero_counter (ob s) < prime_number (ob s)) by (apply (Z4 y), (nth_error_In _ _ N)).
    injection H as <-. constructor; cbn [ob jobs out accepted queue first_feed start_interpolation is_interpolating fed_zero prime_number zero_counter zero_result done]; try assumption; try (intros E; elim (NA E)); try lia.
  - (* Return *)
    assert (NA : accepted s <> []) by (intros E; destruct (Z3 E) as [_ [_ [C _]]]; exact (active_not _ _ _ C N)).
    destruct (queue (ob s)) as [|x q] eqn:Q; injection H as <-; constructor; cbn [ob jobs out accepted upd_queue queue first_feed start_interpolation is_interpolating fed_zero prime_number zero_counter zero_result done]; try assumption; try (intros E; elim (NA E)).
    + intros x Hx. apply in_set_nth in Hx as [Hx|Hx]; [discriminate|apply (Z4 x Hx)].
    + intros x0 Hx. apply in_set_nth in Hx as [Hx|Hx]; [discriminate|apply (Z4 x0 Hx)].
Qed.
Lemma reachable_zinv tag s : reachable_ne false tag s -> zinv s.
Proof. intros R. induction R as [|s e s' R IH Ne H]; [apply start_zinv|]. apply (step_zinv tag e s); try assumption. apply reachable_inv. exact R. Qed.

Lemma feed_never_ub tag s items fp : reachable_ne false tag s -> items <> [] -> feed_vec false items fp (ob s) <> FedUB.
Proof.
  intros R Ne E. destruct (reachable_zinv _ _ R) as [Z1 Z2 Z3 Z4 Z5 Z6]. unfold feed_vec in E. destruct (negb (done (ob s)) && (fp =? prime_number (ob s))); [|discriminate].
  rewrite andb_true_r in E. destruct (first_feed (ob s)) eqn:FF; [|discriminate].
  destruct items as [|[[t0 n0] o0] items]; [elim (Ne eq_refl)|]. destruct (n0 =? 0)%Z; [|discriminate].
  destruct ((S (zero_counter (ob s)) =? S (prime_number (ob s))) && (300 <=? S (prime_number (ob s)))) eqn:B; [|destruct (S (prime_number (ob s)) =? 300); discriminate].
  apply andb_prop in B as [B1 B2]. apply Nat.eqb_eq in B1. apply Nat.leb_le in B2. destruct (Z6 (Z2 ltac:(lia) eq_refl)) as [_ [_ L]]. lia.
Qed.

Lemma run_reach scan tag es : forall s s', reachable_ne scan tag s -> Forall nonempty_feed es -> run scan tag es s = Some s' -> reachable_ne scan tag s'.
Proof.
  induction es as [|e es IH]; intros s s' R F H; cbn in H; [injection H as <-; exact R|]. inversion F; subst. destruct (step scan tag e s) as [s1|] eqn:S1; [|discriminate].
  apply (IH s1); try assumption. apply (reach_ne_step _ _ s e); assumption.
Qed.

Lemma run_zero tag es : forall s s', reachable_ne false tag s -> Forall nonempty_feed es -> run false tag es s = Some s' -> accepted s' = [] ->
  accepted s = [] /\ prime_number (ob s') = zero_primes (prime_number (ob s)) es.
Proof.
  induction es as [|e es IH]; intros s s' R F H A; cbn [run] in H; [injection H as <-; split; [exact A|reflexivity]|]. inversion F as [|? ? F1 F2]; subst. destruct (step false tag e s) as [s1|] eqn:S1; [|discriminate].
  assert (R1 : reachable_ne false tag s1) by (apply (reach_ne_step _ _ s e); assumption). destruct (IH s1 s' R1 F2 H A) as [A1 P1]. clear IH H A. rewrite P1. clear P1.
  assert (Z := reachable_zinv _ _ R). assert (A0 : accepted s = []).
  { destruct e as [items fp| |i|i b|i|i|i|i]; unfold step in S1.
    - destruct (feed_vec false items fp (ob s)); try discriminate. injection S1 as <-. cbn in A1. apply app_eq_nil in A1. apply A1.
    - injection S1 as <-. exact A1.
    - destruct (nth_error (jobs s) i) as [[|y|y|]|]; try discriminate. destruct (fed_zero (ob s)); [|destruct (is_interpolating (ob s)); [|destruct (queue (ob s)) as [|x q]]]; injection S1 as <-; exact A1.
    - destruct (nth_error (jobs s) i) as [[|y|y|]|]; try discriminate. injection S1 as <-; exact A1.
    - destruct (nth_error (jobs s) i) as [[|y|y|]|]; try discriminate. destruct (S (prime_number (ob s)) =? 300); [discriminate|]. injection S1 as <-; exact A1.
    - destruct (nth_error (jobs s) i) as [[|y|y|]|]; try discriminate. destruct tag; [|discriminate]. injection S1 as <-; exact A1.
    - destruct (nth_error (jobs s) i) as [[|y|y|]|]; try discriminate. destruct (prime_number (ob s) =? 300); [discriminate|]. injection S1 as <-; exact A1.
    - destruct (nth_error (jobs s) i) as [[|y|y|]|]; try discriminate. destruct (queue (ob s)); injection S1 as <-; exact A1. }
  split; [exact A0|]. destruct (z_body _ Z A0) as [FF [ZP [NJ Q]]]. destruct (z_done _ Z A0) as [D [_ L3]].
  cbn [zero_primes]. destruct e as [items fp| |i|i b|i|i|i|i]; unfold step in S1.
  1: { destruct items as [|[[t0 n0] o0] items]; [elim F1|]. unfold feed_vec in S1. rewrite FF in S1.
    destruct (negb (done (ob s)) && (fp =? prime_number (ob s))) eqn:G.
    - apply andb_prop in G as [ND G]. apply negb_true_iff in ND. rewrite G. apply Nat.eqb_eq in G. assert (prime_number (ob s) <> 3) by (intros E; apply D in E; congruence).
      destruct (prime_number (ob s) <? 3) eqn:L; [|apply Nat.ltb_ge in L; lia]. cbn [andb negb] in S1. destruct (n0 =? 0)%Z.
      + cbn [andb]. destruct ((S (zero_counter (ob s)) =? S (prime_number (ob s))) && (300 <=? S (prime_number (ob s)))); [discriminate|]. destruct (S (prime_number (ob s)) =? 300); [discriminate|].
        injection S1 as <-. reflexivity.
      + exfalso. injection S1 as <-. cbn [accepted] in A1. apply app_eq_nil in A1 as [_ A1]. unfold pushed in A1. cbn [queue] in A1. rewrite skipn_app_exact in A1. discriminate.
    - injection S1 as <-. cbn [ob]. apply andb_false_iff in G as [G|G].
      + apply negb_false_iff in G. apply D in G. rewrite G. rewrite !andb_false_r. reflexivity.
      + rewrite G. rewrite andb_false_r. reflexivity. }
  1: { injection S1 as <-. reflexivity. }
  all: destruct (nth_error (jobs s) i) as [[|y|y|]|] eqn:N; try discriminate.
  - destruct (fed_zero (ob s)); [|destruct (is_interpolating (ob s)); [|destruct (queue (ob s)) as [|x q]]]; injection S1 as <-; reflexivity.
  - elim (active_not _ _ _ NJ N).
  - elim (active_not _ _ _ NJ N).
  - elim (active_not _ _ _ NJ N).
  - apply nth_error_In in N. apply (proj1 (Forall_forall _ _) NJ) in N. discriminate.
  - elim (active_not _ _ _ NJ N).
Qed.
(** with zero first values nothing is ever accepted *)
Lemma run_all_zero tag es : forall s s', reachable_ne false tag s -> Forall nonempty_feed es -> Forall zero_first es -> run false tag es s = Some s' -> accepted s = [] -> accepted s' = [].
Proof.
  induction es as [|e es IH]; intros s s' R F FZ H A; cbn [run] in H; [injection H as <-; exact A|]. inversion F as [|? ? F1 F2]; subst. inversion FZ as [|? ? G1 G2]; subst. destruct (step false tag e s) as [s1|] eqn:S1; [|discriminate].
  assert (R1 : reachable_ne false tag s1) by (apply (reach_ne_step _ _ s e); assumption). apply (IH s1 s' R1 F2 G2 H). clear IH H.
  assert (Z := reachable_zinv _ _ R). destruct (z_body _ Z A) as [FF [ZP [NJ Q]]]. 
  destruct e as [items fp| |i|i b|i|i|i|i]; unfold step in S1.
  1: { destruct items as [|[[t0 n0] o0] items]; [elim F1|]. unfold feed_vec in S1. rewrite FF in S1.
    destruct (negb (done (ob s)) && (fp =? prime_number (ob s))).
    - cbn in G1. subst n0. cbn [andb negb Z.eqb] in S1. destruct ((S (zero_counter (ob s)) =? S (prime_number (ob s))) && (300 <=? S (prime_number (ob s)))); [discriminate|]. destruct (S (prime_number (ob s)) =? 300); [discriminate|].
      injection S1 as <-. cbn [accepted]. rewrite A. unfold pushed. cbn [queue]. rewrite skipn_self. reflexivity.
    - injection S1 as <-. cbn [accepted]. rewrite A. unfold pushed. rewrite skipn_self. reflexivity. }
  1: { injection S1 as <-. exact A. }
  all: destruct (nth_error (jobs s) i) as [[|y|y|]|] eqn:N; try discriminate.
  - destruct (fed_zero (ob s)); [|destruct (is_interpolating (ob s)); [|destruct (queue (ob s)) as [|x q]]]; injection S1 as <-; exact A.
  - elim (active_not _ _ _ NJ N).
  - elim (active_not _ _ _ NJ N).
  - elim (active_not _ _ _ NJ N).
  - apply nth_error_In in N. apply (proj1 (Forall_forall _ _) NJ) in N. discriminate.
  - elim (active_not _ _ _ NJ N).
Qed.

(** ** PolyReconst *)
Record pinv (s : psys) : Prop := {
  q_order : map fst (pout s) ++ pqueue (pob s) = paccepted s;
  q_active : count active (pjobs s) = b2n (pinterp (pob s));
  q_work : pqueue (pob s) <> [] -> pinterp (pob s) = false -> 1 <= count pending (pjobs s) }.
Lemma pstep_inv e s s' : pinv s -> pstep e s = Some s' -> pinv s'.
Proof.
  intros [Q1 Q2 Q3] H. assert (C1 : forall f, count f (pjobs s ++ [Pending]) = count f (pjobs s) + b2n (f Pending)) by (intros f; rewrite count_app; unfold count; cbn; destruct (f Pending); reflexivity).
  pose proof (C1 active) as CA0. pose proof (C1 pending) as CP0. cbn [active pending b2n] in CA0, CP0.
  destruct e as [num ord fp| |i|i|i]; unfold pstep in H.
  - destruct (fp =? pprime (pob s)); injection H as <-; constructor; cbn [pob pjobs pout paccepted pqueue pinterp]; try lia; try assumption.
    rewrite app_assoc, Q1. reflexivity.
  - injection H as <-; constructor; cbn [pob pjobs pout paccepted pqueue pinterp]; try lia; assumption.
  - destruct (nth_error (pjobs s) i) as [[|y|y|]|] eqn:N; try discriminate.
    destruct (pinterp (pob s)) eqn:PI; [|destruct (pqueue (pob s)) as [|x q] eqn:PQ]; injection H as <-.
    + pose proof (count_set active _ _ _ (Returned true) N) as CA. cbn [active pending b2n] in CA, Q2.
      constructor; cbn [pob pjobs pout paccepted pqueue pinterp]; rewrite ?PI; try assumption; [cbn [b2n]; lia|discriminate].
    + pose proof (count_set active _ _ _ (Returned true) N) as CA. cbn [active pending b2n] in CA, Q2.
      constructor; cbn [pob pjobs pout paccepted pqueue pinterp]; rewrite ?PI, ?PQ; try assumption; [cbn [b2n]; lia|intros E; elim (E eq_refl)].
    + pose proof (count_set active _ _ _ (Body x) N) as CA. cbn [active pending b2n] in CA, Q2.
      constructor; cbn [pob pjobs pout paccepted pqueue pinterp]; [rewrite map_app, <- app_assoc; exact Q1|cbn [b2n]; lia|discriminate].
  - destruct (nth_error (pjobs s) i) as [[|y|y|]|] eqn:N; try discriminate. injection H as <-. constructor; assumption.
  - destruct (nth_error (pjobs s) i) as [[|y|y|]|] eqn:N; try discriminate.
    pose proof (count_pos active _ _ _ N eq_refl) as P1. destruct (pinterp (pob s)) eqn:PI; [|cbn in Q2; lia].
    destruct (pqueue (pob s)) as [|x q] eqn:PQ; injection H as <-.
    + pose proof (count_set active _ _ _ (Returned true) N) as CA. cbn [active pending b2n] in CA, Q2.
      constructor; cbn [pob pjobs pout paccepted pqueue pinterp]; [exact Q1|cbn [b2n]; lia|intros E; elim (E eq_refl)].
    + pose proof (count_set active _ _ _ (Body x) N) as CA. cbn [active pending b2n] in CA, Q2.
      constructor; cbn [pob pjobs pout paccepted pqueue pinterp]; [rewrite map_app, <- app_assoc; exact Q1|cbn [b2n]; lia|discriminate].
Qed.
Lemma preachable_inv s : preachable s -> pinv s.
Proof. induction 1 as [|s e s' _ IH H]; [constructor; cbn; try reflexivity; intros E; elim (E eq_refl)|]. apply (pstep_inv e s); assumption. Qed.

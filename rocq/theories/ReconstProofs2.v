(** Invariants of the scheduler model: the functions *)
From Coq Require Import ZArith List Bool Arith Lia.
From Verif Require Import Machine FeedQueue Combi CombiProofs2 Reconst ReconstProofs.
Import ListNotations.
Local Open Scope nat_scope.

Definition pP (j : ijob) : nat := match j with IPend _ => 1 | _ => 0 end.
Definition pB (j : ijob) : nat := match j with IBody _ => 1 | _ => 0 end.
Definition pC (P : nat) (j : ijob) : nat := match j with IPost _ true false pr => if P <? pr then 1 else 0 | _ => 0 end.
Definition w (k : nat) (f : ijob -> nat) (js : list ijob) : nat := sumf (fun j => if job_rec j =? k then f j else 0) js.
Definition bn (b : bool) : nat := if b then 1 else 0.

Record recok (scan : bool) (P a b c : nat) (r : rec) : Prop := {
  k_act : b = bn (is_interpolating (r_obj r));
  k_first : scan = false -> first_feed (r_obj r) = true -> queue (r_obj r) = [];
  k_scan : scan = true -> first_feed (r_obj r) = true /\ fed_zero (r_obj r) = false;
  k_start : r_fin r = false -> start_interpolation (r_obj r) = false -> first_feed (r_obj r) = false -> is_interpolating (r_obj r) = false -> queue (r_obj r) <> [];
  k_zero : r_fin r = false -> bn (fed_zero (r_obj r)) <= a;
  k_work : r_fin r = false -> queue (r_obj r) <> [] -> is_interpolating (r_obj r) = false -> 1 + bn (fed_zero (r_obj r)) <= a;
  k_fin : r_fin r = true -> done (r_obj r) = true;
  k_prime : done (r_obj r) = false -> (prime_number (r_obj r) = P /\ fed_zero (r_obj r) = false /\ c = 0 /\ r_cnt r = false /\ (scan = false -> first_feed (r_obj r) = true -> is_interpolating (r_obj r) = false)) \/
     (prime_number (r_obj r) = S P /\ queue (r_obj r) = [] /\ first_feed (r_obj r) = true /\ bn (fed_zero (r_obj r)) + b + c + bn (r_cnt r) = 1);
  k_done : done (r_obj r) = true -> c = 0 /\ r_cnt r = false }.
Definition jobok (rs : list rec) (j : ijob) : Prop := match j with IPost k _ true _ => forall r, nth_error rs k = Some r -> done (r_obj r) = true | _ => True end.
Definition EE (scan : bool) (P : nat) (rs : list rec) (js : list ijob) : Prop :=
  (forall k r, nth_error rs k = Some r -> recok scan P (w k pP js) (w k pB js) (w k (pC P) js) r) /\ (forall j, In j js -> jobok rs j).

Lemma w_app k f a b : w k f (a ++ b) = w k f a + w k f b.
Proof. apply sum_app. Qed.
Lemma w_set k f js i j j' : nth_error js i = Some j -> job_rec j' = job_rec j -> exists x, w k f js = x + (if job_rec j =? k then f j else 0) /\ w k f (set_nth i j' js) = x + (if job_rec j =? k then f j' else 0).
Proof.
  intros N E. pose proof (sum_set (fun j => if job_rec j =? k then f j else 0) js i j j' N) as S. pose proof (sum_ge (fun j => if job_rec j =? k then f j else 0) js i j N) as G. cbv beta in S, G. rewrite E in S.
  exists (w k f js - (if job_rec j =? k then f j else 0)). unfold w in *. lia.
Qed.
Lemma w_del k f js i j : nth_error js i = Some j -> f j = 0 -> w k f (del i js) = w k f js.
Proof. intros N E. pose proof (sum_del (fun j => if job_rec j =? k then f j else 0) js i j N) as S. cbv beta in S. rewrite E in S. unfold w. destruct (job_rec j =? k); lia. Qed.
Lemma set_same {A} (l : list A) : forall i x, nth_error l i = Some x -> set_nth i x l = l.
Proof. induction l as [|y l IH]; intros [|i] x H; try discriminate; cbn in *; [injection H as ->; reflexivity|]. rewrite (IH _ _ H). reflexivity. Qed.
Lemma jobok_set rs k r r' j : nth_error rs k = Some r -> (done (r_obj r) = true -> done (r_obj r') = true) -> jobok rs j -> jobok (set_nth k r' rs) j.
Proof.
  intros N M H. destruct j as [| |k' r0 [] pr|]; cbn in *; try exact I. intros x X. destruct (nth_set_cases _ _ _ _ _ _ N X) as [[-> ->]|[D X']]; [apply M; apply H; exact N|apply H; exact X'].
Qed.
Lemma EE_set scan P rs js i j j' k r r' : EE scan P rs js -> nth_error js i = Some j -> nth_error rs k = Some r -> job_rec j = k -> job_rec j' = k -> (done (r_obj r) = true -> done (r_obj r') = true) ->
  (match j' with IPost _ _ true _ => done (r_obj r') = true | _ => True end) ->
  (jobok rs j -> forall a b c, recok scan P (a + pP j) (b + pB j) (c + pC P j) r -> recok scan P (a + pP j') (b + pB j') (c + pC P j') r') -> EE scan P (set_nth k r' rs) (set_nth i j' js).
Proof.
  intros [E J] N1 N2 K1 K2 M JO H. split.
  - intros k0 x X. destruct (nth_set_cases _ _ _ _ _ _ N2 X) as [[-> ->]|[D X']].
    + specialize (E _ _ N2). destruct (w_set k pP js i j j' N1 ltac:(congruence)) as [a [A1 A2]]. destruct (w_set k pB js i j j' N1 ltac:(congruence)) as [b [B1 B2]]. destruct (w_set k (pC P) js i j j' N1 ltac:(congruence)) as [c [C1 C2]].
      rewrite A1, B1, C1 in E. rewrite A2, B2, C2. rewrite K1, Nat.eqb_refl in *. apply H; [apply J; apply (nth_error_In _ _ N1)|exact E].
    + specialize (E _ _ X'). destruct (w_set k0 pP js i j j' N1 ltac:(congruence)) as [a [A1 A2]]. destruct (w_set k0 pB js i j j' N1 ltac:(congruence)) as [b [B1 B2]]. destruct (w_set k0 (pC P) js i j j' N1 ltac:(congruence)) as [c [C1 C2]].
      rewrite K1 in *. assert (Q : (k =? k0) = false) by (apply Nat.eqb_neq; congruence). rewrite Q in *. rewrite A2, B2, C2, <- A1, <- B1, <- C1. exact E.
  - intros x X. apply in_set in X as [->|X].
    + destruct j' as [| |k' r0 [] pr|]; cbn in *; try exact I. intros y Y. subst k'. rewrite (nth_set_eq _ _ _ _ N2) in Y. injection Y as <-. exact JO.
    + apply (jobok_set _ _ r); auto.
Qed.
Lemma EE_job scan P rs js i j j' k r : EE scan P rs js -> nth_error js i = Some j -> nth_error rs k = Some r -> job_rec j = k -> job_rec j' = k ->
  (match j' with IPost _ _ true _ => done (r_obj r) = true | _ => True end) ->
  (jobok rs j -> forall a b c, recok scan P (a + pP j) (b + pB j) (c + pC P j) r -> recok scan P (a + pP j') (b + pB j') (c + pC P j') r) -> EE scan P rs (set_nth i j' js).
Proof. intros E N1 N2 K1 K2 JO H. rewrite <- (set_same rs k r N2). apply (EE_set _ _ _ _ _ j _ _ r); auto. Qed.
Lemma EE_rec scan P rs js i j k r r' : EE scan P rs js -> nth_error js i = Some j -> nth_error rs k = Some r -> job_rec j = k -> (done (r_obj r) = true -> done (r_obj r') = true) ->
  (match j with IPost _ _ true _ => done (r_obj r') = true | _ => True end) ->
  (forall a b c, recok scan P (a + pP j) (b + pB j) (c + pC P j) r -> recok scan P (a + pP j) (b + pB j) (c + pC P j) r') -> EE scan P (set_nth k r' rs) js.
Proof. intros E N1 N2 K1 M JO H. rewrite <- (set_same js i j N1). apply (EE_set _ _ _ _ _ j _ _ r); auto. Qed.
Lemma EE_neutral scan P rs js i k m ps o m' ps' o' : EE scan P rs js -> nth_error js i = Some (IQueue k m ps o) -> EE scan P rs (set_nth i (IQueue k m' ps' o') js).
Proof.
  intros [E J] N. split.
  - intros k0 r X. specialize (E _ _ X).
    destruct (w_set k0 pP js i _ (IQueue k m' ps' o') N eq_refl) as [a [A1 A2]]. destruct (w_set k0 pB js i _ (IQueue k m' ps' o') N eq_refl) as [b [B1 B2]]. destruct (w_set k0 (pC P) js i _ (IQueue k m' ps' o') N eq_refl) as [c [C1 C2]].
    cbn [job_rec pP pB pC] in *. rewrite A1, B1, C1 in E. rewrite A2, B2, C2. exact E.
  - intros x X. apply in_set in X as [->|X]; [exact I|apply J; exact X].
Qed.
Lemma EE_end scan P rs js i k m ps o : EE scan P rs js -> nth_error js i = Some (IQueue k m ps o) -> EE scan P rs (del i js).
Proof.
  intros [E J] N. split.
  - intros k0 r X. rewrite !(w_del _ _ _ _ _ N) by reflexivity. apply E. exact X.
  - intros x X. apply J. apply (in_del _ _ _ X).
Qed.
Lemma EE_feed scan P rs js k r r' x : EE scan P rs js -> nth_error rs k = Some r -> (done (r_obj r) = true -> done (r_obj r') = true) ->
  (forall a b c, recok scan P a b c r -> recok scan P (a + bn x) b c r') -> EE scan P (set_nth k r' rs) (if x then js ++ [IPend k] else js).
Proof.
  intros [E J] N M H. split.
  - intros k0 y Y. destruct (nth_set_cases _ _ _ _ _ _ N Y) as [[-> ->]|[D Y']].
    + specialize (H _ _ _ (E _ _ N)). destruct x; [|rewrite Nat.add_0_r in H; exact H]. rewrite !w_app. unfold w at 2 4 6. cbn [sumf job_rec pP pB pC]. rewrite Nat.eqb_refl. cbn [bn] in H. rewrite !Nat.add_0_r. exact H.
    + specialize (E _ _ Y'). destruct x; [|exact E]. rewrite !w_app. unfold w at 2 4 6. cbn [sumf job_rec pP pB pC]. assert (Q : (k =? k0) = false) by (apply Nat.eqb_neq; congruence). rewrite Q, !Nat.add_0_r. exact E.
  - intros j Hj. apply (jobok_set _ _ r); auto. destruct x; [apply in_app_or in Hj as [Hj|[<-|[]]]; [apply J; exact Hj|exact I]|apply J; exact Hj].
Qed.

Ltac oo := cbn [r_obj r_fin r_cnt queue first_feed start_interpolation is_interpolating fed_zero done prime_number zero_counter combined_at zero_result set_interp upd_queue done_obj new_prime_obj pP pB pC bn] in *.
Lemma feed_vec_cases scan it P o o' x : feed_vec scan it P o = Fed o' x -> it <> [] -> done o = false -> prime_number o = P ->
  (scan = false /\ first_feed o = true /\ x = true /\ queue o' = queue o /\ first_feed o' = true /\ start_interpolation o' = false /\ is_interpolating o' = is_interpolating o /\ fed_zero o' = true /\ prime_number o' = S P /\
     (done o' = true \/ done o' = false)) \/
  (x = (first_feed o || start_interpolation o) /\ queue o' = queue o ++ map (fun y => mk_probe (fst (fst y)) (snd (fst y)) (snd y) P) it /\ first_feed o' = (first_feed o && scan) /\ start_interpolation o' = false /\
     is_interpolating o' = is_interpolating o /\ fed_zero o' = fed_zero o /\ prime_number o' = P /\ done o' = false).
Proof.
  intros H Ne Dn Pn. unfold feed_vec in H. rewrite Dn, Pn, Nat.eqb_refl in H. cbn [negb andb] in H.
  destruct (first_feed o) eqn:FF; cbn [andb orb] in *.
  - destruct scan; cbn [negb] in H.
    + right. injection H as <- <-. oo. repeat split; auto.
    + destruct it as [|[[t n] zo] it]; [elim (Ne eq_refl)|]. destruct (n =? 0)%Z.
      * left. destruct (_ && _); [discriminate|]. destruct (S P =? 300); [discriminate|]. injection H as <- <-. oo. repeat split; auto. destruct (_ && _); auto.
      * right. injection H as <- <-. oo. repeat split; auto.
  - right. injection H as <- <-. oo. repeat split; auto. destruct (start_interpolation o); reflexivity.
Qed.
Lemma feed_recok scan it P r o' x a b c : feed_vec scan it P (r_obj r) = Fed o' x -> it <> [] -> r_fin r = false -> done (r_obj r) = false -> prime_number (r_obj r) = P ->
  recok scan P a b c r -> recok scan P (a + bn x) b c (mk_rec o' (r_fin r) (r_cnt r)).
Proof.
  intros F Ne Fin Dn Pn [K1 K2 K2' K3 K4 K5 K6 K7 K8]. specialize (K7 Dn). destruct K7 as [[_ [Fz [C0 [Ct II]]]]|[Q _]]; [|lia]. rewrite Fin in *.
  destruct (feed_vec_cases _ _ _ _ _ _ F Ne Dn Pn) as [[S1 [F1 [-> [Q1 [F2 [S2 [I2 [Z2 [P2 D2]]]]]]]]]|[-> [Q1 [F2 [S2 [I2 [Z2 [P2 D2]]]]]]]].
  - rewrite (K2 S1 F1) in Q1. specialize (II S1 F1). clear F. constructor; oo.
    + rewrite I2. exact K1.
    + auto.
    + congruence.
    + congruence.
    + intros _. rewrite Z2. apply Nat.le_add_l.
    + intros _ E. elim (E Q1).
    + congruence.
    + intros _. right. repeat split; auto. rewrite Z2, C0, Ct, K1, II. reflexivity.
    + auto.
  - assert (NQ : queue o' <> []). { rewrite Q1. intros E. apply app_eq_nil in E as [_ E]. apply map_eq_nil in E. exact (Ne E). }
    clear F. constructor; oo.
    + rewrite I2. exact K1.
    + rewrite F2. intros -> E. rewrite andb_false_r in E. discriminate.
    + intros S1. destruct (K2' S1) as [E1 E2]. rewrite F2, Z2, E1, S1. auto.
    + auto.
    + intros _. rewrite Z2, Fz. apply Nat.le_0_l.
    + intros _ _ I3. rewrite I2 in I3. rewrite Z2, Fz in *. cbn [bn] in *. destruct (first_feed (r_obj r)); [apply Nat.le_add_l|]. destruct (start_interpolation (r_obj r)); [apply Nat.le_add_l|].
      cbn [orb bn]. specialize (K5 eq_refl (K3 eq_refl eq_refl eq_refl I3) I3). clear - K5. lia.
    + congruence.
    + intros _. left. split; [exact P2|split; [congruence|split; [exact C0|split; [exact Ct|]]]]. rewrite F2. intros -> E. rewrite andb_false_r in E. discriminate.
    + auto.
Qed.

Section Step.
Variable bb : nat -> point -> list Z.
Variables thr bs : Z.
Variable scan : bool.
Notation step := (sstep bb thr bs scan).
Definition B (s : st) : Prop := EE scan (prime_it s) (recs s) (ijobs s).
Lemma bunch_nonempty k pts res : pts <> [] -> length res = length pts -> bunch_for k pts res <> [].
Proof. intros N L. destruct pts; [elim (N eq_refl)|]. destruct res; [discriminate|]. discriminate. Qed.

Lemma ge1 a : 1 <= a + 1. Proof. lia. Qed.
Lemma start_recok P r o x a b c : r_fin r = false -> start_obj (r_obj r) = (o, x) -> recok scan P (a + 1) (b + 0) (c + 0) r ->
  recok scan P (a + 0) (b + match x with None => 1 | _ => 0 end) (c + match x with Some true => if done o then 0 else if P <? prime_number o then 1 else 0 | _ => 0 end) (mk_rec o (r_fin r) (r_cnt r)) /\ done o = done (r_obj r).
Proof.
  rewrite !Nat.add_0_r. intros Fin H [K1 K2 K2' K3 K4 K5 K6 K7 K8]. rewrite Fin in *. unfold start_obj in H.
  destruct (fed_zero (r_obj r)) eqn:Fz.
  - injection H as <- <-. oo. split; [|reflexivity]. rewrite Nat.add_0_r. constructor; oo.
    + exact K1.
    + exact K2.
    + intros S1. destruct (K2' S1); discriminate.
    + exact K3.
    + intros _. lia.
    + intros _ Q I0. specialize (K5 eq_refl Q I0). lia.
    + exact K6.
    + intros D0. specialize (K7 D0). rewrite D0. destruct K7 as [[_ [E _]]|[E1 [E2 [E3 E4]]]]; [discriminate|]. right. rewrite E1. destruct (Nat.ltb_spec P (S P)); [|lia]. repeat split; auto. lia.
    + intros D0. destruct (K8 D0). rewrite D0. split; [lia|assumption].
  - destruct (is_interpolating (r_obj r)) eqn:II.
    { injection H as <- <-. rewrite !Nat.add_0_r. split; [|reflexivity]. constructor; oo; rewrite ?Fz, ?II; auto.
      - cbn. intros; lia.
      - discriminate. }
    destruct (queue (r_obj r)) as [|y q] eqn:Q.
    { injection H as <- <-. rewrite !Nat.add_0_r. split; [|reflexivity]. constructor; oo; rewrite ?Fz, ?II, ?Q; auto.
      - cbn. intros; lia.
      - intros _ E. elim (E eq_refl). }
    injection H as <- <-. split; [|reflexivity]. rewrite !Nat.add_0_r. subst b. constructor; oo; rewrite ?Fz; auto.
    + intros S1 E. specialize (K2 S1 E). discriminate.
    + discriminate.
    + cbn. intros; lia.
    + discriminate.
    + intros D0. specialize (K7 D0). destruct K7 as [[E1 [E2 [E3 [E4 E5]]]]|[E1 [E2 _]]]; [|discriminate]. left. repeat split; auto. intros S1 E. specialize (K2 S1 E). discriminate.
Qed.
Lemma return_recok P r o x a b c : return_obj (r_obj r) = (o, x) -> recok scan P (a + 0) (b + 1) (c + 0) r ->
  recok scan P (a + 0) (b + match x with None => 1 | _ => 0 end) (c + match x with Some true => if done o then 0 else if P <? prime_number o then 1 else 0 | _ => 0 end) (mk_rec o (r_fin r) (r_cnt r)) /\ done o = done (r_obj r).
Proof.
  rewrite !Nat.add_0_r. intros H [K1 K2 K2' K3 K4 K5 K6 K7 K8]. unfold return_obj in H. destruct (queue (r_obj r)) as [|y q] eqn:Q; injection H as <- <-; (split; [|reflexivity]).
  - assert (II : is_interpolating (r_obj r) = true) by (destruct (is_interpolating (r_obj r)); [reflexivity|cbn in K1; lia]). rewrite II in K1. cbn in K1. constructor; oo; auto; try (intros; lia); try discriminate.
    + intros _ E. elim (E eq_refl).
    + intros D0. rewrite D0. specialize (K7 D0). destruct K7 as [[E1 [E2 [E3 [E4 E5]]]]|[E1 [E2 [E3 E4]]]].
      * left. rewrite E1, Nat.ltb_irrefl. repeat split; auto; try lia.
      * right. rewrite E1. destruct (Nat.ltb_spec P (S P)); [|lia]. repeat split; auto. lia.
    + intros D0. rewrite D0. destruct (K8 D0). split; [lia|assumption].
  - assert (II : is_interpolating (r_obj r) = true) by (destruct (is_interpolating (r_obj r)); [reflexivity|cbn in K1; lia]). rewrite !Nat.add_0_r. constructor; oo; auto; try congruence.
    + intros S1 E. specialize (K2 S1 E). discriminate.
    + intros D0. specialize (K7 D0). destruct K7 as [E|[E1 [E2 _]]]; [left; exact E|discriminate].
Qed.
Lemma done_recok P r a b c : recok scan P (a + 0) (b + 1) (c + 0) r -> recok scan P (a + 0) (b + 1) (c + 0) (mk_rec (done_obj (r_obj r)) (r_fin r) (r_cnt r)).
Proof.
  rewrite !Nat.add_0_r. intros [K1 K2 K2' K3 K4 K5 K6 K7 K8]. constructor; oo; auto; try discriminate.
  intros _. destruct (done (r_obj r)) eqn:D0; [apply K8; reflexivity|]. destruct (K7 eq_refl) as [[E1 [E2 [E3 [E4 E5]]]]|[E1 [E2 [E3 E4]]]]; [split; assumption|]. split; [lia|]. destruct (r_cnt r); [|reflexivity]. cbn in E4. lia.
Qed.
Lemma new_recok P r a b c : prime_number (r_obj r) = P -> done (r_obj r) = false -> recok scan P (a + 0) (b + 1) (c + 0) r ->
  recok scan P (a + 0) (b + 1) (c + 0) (mk_rec (new_prime_obj (r_obj r)) (r_fin r) (r_cnt r)).
Proof.
  rewrite !Nat.add_0_r. intros Pn Dn [K1 K2 K2' K3 K4 K5 K6 K7 K8]. constructor; oo; auto; try discriminate; try congruence.
  - intros S1. split; [reflexivity|]. apply K2'. exact S1.
  - intros _. right. destruct (K7 Dn) as [[E1 [E2 [E3 [E4 E5]]]]|[E1 _]]; [|lia]. repeat split; auto. rewrite E2, E3, E4. cbn. destruct (is_interpolating (r_obj r)); cbn in K1; lia.
Qed.
Lemma set_rec_same rs k (r : rec) : nth_error rs k = Some r -> set_nth k (mk_rec (r_obj r) (r_fin r) (r_cnt r)) rs = rs.
Proof. intros N. destruct r. apply set_same. exact N. Qed.
Lemma EE_next P rs js : EE scan P rs js -> (forall r, In r rs -> r_fin r = true \/ r_cnt r = true) -> (forall j, In j js -> quiet_i j = true) ->
  EE scan (S P) (map (fun r => mk_rec (r_obj r) (r_fin r) false) rs) [].
Proof.
  intros [E J] A Q. split; [|intros j []]. intros k r X. rewrite nth_error_map in X. destruct (nth_error rs k) as [r0|] eqn:N; [|discriminate]. injection X as <-.
  assert (W : forall f, f (IPend k) = 0 -> (forall j, pP j = 1 -> f j = 0) -> w k f js = 0).
  { intros f _ F. unfold w. clear E J. induction js as [|j l IH]; [reflexivity|]. cbn [sumf]. rewrite IH by (intros; apply Q; right; assumption). specialize (Q j (or_introl eq_refl)). rewrite F; [destruct (_ =? _); reflexivity|]. destruct j; try discriminate. reflexivity. }
  specialize (E _ _ N). assert (W1 : w k pB js = 0) by (apply W; [reflexivity|intros []; try discriminate; reflexivity]). assert (W2 : w k (pC P) js = 0) by (apply W; [reflexivity|intros []; try discriminate; reflexivity]).
  rewrite W1, W2 in E. specialize (A _ (nth_error_In _ _ N)). destruct E as [K1 K2 K2' K3 K4 K5 K6 K7 K8]. change (w k pP []) with 0. change (w k pB []) with 0. change (w k (pC (S P)) []) with 0.
  assert (X : r_fin r0 = false -> done (r_obj r0) = false /\ prime_number (r_obj r0) = S P /\ queue (r_obj r0) = [] /\ first_feed (r_obj r0) = true /\ fed_zero (r_obj r0) = false).
  { intros F. destruct A as [A|A]; [congruence|]. destruct (done (r_obj r0)) eqn:D0; [destruct (K8 eq_refl); congruence|]. destruct (K7 eq_refl) as [[E1 [E2 [E3 [E4 E5]]]]|[E1 [E2 [E3 E4]]]]; [congruence|]. rewrite A in E4. cbn in E4. repeat split; auto. destruct (fed_zero (r_obj r0)); [cbn in E4; lia|reflexivity]. }
  constructor; oo; auto.
  - intros F. destruct (X F) as [X1 [X2 [X3 [X4 X5]]]]. rewrite X5. cbn. lia.
  - intros F S0. destruct (X F) as [X1 [X2 [X3 [X4 X5]]]]. congruence.
  - intros D0. left. assert (F : r_fin r0 = false) by (destruct (r_fin r0) eqn:F; [rewrite K6 in D0; [discriminate|reflexivity]|reflexivity]). destruct (X F) as [X1 [X2 [X3 [X4 X5]]]]. repeat split; auto. intros _ _. destruct (is_interpolating (r_obj r0)); [cbn in K1; lia|reflexivity].
Qed.

(** the counters of finished functions and functions that need the next prime *)
Definition C_cnt (s : st) : Prop := items_done s = sumf (fun r => bn (r_fin r)) (recs s) /\ items_new_prime s = sumf (fun r => bn (r_cnt r)) (recs s) /\
  match main s with MPrime => items_done s + items_new_prime s = items s | MDone => items_done s = items s | _ => True end.
Lemma excl P rs js : EE scan P rs js -> forall r, In r rs -> r_fin r = true -> r_cnt r = true -> False.
Proof. intros [E _] r H F C. apply In_nth_error in H as [k N]. specialize (E _ _ N). destruct (k_done _ _ _ _ _ _ E (k_fin _ _ _ _ _ _ E F)) as [_ E2]. congruence. Qed.
Lemma sum2_le rs : (forall r, In r rs -> r_fin r = true -> r_cnt r = true -> False) -> sumf (fun r => bn (r_fin r)) rs + sumf (fun r => bn (r_cnt r)) rs <= length rs /\
  (sumf (fun r => bn (r_fin r)) rs + sumf (fun r => bn (r_cnt r)) rs = length rs -> forall r, In r rs -> r_fin r = true \/ r_cnt r = true).
Proof.
  induction rs as [|r rs IH]; intros H; cbn; [split; [lia|intros _ r []]|]. destruct IH as [L1 L2]; [intros x X; apply H; right; exact X|].
  specialize (H r (or_introl eq_refl)). destruct (r_fin r) eqn:F, (r_cnt r) eqn:C; cbn [bn]; [elim (H eq_refl eq_refl)|..]; (split; [lia|intros E x [<-|X]; [auto; lia|apply L2; [lia|exact X]]]).
Qed.
Lemma sum_all rs : sumf (fun r => bn (r_fin r)) rs = length rs -> forall r, In r rs -> r_fin r = true.
Proof.
  assert (L : forall l, sumf (fun r => bn (r_fin r)) l <= length l) by (induction l as [|x l IH]; cbn; [lia|]; destruct (r_fin x); cbn; lia).
  induction rs as [|r rs IH]; intros H x X; [elim X|]. cbn in H. specialize (L rs). destruct (r_fin r) eqn:F; cbn in H; [|lia]. destruct X as [<-|X]; [exact F|apply IH; [lia|exact X]].
Qed.

Lemma start_done o o' x : start_obj o = (o', x) -> done o' = done o.
Proof. unfold start_obj. destruct (fed_zero o); [intros [= <- _]; reflexivity|]. destruct (is_interpolating o); [intros [= <- _]; reflexivity|]. destruct (queue o); intros [= <- _]; reflexivity. Qed.
Lemma return_done o o' x : return_obj o = (o', x) -> done o' = done o.
Proof. unfold return_obj. destruct (queue o); intros [= <- _]; reflexivity. Qed.
Lemma B_step e s s' : D bb s -> B s -> C_cnt s -> step e s = Some s' -> B s'.
Proof.
  unfold B. intros Ds E C H. inv_step H; ss; try exact E.
  all: try (eapply EE_neutral; [exact E|eassumption]).
  all: try (eapply EE_end; [exact E|eassumption]).
  - destruct C as [C1 [C2 C3]]. rewrite Heqm in C3. apply andb_prop in Heqb as [_ Q]. rewrite forallb_forall in Q. apply EE_next with (js := ijobs s); [exact E| |exact Q].
    apply (sum2_le (recs s)); [apply (excl _ _ _ E)|]. rewrite <- C1, <- C2. exact C3.
  - ssin Heqb. ssin Heqf1. destruct (r_fin r) eqn:F1; [discriminate|]. destruct (done (r_obj r)) eqn:F2; [discriminate|]. cbn [orb] in Heqb. apply negb_false_iff, Nat.eqb_eq in Heqb.
    apply (EE_feed _ _ _ _ _ r _ true); [exact E|exact Heqo0|congruence|]. intros a b c0 K. pose proof (forall_nth _ _ _ _ (d_feeds _ _ Ds) Heqo) as [N1 [N2 N3]].
    assert (L : pts <> []) by (intros ->; destruct ix; [elim (N1 eq_refl)|discriminate]). rewrite <- F1. apply (feed_recok _ (bunch_for k pts res) _ _ _ true); try assumption. apply bunch_nonempty; [exact L|rewrite N3; apply map_length].
  - ssin Heqb. ssin Heqf1. destruct (r_fin r) eqn:F1; [discriminate|]. destruct (done (r_obj r)) eqn:F2; [discriminate|]. cbn [orb] in Heqb. apply negb_false_iff, Nat.eqb_eq in Heqb.
    apply (EE_feed _ _ _ _ _ r _ false); [exact E|exact Heqo0|congruence|]. intros a b c0 K. pose proof (forall_nth _ _ _ _ (d_feeds _ _ Ds) Heqo) as [N1 [N2 N3]].
    assert (L : pts <> []) by (intros ->; destruct ix; [elim (N1 eq_refl)|discriminate]). assert (KK := fun X => feed_recok scan (bunch_for k pts res) _ _ _ _ a b c0 Heqf1 X F1 F2 Heqb K). rewrite F1 in KK. apply KK. apply bunch_nonempty; [exact L|rewrite N3; apply map_length].
  - apply (EE_job _ _ _ _ _ (IPend k) _ k r); auto. intros _ a b c [K1 K2 K2' K3 K4 K5 K6 K7 K8]. oo. rewrite !Nat.add_0_r in *. constructor; auto; congruence.
  - apply (EE_set _ _ _ _ _ (IPend k) _ k r); auto.
    + intros. pose proof (start_done _ _ _ Heqp) as X. oo. congruence.
    + oo. destruct (done o) eqn:D0; [reflexivity|exact I].
    + intros _ a b0 c K. destruct (start_recok _ _ _ _ _ _ _ Heqb Heqp K) as [K' _]. oo. rewrite Heqb in K'. destruct b, (done o); exact K'.
  - apply (EE_set _ _ _ _ _ (IPend k) _ k r); auto.
    + intros. pose proof (start_done _ _ _ Heqp) as X. oo. congruence.
    + intros _ a b0 c K. destruct (start_recok _ _ _ _ _ _ _ Heqb Heqp K) as [K' _]. oo. rewrite Heqb in K'. exact K'.
  - apply (EE_rec _ _ _ _ i (IBody k) k r); auto. intros a b c. apply done_recok.
  - apply andb_prop in Heqb as [Q _]. apply andb_prop in Q as [Q1 Q2]. apply Nat.eqb_eq in Q1. apply negb_true_iff in Q2. apply (EE_rec _ _ _ _ i (IBody k) k r); auto. intros a b c. apply new_recok; assumption.
  - apply (EE_set _ _ _ _ _ (IBody k) _ k r); auto.
    + intros. pose proof (return_done _ _ _ Heqp) as X. oo. congruence.
    + oo. destruct (done o) eqn:D0; [reflexivity|exact I].
    + intros _ a b0 c K. destruct (return_recok _ _ _ _ _ _ _ Heqp K) as [K' _]. oo. destruct b, (done o); exact K'.
  - apply (EE_rec _ _ _ _ i (IBody k) k r); auto.
    + intros. pose proof (return_done _ _ _ Heqp) as X. oo. congruence.
    + intros a b0 c K. destruct (return_recok _ _ _ _ _ _ _ Heqp K) as [K' _]. exact K'.
  - destruct r; [discriminate|]. apply (EE_job _ _ _ _ _ (IPost k false d pr) _ k r0); auto.
  - destruct r; [|discriminate]. destruct d; [discriminate|]. apply (EE_set _ _ _ _ _ (IPost k true false pr) _ k r0); auto. intros _ a b c K. oo. rewrite Heqb1 in K. destruct K as [K1 K2 K2' K3 K4 K5 K6 K7 K8]. rewrite !Nat.add_0_r in *.
    constructor; oo; auto.
    + intros D0. destruct (K7 D0) as [[_ [_ [X _]]]|[E1 [E2 [E3 E4]]]]; [clear - X; lia|]. right. split; [exact E1|split; [exact E2|split; [exact E3|]]]. clear - E4. lia.
    + intros D0. destruct (K8 D0) as [X _]. clear - X. lia.
  - destruct r; [|discriminate]. destruct d; [discriminate|]. apply (EE_job _ _ _ _ _ (IPost k true false pr) _ k r0); auto. intros _ a b c K. oo. rewrite Heqb1 in K. exact K.
  - destruct r; [|discriminate]. destruct d; [|discriminate]. apply (EE_job _ _ _ _ _ (IPost k true true pr) _ k r0); auto.
  - destruct r; [|discriminate]. destruct d; [|discriminate]. apply (EE_set _ _ _ _ _ (IPost k true true pr) _ k r0); auto. intros J a b c [K1 K2 K2' K3 K4 K5 K6 K7 K8]. oo. rewrite !Nat.add_0_r in *. constructor; oo; auto; try discriminate.
Qed.
End Step.

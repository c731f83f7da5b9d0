(** Proofs about Newton interpolation *)
From Coq Require Import Permutation.
From Verif Require Import Machine FField FSum LinAlg LinAlgProofs FPoly Vandermonde PolyFF PolySpec PolyFFProofs PolyFFProofs2 Thiele ThieleSpec ThieleProofs Newton.
Open Scope nat_scope.

Section Proofs.
  Context {K : fops} (HK : flaws K).
  Add Field KF : (fl_field K HK).
  Notation pmap := (pmap K). Notation polyff := (polyff K).
  Variable z : K.
  Variable f : nat -> K.
  (** the i-th interpolation point *)
  Definition ypt (i : nat) : K := pw z (S i).
  Notation y := ypt.
  Lemma rand_zi_y i : (Z.of_nat i < 2 ^ 64 - 1)%Z -> rand_zi z (S i) = y i.
  Proof. intros H. unfold rand_zi. rewrite (fl_pow K HK) by (unfold two64; lia). rewrite Nat2Z.id. reflexivity. Qed.

  (** divided differences *)
  Fixpoint dd (i k : nat) : K := match k with O => f i | S j => ((dd i j - dd j j) / (y i - y j))%K end.
  Definition dlist (n : nat) : list K := map (fun i => dd i i) (seq 0 n).
  Lemma dlist_nth n i : i < n -> nth i (dlist n) f0 = dd i i.
  Proof. intros H. apply (nth_map_seq (fun i => dd i i)). exact H. Qed.
  Lemma dlist_S n : dlist (S n) = dlist n ++ [dd n n].
  Proof. unfold dlist. rewrite seq_S, map_app. reflexivity. Qed.
  Lemma dlist_len n : length (dlist n) = n. Proof. unfold dlist. rewrite map_length, seq_length. reflexivity. Qed.

  Lemma newton_ai_dd n : (Z.of_nat n < 2 ^ 64 - 1)%Z -> newton_ai z n (f n) (dlist n) = dd n n.
  Proof.
    intros H64. unfold newton_ai.
    assert (G : forall k, k <= n -> fold_left (fun res ip => fdiv (fsub res (nth (ip - 1) (dlist n) f0)) (fsub (rand_zi z (n + 1)) (rand_zi z ip))) (seq 1 k) (f n) = dd n k).
    { induction k as [|k IH]; intros Hk; [reflexivity|]. rewrite seq_S, fold_left_app, IH by lia. cbn [fold_left].
      replace (1 + k - 1) with k by lia. rewrite dlist_nth by lia. replace (n + 1) with (S n) by lia. cbn [Nat.add].
      rewrite !rand_zi_y by lia. reflexivity. }
    apply G. lia.
  Qed.

  (** nested form with coefficients k .. k+l *)
  Fixpoint tail (k l : nat) (x : K) : K :=
    match l with O => dd k k | S l' => (dd k k + (x - y k) * tail (S k) l' x)%K end.
  Fixpoint node (k l : nat) (x : K) : K := match l with O => f1 | S l' => ((x - y k) * node (S k) l' x)%K end.

  Lemma tail_S k l x : tail k (S l) x = (tail k l x + dd (k + S l) (k + S l) * node k (S l) x)%K.
  Proof.
    revert k. induction l as [|l IH]; intros k.
    - cbn [tail node]. replace (k + 1) with (S k) by lia. ring.
    - change (tail k (S (S l)) x) with (dd k k + (x - y k) * tail (S k) (S l) x)%K. rewrite IH.
      change (tail k (S l) x) with (dd k k + (x - y k) * tail (S k) l x)%K.
      change (node k (S (S l)) x) with ((x - y k) * node (S k) (S l) x)%K.
      replace (S k + S l) with (k + S (S l)) by lia. ring.
  Qed.
  Lemma node_neq0 k l x : (forall j, k <= j < k + l -> x <> y j) -> node k l x <> f0.
  Proof.
    revert k. induction l as [|l IH]; intros k H; [apply (f1_neq_0 HK)|]. cbn [node]. apply (fmul_neq0 HK).
    - apply (fsub_neq0 HK). apply H. lia.
    - apply IH. intros j Hj. apply H. lia.
  Qed.
  Lemma tail_polyfun k l : polyfun (S l) (tail k l).
  Proof.
    revert k. induction l as [|l IH]; intros k; [apply (polyfun_const HK)|].
    apply (polyfun_ext _ (fun x => dd k k + (x * tail (S k) l x - y k * tail (S k) l x))%K); [intros x; cbn [tail]; ring|].
    apply (polyfun_add HK); [apply (polyfun_le HK 1); [lia|apply (polyfun_const HK)]|]. apply (polyfun_sub HK).
    - apply (polyfun_x HK). apply IH.
    - apply (polyfun_scale HK). apply (polyfun_le HK (S l)); [lia|apply IH].
  Qed.

  Lemma tail_fed n i k l : distinct n y -> k <= i -> i <= k + l -> k + l < n -> tail k l (y i) = dd i k.
  Proof.
    intros Hd. revert k. induction l as [|l IH]; intros k H1 H2 Hn.
    - replace k with i by lia. reflexivity.
    - cbn [tail]. destruct (Nat.eq_dec k i) as [->|N]; [ring|]. rewrite (IH (S k)) by lia. cbn [dd].
      assert (E : (y i - y k)%K <> f0) by (apply (fsub_neq0 HK); intros E; apply Hd in E; lia). field. exact E.
  Qed.

  (** the next difference vanishes exactly if the polynomial so far predicts the next value *)
  Lemma dd_zero n : distinct (S n) y -> 0 < n -> (dd n n = f0 <-> tail 0 (n - 1) (y n) = f n).
  Proof.
    intros Hd Hn. pose proof (tail_fed (S n) n 0 n Hd ltac:(lia) ltac:(lia) ltac:(lia)) as E. cbn [dd] in E.
    replace n with (S (n - 1)) in E at 1 by lia. rewrite tail_S in E. cbn [Nat.add] in E. replace (S (n - 1)) with n in E by lia.
    assert (N : node 0 n (y n) <> f0) by (apply node_neq0; intros j Hj E'; apply Hd in E'; lia). rewrite <- E. split.
    - intros ->. ring.
    - intros H. assert (Z : (dd n n * node 0 n (y n))%K = f0).
      { apply (f_equal (fun u => u - tail 0 (n - 1) (y n))%K) in H.
        assert (E1 : forall t u : K, (t + u - t)%K = u) by (intros; ring). rewrite E1 in H. rewrite <- H. ring. }
      apply (fmul_0 HK) in Z as [Z|Z]; [exact Z|contradiction].
  Qed.
  Lemma tail_of_poly n g : distinct n y -> 0 < n -> polyfun n g -> (forall i, i < n -> f i = g (y i)) -> forall x, tail 0 (n - 1) x = g x.
  Proof.
    intros Hd Hn Hg Hf x. apply (fsub_0 HK). apply (polyfun_zero HK n (fun x => tail 0 (n - 1) x - g x)%K y).
    - apply (polyfun_sub HK); [|exact Hg]. replace n with (S (n - 1)) at 1 by lia. apply tail_polyfun.
    - exact Hd.
    - intros i Hi. rewrite (tail_fed n) by (assumption || lia). cbn [dd]. rewrite <- Hf by exact Hi. ring.
  Qed.

  Section Ord.
    Variable ord : pmap -> pmap.
    Hypothesis Ho : any_order ord.
    Variable n : nat.
    Hypothesis Hn : 0 < n.
    Hypothesis Hn32 : (Z.of_nat n < 2 ^ 32)%Z.

    Lemma uni_add_assign (a b : polyff) d e g h : uni a d g -> uni b e h -> uni (padd_assign ord a b) (Nat.max d e) (fun x => g x + h x)%K.
    Proof.
      intros [A1 [A2 [A3 A4]]] [B1 [B2 [B3 B4]]]. destruct (padd_assign_ok HK ord Ho a b) as [P1 P2]; [rewrite A1; exact A2|rewrite A1; exact B2|].
      rewrite A1 in *. split; [exact A1|]. split; [exact P1|]. split.
      - intros k Hk.
        assert (O : In k (map fst (pf_coefs a)) \/ In k (map fst (pf_coefs b))).
        { unfold padd_assign in Hk. cbn [pf_coefs] in Hk. rewrite <- (in_ord_key ord Ho k (pf_coefs b)).
          revert Hk. generalize (ord (pf_coefs b)). generalize (pf_coefs a). intros m l. revert m.
          induction l as [|[k0 c] l IH]; intros m H; [left; exact H|]. cbn [fold_left] in H. apply IH in H as [H|H]; [|right; right; exact H].
          unfold add_assign_term in H. cbn [fst snd] in H. destruct (feqb c f0); [left; exact H|]. destruct (pfind m k0) eqn:Ef.
          - cbn zeta in H. destruct (feqb _ _).
            + left. rewrite perase_keys in H. apply filter_In in H as [H _]. rewrite ?pupdate_keys in H. exact H.
            + left. rewrite pupdate_keys in H. exact H.
          - unfold passign in H. rewrite Ef in H. rewrite map_app, in_app_iff in H. destruct H as [H|[<-|[]]]; [left; exact H|right; left; reflexivity]. }
        destruct O as [O|O]; [apply A3 in O|apply B3 in O]; lia.
      - intros x. rewrite P2, A4, B4. reflexivity.
    Qed.

    Lemma shift_ok (a : polyff) d g c : (Z.of_nat d + 1 < 2 ^ 32)%Z -> uni a d g -> uni (newton_shift ord c a) (S d) (fun x => (x - c) * g x)%K.
    Proof.
      intros Hd A. unfold newton_shift. eapply uni_le; [|eapply uni_ext; [|apply (uni_add HK ord Ho); [apply (uni_scale HK); exact A|apply (uni_mulx HK ord Ho); [exact Hd|exact A]]]].
      - lia.
      - intros x. cbn beta. ring.
    Qed.
    (** after the steps for coefficients k .. n-1 *)
    Definition at_coef (k : nat) (r : polyff) : Prop := uni r (n - k) (fun x => (x - y (k - 1)) * tail k (n - 1 - k) x)%K.

    Lemma newton_step_ok k r : 1 <= k -> k + 2 <= n -> at_coef (S k) r -> at_coef k (newton_step ord z (dlist n) r k).
    Proof.
      intros H1 Hk A. unfold newton_step, at_coef. rewrite dlist_nth by lia. replace k with (S (k - 1)) at 1 by lia. rewrite rand_zi_y by lia.
      eapply uni_le; [|eapply uni_ext; [|apply shift_ok; [|eapply uni_le; [|apply uni_add_assign; [exact A|apply (uni_const HK)]]]]].
      - instantiate (1 := n - S k). lia.
      - intros x. cbn beta. replace (S k - 1) with k by lia. replace (n - 1 - k) with (S (n - 1 - S k)) by lia. cbn [tail]. ring.
      - lia.
      - lia.
    Qed.
    Lemma newton_iterate_ok : 2 <= n -> at_coef 1 (newton_iterate ord z (dlist n)).
    Proof.
      intros H2. unfold newton_iterate. rewrite dlist_len, dlist_nth by lia.
      assert (G : forall k r, k + 2 <= n -> at_coef (S k) r -> at_coef 1 (fold_left (newton_step ord z (dlist n)) (rev (seq 1 k)) r)).
      { induction k as [|k IH]; intros r Hk Hr; [exact Hr|]. rewrite seq_S, rev_app_distr. cbn [rev app fold_left Nat.add].
        apply IH; [lia|]. apply newton_step_ok; [lia|lia|exact Hr]. }
      apply G; [lia|]. unfold at_coef. replace (S (n - 2)) with (n - 1) by lia.
      replace (rand_zi z (n - 1)) with (y (n - 1 - 1)) by (rewrite <- rand_zi_y by lia; f_equal; lia).
      eapply uni_le; [|eapply uni_ext; [|apply shift_ok; [|apply (uni_const HK)]]]; [lia| |lia].
      intros x. cbn beta. rewrite Nat.sub_diag. cbn [tail]. reflexivity.
    Qed.

    Theorem newton_canonical_ok nv : uni (mk_polyff 1 (newton_canonical ord nv z (dlist n))) (n - 1) (tail 0 (n - 1)).
    Proof.
      unfold newton_canonical. rewrite dlist_len. destruct (Nat.eqb_spec n 1) as [E|N].
      - rewrite dlist_nth by lia. apply (uni_ext (const_poly (dd 0 0)) _ (fun _ => dd 0 0)); [intros x; rewrite E; reflexivity|].
        eapply uni_le; [|apply (uni_const HK)]. lia.
      - nb1. rewrite dlist_nth by lia. pose proof (newton_iterate_ok ltac:(lia)) as A. unfold at_coef in A.
        pose proof (uni_add HK ord Ho (const_poly (dd 0 0)) _ 0 _ _ _ (uni_const HK (dd 0 0)) A) as U.
        destruct U as [_ [U2 [U3 U4]]]. split; [reflexivity|]. split; [exact U2|]. split; [exact U3|]. intros x. cbn [pf_coefs].
        rewrite U4. cbn [Nat.sub]. replace (n - 1) with (S (n - 1 - 1)) at 2 by lia. cbn [tail]. reflexivity.
    Qed.
  End Ord.

  (** the session *)
  Variable bound : option nat.
  Definition sess (n : nat) : list K * nat := (dlist n, S n).
  Lemma probe_ok n : (Z.of_nat n < 2 ^ 64 - 1)%Z -> newton_probe bound z (sess n) (f n) =
    if feqb (dd n n) f0 then (true, (dlist n, S (S n))) else (match bound with Some d => d =? n | None => false end, sess (S n)).
  Proof.
    intros H. unfold newton_probe, sess. cbn [fst snd]. replace (S n - 1) with n by lia. rewrite newton_ai_dd by exact H.
    destruct (feqb (dd n n) f0); [reflexivity|]. rewrite <- dlist_S. reflexivity.
  Qed.
  (** if the values f 0, f 1, ... finish the interpolation, then either by a vanishing difference or by the bound *)
  Lemma newton_feed_spec m : forall n s, (Z.of_nat (n + m) < 2 ^ 64 - 1)%Z -> newton_feed bound z (sess n) (map f (seq n m)) = Some s ->
    exists k, n <= k < n + m /\ (forall j, n <= j < k -> dd j j <> f0 /\ bound <> Some j) /\
      ((dd k k = f0 /\ s = (dlist k, S (S k))) \/ (dd k k <> f0 /\ bound = Some k /\ s = sess (S k))).
  Proof.
    induction m as [|m IH]; intros n s H64 H; [discriminate|]. cbn [seq map newton_feed] in H. rewrite probe_ok in H by lia.
    destruct (feqb (dd n n) f0) eqn:E.
    - injection H as <-. exists n. split; [lia|]. split; [intros; lia|]. left. split; [apply (fl_eqb K HK); exact E|reflexivity].
    - apply (feqb_neq HK) in E. assert (B : bound = Some n \/ bound <> Some n /\ match bound with Some d => d =? n | None => false end = false).
      { destruct bound as [d|]; [|right; split; [discriminate|reflexivity]]. destruct (Nat.eq_dec d n) as [->|N]; [left; reflexivity|].
        right. split; [congruence|apply Nat.eqb_neq; exact N]. }
      destruct B as [B|[B1 B2]].
      + rewrite B in H. rewrite Nat.eqb_refl in H. injection H as <-. exists n. split; [lia|]. split; [intros; lia|]. right. auto.
      + rewrite B2 in H. apply IH in H; [|lia]. destruct H as [k [H1 [H2 H3]]]. exists k. split; [lia|]. split; [|exact H3].
        intros j Hj. destruct (Nat.eq_dec j n) as [->|N]; [auto|]. apply H2. lia.
  Qed.
  Lemma newton_feed_none m : forall n, (Z.of_nat (n + m) < 2 ^ 64 - 1)%Z -> newton_feed bound z (sess n) (map f (seq n m)) = None ->
    forall j, n <= j < n + m -> dd j j <> f0 /\ bound <> Some j.
  Proof.
    induction m as [|m IH]; intros n H64 H j Hj; [lia|]. cbn [seq map newton_feed] in H. rewrite probe_ok in H by lia.
    destruct (feqb (dd n n) f0) eqn:E; [discriminate|]. apply (feqb_neq HK) in E.
    destruct (match bound with Some d => d =? n | None => false end) eqn:B; [discriminate|].
    destruct (Nat.eq_dec j n) as [->|N].
    - split; [exact E|]. intros E'. rewrite E' in B. rewrite Nat.eqb_refl in B. discriminate.
    - apply (IH (S n)); [lia|exact H|lia].
  Qed.
End Proofs.

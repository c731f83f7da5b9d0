(** Proofs about the Thiele interpolator *)
From Coq Require Import Permutation.
From Verif Require Import Machine FField FSum LinAlg LinAlgProofs FPoly Vandermonde PolyFF PolySpec PolyFFProofs PolyFFProofs2 Thiele ThieleSpec.
Open Scope nat_scope.

Section PolyFun.
  Context {K : fops} (HK : flaws K).
  Add Field KF : (fl_field K HK).
  (** a function given by a polynomial with n coefficients *)
  Definition polyfun (n : nat) (f : K -> K) : Prop := exists c, forall x, f x = ueval n c x.
  Lemma polyfun_ext n f g : (forall x, f x = g x) -> polyfun n f -> polyfun n g.
  Proof. intros E [c H]. exists c. intros x. rewrite <- E. apply H. Qed.
  Lemma polyfun_le n m f : n <= m -> polyfun n f -> polyfun m f.
  Proof.
    intros Hl [c H]. exists (fun i => if i <? n then c i else f0). intros x. rewrite H.
    rewrite (ueval_trunc HK m n); [|exact Hl|intros i Hi; nb]. apply ueval_ext. intros i Hi. nb.
  Qed.
  Lemma polyfun_const a : polyfun 1 (fun _ => a).
  Proof. exists (fun _ => a). intros x. unfold ueval. cbn. ring. Qed.
  Lemma polyfun_add n f g : polyfun n f -> polyfun n g -> polyfun n (fun x => f x + g x)%K.
  Proof. intros [c H] [d H']. exists (fun i => c i + d i)%K. intros x. rewrite H, H', ueval_add by exact HK. reflexivity. Qed.
  Lemma polyfun_sub n f g : polyfun n f -> polyfun n g -> polyfun n (fun x => f x - g x)%K.
  Proof. intros [c H] [d H']. exists (fun i => c i - d i)%K. intros x. rewrite H, H', ueval_sub by exact HK. reflexivity. Qed.
  Lemma polyfun_scale n a f : polyfun n f -> polyfun n (fun x => a * f x)%K.
  Proof. intros [c H]. exists (fun i => a * c i)%K. intros x. rewrite H, ueval_scale by exact HK. reflexivity. Qed.
  Lemma polyfun_x n f : polyfun n f -> polyfun (S n) (fun x => x * f x)%K.
  Proof.
    intros [c H]. exists (fun i => match i with O => f0 | S j => c j end). intros x. rewrite H, ueval_S_l by exact HK.
    assert (E : forall u : K, u = (f0 + u)%K) by (intros; ring). apply E.
  Qed.
  Lemma polyfun_mul n m f g : polyfun (S n) f -> polyfun m g -> polyfun (n + m) (fun x => f x * g x)%K.
  Proof.
    revert f. induction n as [|n IH]; intros f [c H] Hg.
    - apply (polyfun_ext _ (fun x => c 0%nat * g x)%K); [|apply polyfun_scale; exact Hg].
      intros x. rewrite H. unfold ueval. cbn. ring.
    - apply (polyfun_ext _ (fun x => c 0%nat * g x + x * (ueval (S n) (fun i => c (S i)) x * g x))%K).
      + intros x. rewrite H, (ueval_S_l HK (S n)). ring.
      + apply polyfun_add.
        * apply polyfun_scale. apply (polyfun_le m); [lia|exact Hg].
        * apply polyfun_x. apply IH; [|exact Hg]. exists (fun i => c (S i)). reflexivity.
  Qed.
  Lemma polyfun_zero n f v : polyfun n f -> distinct n v -> (forall i, i < n -> f (v i) = f0) -> forall x, f x = f0.
  Proof.
    intros [c H] Hd Hz x. rewrite H. apply (ueval_0 HK). intros i Hi. apply (roots_zero HK n c v Hd); [|exact Hi].
    intros j Hj. rewrite <- H. apply Hz. exact Hj.
  Qed.
End PolyFun.

Section Keys.
  Context {K : fops}.
  Notation pmap := (pmap K).
    Lemma pemplace_keys (m : pmap) k (v : K) k' : In k' (map fst (pemplace m k v)) -> In k' (map fst m) \/ k' = k.
    Proof.
      unfold pemplace. destruct (pfind m k); [auto|]. rewrite map_app, in_app_iff. cbn. intuition.
    Qed.
    Lemma add_term_keys (l : pmap) : forall m k, In k (map fst (fold_left add_term l m)) -> In k (map fst m) \/ In k (map fst l).
    Proof.
      induction l as [|[k0 c] l IH]; intros m k H; [left; exact H|]. cbn [fold_left] in H. apply IH in H as [H|H]; [|right; right; exact H].
      unfold add_term in H. cbn [fst snd] in H. destruct (pfind m k0).
      - cbn zeta in H. destruct (feqb _ _).
        + left. rewrite perase_keys in H. apply filter_In in H as [H _]. rewrite pupdate_keys in H. exact H.
        + left. rewrite pupdate_keys in H. exact H.
      - apply pemplace_keys in H as [H| ->]; [left; exact H|right; left; reflexivity].
    Qed.
End Keys.

Section Uni.
  Context {K : fops} (HK : flaws K).
  Add Field KF3 : (fl_field K HK).
  Notation pmap := (pmap K). Notation polyff := (polyff K).
  Notation pv := poly_value.
    Variable ord : pmap -> pmap.
    Hypothesis Ho : any_order ord.
    (** a univariate map of degree at most d with values g *)
    Definition uni (a : polyff) (d : nat) (g : K -> K) : Prop :=
      pf_n a = 1 /\ poly_ok 1 (pf_coefs a) /\ (forall k, In k (map fst (pf_coefs a)) -> (nth 0 k 0 <= Z.of_nat d)%Z) /\
      forall x, pv 1 (pf_coefs a) x = g (x 0).

    Lemma uni_const c : uni (const_poly c) 0 (fun _ => c).
    Proof.
      split; [reflexivity|]. split; [split|split].
      - cbn. constructor; [intros []|constructor].
      - constructor; [|constructor]. split; [reflexivity|]. repeat constructor; lia.
      - intros k [<-|[]]. cbn. lia.
      - intros x. cbn. ring.
    Qed.
    Lemma uni_scale a d g c : uni a d g -> uni (pscale a c) d (fun x => g x * c)%K.
    Proof.
      intros [H1 [H2 [H3 H4]]]. destruct (pscale_ok HK a c) as [P1 P2]; [rewrite H1; exact H2|]. rewrite H1 in P1.
      split; [exact H1|]. split; [exact P1|]. split.
      - intros k Hk. apply H3. cbn [pscale pf_coefs] in Hk. rewrite map_map in Hk. exact Hk.
      - intros x. rewrite P2, H4. reflexivity.
    Qed.
    Lemma uni_add a b d e g h : uni a d g -> uni b e h -> uni (padd ord a b) (Nat.max d e) (fun x => g x + h x)%K.
    Proof.
      intros [A1 [A2 [A3 A4]]] [B1 [B2 [B3 B4]]]. destruct (padd_ok HK ord Ho a b) as [P1 P2]; [congruence|rewrite A1; exact A2|rewrite A1; exact B2|].
      rewrite A1 in *. split; [exact A1|]. split; [exact P1|]. split.
      - intros k Hk. unfold padd in Hk. cbn [pf_coefs] in Hk.
        assert (O : In k (map fst (pf_coefs a)) \/ In k (map fst (pf_coefs b))).
        { destruct (_ <? _); apply add_term_keys in Hk; rewrite (in_ord_key ord Ho) in Hk; tauto. }
        destruct O as [O|O]; [apply A3 in O|apply B3 in O]; lia.
      - intros x. rewrite P2, A4, B4. reflexivity.
    Qed.
    Lemma uni_mulx a d g : (Z.of_nat d + 1 < 2 ^ 32)%Z -> uni a d g -> uni (pmul_var ord a 1) (S d) (fun x => x * g x)%K.
    Proof.
      intros Hd [A1 [A2 [A3 A4]]]. destruct (pmul_var_value HK ord Ho a 1) as [P1 P2].
      - rewrite A1; exact A2.
      - lia.
      - intros k Hk. apply A3 in Hk. unfold two32. cbn [Nat.sub]. lia.
      - rewrite A1 in *. split; [exact A1|]. split; [exact P1|]. split.
        + intros k Hk. unfold pmul_var in Hk. cbn [pf_coefs Nat.sub] in Hk.
          assert (O : forall (l : pmap) m, In k (map fst (fold_left (fun m kc => pemplace m (incr_at (fst kc) 0) (snd kc)) l m)) -> In k (map fst m) \/ exists k0, In k0 (map fst l) /\ k = incr_at k0 0).
          { clear. induction l as [|[k0 c] l IH]; intros m H; [left; exact H|]. cbn [fold_left] in H. apply IH in H as [H|[k1 [H1 H2]]].
            - cbn [fst snd] in H. apply pemplace_keys in H as [H|H]; [left; exact H|right; exists k0; split; [left; reflexivity|exact H]].
            - right. exists k1. split; [right; exact H1|exact H2]. }
          apply O in Hk as [[]|[k0 [H1 ->]]]. rewrite (in_ord_key ord Ho) in H1. pose proof (A3 _ H1) as B. destruct A2 as [_ F].
          apply in_map_iff in H1 as [kc [<- H1]]. rewrite Forall_forall in F. pose proof (F _ H1) as X. pose proof (expo_range 1 _ 0 X) as R.
          destruct X as [L _]. unfold incr_at. rewrite L. cbn [seq map nth Nat.eqb]. unfold expo. unfold two32 in *. rewrite wrap32_small by (unfold two32; lia). lia.
        + intros x. rewrite P2, A4. reflexivity.
    Qed.

    Lemma uni_le a d e g : d <= e -> uni a d g -> uni a e g.
    Proof. intros H [A1 [A2 [A3 A4]]]. split; [exact A1|]. split; [exact A2|]. split; [|exact A4]. intros k Hk. apply A3 in Hk. lia. Qed.
    Lemma uni_ext a d g h : (forall x, g x = h x) -> uni a d g -> uni a d h.
    Proof. intros E [A1 [A2 [A3 A4]]]. split; [exact A1|]. split; [exact A2|]. split; [exact A3|]. intros x. rewrite A4. apply E. Qed.

End Uni.

Section Proofs.
  Context {K : fops} (HK : flaws K).
  Add Field KF2 : (fl_field K HK).
  Notation pmap := (pmap K). Notation polyff := (polyff K).
  Notation pv := poly_value.
  Variables (y f : nat -> K).

  Notation rho := (inverse_difference y f).
  Notation no_breakdown := (no_breakdown y f).
  Notation cf := (continued_fraction y f).

  Definition tlist (n : nat) : list K := map y (seq 0 n).
  Definition alist (n : nat) : list K := map (fun i => rho i i) (seq 0 n).
  Lemma tlist_nth n i : i < n -> nth i (tlist n) f0 = y i.
  Proof. intros H. apply (nth_map_seq y). exact H. Qed.
  Lemma alist_nth n i : i < n -> nth i (alist n) f0 = rho i i.
  Proof. intros H. apply (nth_map_seq (fun i => rho i i)). exact H. Qed.
  Lemma tlist_S n : tlist (S n) = tlist n ++ [y n].
  Proof. unfold tlist. rewrite seq_S, map_app. reflexivity. Qed.
  Lemma alist_S n : alist (S n) = alist n ++ [rho n n].
  Proof. unfold alist. rewrite seq_S, map_app. reflexivity. Qed.
  Lemma tlist_len n : length (tlist n) = n. Proof. unfold tlist. rewrite map_length, seq_length. reflexivity. Qed.
  Lemma alist_len n : length (alist n) = n. Proof. unfold alist. rewrite map_length, seq_length. reflexivity. Qed.

  Lemma comp_ai_rho n : comp_ai (alist n) (tlist (S n)) n (f n) = rho n n.
  Proof.
    unfold comp_ai. assert (G : forall k, k <= n -> fold_left (fun res ip => fdiv (fsub (nth n (tlist (S n)) f0) (nth (ip - 1) (tlist (S n)) f0)) (fsub res (nth (ip - 1) (alist n) f0))) (seq 1 k) (f n) = rho n k).
    { induction k as [|k IH]; intros Hk; [reflexivity|]. rewrite seq_S, fold_left_app, IH by lia. cbn [fold_left].
      replace (1 + k - 1) with k by lia. rewrite !tlist_nth, alist_nth by lia. reflexivity. }
    apply G. lia.
  Qed.

  Lemma comp_fyi_cf n x m : n < m -> comp_fyi (alist m) (tlist (S m)) n x = cf 0 n x.
  Proof.
    intros Hm. unfold comp_fyi. rewrite alist_nth by exact Hm.
    assert (G : forall k, k <= n -> fold_left (fun res ip => fadd (nth (n - ip) (alist m) f0) (fdiv (fadd (fopp (nth (n - ip) (tlist (S m)) f0)) x) res)) (seq 1 k) (rho n n) = cf (n - k) k x).
    { induction k as [|k IH]; intros Hk; [cbn; replace (n - 0) with n by lia; reflexivity|]. rewrite seq_S, fold_left_app, IH by lia. cbn [fold_left continued_fraction].
      replace (n - (1 + k)) with (n - S k) by lia. rewrite tlist_nth, alist_nth by lia. replace (S (n - S k)) with (n - k) by lia.
      f_equal. f_equal. ring. }
    rewrite G by lia. rewrite Nat.sub_diag. reflexivity.
  Qed.

  (** state after n points, none of which terminated the interpolation *)
  Notation pts := (point_list y f).
  Definition st (n : nat) : thiele K := mk_thiele (alist n) (tlist n).

  Lemma add_point_spec n : add_point (st n) (f n) (y n) =
    if (n =? 0) then Ret (false, st 1) else
    if feqb (f n) (cf 0 (n - 1) (y n)) then Ret (true, mk_thiele (alist n) (tlist (S n))) else Ret (false, st (S n)).
  Proof.
    unfold add_point, st. cbn [th_a th_t]. rewrite <- tlist_S. rewrite tlist_len. replace (S n - 1) with n by lia.
    destruct (Nat.eqb_spec n 0) as [->|N]; [reflexivity|]. rewrite alist_len. nb1. rewrite comp_fyi_cf by lia. destruct (feqb _ _); [reflexivity|].
    rewrite comp_ai_rho, <- alist_S. reflexivity.
  Qed.

  Lemma feed_app (s : thiele K) (l1 l2 : list (K * K)) : feed_points s (l1 ++ l2) =
    match feed_points s l1 with Ret (bs, s') => match feed_points s' l2 with Ret (bs', s'') => Ret (bs ++ bs', s'') | o => o end | o => o end.
  Proof.
    revert s. induction l1 as [|[y0 g0] l1 IH]; intros s; cbn [feed_points app].
    - destruct (feed_points s l2) as [[bs s'']| | | |]; reflexivity.
    - destruct (add_point s g0 y0) as [[b s']| | | |]; try reflexivity. rewrite IH.
      destruct (feed_points s' l1) as [[bs s1]| | | |]; try reflexivity. destruct (feed_points s1 l2) as [[bs' s2]| | | |]; reflexivity.
  Qed.

  Lemma feed_state n bs s : feed_points thiele_init (pts n) = Ret (bs, s) -> Forall (fun b => b = false) bs -> s = st n.
  Proof.
    revert bs s. induction n as [|n IH]; intros bs s H Hb.
    - cbn in H. injection H as _ <-. reflexivity.
    - unfold point_list in *. rewrite seq_S, map_app, feed_app in H. cbn [map Nat.add] in H.
      destruct (feed_points thiele_init (map (fun i => (y i, f i)) (seq 0 n))) as [[bs1 s1]| | | |] eqn:E; try discriminate.
      cbn [feed_points] in H. destruct (add_point s1 (f n) (y n)) as [[b s2]| | | |] eqn:E2; try discriminate. injection H as <- <-.
      apply Forall_app in Hb as [Hb1 Hb2]. apply Forall_inv in Hb2. subst b. specialize (IH bs1 s1 eq_refl Hb1). subst s1.
      rewrite add_point_spec in E2. destruct (Nat.eqb_spec n 0) as [->|N]; [injection E2 as <-; reflexivity|].
      destruct (feqb _ _); [discriminate|]. injection E2 as <-. reflexivity.
  Qed.

  Section Canon.
    Variable n : nat.
    Hypothesis Hn : 0 < n.

    Fixpoint Pc (l : nat) (x : K) : K :=
      match l with
      | O => f1
      | S l1 => match l1 with O => rho (n - 1) (n - 1) | S l2 => (rho (n - l) (n - l) * Pc l1 x + (x - y (n - l)) * Pc l2 x)%K end
      end.
    Definition P (k : nat) (x : K) : K := Pc (n - k) x.
    Lemma P_n x : P n x = f1. Proof. unfold P. rewrite Nat.sub_diag. reflexivity. Qed.
    Lemma P_11 x : n = 1 -> P 1 x = f1. Proof. intros E. unfold P. rewrite E. reflexivity. Qed.
    Lemma P_n1 x : P (n - 1) x = rho (n - 1) (n - 1).
    Proof. unfold P. replace (n - (n - 1)) with 1 by lia. reflexivity. Qed.
    Lemma P_rec k x : k + 2 <= n -> P k x = (rho k k * P (S k) x + (x - y k) * P (S (S k)) x)%K.
    Proof.
      intros H. unfold P. replace (n - k) with (S (S (n - S (S k)))) by lia. replace (n - S k) with (S (n - S (S k))) by lia.
      cbn [Pc]. replace (n - S (S (n - S (S k)))) with k by lia. reflexivity.
    Qed.

    Lemma Pc_polyfun l : polyfun (S (l / 2)) (Pc l).
    Proof.
      assert (G : polyfun (S (l / 2)) (Pc l) /\ polyfun (S (S l / 2)) (Pc (S l))); [|apply G].
      induction l as [|l [IH1 IH2]].
      - split; [apply (polyfun_const HK)|apply (polyfun_const HK)].
      - split; [exact IH2|].
        assert (E : S (S l) / 2 = S (l / 2)) by (replace (S (S l)) with (l + 1 * 2) by lia; rewrite Nat.div_add by lia; lia).
        rewrite E. set (k := n - S (S l)).
        apply (polyfun_ext _ (fun x => rho k k * Pc (S l) x + (x * Pc l x - y k * Pc l x))%K).
        { intros x. change (Pc (S (S l)) x) with (rho k k * Pc (S l) x + (x - y k) * Pc l x)%K. ring. }
        apply (polyfun_add HK).
        + apply (polyfun_scale HK). apply (polyfun_le HK (S (S l / 2))); [|exact IH2]. pose proof (Nat.div_le_mono (S l) (S (S l)) 2). lia.
        + apply (polyfun_sub HK).
          * apply (polyfun_x HK). exact IH1.
          * apply (polyfun_scale HK). apply (polyfun_le HK (S (l / 2))); [lia|exact IH1].
    Qed.
    Lemma P_polyfun k : polyfun (S ((n - k) / 2)) (P k). Proof. apply Pc_polyfun. Qed.

    (** at a point where no tail of the continued fraction vanishes *)
    Lemma P_cf x : (forall k, 0 < k < n -> cf k (n - 1 - k) x <> f0) ->
      forall l, l <= n - 1 -> P (n - 1 - l) x = (cf (n - 1 - l) l x * P (n - l) x)%K /\ (l < n - 1 -> P (n - 1 - l) x <> f0).
    Proof.
      intros H. induction l as [|l IH]; intros Hl.
      - rewrite !Nat.sub_0_r, P_n1, P_n. cbn [continued_fraction]. split; [ring|]. intros Hl'. specialize (H (n - 1) ltac:(lia)). rewrite Nat.sub_diag in H. exact H.
      - destruct (IH ltac:(lia)) as [E1 E2]. specialize (E2 ltac:(lia)).
        assert (EP : P (n - 1 - S l) x = (cf (n - 1 - S l) (S l) x * P (n - S l) x)%K).
        { rewrite P_rec by lia. replace (S (n - 1 - S l)) with (n - 1 - l) by lia. replace (S (n - 1 - l)) with (n - l) by lia.
          replace (n - S l) with (n - 1 - l) by lia. cbn [continued_fraction]. replace (S (n - 1 - S l)) with (n - 1 - l) by lia.
          assert (C : cf (n - 1 - l) l x <> f0) by (specialize (H (n - 1 - l) ltac:(lia)); replace (n - 1 - (n - 1 - l)) with l in H by lia; exact H).
          assert (EE : P (n - l) x = (P (n - 1 - l) x / cf (n - 1 - l) l x)%K) by (rewrite E1; field; exact C).
          rewrite EE. field. exact C. }
        split; [exact EP|]. intros Hl'. rewrite EP. replace (n - S l) with (n - 1 - l) by lia. intros Z. apply (fmul_0 HK) in Z as [Z|Z]; [|exact (E2 Z)].
        specialize (H (n - 1 - S l) ltac:(lia)). replace (n - 1 - (n - 1 - S l)) with (S l) in H by lia. exact (H Z).
    Qed.

    Lemma P_prediction x : (forall k, 0 < k < n -> cf k (n - 1 - k) x <> f0) -> P 0 x = (cf 0 (n - 1) x * P 1 x)%K /\ P 1 x <> f0.
    Proof.
      intros H. destruct (P_cf x H (n - 1) ltac:(lia)) as [E _]. rewrite Nat.sub_diag in E. replace (n - (n - 1)) with 1 in E by lia. split; [exact E|].
      destruct (Nat.eq_dec n 1) as [N|N].
      - rewrite (P_11 x N). apply (f1_neq_0 HK).
      - destruct (P_cf x H (n - 2) ltac:(lia)) as [_ E2]. replace (n - 1 - (n - 2)) with 1 in E2 by lia. apply E2. lia.
    Qed.

    Hypothesis Hd : distinct n y.
    Hypothesis Hb : no_breakdown n.

    Lemma rho_neq0 i k : 0 < k <= i -> i < n -> rho i k <> f0.
    Proof.
      intros Hk Hi. destruct k as [|k]; [lia|]. cbn [inverse_difference]. apply (fdiv_neq0 HK).
      - intros E. apply (fsub_0 HK) in E. apply Hd in E; lia.
      - intros E. apply (fsub_0 HK) in E. exact (Hb i k ltac:(lia) Hi E).
    Qed.

    Lemma P_at i : i < n -> forall l, l <= i -> P (i - l) (y i) = (rho i (i - l) * P (S (i - l)) (y i))%K.
    Proof.
      intros Hi. induction l as [|l IH]; intros Hl.
      - rewrite Nat.sub_0_r. destruct (Nat.eq_dec i (n - 1)) as [->|N].
        + rewrite P_n1. replace (S (n - 1)) with n by lia. rewrite P_n. ring.
        + rewrite P_rec by lia. ring.
      - rewrite P_rec by lia. replace (S (i - S l)) with (i - l) by lia. rewrite (IH ltac:(lia)).
        set (k := i - S l). replace (i - l) with (S k) by (unfold k; lia). pose proof (rho_neq0 i (S k) ltac:(unfold k; lia) Hi) as R. cbn [inverse_difference] in *.
        pose proof (Hb i k ltac:(unfold k; lia) Hi) as B.
        assert (Y : (y i - y k)%K <> f0) by (intros E; apply (fsub_0 HK) in E; apply Hd in E; unfold k in *; lia).
        assert (B' : (rho i k - rho k k)%K <> f0) by (intros E; apply (fsub_0 HK) in E; contradiction).
        field. exact B'.
    Qed.
    Lemma P_fed i : i < n -> P 0 (y i) = (f i * P 1 (y i))%K.
    Proof. intros Hi. pose proof (P_at i Hi i (le_n i)) as H. rewrite Nat.sub_diag in H. exact H. Qed.
    Lemma P_last : P 1 (y (n - 1)) <> f0.
    Proof.
      destruct (Nat.eq_dec n 1) as [N|N]; [rewrite (P_11 _ N); apply (f1_neq_0 HK)|].
      assert (G : forall l, l <= n - 1 -> P (n - l) (y (n - 1)) <> f0).
      { induction l as [|l IH]; intros Hl; [rewrite Nat.sub_0_r, P_n; apply (f1_neq_0 HK)|].
        pose proof (P_at (n - 1) ltac:(lia) l ltac:(lia)) as E. replace (n - 1 - l) with (n - S l) in E by lia. rewrite E.
        intros Z. apply (fmul_0 HK) in Z as [Z|Z].
        - apply (rho_neq0 (n - 1) (n - S l)) in Z; [exact Z|lia|lia].
        - replace (S (n - S l)) with (n - l) in Z by lia. exact (IH ltac:(lia) Z). }
      specialize (G (n - 1) ltac:(lia)). replace (n - (n - 1)) with 1 in G by lia. exact G.
    Qed.

    (** the prediction reproduces the fed values *)
    Lemma cf_fed i l : i < n -> l <= i -> forall m, cf (i - l) (l + m) (y i) = rho i (i - l).
    Proof.
      intros Hi. induction l as [|l IH]; intros Hl m.
      - rewrite Nat.sub_0_r. cbn [Nat.add]. destruct m as [|m]; [reflexivity|]. cbn [continued_fraction].
        assert (E : (y i - y i)%K = f0) by ring. rewrite E.
        assert (Z : forall u : K, (f0 / u)%K = f0) by (intros u; rewrite (Field_theory.Fdiv_def (fl_field K HK)); ring).
        rewrite Z. ring.
      - cbn [Nat.add continued_fraction]. replace (S (i - S l)) with (i - l) by lia. rewrite (IH ltac:(lia)).
        set (k := i - S l). replace (i - l) with (S k) by (unfold k; lia). cbn [inverse_difference].
        pose proof (Hb i k ltac:(unfold k; lia) Hi) as B.
        assert (Y : (y i - y k)%K <> f0) by (intros E; apply (fsub_0 HK) in E; apply Hd in E; unfold k in *; lia).
        assert (B' : (rho i k - rho k k)%K <> f0) by (intros E; apply (fsub_0 HK) in E; contradiction).
        field. split; assumption.
    Qed.

    (** completeness: every rational function of low enough degree through the points is the result *)
    Lemma P_complete (p q : K -> K) : polyfun (S (n / 2)) p -> polyfun (S ((n - 1) / 2)) q ->
      (forall i, i < n -> (f i * q (y i))%K = p (y i)) -> forall x, (P 0 x * q x = p x * P 1 x)%K.
    Proof.
      intros Hp Hq Hi x.
      assert (D : polyfun n (fun x => P 0 x * q x - p x * P 1 x)%K).
      { assert (L : n / 2 + S ((n - 1) / 2) <= n).
        { pose proof (Nat.div_mod n 2). pose proof (Nat.div_mod (n - 1) 2). pose proof (Nat.mod_upper_bound n 2). pose proof (Nat.mod_upper_bound (n-1) 2). lia. }
        apply (polyfun_sub HK).
        - apply (polyfun_le HK (n / 2 + S ((n - 1) / 2))); [exact L|]. apply (polyfun_mul HK); [|exact Hq].
          pose proof (P_polyfun 0) as Q. rewrite Nat.sub_0_r in Q. exact Q.
        - apply (polyfun_le HK (n / 2 + S ((n - 1) / 2))); [exact L|]. apply (polyfun_mul HK); [exact Hp|apply P_polyfun]. }
      apply (fsub_0 HK). apply (polyfun_zero HK n _ y D Hd). intros i Hi'. rewrite P_fed by exact Hi'. rewrite <- (Hi i Hi'). ring.
    Qed.
  End Canon.

  Section Ord.
    Variable ord : pmap -> pmap.
    Hypothesis Ho : any_order ord.
    Variable n : nat.
    Hypothesis Hn : 0 < n.
    Hypothesis Hn32 : (Z.of_nat n < 2 ^ 32)%Z.

    Definition at_index (k : nat) (r : polyff * polyff) : Prop :=
      uni (fst r) ((n - k) / 2) (P n k) /\ uni (snd r) ((n - S k) / 2) (P n (S k)).

    Lemma half k : k + 2 <= n -> (n - k) / 2 = S ((n - S (S k)) / 2).
    Proof. intros H. replace (n - k) with (n - S (S k) + 1 * 2) by lia. rewrite Nat.div_add by lia. lia. Qed.
    Lemma half_mono a b : a <= b -> a / 2 <= b / 2. Proof. intros. apply Nat.div_le_mono; lia. Qed.

    Variable m : nat.
    Hypothesis Hm : n - 1 <= m.
    Lemma canon_step_ok k r : k + 2 <= n -> at_index (S k) r -> at_index k (canon_step ord (alist n) (tlist m) r k).
    Proof.
      intros Hk [A B]. unfold canon_step, at_index. cbn [fst snd]. split; [|exact A].
      rewrite alist_nth, tlist_nth by lia.
      eapply uni_le; [|eapply uni_ext; [|apply (uni_add HK ord Ho); [apply (uni_add HK ord Ho); [apply (uni_scale HK); exact A|apply (uni_mulx HK ord Ho); [|exact B]]|apply (uni_scale HK); exact B]]].
      - rewrite (half k Hk). pose proof (half_mono (n - S k) (n - k) ltac:(lia)). rewrite (half k Hk) in H. lia.
      - intros x. cbn beta. rewrite (P_rec n Hn k x Hk). ring.
      - pose proof (Nat.div_le_upper_bound (n - S (S k)) 2 (n - S (S k)) ltac:(lia) ltac:(lia)). lia.
    Qed.

    Lemma iterate_ok k r : k + 2 <= n -> at_index (S k) r ->
      at_index 1 (fold_left (canon_step ord (alist n) (tlist m)) (rev (seq 1 k)) r).
    Proof.
      revert r. induction k as [|k IH]; intros r Hk Hr; [exact Hr|].
      rewrite seq_S, rev_app_distr. cbn [rev app fold_left Nat.add]. apply IH; [lia|]. apply canon_step_ok; [lia|exact Hr].
    Qed.

    Theorem canonical_ok : let r := thiele_canonical ord (alist n) (tlist m) in
      uni (fst r) (n / 2) (P n 0) /\ uni (snd r) ((n - 1) / 2) (P n 1).
    Proof.
      cbn zeta. unfold thiele_canonical. rewrite alist_len. destruct (Nat.eqb_spec n 1) as [E|N].
      - cbn [fst snd]. rewrite alist_nth by lia. rewrite E. split.
        + eapply uni_ext; [|apply (uni_const HK)]. intros x. unfold P. reflexivity.
        + eapply uni_ext; [|apply (uni_const HK)]. intros x. unfold P. reflexivity.
      - assert (I : at_index 1 (thiele_iterate ord (alist n) (tlist m))).
        { unfold thiele_iterate. rewrite alist_len. apply iterate_ok; [lia|]. unfold at_index. cbn [fst snd].
          replace (S (n - 2)) with (n - 1) by lia. replace (S (n - 1)) with n by lia. rewrite Nat.sub_diag. replace (n - (n - 1)) with 1 by lia.
          rewrite alist_nth by lia. split.
          - eapply uni_ext; [|apply (uni_const HK)]. intros x. cbn beta. symmetry. apply P_n1. exact Hn.
          - eapply uni_ext; [|apply (uni_const HK)]. intros x. cbn beta. symmetry. apply P_n. }
        destruct I as [A B]. cbn zeta. set (r := thiele_iterate ord (alist n) (tlist m)) in *. cbn [fst snd]. split; [|exact A].
        rewrite alist_nth, tlist_nth by lia.
        eapply uni_le; [|eapply uni_ext; [|apply (uni_add HK ord Ho); [apply (uni_add HK ord Ho); [apply (uni_scale HK); exact A|apply (uni_scale HK); exact B]|apply (uni_mulx HK ord Ho); [|exact B]]]].
        + pose proof (half 0 ltac:(lia)) as H0. rewrite Nat.sub_0_r in H0. rewrite H0. pose proof (half_mono (n - 1) n ltac:(lia)) as H. rewrite H0 in H. lia.
        + intros x. cbn beta. rewrite (P_rec n Hn 0 x ltac:(lia)). ring.
        + pose proof (Nat.div_le_upper_bound (n - 2) 2 (n - 2) ltac:(lia) ltac:(lia)). lia.
    Qed.
  End Ord.
End Proofs.

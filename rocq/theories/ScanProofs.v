(** Proofs for the search for a sparse shift *)
From Coq Require Import Permutation Sorted.
From Verif Require Import Machine FField FSum LinAlg FPoly PolyFF PolySpec Thiele ThieleSpec ThieleProofs RatUni RatUniThiele Combi CombiProofs CombiProofs2 PolyRec PolyRecSpec PolyRecMath RatMulti RatMultiSpec RatMultiThiele RatMultiFirst RatMultiRun Scan ScanSpec.
Open Scope nat_scope.

Section Terms.
  Context {K : fops}.
  Lemma uvalue_tval (P : list (nat * K)) x : uvalue P x = tval P x. Proof. reflexivity. Qed.
  Lemma udegree_le (P : list (nat * K)) t : In t P -> fst t <= udegree P.
  Proof. unfold udegree. induction P as [|u P IH]; intros I; [contradiction|]. cbn [map fold_right]. destruct I as [->|I]; [lia|]. specialize (IH I). lia. Qed.
  Lemma udegree_attained (P : list (nat * K)) : P <> [] -> In (udegree P) (map fst P).
  Proof.
    unfold udegree. induction P as [|t P IH]; intros H; [contradiction|]. cbn [map fold_right]. destruct (Nat.max_spec (fst t) (fold_right Nat.max 0 (map fst P))) as [[L ->]|[L ->]]; [right|left; reflexivity].
    destruct P; [cbn in L; lia|]. apply IH. discriminate.
  Qed.
  Lemma upoly_terms (P : list (nat * K)) : upolynomial P -> terms_ok P (udegree P).
  Proof. intros [H1 [H2 H3]]. split; [exact H2|]. split; [apply udegree_attained; exact H1|]. intros t I. split; [apply udegree_le; exact I|apply H3; exact I]. Qed.

  Variable ord : forall A : Type, list A -> list A.
  Hypothesis Ho : forall A (l : list A), Permutation (ord A l) l.
  Variables (P : list (nat * K)) (w : K) (m : pmap K).
  Hypothesis HP : upolynomial P.
  Hypothesis Hm : Permutation m (as_map (scaled w P)).
  Lemma map_degs : Permutation (degs_of ord m) (map fst P).
  Proof.
    unfold degs_of. eapply Permutation_trans; [apply Permutation_map, Ho|]. eapply Permutation_trans; [apply Permutation_map, Hm|]. unfold as_map, scaled. rewrite !map_map. cbn [fst snd].
    erewrite map_ext; [apply Permutation_refl|]. intros t. cbn beta. unfold expo. cbn [nth]. apply Nat2Z.id.
  Qed.
  Lemma map_in kc : In kc (ord _ m) -> exists t, In t P /\ expo (fst kc) 0 = Z.of_nat (fst t).
  Proof.
    intros I. apply (Permutation_in _ (Ho _ m)) in I. apply (Permutation_in _ Hm) in I. unfold as_map, scaled in I. rewrite map_map in I. apply in_map_iff in I as [t [<- I]]. exists t. split; [exact I|reflexivity].
  Qed.
  Lemma map_has t : In t P -> exists kc, In kc (ord _ m) /\ expo (fst kc) 0 = Z.of_nat (fst t).
  Proof.
    intros I. exists ([Z.of_nat (fst t)], fmul w (snd t)). split; [|reflexivity]. apply (Permutation_in _ (Permutation_sym (Ho _ m))). apply (Permutation_in _ (Permutation_sym Hm)).
    unfold as_map, scaled. rewrite map_map. apply in_map_iff. exists t. split; [reflexivity|exact I].
  Qed.
  Lemma map_max : Z.to_nat (max_deg1 ord m) = udegree P.
  Proof.
    unfold max_deg1. rewrite (fold_max (udegree P)); [apply Nat2Z.id| |lia|].
    - intros kc I. destruct (map_in kc I) as [t [J ->]]. pose proof (udegree_le P t J). lia.
    - right. pose proof (udegree_attained P (proj1 HP)) as J. apply in_map_iff in J as [t [E J]]. destruct (map_has t J) as [kc [I Ek]]. exists kc. split; [exact I|]. rewrite Ek, E. reflexivity.
  Qed.
  Lemma fold_min_some (l : list (list Z * K)) : forall a, (a <> None \/ l <> []) -> exists z, fold_left (fun a kc => match a with None => Some (expo (fst kc) 0) | Some z => Some (Z.min z (expo (fst kc) 0)) end) l a = Some z /\
    (a = Some z \/ exists kc, In kc l /\ expo (fst kc) 0 = z).
  Proof.
    clear. induction l as [|kc l IH]; intros a H; cbn [fold_left].
    - destruct a as [z|]; [|destruct H as [H|H]; contradiction H; reflexivity]. exists z. auto.
    - destruct (IH (match a with None => Some (expo (fst kc) 0) | Some z => Some (Z.min z (expo (fst kc) 0)) end)) as [z [E C]]; [left; destruct a; discriminate|]. exists z. split; [exact E|].
      destruct C as [C|[k [I C]]]; [|right; exists k; split; [right; exact I|exact C]]. destruct a as [z0|]; injection C as C.
      + destruct (Z.min_spec z0 (expo (fst kc) 0)) as [[_ M]|[_ M]]; rewrite M in C; [left; f_equal; exact C|right; exists kc; split; [left; reflexivity|exact C]].
      + right. exists kc. split; [left; reflexivity|exact C].
  Qed.
  Lemma map_min : exists z, min_deg1 ord m = Some z /\ ((z =? 0)%Z = true <-> In 0 (map fst P)).
  Proof.
    destruct (in_dec Nat.eq_dec 0 (map fst P)) as [I|I].
    - exists 0%Z. split; [|split; [intros _; exact I|reflexivity]]. unfold min_deg1. apply fold_min; [|exact Logic.I|].
      + intros kc J. destruct (map_in kc J) as [t [_ ->]]. lia.
      + right. apply in_map_iff in I as [t [E J]]. destruct (map_has t J) as [kc [J' Ek]]. exists kc. split; [exact J'|]. rewrite Ek, E. reflexivity.
    - destruct (fold_min_some (ord _ m) None) as [z [E C]].
      + right. pose proof (udegree_attained P (proj1 HP)) as X. apply in_map_iff in X as [t [_ X]]. destruct (map_has t X) as [kc [J _]]. intros Y. rewrite Y in J. exact J.
      + exists z. split; [exact E|]. destruct C as [C|[kc [J C]]]; [discriminate C|]. destruct (map_in kc J) as [t [Jt Et]]. split; [|intros X; contradiction]. intros X. apply Z.eqb_eq in X. exfalso. apply I. apply in_map_iff. exists t. split; [lia|exact Jt].
  Qed.
End Terms.

Section Round.
  Context {K : fops} (HK : flaws K).
  Variable ord : forall A : Type, list A -> list A.
  Hypothesis Ho : forall A (l : list A), Permutation (ord A l) l.

  (** the state of a function after a round in which it was R / S *)
  Definition after_round (all_ones : bool) (R S : list (nat * K)) (st st' : scan_fn K) : Prop :=
    sf_th st' = mk_thiele [] [] /\ Permutation (fst (sf_degs st')) (map fst R) /\ Permutation (snd (sf_degs st')) (map fst S) /\
    if all_ones then sf_max st' = (udegree R, udegree S) /\ sf_works st' = false /\ sf_norm_den st' = sf_norm_den st
    else sf_max st' = sf_max st /\ (sf_works st' = true <-> (udegree R, udegree S) = sf_max st) /\
         (if sf_works st' then sf_norm_den st' = true <-> In 0 (map fst S) else sf_norm_den st' = sf_norm_den st).

  Section One.
    Variables (h : K -> K) (ts : list K) (R S : list (nat * K)).
    Hypothesis FR : fraction h ts R S.
    Local Notation pt := (point ts).
    Local Notation f := (fun i => h (point ts i)).
    Local Notation np := (points_needed R S).
    Lemma done_stays b l (st : scan_fn K) : sf_done st = true -> scan_feed ord b h l st = Ret st.
    Proof. intros H. induction l as [|t l IH]; [reflexivity|]. cbn [scan_feed]. unfold scan_interpolate. rewrite H. cbn [obind]. exact IH. Qed.
    Lemma scan_feed_app b l l' (st : scan_fn K) : scan_feed ord b h (l ++ l') st = do st' <- scan_feed ord b h l st; scan_feed ord b h l' st'.
    Proof. revert st. induction l as [|t l IH]; intros st; [reflexivity|]. cbn [app scan_feed]. destruct (scan_interpolate ord b st t (h t)); try reflexivity. cbn [obind]. apply IH. Qed.
    Lemma step k : k <= np -> add_point (ThieleProofs.st pt f k) (f k) (pt k) = Ret (if k =? np then (true, mk_thiele (alist pt f np) (tlist pt (Datatypes.S np))) else (false, ThieleProofs.st pt f (Datatypes.S k))).
    Proof.
      destruct FR. destruct fr_field as [v Hv]. apply (thiele_step HK R S (udegree R) (udegree S) (upoly_terms R fr_num) (upoly_terms S fr_den) pt f v Hv fr_coprime fr_values fr_distinct fr_breakdown fr_fraction).
    Qed.
    Lemma maps : exists w nu de, w <> f0 /\ thiele_canonical (ord _) (alist pt f np) (tlist pt np) = (nu, de) /\
      Permutation (pf_coefs nu) (as_map (scaled w R)) /\ Permutation (pf_coefs de) (as_map (scaled w S)).
    Proof.
      destruct FR. destruct fr_field as [v Hv]. apply (thiele_maps HK (ord _) (Ho _) R S (udegree R) (udegree S) (upoly_terms R fr_num) (upoly_terms S fr_den) pt f fr_bound v Hv fr_coprime fr_values fr_first fr_distinct fr_nonzero fr_breakdown). unfold points_needed. lia.
    Qed.
    Lemma first_points_fed b (st : scan_fn K) : sf_th st = mk_thiele [] [] -> sf_done st = false -> forall k, k <= np ->
      scan_feed ord b h (firstn k ts) st = Ret (mk_scan_fn (ThieleProofs.st pt f k) (sf_max st) (sf_degs st) (sf_norm_den st) (sf_works st) false).
    Proof.
      intros Et Ed. induction k as [|k IH]; intros L.
      - cbn [firstn scan_feed]. destruct st as [th mx dg nd wk dn]. cbn in *. subst. reflexivity.
      - rewrite (firstn_snoc' f0) by (pose proof (fr_points _ _ _ _ FR); lia). rewrite scan_feed_app, IH by lia. cbn [obind scan_feed]. unfold scan_interpolate. cbn [sf_done sf_th sf_max sf_degs sf_norm_den sf_works].
        change (nth k ts f0) with (pt k). rewrite (step k) by lia. destruct (Nat.eqb_spec k np) as [E|_]; [lia|]. cbn [obind fst snd]. reflexivity.
    Qed.
    Lemma feed_ok b (st : scan_fn K) : sf_th st = mk_thiele [] [] -> sf_done st = false -> exists st', scan_feed ord b h ts st = Ret st' /\ sf_done st' = true /\ after_round b R S st (scan_again st').
    Proof.
      intros Et Ed. pose proof (fr_points _ _ _ _ FR) as Lp.
      assert (Es : ts = firstn np ts ++ pt np :: skipn (Datatypes.S np) ts).
      { rewrite <- (firstn_skipn (Datatypes.S np) ts) at 1. rewrite (firstn_snoc' f0) by exact Lp. rewrite <- app_assoc. reflexivity. }
      assert (Ef : scan_feed ord b h ts st = scan_feed ord b h (firstn np ts ++ pt np :: skipn (Datatypes.S np) ts) st) by (rewrite <- Es; reflexivity). rewrite Ef. clear Ef. rewrite scan_feed_app, (first_points_fed b st Et Ed np (le_n _)). cbn [obind scan_feed]. unfold scan_interpolate. cbn [sf_done sf_th sf_max sf_degs sf_norm_den sf_works].
      rewrite (step np (le_n _)), Nat.eqb_refl. cbn [obind fst snd]. unfold get_result. cbn [th_t th_a]. destruct (tlist pt (Datatypes.S np)) as [|t0 tl] eqn:Etl; [apply (f_equal (@length _)) in Etl; rewrite tlist_len in Etl; discriminate|]. rewrite <- Etl. clear t0 tl Etl.
      rewrite tlist_S, removelast_last. destruct maps as [w [nu [de [Hw [-> [PN PD]]]]]]. cbn [obind fst snd].
      pose proof (map_max ord Ho R w _ (fr_num _ _ _ _ FR) PN) as MN. pose proof (map_max ord Ho S w _ (fr_den _ _ _ _ FR) PD) as MD. pose proof (map_degs ord Ho R w _ PN) as DN. pose proof (map_degs ord Ho S w _ PD) as DD.
      rewrite MN, MD. destruct b.
      - cbn [obind]. rewrite done_stays by reflexivity. eexists. split; [reflexivity|]. split; [reflexivity|]. unfold after_round, scan_again. cbn. repeat split; assumption.
      - destruct (Nat.eqb_spec (udegree R) (fst (sf_max st))) as [E1|E1]; [destruct (Nat.eqb_spec (udegree S) (snd (sf_max st))) as [E2|E2]|]; cbn [andb].
        + destruct (map_min ord Ho S w _ (fr_den _ _ _ _ FR) PD) as [z [Ez Cz]]. rewrite Ez. cbn [obind]. rewrite done_stays by reflexivity. eexists. split; [reflexivity|]. split; [reflexivity|]. unfold after_round, scan_again. cbn. repeat split; try assumption; try apply Cz.
          intros _. rewrite E1, E2. symmetry. apply surjective_pairing.
        + cbn [obind]. rewrite done_stays by reflexivity. eexists. split; [reflexivity|]. split; [reflexivity|]. unfold after_round, scan_again. cbn. repeat split; try assumption; try discriminate. intros X. exfalso. apply E2. rewrite <- X. reflexivity.
        + cbn [obind]. rewrite done_stays by reflexivity. eexists. split; [reflexivity|]. split; [reflexivity|]. unfold after_round, scan_again. cbn. repeat split; try assumption; try discriminate. intros X. exfalso. apply E1. rewrite <- X. reflexivity.
    Qed.
  End One.

  Lemma round_ok b y s ts (R S : nat -> list (nat * K)) : forall fs j0,
    (forall j bb st, nth_error fs j = Some (bb, st) -> fraction (on_ray bb y s) ts (R (j0 + j)) (S (j0 + j)) /\ sf_th st = mk_thiele [] [] /\ sf_done st = false) ->
    exists fs', scan_round ord b y s ts fs = Ret fs' /\ map fst fs' = map fst fs /\
      forall j bb st, nth_error fs j = Some (bb, st) -> exists st', nth_error fs' j = Some (bb, st') /\ sf_done st' = false /\ after_round b (R (j0 + j)) (S (j0 + j)) st st'.
  Proof.
    induction fs as [|[bb st] fs IH]; intros j0 H.
    - exists []. split; [reflexivity|]. split; [reflexivity|]. intros [|j]; discriminate.
    - destruct (H 0 bb st eq_refl) as [FR [Et Ed]]. rewrite Nat.add_0_r in FR.
      destruct (feed_ok _ ts _ _ FR b st Et Ed) as [st' [E1 [E2 E3]]]. destruct (IH (Datatypes.S j0)) as [fs' [E4 [E5 E6]]].
      { intros j bb' st1 Hj. specialize (H (Datatypes.S j) bb' st1 Hj). rewrite Nat.add_succ_r in H. exact H. }
      exists ((bb, scan_again st') :: fs'). split.
      + cbn [scan_round]. change (fun t => bb (scan_point y s t)) with (on_ray bb y s). rewrite E1. cbn [obind]. rewrite E2, E4. reflexivity.
      + split; [cbn [map fst]; rewrite E5; reflexivity|]. intros [|j] bb' st1 Hj.
        * cbn [nth_error] in Hj. injection Hj as <- <-. exists (scan_again st'). split; [reflexivity|]. split; [reflexivity|]. rewrite Nat.add_0_r. exact E3.
        * cbn [nth_error] in *. rewrite Nat.add_succ_r. apply (E6 j bb' st1 Hj).
  Qed.
End Round.

(** Proofs for RatReconst in several variables over several primes, part 7: from the result over the first prime to the state of the run. *)
From Coq Require Import Znumtheory Permutation.
From Verif Require Import Machine NumTheory FFInt FField FSum LinAlg FPoly PolyFF PolySpec PolyFFProofs PolyFFProofs2 PolyFFProofs3 RatNum Modular PField RatUni RatUniSpec RatUniProofs RatUniFirst RatUniNext RatUniRun Thiele Newton PolyRec PolyRecSpec PolyRecMath PolyRatSpec RatMulti RatMultiSpec RatMultiRunSpec RatMultiMath RatMultiShift RatMultiMain RatMultiQ RatMultiQSpec RatMultiQCoef RatMultiQSide RatMultiQMaps RatMultiQCheck RatMultiQRays RatMultiQRun Props_RatMulti.
Open Scope nat_scope.

(** ---- dividing by a coefficient ---- *)
Lemma reduce_exists (x d : Z) : d <> 0%Z -> exists q : Z * Z, lowest q /\ (fst q * d = x * snd q)%Z.
Proof.
  intros Hd. set (g := Z.gcd x d). assert (Hg : (0 < g)%Z) by (pose proof (Z.gcd_nonneg x d); assert (g <> 0)%Z by (intros E; apply Z.gcd_eq_0_r in E; contradiction); lia).
  destruct (Z.gcd_divide_l x d) as [x' Ex]. destruct (Z.gcd_divide_r x d) as [d' Ed]. fold g in Ex, Ed.
  assert (G : Z.gcd x' d' = 1%Z). { pose proof (Z.gcd_mul_mono_r_nonneg x' d' g ltac:(lia)) as X. rewrite <- Ex, <- Ed in X. fold g in X. clear - X Hg. nia. }
  exists (Z.sgn d' * x', Z.abs d')%Z. cbn [fst snd]. split.
  - split; cbn [fst snd].
    + assert (d' <> 0)%Z by (intros E; rewrite E in Ed; lia). lia.
    + rewrite Z.gcd_abs_r. destruct (Z.sgn_spec d') as [[H ->]|[[H ->]|[H ->]]]; [rewrite Z.mul_1_l; exact G|rewrite <- H in Ed; lia|]. replace (-1 * x')%Z with (- x')%Z by lia. rewrite Z.gcd_opp_l. exact G.
  - rewrite Ex, Ed at 1. clear. destruct (Z.sgn_spec d') as [[H ->]|[[H ->]|[H ->]]]; rewrite ?(Z.abs_eq d') by lia; rewrite ?(Z.abs_neq d') by lia; nia.
Qed.
Lemma divided_exists (a : Z * Z) T : fst a <> 0%Z -> (forall t, In t T -> lowest (snd t)) -> exists T', divided a T T'.
Proof.
  intros Ha. induction T as [|t T IH]; intros HL; [exists []; constructor|]. destruct IH as [T' H]; [intros u Hu; apply HL; right; exact Hu|].
  destruct (HL t (or_introl eq_refl)) as [Hd _]. destruct (reduce_exists (fst (snd t) * snd a) (snd (snd t) * fst a)) as [q [Lq Eq]]; [clear - Ha Hd; nia|].
  exists ((fst t, q) :: T'). constructor; [|exact H]. cbn [fst snd]. auto.
Qed.
Lemma divided_keys a T T' : divided a T T' -> map fst T' = map fst T.
Proof. induction 1 as [|t t' T T' [E _] _ IH]; [reflexivity|]. cbn [map]. rewrite IH, E. reflexivity. Qed.
Lemma divided_length a T T' : divided a T T' -> length T' = length T.
Proof. unfold divided. induction 1 as [|t t' T T' _ _ IH]; [reflexivity|]. cbn [length]. rewrite IH. reflexivity. Qed.
Lemma divided_lowest a T T' : divided a T T' -> forall t, In t T' -> lowest (snd t).
Proof. induction 1 as [|t t' T T' [_ [L _]] _ IH]; intros u Hu; [destruct Hu|]. destruct Hu as [<-|Hu]; [exact L|apply IH; exact Hu]. Qed.
Lemma divided_one a T T' m : divided a T T' -> fst a <> 0%Z -> (0 < snd a)%Z -> In (m, a) T -> In (m, (1, 1)%Z) T'.
Proof.
  intros H Ha Hd. induction H as [|t t' T T' [E [[L1 L2] X]] _ IH]; intros J; [destruct J|]. destruct J as [J|J]; [|right; apply IH; exact J]. left. subst t. cbn [fst snd] in *. destruct t' as [k [x d]]. cbn [fst snd] in *. subst k. assert (x = d).
  { clear - X Ha Hd. assert ((x - d) * (snd a * fst a) = 0)%Z by lia. apply Z.mul_eq_0 in H as [H|H]; [lia|]. apply Z.mul_eq_0 in H. lia. }
  subst x. rewrite Z.gcd_diag in L2. f_equal. f_equal; lia.
Qed.

Section Prime.
  Variable F : pfield.
  Local Notation K := (fld F).
  Local Notation KL := (HK F).
  Add Field KFP : (fl_field K (HK F)).
  Local Notation p := (pf_mod F).

  Lemma krat_nonzero (q : Z * Z) : @krat K q <> f0 -> ~ (p | fst q)%Z /\ ~ (p | snd q)%Z.
  Proof.
    intros H. assert (D : ~ (p | snd q)%Z). { intros D. apply H. unfold krat. rewrite (proj2 (kint_0 F (snd q)) D). apply (fl_div0 K KL). }
    split; [|exact D]. intros X. apply H. apply (krat_0 F q D). exact X.
  Qed.
  Lemma prime_mul (a b : Z) : (p | a * b)%Z -> (p | a)%Z \/ (p | b)%Z.
  Proof. apply prime_mult. exact (pf_prime F). Qed.
  Lemma divided_krat (a x q : Z * Z) : @krat K a <> f0 -> @krat K x <> f0 -> lowest q -> (fst q * (snd x * fst a) = fst x * snd a * snd q)%Z ->
    ~ (p | snd q)%Z /\ @krat K q = fdiv (krat x) (krat a).
  Proof.
    intros Ha Hx [L1 L2] E. destruct (krat_nonzero a Ha) as [A1 A2]. destruct (krat_nonzero x Hx) as [X1 X2].
    assert (Q : ~ (p | snd q)%Z).
    { intros Q. assert (P : (p | fst q * (snd x * fst a))%Z) by (rewrite E; apply Z.divide_mul_r; exact Q). apply prime_mul in P as [P|P]; [|apply prime_mul in P as [P|P]; contradiction].
      assert (G : (p | Z.gcd (fst q) (snd q))%Z) by (apply Z.gcd_greatest; assumption). rewrite L2 in G. apply Z.divide_1_r_nonneg in G; pose proof (p_gt1 F); lia. }
    split; [exact Q|]. assert (N0 : forall z, ~ (p | z)%Z -> @kint K z <> f0) by (intros z Hz Z; apply Hz; apply (kint_0 F); exact Z).
    assert (EK : fmul (kint (fst q)) (fmul (kint (snd x)) (kint (fst a))) = fmul (fmul (@kint K (fst x)) (kint (snd a))) (kint (snd q))) by (rewrite <- !kint_mul; f_equal; exact E).
    pose proof (N0 _ A1). pose proof (N0 _ A2). pose proof (N0 _ X1). pose proof (N0 _ X2). pose proof (N0 _ Q). unfold krat.
    transitivity (fmul (fmul (kint (fst q)) (fmul (kint (snd x)) (kint (fst a)))) (fdiv f1 (fmul (kint (snd q)) (fmul (kint (snd x)) (@kint K (fst a)))))).
    - field. auto.
    - rewrite EK. field. auto.
  Qed.
  Lemma divided_over a T T' (k : K) : divided a T T' -> fmul k (krat a) = f1 -> (forall t, In t T -> @krat K (snd t) <> f0) ->
    times k (over F T) = over F T' /\ forall t, In t T' -> ~ (p | snd (snd t))%Z.
  Proof.
    intros H Hk. assert (Ha : @krat K a <> f0). { intros E. rewrite E in Hk. apply (F_1_neq_0 (fl_field K KL)). rewrite <- Hk. ring. }
    induction H as [|t t' T T' [E [L X]] _ IH]; intros HT; [split; [reflexivity|intros t []]|]. destruct IH as [IH1 IH2]; [intros u Hu; apply HT; right; exact Hu|].
    destruct (divided_krat a (snd t) (snd t') Ha (HT t (or_introl eq_refl)) L X) as [Q Ek]. split.
    - unfold times, over in *. cbn [map fst snd]. rewrite IH1, E, Ek. f_equal. f_equal. transitivity (fdiv (fmul (fmul k (krat a)) (krat (snd t))) (@krat K a)); [field; exact Ha|rewrite Hk; field; exact Ha].
    - intros u [<-|Hu]; [exact Q|apply IH2; exact Hu].
  Qed.

  Lemma times_keys (k : K) P : map fst (times k P) = map fst P. Proof. unfold times. rewrite map_map. reflexivity. Qed.
  Lemma times_times (k k' : K) P : times k (times k' P) = times (fmul k k') P.
  Proof. unfold times. rewrite map_map. apply map_ext. intros [e a]. cbn [fst snd]. f_equal. ring. Qed.
  Lemma times_value n (k : K) P x : poly_value n (times k P) x = fmul k (poly_value n P x).
  Proof. rewrite !pv_lsum. unfold times. rewrite lsum_map, <- (lsum_mul KL). apply lsum_ext. intros [e a] _. cbn [fst snd]. ring. Qed.
  Lemma times_ray n (k : K) P Q y s o t : k <> f0 -> ray_value n (times k P) (times k Q) y s o t = ray_value n P Q y s o t.
  Proof.
    intros Hk. unfold ray_value. rewrite !times_value. set (a := poly_value n P _). set (b := poly_value n Q _). destruct (K_dec KL b f0) as [E|E].
    - rewrite E. replace (fmul k (@f0 K)) with (@f0 K) by ring. rewrite !(fl_div0 K KL). reflexivity.
    - field. auto.
  Qed.
  Lemma mdrive_ext ord c y s (bb bb' : list nat -> K -> K) : (forall o t, bb o t = bb' o t) -> forall ts st, mdrive ord c y s bb ts st = mdrive ord c y s bb' ts st.
  Proof.
    intros E. induction ts as [|t ts IH]; intros st; [reflexivity|]. cbn [mdrive]. rewrite E. destruct (minterpolate ord c y s st t (bb' (requested c st) t)) as [f| | | |]; try reflexivity. cbn [obind]. destruct f; [apply IH|reflexivity].
  Qed.
  Lemma normalised_keys n nd (P Q P' Q' : list (list Z * K)) b m sg : map fst P' = map fst P -> map fst Q' = map fst Q -> normalised_by n nd P Q b m sg -> normalised_by n nd P' Q' b m sg.
  Proof. intros E1 E2. unfold normalised_by, alone, least. destruct nd; rewrite E1, E2; auto. Qed.

  (** ---- combine_primes over the first prime ---- *)
  Variable ord : forall A : Type, list A -> list A.
  Hypothesis Ho : forall A (l : list A), Permutation (ord A l) l.
  Variable n : nat.

  Lemma qkrat_matches T (mm : list (list Z * K)) : Permutation mm (over F T) -> (forall t, In t T -> ~ (p | snd (snd t))%Z) ->
    exists T', Permutation T T' /\ Forall2 (qmatches p) T' (convert_to_mpz ord F mm).
  Proof.
    intros HP HT. unfold convert_to_mpz. pose proof (Permutation_trans (Ho _ mm) HP) as Q.
    assert (G : Forall2 (fun e t => qmatches p t (fst e, kv (snd e))) (over F T) T).
    { clear HP Q. unfold over. induction T as [|t T IH]; cbn [map]; [constructor|]. constructor; [|apply IH; intros u Hu; apply HT; right; exact Hu].
      cbn [fst snd]. split; [reflexivity|]. split; [apply kv_range|]. cbn [snd]. apply krat_residue. apply HT. left. reflexivity. }
    destruct (Permutation_Forall2 (Permutation_sym Q) G) as [T' [P1 P2]]. exists T'. split; [exact P1|].
    clear - P2. induction P2; cbn [map]; constructor; assumption.
  Qed.
  Definition is_norm (norm : option mon) (k : mon) : bool := match norm with Some k' => mon_eqb k k' | None => false end.
  Lemma split_fold norm : forall (l : list (mon * Z)) (co : list (mon * Z)) (g : list (mon * rn)) ns,
    fold_left (fun s e => let '(co, g, ns) := s in
        if match norm with Some k => mon_eqb (fst e) k | None => false end then (aerase co (fst e), aset g (fst e) (mk_rn 1 1), ns) else (co, g, add_non_solved ns (fst e))) l (co, g, ns) =
    (fold_left (fun co k => aerase co k) (filter (is_norm norm) (map fst l)) co, fold_left (fun g k => aset g k (mk_rn 1 1)) (filter (is_norm norm) (map fst l)) g,
     fold_left add_non_solved (filter (fun k => negb (is_norm norm k)) (map fst l)) ns).
  Proof.
    induction l as [|e l IH]; intros co g ns; [reflexivity|]. cbn [fold_left map filter]. fold (is_norm norm (fst e)). destruct (is_norm norm (fst e)); cbn [negb fold_left]; apply IH.
  Qed.
  Lemma groups_fold ks : (forall k, In k ks -> key_ok n k) -> forall ns W, groups ns W -> groups (fold_left add_non_solved ks ns) (W ++ ks).
  Proof.
    induction ks as [|k ks IH]; intros H ns W G; [rewrite app_nil_r; exact G|]. cbn [fold_left]. change (k :: ks) with ([k] ++ ks). rewrite app_assoc. apply IH; [intros k' I; apply H; right; exact I|]. apply (groups_add n); [exact G|apply H; left; reflexivity].
  Qed.
  Definition qothers (m : mon) (T : list qterm) : list qterm := filter (fun t => negb (mon_eqb (fst t) m)) T.
  Lemma qothers_perm m q T : NoDup (map fst T) -> In (m, q) T -> Permutation T ((m, q) :: qothers m T).
  Proof.
    unfold qothers. induction T as [|t T IH]; [contradiction|]. cbn [map filter]. intros ND H. inversion ND as [|? ? N1 N2]; subst. destruct H as [->|H].
    - cbn [fst] in *. rewrite mon_eqb_refl. cbn [negb]. constructor.
      assert (E : filter (fun t : qterm => negb (mon_eqb (fst t) m)) T = T); [|apply Permutation_refl'; symmetry; exact E]. clear - N1. induction T as [|u T IH]; [reflexivity|]. cbn [filter map] in *. rewrite mon_eqb_neq by (intros X; apply N1; left; exact X). cbn [negb]. f_equal. apply IH. intros X. apply N1. right. exact X.
    - rewrite mon_eqb_neq by (intros E; apply N1; rewrite E; apply (in_map fst) in H; exact H). cbn [negb]. rewrite perm_swap. constructor. apply IH; assumption.
  Qed.
  Lemma mon_eqb_sym (a b : mon) : mon_eqb a b = mon_eqb b a.
  Proof. destruct (mon_eqb_spec a b) as [E|E]; [subst; symmetry; apply mon_eqb_refl|]. symmetry. apply mon_eqb_neq. congruence. Qed.
  Lemma qmatches_others M m T : forall co, Forall2 (qmatches M) T co -> Forall2 (qmatches M) (qothers m T) (aerase co m).
  Proof.
    induction T as [|t T IH]; intros co H; inversion H as [|? e ? c' [E R] H']; subst; [constructor|]. unfold qothers, aerase in *. cbn [filter]. rewrite E, (mon_eqb_sym m).
    destruct (mon_eqb (fst t) m); cbn [negb]; [apply IH; exact H'|]. constructor; [split; assumption|apply IH; exact H'].
  Qed.
  Lemma filter_norm m ks : NoDup ks -> In m ks -> filter (is_norm (Some m)) ks = [m].
  Proof.
    induction ks as [|k ks IH]; intros ND H; [contradiction|]. cbn [filter is_norm]. inversion ND as [|? ? N1 N2]; subst. destruct (mon_eqb_spec k m) as [E|E].
    - subst k. f_equal. clear - N1. induction ks as [|k ks IH]; [reflexivity|]. cbn [filter is_norm]. rewrite mon_eqb_neq by (intros X; apply N1; left; exact X). apply IH. intros X. apply N1. right. exact X.
    - destruct H as [H|H]; [contradiction|]. apply IH; assumption.
  Qed.

  (** one side *)
  Lemma split_ok (norm : option mon) T co : (2 < p)%Z -> Forall2 (qmatches p) T co -> NoDup (map fst T) -> (forall k, In k (map fst T) -> key_ok n k) ->
    match norm with Some m => In (m, (1, 1)%Z) T | None => True end ->
    exists co' g ns T1 T2, split_side ord norm co = (co', g, ns) /\ qpart p T g co' (ord _ ns) T1 T2 /\ match norm with Some m => In (m, (1, 1)%Z) T1 | None => True end.
  Proof.
    intros Hp HM ND OK HI. unfold split_side. rewrite split_fold. pose proof (qmatches_keys _ _ _ HM) as EK.
    assert (PK : Permutation (map fst (ord _ co)) (map fst T)) by (eapply Permutation_trans; [apply Permutation_map; apply Ho|]; apply Permutation_refl'; exact EK).
    assert (FP : forall f (a b : list mon), Permutation a b -> Permutation (filter f a) (filter f b)).
    { clear. intros f a b. induction 1 as [|k l l' _ IH|k k' l|? ? ? _ IH1 _ IH2]; cbn [filter]; [constructor| | |eapply Permutation_trans; eassumption].
      - destruct (f k); [constructor|]; exact IH.
      - destruct (f k), (f k'); try reflexivity. apply perm_swap. }
    assert (GR : groups (ord _ (fold_left add_non_solved (filter (fun k => negb (is_norm norm k)) (map fst (ord _ co))) [])) (filter (fun k => negb (is_norm norm k)) (map fst T))).
    { eapply groups_order; [apply Permutation_sym; apply Ho|]. eapply groups_keys; [apply FP; exact PK|]. apply (groups_fold (filter (fun k => negb (is_norm norm k)) (map fst (ord _ co)))  ) with (W := []); [|apply groups_nil].
      intros k I. apply filter_In in I as [I _]. apply OK. apply (Permutation_in _ PK). exact I. }
    destruct norm as [m|].
    - assert (Ek : filter (is_norm (Some m)) (map fst (ord _ co)) = [m]).
      { apply filter_norm; [apply (Permutation_NoDup (Permutation_sym PK)); exact ND|]. apply (Permutation_in _ (Permutation_sym PK)). apply (in_map fst) in HI. exact HI. }
      rewrite Ek. cbn [fold_left]. eexists _, _, _, [(m, (1, 1)%Z)], (qothers m T). split; [reflexivity|]. split; [|left; reflexivity].
      split; [exact (qothers_perm m (1, 1)%Z T ND HI)|]. split; [reflexivity|]. split; [apply qmatches_others; exact HM|]. split.
      + assert (E : filter (fun k => negb (is_norm (Some m) k)) (map fst T) = map fst (qothers m T)). { unfold qothers. clear. induction T as [|t T IH]; [reflexivity|]. cbn [map filter is_norm]. destruct (mon_eqb (fst t) m); cbn [negb map]; rewrite <- IH; reflexivity. }
        rewrite <- E. exact GR.
      + intros t [<-|[]]. split; [split; [cbn; lia|reflexivity]|]. cbn [fst snd]. clear - Hp. lia.
    - assert (E1 : forall ks : list mon, filter (is_norm None) ks = []) by (induction ks; [reflexivity|assumption]).
      assert (E2 : forall ks : list mon, filter (fun k => negb (is_norm None k)) ks = ks) by (induction ks as [|k ks IH]; [reflexivity|exact (f_equal (cons k) IH)]).
      rewrite (E1 (map fst (ord _ co))). cbn [fold_left]. rewrite (E2 (map fst T)) in GR. eexists _, _, _, [], T. split; [reflexivity|]. split; [|exact I]. split; [reflexivity|]. split; [constructor|]. split; [exact HM|]. split; [exact GR|intros t []].
  Qed.

  Lemma combine_first_ok (N D : list qterm) in_den m (r : mres K) : (2 < p)%Z -> NoDup (map fst N) -> NoDup (map fst D) -> (forall k, In k (map fst (N ++ D)) -> key_ok n k) ->
    Permutation (mr_num r) (over F N) -> Permutation (mr_den r) (over F D) -> (forall t, In t (N ++ D) -> ~ (p | snd (snd t))%Z) ->
    mr_norm_den r = in_den -> mr_norm r = m -> In (m, (1, 1)%Z) (if in_den then D else N) ->
    qinv N D in_den m p (qcombine_first ord F 0 r) /\ qr_prime_number (qcombine_first ord F 0 r) = 1%Z.
  Proof.
    intros Hp NN ND OK PN PD Hf Eb Em I1.
    destruct (qkrat_matches N (mr_num r) PN) as [TN [QN MN]]; [intros t Ht; apply Hf; apply in_or_app; left; exact Ht|].
    destruct (qkrat_matches D (mr_den r) PD) as [TD [QD MD]]; [intros t Ht; apply Hf; apply in_or_app; right; exact Ht|].
    destruct (split_ok (if in_den then None else Some m) TN _ Hp MN) as [cn [gn [nn [T1 [T2 [En [Sn In']]]]]]].
    - apply (Permutation_NoDup (Permutation_map fst QN)). exact NN.
    - intros k I. apply OK. rewrite map_app. apply in_or_app. left. apply (Permutation_in _ (Permutation_sym (Permutation_map fst QN))). exact I.
    - destruct in_den; [exact I|]. apply (Permutation_in _ QN). exact I1.
    - destruct (split_ok (if in_den then Some m else None) TD _ Hp MD) as [cd [gd [nd [S1 [S2 [Ed [Sd Id]]]]]]].
      + apply (Permutation_NoDup (Permutation_map fst QD)). exact ND.
      + intros k I. apply OK. rewrite map_app. apply in_or_app. right. apply (Permutation_in _ (Permutation_sym (Permutation_map fst QD))). exact I.
      + destruct in_den; [|exact I]. apply (Permutation_in _ QD). exact I1.
      + unfold qcombine_first. rewrite Eb, Em, En, Ed. split; [|reflexivity]. unfold qinv. cbn [qr_prime_number qr_new_prime qr_first_feed qr_zero_counter qr_done qr_combined_prime qr_cni qr_cdi qr_gni qr_gdi qr_nsn qr_nsd qr_eqn].
        do 4 (split; [reflexivity|]). split; [lia|]. split; [rewrite !(Permutation_length (Ho _ _)); reflexivity|]. split; [exact Hp|]. exists T1, T2, S1, S2. split; [|split].
        * destruct Sn as [A B]. split; [exact (Permutation_trans QN A)|exact B].
        * destruct Sd as [A B]. split; [exact (Permutation_trans QD A)|exact B].
        * destruct in_den; assumption.
  Qed.
End Prime.

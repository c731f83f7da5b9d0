(** Proofs for shifted systems of RatReconst over several primes, part 3: the first prime. *)
From Coq Require Import Znumtheory Permutation.
From Verif Require Import Machine NumTheory FFInt FField FSum LinAlg FPoly PolyFF PolySpec PolyFFProofs PolyFFProofs2 PolyFFProofs3 RatNum Modular Primes PField RatUni RatUniSpec RatUniProofs RatUniFirst RatUniNext RatUniRun Thiele Newton PolyRec PolyRecSpec PolyRecMath PolyRatSpec RatMulti RatMultiSpec RatMultiRunSpec RatMultiMath RatMultiShift RatMultiMain RatMultiRun RatMultiQ RatMultiQSpec RatMultiQCoef RatMultiQSide RatMultiQMaps RatMultiQCheck RatMultiQRays RatMultiQRun RatMultiQFirst RatMultiQMain RatSing RatSingSpec RatSingRun RatSingRunSpec RatSingNext Props_RatMulti.
Open Scope nat_scope.

Section Left.
  Variable c : mcfg.
  Local Notation n := (mc_n c).
  Variable s : msession.
  Local Notation F := (ms_F s).
  Local Notation K := (fld (ms_F s)).
  Local Notation KL := (HK (ms_F s)).
  Add Field KLEFT : (fl_field K KL).
  Local Notation sh := (ms_s s).

  Lemma value_at_zero (P : list (list Z * K)) G : polynomial n G P -> poly_value n P (fun _ => f0) = poly_value n (hom 0 P) (fun _ => f0).
  Proof.
    intros HP. pose proof (polynomial_wf n G P HP) as W. pose proof (hom_value KL n (tdegree P) P (fun _ => f0) f0 W) as E.
    rewrite (pv_ext_x n P _ (fun _ => f0)) in E by (intros i _; ring). rewrite E. unfold ueval. rewrite (fsum_S_l KL). rewrite (fsum_0 KL); [cbn [pw]; ring|]. intros i _. cbn [pw]. ring.
  Qed.
  Lemma hom_times (k : K) T d : hom d (times k (over F T)) = [] <-> forall e, In e (map fst T) -> total e <> Z.of_nat d.
  Proof.
    split.
    - intros E e I Te. apply in_map_iff in I as [t [<- I]]. assert (J : In (fst t, fmul k (@krat K (snd t))) (hom d (times k (over F T)))); [|rewrite E in J; exact J].
      apply in_hom. split; [|exact Te]. unfold times, over. rewrite map_map. apply in_map_iff. exists t. auto.
    - intros H. destruct (hom d (times k (over F T))) as [|[e a] l] eqn:E; [reflexivity|]. exfalso. assert (J : In (e, a) (hom d (times k (over F T)))) by (rewrite E; left; reflexivity).
      apply in_hom in J as [J Te]. unfold times, over in J. rewrite map_map in J. apply in_map_iff in J as [t [X J]]. cbn [fst snd] in X. injection X as <- _. apply (H (fst t)); [apply in_map; exact J|exact Te].
  Qed.
  Lemma hom_keys_degree (P : list (list Z * K)) A d : (forall e, In e (map fst P) <-> In e A) -> (hom d P <> [] <-> has_degree d A).
  Proof.
    intros H. split.
    - intros E. destruct (hom d P) as [|[e a] l] eqn:Eh; [contradiction|]. assert (J : In (e, a) (hom d P)) by (rewrite Eh; left; reflexivity). apply in_hom in J as [J Te]. exists e. split; [|exact Te]. apply H. apply (in_map fst _ _ J).
    - intros [e [I Te]] E. apply H in I. apply in_map_iff in I as [[e' a] [X I]]. cbn [fst] in X. subst e'. assert (J : In (e, a) (hom d P)) by (apply in_hom; auto). rewrite E in J. exact J.
  Qed.
  Lemma keys_after (k : K) T A Ts (v : nat -> K) : k <> f0 -> distinct (S (qdegree T)) v -> translated n sh (times k (over F T)) Ts -> monomials_after n F sh T A -> forall e, In e (map fst Ts) <-> In e A.
  Proof.
    intros Hk Hv [P1 [P2 P3]] [Ps [[Q1 [Q2 Q3]] Q4]] e. rewrite <- Q4. rewrite (tdegree_times F k T) in P1. rewrite (tdegree_over F T) in Q1.
    assert (Pm : Permutation (times k Ps) Ts).
    { apply (coefficients_unique KL n (qdegree T) v); [exact Hv| | | | |].
      - rewrite (times_keys F). apply Q1.
      - apply P1.
      - intros e' a I. unfold times in I. apply in_map_iff in I as [[e0 a0] [X I]]. cbn [fst snd] in X. injection X as <- <-. destruct Q1 as [_ [_ Q1]]. destruct (Q1 e0 a0 I) as [X1 [X2 [X3 _]]]. split; [|auto]. intros Z. apply X1. apply (fmul_0 KL) in Z as [Z|Z]; [contradiction|exact Z].
      - intros e' a I. destruct P1 as [_ [_ P1]]. destruct (P1 e' a I) as [X1 [X2 [X3 _]]]. auto.
      - intros x. rewrite (times_value F), Q3, P3, (times_value F). reflexivity. }
    rewrite <- (times_keys F k Ps). split; intros I; [apply (Permutation_in _ (Permutation_sym (Permutation_map fst Pm)))|apply (Permutation_in _ (Permutation_map fst Pm))]; exact I.
  Qed.
  Lemma over_polynomial G (k : K) T : polynomial n G (times k (over F T)) -> polynomial n G (over F T).
  Proof.
    intros [A [B C]]. split; [|split].
    - intros E. apply A. unfold times. rewrite E. reflexivity.
    - rewrite <- (times_keys F k). exact B.
    - intros e a I. destruct (C e (fmul k a)) as [X Y]; [unfold times; apply in_map_iff; exists (e, a); auto|]. split; [|exact Y]. intros Z. apply X. rewrite Z. ring.
  Qed.
  Lemma count_unknown (b : bool) (U L : list nat) : NoDup U -> NoDup L -> (forall d, In d U <-> (b = true -> d <> 0) /\ In d L) -> (b = true -> In 0 L) -> length L = length U + (if b then 1 else 0).
  Proof.
    intros NU NL H H0. destruct b.
    - assert (P : Permutation L (0 :: U)).
      { apply NoDup_Permutation; [exact NL| |].
        - constructor; [|exact NU]. intros I. apply H in I as [I _]. apply I; reflexivity.
        - intros d. split; [intros I; destruct (Nat.eq_dec d 0) as [->|Z]; [left; reflexivity|right; apply H; auto]|intros [<-|I]; [apply H0; reflexivity|apply H; exact I]]. }
      rewrite (Permutation_length P). cbn [length]. lia.
    - assert (P : Permutation L U) by (apply NoDup_Permutation; [exact NL|exact NU|]; intros d; rewrite H; split; [intros I; split; [discriminate|exact I]|tauto]).
      rewrite (Permutation_length P). lia.
  Qed.

  Lemma left_for_next N D N1 D1 (k k1 : K) Ns Ds (r : mres K) AN AD UN UD in_den m :
    interpolable n (mc_norm_den c) (mc_bt c) (times k (over F N)) (times k (over F D)) Ns Ds (ms_y s) sh (ms_ts s) -> k <> f0 ->
    ~ In (zeros n) (map fst (N ++ D)) -> monomials_after n F sh N AN -> monomials_after n F sh D AD ->
    unknown_degrees (negb (mc_norm_den c)) N AN UN -> unknown_degrees (mc_norm_den c) D AD UD ->
    map fst N1 = map fst N -> map fst D1 = map fst D -> times k (over F N) = times k1 (over F N1) -> times k (over F D) = times k1 (over F D1) ->
    mr_norm_den r = in_den -> mr_norm r = m ->
    (mr_degs r = (tdegree (times k (over F N)), tdegree (times k (over F D))) /\
     (forall d, In d (fst (mr_zeros r)) <-> hom d Ns <> [] /\ hom d (times k (over F N)) = []) /\ (forall d, In d (snd (mr_zeros r)) <-> hom d Ds <> [] /\ hom d (times k (over F D)) = []) /\
     (exists LN LD, NoDup LN /\ NoDup LD /\ (forall d, In d LN <-> hom d Ns <> []) /\ (forall d, In d LD <-> hom d Ds <> []) /\ S (mr_eqn r) = length LN + length LD) /\
     ((exists i, i < n /\ sh i <> f0) -> shift_terms n (tdegree (times k (over F N))) (times k (over F N)) Ns (fst (mr_subs r)) /\
        shift_terms n (tdegree (times k (over F D))) (times k (over F D)) Ds (snd (mr_subs r)))) ->
    fixed_by_first (mc_norm_den c) N1 D1 AN AD in_den m UN UD (sing_fixed r) /\
    terms_of_shift n (mc_norm_den c) N1 D1 AN AD F (fst (mr_subs r)) (snd (mr_subs r)).
  Proof.
    intros IP Hk NC MAN MAD [NUN UUN] [NUD UUD] KN KD TN TD Er Em [L1 [L2 [L3 [[LN [LD [NLN [NLD [IN [ID L4]]]]]] L5]]]].
    destruct (ip_field _ _ _ _ _ _ _ _ _ _ IP) as [v Hv]. rewrite !(tdegree_times F) in *.
    assert (GN : qdegree N1 = qdegree N) by (rewrite <- (tdegree_times F k1 N1), <- TN; apply tdegree_times). assert (GD : qdegree D1 = qdegree D) by (rewrite <- (tdegree_times F k1 D1), <- TD; apply tdegree_times).
    assert (VN : distinct (S (qdegree N)) v) by (intros i j Li Lj; apply Hv; lia). assert (VD : distinct (S (qdegree D)) v) by (intros i j Li Lj; apply Hv; lia).
    pose proof (keys_after k N AN Ns v Hk VN (ip_nums _ _ _ _ _ _ _ _ _ _ IP) MAN) as AKN. pose proof (keys_after k D AD Ds v Hk VD (ip_dens _ _ _ _ _ _ _ _ _ _ IP) MAD) as AKD.
    pose proof (fun d => hom_keys_degree Ns AN d AKN) as HDN. pose proof (fun d => hom_keys_degree Ds AD d AKD) as HDD.
    pose proof (ip_num _ _ _ _ _ _ _ _ _ _ IP) as PN. pose proof (ip_den _ _ _ _ _ _ _ _ _ _ IP) as PD. rewrite (tdegree_times F) in PN, PD.
    set (nside := if mc_norm_den c then D else N). set (nA := if mc_norm_den c then AD else AN).
    assert (Z0 : forall T, (T = N \/ T = D) -> polynomial n (qdegree T) (times k (over F T)) -> forall e, In e (map fst T) -> total e <> Z.of_nat 0).
    { intros T ET PT e I Te. apply NC. assert (Ee : e = zeros n).
      { assert (I' : In e (map fst (times k (over F T)))) by (rewrite (times_keys F); unfold over; rewrite map_map; exact I). apply in_map_iff in I' as [[e' a] [X I']]. cbn [fst] in X. subst e'. destruct PT as [_ [_ PT]]. destruct (PT e a I') as [_ [Le [Pe _]]]. rewrite <- Le. apply total_zero_zeros; [intros i; apply Pe|exact Te]. }
      subst e. rewrite map_app. apply in_or_app. destruct ET as [-> | ->]; auto. }
    assert (ZN : hom 0 (times k (over F N)) = []) by (apply hom_times; apply Z0; auto). assert (ZD : hom 0 (times k (over F D)) = []) by (apply hom_times; apply Z0; auto).
    pose proof (ip_norm _ _ _ _ _ _ _ _ _ _ IP) as NRM.
    assert (Z1 : forall P, polynomial n (tdegree P) P -> hom 0 P = [] -> poly_value n P (fun _ => f0) = f0) by (intros P HP E; rewrite (value_at_zero P _ HP), E; reflexivity).
    assert (Z2 : forall P Ps : list (list Z * K), translated n sh P Ps -> poly_value n P sh = f1 -> hom 0 Ps <> []).
    { intros P Ps [T1 [T2 T3]] E1 E2. apply (F_1_neq_0 (fl_field K KL)). rewrite <- E1. rewrite (pv_ext_x n P sh (fun i => fadd f0 (sh i))) by (intros i _; ring). rewrite <- (T3 (fun _ => f0)). apply Z1; [rewrite T2; exact T1|exact E2]. }
    assert (Sh : exists i, i < n /\ sh i <> f0).
    { destruct (existsb (fun i => negb (feqb (sh i) f0)) (seq 0 n)) eqn:Ex.
      - apply existsb_exists in Ex as [i [I Ei]]. apply in_seq in I. exists i. split; [lia|]. intros Z. rewrite Z, (feqb_refl KL) in Ei. discriminate.
      - exfalso. assert (As : forall i, i < n -> sh i = f0).
        { intros i Li. destruct (feqb (sh i) f0) eqn:E; [apply (fl_eqb K KL); exact E|]. exfalso. assert (X : existsb (fun i => negb (feqb (sh i) f0)) (seq 0 n) = true) by (apply existsb_exists; exists i; split; [apply in_seq; lia|rewrite E; reflexivity]). rewrite X in Ex. discriminate. }
        apply (F_1_neq_0 (fl_field K KL)). rewrite <- NRM. rewrite (pv_ext_x n _ sh (fun _ => f0)) by (intros i Li; apply As; exact Li). destruct (mc_norm_den c); apply Z1; try assumption; rewrite (tdegree_times F); assumption. }
    split.
    - constructor; cbn [sing_fixed sx_norm_den sx_norm sx_degn sx_degd sx_zeron sx_zerod sx_eqn].
      + auto.
      + rewrite L1, GN, GD. auto.
      + intros d. rewrite L2, HDN, KN, hom_times. reflexivity.
      + intros d. rewrite L3, HDD, KD, hom_times. reflexivity.
      + split; split; try assumption; intros d; [rewrite UUN, KN|rewrite UUD, KD]; reflexivity.
      + assert (CN : length LN = length UN + (if negb (mc_norm_den c) then 1 else 0)).
        { apply count_unknown; [exact NUN|exact NLN| |].
          - intros d. rewrite UUN, IN, HDN. split; [|tauto]. intros [X|X]; [|exact X]. split; [intros _ ->; destruct X as [e [I Te]]; exact (Z0 N (or_introl eq_refl) PN e I Te)|].
            apply HDN. apply (ip_layers _ _ _ _ _ _ _ _ _ _ IP). intros E. destruct X as [e [I Te]]. exact (proj1 (hom_times k N d) E e I Te).
          - intros Eb. apply IN. apply Bool.negb_true_iff in Eb. rewrite Eb in NRM. apply (Z2 _ _ (ip_nums _ _ _ _ _ _ _ _ _ _ IP) NRM). }
        assert (CD : length LD = length UD + (if mc_norm_den c then 1 else 0)).
        { apply count_unknown; [exact NUD|exact NLD| |].
          - intros d. rewrite UUD, ID, HDD. split; [|tauto]. intros [X|X]; [|exact X]. split; [intros _ ->; destruct X as [e [I Te]]; exact (Z0 D (or_intror eq_refl) PD e I Te)|].
            apply HDD. apply (ip_layers _ _ _ _ _ _ _ _ _ _ IP). intros E. destruct X as [e [I Te]]. exact (proj1 (hom_times k D d) E e I Te).
          - intros Eb. apply ID. rewrite Eb in NRM. apply (Z2 _ _ (ip_dens _ _ _ _ _ _ _ _ _ _ IP) NRM). }
        rewrite CN, CD in L4. destruct (mc_norm_den c); cbn [negb] in L4; lia.
    - destruct (L5 Sh) as [S1 S2]. exists sh, k1, Ns, Ds. rewrite GN, GD, <- TN, <- TD. split; [|auto].
      assert (CH : forall d, d <= max_degree (times k (over F N)) (times k (over F D)) -> characteristic_above K d) by (intros d Ld j Lj; apply (ip_char _ _ _ _ _ _ _ _ _ _ IP); lia).
      unfold max_degree in CH. rewrite !(tdegree_times F) in CH.
      split; [|split].
      + rewrite <- (times_value F). rewrite <- NRM. destruct (mc_norm_den c); [rewrite TD|rewrite TN]; reflexivity.
      + split; [rewrite GN; apply (over_polynomial _ k1); rewrite <- TN; exact PN|]. split; [rewrite <- TN; apply (ip_nums _ _ _ _ _ _ _ _ _ _ IP)|]. split; [exact AKN|]. rewrite GN. split; [exists v; exact VN|apply CH; lia].
      + split; [rewrite GD; apply (over_polynomial _ k1); rewrite <- TD; exact PD|]. split; [rewrite <- TD; apply (ip_dens _ _ _ _ _ _ _ _ _ _ IP)|]. split; [exact AKD|]. rewrite GD. split; [exists v; exact VD|apply CH; lia].
  Qed.
  Lemma back_over T T1 (k k' q : K) : times (fmul k' k) (over F T) = over F T1 -> fmul (fmul k' k) q = f1 -> times k (over F T) = times (fmul k q) (over F T1).
  Proof. intros <- E. rewrite (times_times F). f_equal. transitivity (fmul k (fmul (fmul k' k) q)); [rewrite E; ring|ring]. Qed.
End Left.

Section First.
  Variable ord : forall A : Type, list A -> list A.
  Hypothesis Ho : forall A (l : list A), Permutation (ord A l) l.
  Variable c : mcfg.
  Local Notation n := (mc_n c).

  Lemma first_prime_singular N D s AN AD UN UD : rational_function_n n N D -> first_session c N D s ->
    ~ In (zeros n) (map fst (N ++ D)) -> monomials_after n (ms_F s) (ms_s s) N AN -> monomials_after n (ms_F s) (ms_s s) D AD ->
    unknown_degrees (negb (mc_norm_den c)) N AN UN -> unknown_degrees (mc_norm_den c) D AD UD ->
    (exists in_den m, normalised_by n (mc_norm_den c) (over (ms_F s) N) (over (ms_F s) D) in_den m true) ->
    exists in_den m N1 D1 r, singular_normalisation c (ms_F s) N D in_den m N1 D1 /\ 2 <= n /\ ms_ts s <> [] /\ ms_bb s (repeat 1 (n - 1)) (nth 0 (ms_ts s) f0) <> f0 /\
      mdrive ord c (ms_y s) (ms_s s) (ms_bb s) (ms_ts s) (MFirst (mk_thiele [] [])) = Ret (MResult r) /\ mr_singular r = true /\
      qinv N1 D1 in_den m (pf_mod (ms_F s)) (qcombine_first ord (ms_F s) 0 r) /\ qr_prime_number (qcombine_first ord (ms_F s) 0 r) = 1%Z /\
      keys_fit c N1 /\ keys_fit c D1 /\ (forall t, In t (N1 ++ D1) -> lowest (snd t)) /\
      (Z.of_nat (length N1 + length D1) < 2 ^ 31)%Z /\ ~ In (zeros n) (map fst N1) /\ ~ In (zeros n) (map fst D1) /\
      fixed_by_first (mc_norm_den c) N1 D1 AN AD in_den m UN UD (sing_fixed r) /\
      terms_of_shift n (mc_norm_den c) N1 D1 AN AD (ms_F s) (fst (mr_subs r)) (snd (mr_subs r)).
  Proof.
    intros RF FSess NC0 MAN MAD UUN UUD. revert FSess. intros [Hbb [k [Ns [Ds [IP [CF MP]]]]]] HN. set (F := ms_F s) in *. set (K := fld F) in *. set (y := ms_y s) in *. set (sh := ms_s s) in *. set (ts := ms_ts s) in *.
    pose proof (HK F) as KL.
    assert (Hk : k <> f0).
    { pose proof (ip_norm _ _ _ _ _ _ _ _ _ _ IP) as X. intros E. apply (F_1_neq_0 (fl_field K KL)). rewrite <- X. destruct (mc_norm_den c); rewrite (times_value F), E; apply (f0_l KL). }
    assert (EB : forall o t, ms_bb s o t = ray_value n (times k (over F N)) (times k (over F D)) y sh o t) by (intros o t; rewrite (times_ray F) by exact Hk; apply Hbb).
    destruct (C48_rational_function_recovered K KL ord Ho c _ _ _ _ _ _ _ IP CF (length ts) (le_n _)) as [out [E H]]. rewrite firstn_all in E.
    rewrite <- (mdrive_ext F ord c y sh (ms_bb s) _ EB) in E. destruct out as [x|r]; [exfalso; exact (Nat.lt_irrefl _ (Nat.lt_le_trans _ _ _ (proj1 H) MP))|]. destruct H as [k' [a [Ia [Ek [PN [PD [NB _]]]]]]].
    assert (NB' : normalised_by n (mc_norm_den c) (over F N) (over F D) (mr_norm_den r) (mr_norm r) (mr_singular r)) by (eapply (normalised_keys F); [| |exact NB]; symmetry; apply (times_keys F)).
    assert (Sg : mr_singular r = true).
    { destruct HN as [b0 [m0 H0]]. unfold normalised_by in H0, NB'. destruct (in_dec _ _ _); [destruct H0 as [_ [_ X]]; discriminate X|].
      destruct H0 as [[_ [_ X]]|[[_ [_ [_ X]]]|[X1 [X2 _]]]]; [discriminate X|discriminate X|].
      destruct NB' as [[_ [Y _]]|[[_ [_ [Y _]]]|[_ [_ [_ [_ Y]]]]]]; [exfalso; exact (X1 _ Y)|exfalso; exact (X2 _ Y)|exact Y]. }
    rewrite Sg in NB'. set (in_den := mr_norm_den r) in *. set (m := mr_norm r) in *.
    assert (Hterm : forall t, In t (N ++ D) -> @krat K (snd t) <> f0).
    { intros t Ht Z. assert (PP : exists G P, polynomial n G (times k P) /\ (P = over F N \/ P = over F D) /\ In (fst t, @krat K (snd t)) P).
      { apply in_app_or in Ht as [Ht|Ht]; [exists (tdegree (times k (over F N))), (over F N)|exists (tdegree (times k (over F D))), (over F D)].
        - split; [apply (ip_num _ _ _ _ _ _ _ _ _ _ IP)|]. split; [auto|]. unfold over. apply in_map_iff. exists t. auto.
        - split; [apply (ip_den _ _ _ _ _ _ _ _ _ _ IP)|]. split; [auto|]. unfold over. apply in_map_iff. exists t. auto. }
      destruct PP as [G [P [[_ [_ PP]] [_ IPt]]]]. destruct (PP (fst t) (fmul k (krat (snd t)))) as [X _].
      - unfold times. apply in_map_iff. exists (fst t, @krat K (snd t)). auto.
      - apply X. rewrite Z. clear - KL. apply (mul_f0 KL). }
    assert (Ia' : exists a0, In (m, a0) (if in_den then D else N) /\ a = fmul k (krat a0)).
    { assert (G : forall T, In (m, a) (times k (over F T)) -> exists a0, In (m, a0) T /\ a = fmul k (krat a0)).
      { intros T IT. unfold times, over in IT. rewrite map_map in IT. apply in_map_iff in IT as [[e q] [X IT]]. cbn [fst snd] in X. pose proof (f_equal fst X) as X1. pose proof (f_equal snd X) as X2. cbn [fst snd] in X1, X2. exists q. split; [rewrite <- X1; exact IT|symmetry; exact X2]. }
      destruct in_den; apply G; exact Ia. }
    destruct Ia' as [a0 [Ia0 ->]]. assert (Ik : In (m, a0) (N ++ D)) by (apply in_or_app; destruct in_den; auto).
    destruct (rf_terms _ _ _ RF (m, a0) Ik) as [A1 [A2 _]]. cbn [snd] in A1, A2. pose proof (proj1 A2) as A3.
    assert (HL : forall T, (T = N \/ T = D) -> forall t, In t T -> In t (N ++ D)) by (intros T [-> | ->] t Ht; apply in_or_app; auto).
    destruct (divided_exists a0 N A1) as [N1 DN]; [intros t Ht; apply (rf_terms _ _ _ RF); apply (HL N); auto|].
    destruct (divided_exists a0 D A1) as [D1 DD]; [intros t Ht; apply (rf_terms _ _ _ RF); apply (HL D); auto|].
    assert (Ekk : fmul (fmul k' k) (@krat K a0) = f1) by (rewrite <- Ek; symmetry; apply (mul_assoc' KL)).
    destruct (divided_over F a0 N N1 _ DN Ekk) as [EN FN]; [intros t Ht; apply Hterm; apply (HL N); auto|].
    destruct (divided_over F a0 D D1 _ DD Ekk) as [ED FD]; [intros t Ht; apply Hterm; apply (HL D); auto|].
    assert (PN' : Permutation (mr_num r) (over F N1)) by exact (eq_ind _ (fun X => Permutation (mr_num r) X) PN _ (eq_trans (times_times F k' k (over F N)) EN)).
    assert (PD' : Permutation (mr_den r) (over F D1)) by exact (eq_ind _ (fun X => Permutation (mr_den r) X) PD _ (eq_trans (times_times F k' k (over F D)) ED)).
    assert (KF : forall T T1, divided a0 T T1 -> (T = N \/ T = D) -> keys_fit c T1).
    { intros T T1 DV ET. split; [rewrite (divided_keys _ _ _ DV); destruct ET as [-> | ->]; [apply (rf_num_keys _ _ _ RF)|apply (rf_den_keys _ _ _ RF)]|].
      rewrite (divided_keys _ _ _ DV). intros e He. apply in_map_iff in He as [t [<- Ht]]. destruct (rf_terms _ _ _ RF t (HL T ET t Ht)) as [_ [_ X]]. exact X. }
    pose proof (KF N N1 DN (or_introl eq_refl)) as KN. pose proof (KF D D1 DD (or_intror eq_refl)) as KD.
    assert (I1 : In (m, (1, 1)%Z) (if in_den then D1 else N1)). { destruct in_den; [apply (divided_one a0 D)|apply (divided_one a0 N)]; assumption. }
    assert (Fin : forall t, In t (N1 ++ D1) -> ~ (pf_mod F | snd (snd t))%Z) by (intros t Ht; apply in_app_or in Ht as [Ht|Ht]; auto).
    assert (Hp : (2 < pf_mod F)%Z) by (destruct (ip_field _ _ _ _ _ _ _ _ _ _ IP) as [v Hv]; exact (three_values F v _ (Nat.le_add_l _ _) Hv)).
    destruct (combine_first_ok F ord Ho n N1 D1 in_den m r Hp (proj1 KN) (proj1 KD)) as [Q1 Q2]; try assumption; try reflexivity.
    { intros e He. rewrite map_app in He. apply in_app_or in He as [He|He]; [apply KN|apply KD]; exact He. }
    exists in_den, m, N1, D1, r. split; [exists a0; auto|]. split; [apply (ip_n _ _ _ _ _ _ _ _ _ _ IP)|].
    split. { intros E0. pose proof (ip_points _ _ _ _ _ _ _ _ _ _ IP) as X. fold ts in E0. rewrite E0 in X. cbn [length] in X. clear - X. lia. }
    split. { intros Z. apply (ip_first _ _ _ _ _ _ _ _ _ _ IP). unfold first_value, point, ones. rewrite <- EB. exact Z. }
    split; [exact E|]. split; [exact Sg|]. split; [exact Q1|]. split; [exact Q2|]. split; [exact KN|]. split; [exact KD|]. split.
    { intros t Ht. apply in_app_or in Ht as [Ht|Ht]; [exact (divided_lowest _ _ _ DN t Ht)|exact (divided_lowest _ _ _ DD t Ht)]. }
    split; [rewrite (divided_length _ _ _ DN), (divided_length _ _ _ DD); apply (rf_size _ _ _ RF)|].
    assert (NN : ~ In (zeros n) (map fst N1)) by (rewrite (divided_keys _ _ _ DN); intros I; apply NC0; rewrite map_app; apply in_or_app; auto).
    assert (ND : ~ In (zeros n) (map fst D1)) by (rewrite (divided_keys _ _ _ DD); intros I; apply NC0; rewrite map_app; apply in_or_app; auto).
    split; [exact NN|]. split; [exact ND|].
    apply (left_for_next c s N D N1 D1 k (fmul k (krat a0)) Ns Ds r AN AD UN UD in_den m IP Hk NC0 MAN MAD UUN UUD (divided_keys _ _ _ DN) (divided_keys _ _ _ DD)
      (back_over s N N1 k k' (krat a0) EN Ekk) (back_over s D D1 k k' (krat a0) ED Ekk) eq_refl eq_refl).
    apply (C48_what_the_first_prime_leaves K KL ord Ho c _ _ _ _ _ _ _ IP CF (length ts) r (le_n _)). rewrite firstn_all, <- (mdrive_ext F ord c y sh (ms_bb s) _ EB). exact E.
  Qed.

  Lemma sing_reconstruct_first s l : ms_ts s <> [] -> ms_bb s (repeat 1 (n - 1)) (nth 0 (ms_ts s) f0) <> f0 ->
    forall r, mdrive ord c (ms_y s) (ms_s s) (ms_bb s) (ms_ts s) (MFirst (mk_thiele [] [])) = Ret (MResult r) -> mr_singular r = true ->
    sing_reconstruct ord c s l = sing_run ord c (sing_fixed r) (qcombine_first ord (ms_F s) 0 r) (first_terms (ms_F s) r) l.
  Proof.
    intros Ht Hv r E Sg. unfold sing_reconstruct. destruct (ms_ts s) as [|t ts] eqn:Et; [contradiction|]. cbn [nth] in Hv.
    destruct (feqb (ms_bb s (repeat 1 (n - 1)) t) f0) eqn:Ez; [apply (fl_eqb _ (HK (ms_F s))) in Ez; contradiction|]. rewrite E. cbn [obind]. rewrite Sg. reflexivity.
  Qed.
End First.

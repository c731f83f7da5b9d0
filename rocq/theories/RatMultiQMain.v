(** Proofs for RatReconst in several variables over several primes, part 8: the first prime. *)
From Coq Require Import Znumtheory Permutation.
From Verif Require Import Machine NumTheory FFInt FField FSum LinAlg FPoly PolyFF PolySpec PolyFFProofs PolyFFProofs2 PolyFFProofs3 RatNum Modular Primes PField RatUni RatUniSpec RatUniProofs RatUniFirst RatUniNext RatUniRun Thiele Newton PolyRec PolyRecSpec PolyRecMath PolyRatSpec RatMulti RatMultiSpec RatMultiRunSpec RatMultiMath RatMultiShift RatMultiMain RatMultiQ RatMultiQSpec RatMultiQCoef RatMultiQSide RatMultiQMaps RatMultiQCheck RatMultiQRays RatMultiQRun RatMultiQFirst Props_RatMulti.
Open Scope nat_scope.

Lemma total_zeros n : total (zeros n) = 0%Z.
Proof. unfold zeros. induction n as [|n IH]; [reflexivity|]. cbn [repeat]. rewrite total_cons, IH. reflexivity. Qed.
Lemma total_nonneg e : (forall i, (0 <= nth i e 0)%Z) -> (0 <= total e)%Z.
Proof.
  induction e as [|a e IH]; intros H; [cbn; lia|]. rewrite total_cons. specialize (IH (fun i => H (S i))). specialize (H 0). cbn [nth] in H. lia.
Qed.
Lemma total_zero_zeros e : (forall i, (0 <= nth i e 0)%Z) -> total e = 0%Z -> e = zeros (length e).
Proof.
  induction e as [|a e IH]; intros H E; [reflexivity|]. rewrite total_cons in E. pose proof (total_nonneg e (fun i => H (S i))). pose proof (H 0) as Ha. cbn [nth] in Ha. unfold zeros in *. cbn [length repeat]. rewrite <- IH; [f_equal; lia|intros i; exact (H (S i))|lia].
Qed.

Section Small.
  Context {K : fops} (HK : flaws K).
  Add Field KSM : (fl_field K HK).
  Lemma mul_f0 (x : K) : fmul x f0 = f0. Proof. ring. Qed.
  Lemma f0_l (x : K) : fmul f0 x = f0. Proof. ring. Qed.
  Lemma mul_assoc' (x y z : K) : fmul x (fmul y z) = fmul (fmul x y) z. Proof. ring. Qed.
End Small.

Section First.
  Variable ord : forall A : Type, list A -> list A.
  Hypothesis Ho : forall A (l : list A), Permutation (ord A l) l.
  Variable c : mcfg.
  Local Notation n := (mc_n c).

  Lemma three_values (F : pfield) (v : nat -> fld F) k : 3 <= k -> distinct k v -> (2 < pf_mod F)%Z.
  Proof.
    intros Hk H. pose proof (kv_range F (v 0)). pose proof (kv_range F (v 1)). pose proof (kv_range F (v 2)).
    assert (A : forall i j, i < 3 -> j < 3 -> i <> j -> kv (v i) <> kv (v j)). { intros i j Hi Hj D E. apply D. apply H; try lia. apply (kv_inj F). exact E. }
    pose proof (A 0 1 ltac:(lia) ltac:(lia) ltac:(lia)). pose proof (A 0 2 ltac:(lia) ltac:(lia) ltac:(lia)). pose proof (A 1 2 ltac:(lia) ltac:(lia) ltac:(lia)). lia.
  Qed.

  Lemma first_prime_ok N D s : rational_function_n n N D -> first_session c N D s ->
    (exists in_den m, normalised_by n (mc_norm_den c) (over (ms_F s) N) (over (ms_F s) D) in_den m false) ->
    exists in_den m N1 D1 r, normalisation c (ms_F s) N D in_den m N1 D1 /\ 2 <= n /\ ms_ts s <> [] /\ ms_bb s (repeat 1 (n - 1)) (nth 0 (ms_ts s) f0) <> f0 /\
      mdrive ord c (ms_y s) (ms_s s) (ms_bb s) (ms_ts s) (MFirst (mk_thiele [] [])) = Ret (MResult r) /\
      qinv N1 D1 in_den m (pf_mod (ms_F s)) (qcombine_first ord (ms_F s) 0 r) /\ qr_prime_number (qcombine_first ord (ms_F s) 0 r) = 1%Z /\
      keys_fit c N1 /\ keys_fit c D1 /\ (forall t, In t (N1 ++ D1) -> lowest (snd t)) /\
      (forall k, In k (map fst (if in_den then D1 else N1)) -> total k = total m -> k = m) /\ (Z.of_nat (length N1 + length D1) < 2 ^ 31)%Z.
  Proof.
    intros RF [Hbb [k [Ns [Ds [IP [CF MP]]]]]] HN. set (F := ms_F s) in *. set (K := fld F) in *. set (y := ms_y s) in *. set (sh := ms_s s) in *. set (ts := ms_ts s) in *.
    pose proof (HK F) as KL.
    assert (Hk : k <> f0).
    { pose proof (ip_norm _ _ _ _ _ _ _ _ _ _ IP) as X. intros E. apply (F_1_neq_0 (fl_field K KL)). rewrite <- X. destruct (mc_norm_den c); rewrite (times_value F), E; apply (f0_l KL). }
    assert (EB : forall o t, ms_bb s o t = ray_value n (times k (over F N)) (times k (over F D)) y sh o t) by (intros o t; rewrite (times_ray F) by exact Hk; apply Hbb).
    destruct (C48_rational_function_recovered K KL ord Ho c _ _ _ _ _ _ _ IP CF (length ts) (le_n _)) as [out [E H]]. rewrite firstn_all in E.
    rewrite <- (mdrive_ext F ord c y sh (ms_bb s) _ EB) in E. destruct out as [x|r]; [exfalso; exact (Nat.lt_irrefl _ (Nat.lt_le_trans _ _ _ (proj1 H) MP))|]. destruct H as [k' [a [Ia [Ek [PN [PD [NB _]]]]]]].
    assert (NB' : normalised_by n (mc_norm_den c) (over F N) (over F D) (mr_norm_den r) (mr_norm r) (mr_singular r)) by (eapply (normalised_keys F); [| |exact NB]; symmetry; apply (times_keys F)).
    assert (Sg : mr_singular r = false).
    { destruct HN as [b0 [m0 H0]]. unfold normalised_by in H0, NB'. destruct (in_dec _ _ _); [apply NB'|].
      destruct NB' as [X|[X|[X1 [X2 _]]]]; [apply X|apply X|]. exfalso. destruct H0 as [[_ [Y _]]|[[_ [_ [Y _]]]|[_ [_ [_ [_ Y]]]]]]; [exact (X1 m0 Y)|exact (X2 m0 Y)|discriminate Y]. }
    rewrite Sg in NB'. set (in_den := mr_norm_den r) in *. set (m := mr_norm r) in *.
    assert (Hterm : forall t, In t (N ++ D) -> @krat K (snd t) <> f0).
    { intros t Ht Z. assert (PP : exists G P, polynomial n G (times k P) /\ (P = over F N \/ P = over F D) /\ In (fst t, @krat K (snd t)) P).
      { apply in_app_or in Ht as [Ht|Ht]; [exists (tdegree (times k (over F N))), (over F N)|exists (tdegree (times k (over F D))), (over F D)].
        - split; [apply (ip_num _ _ _ _ _ _ _ _ _ _ IP)|]. split; [auto|]. unfold over. apply in_map_iff. exists t. auto.
        - split; [apply (ip_den _ _ _ _ _ _ _ _ _ _ IP)|]. split; [auto|]. unfold over. apply in_map_iff. exists t. auto. }
      destruct PP as [G [P [[_ [_ PP]] [_ IPt]]]]. destruct (PP (fst t) (fmul k (krat (snd t)))) as [X _].
      - unfold times. apply in_map_iff. exists (fst t, @krat K (snd t)). auto.
      - apply X. rewrite Z. clear - KL. apply (mul_f0 KL). }
    assert (Ia' : exists a0, In (m, a0) (if in_den then D else N) /\ a = fmul k (krat a0)).
    { assert (G : forall T, In (m, a) (times k (over F T)) -> exists a0, In (m, a0) T /\ a = fmul k (krat a0)).
      { intros T IT. unfold times, over in IT. rewrite map_map in IT. apply in_map_iff in IT as [[e q] [X IT]]. cbn [fst snd] in X. pose proof (f_equal fst X) as X1. pose proof (f_equal snd X) as X2. cbn [fst snd] in X1, X2. exists q. split; [rewrite <- X1; exact IT|symmetry; exact X2]. }
      destruct in_den; apply G; exact Ia. }
    destruct Ia' as [a0 [Ia0 ->]]. assert (Ik : In (m, a0) (N ++ D)) by (apply in_or_app; destruct in_den; auto).
    destruct (rf_terms _ _ _ RF (m, a0) Ik) as [A1 [A2 _]]. cbn [snd] in A1, A2. pose proof (proj1 A2) as A3.
    assert (HL : forall T, (T = N \/ T = D) -> forall t, In t T -> In t (N ++ D)) by (intros T [-> | ->] t Ht; apply in_or_app; auto).
    destruct (divided_exists a0 N A1) as [N1 DN]; [intros t Ht; apply (rf_terms _ _ _ RF); apply (HL N); auto|].
    destruct (divided_exists a0 D A1) as [D1 DD]; [intros t Ht; apply (rf_terms _ _ _ RF); apply (HL D); auto|].
    assert (Ekk : fmul (fmul k' k) (@krat K a0) = f1) by (rewrite <- Ek; symmetry; apply (mul_assoc' KL)).
    destruct (divided_over F a0 N N1 _ DN Ekk) as [EN FN]; [intros t Ht; apply Hterm; apply (HL N); auto|].
    destruct (divided_over F a0 D D1 _ DD Ekk) as [ED FD]; [intros t Ht; apply Hterm; apply (HL D); auto|].
    assert (PN' : Permutation (mr_num r) (over F N1)) by exact (eq_ind _ (fun X => Permutation (mr_num r) X) PN _ (eq_trans (times_times F k' k (over F N)) EN)).
    assert (PD' : Permutation (mr_den r) (over F D1)) by exact (eq_ind _ (fun X => Permutation (mr_den r) X) PD _ (eq_trans (times_times F k' k (over F D)) ED)).
    assert (KF : forall T T1, divided a0 T T1 -> (T = N \/ T = D) -> keys_fit c T1).
    { intros T T1 DV ET. split; [rewrite (divided_keys _ _ _ DV); destruct ET as [-> | ->]; [apply (rf_num_keys _ _ _ RF)|apply (rf_den_keys _ _ _ RF)]|].
      rewrite (divided_keys _ _ _ DV). intros e He. apply in_map_iff in He as [t [<- Ht]]. destruct (rf_terms _ _ _ RF t (HL T ET t Ht)) as [_ [_ X]]. exact X. }
    pose proof (KF N N1 DN (or_introl eq_refl)) as KN. pose proof (KF D D1 DD (or_intror eq_refl)) as KD.
    assert (I1 : In (m, (1, 1)%Z) (if in_den then D1 else N1)). { destruct in_den; [apply (divided_one a0 D)|apply (divided_one a0 N)]; assumption. }
    assert (Fin : forall t, In t (N1 ++ D1) -> ~ (pf_mod F | snd (snd t))%Z) by (intros t Ht; apply in_app_or in Ht as [Ht|Ht]; auto).
    assert (Hp : (2 < pf_mod F)%Z) by (destruct (ip_field _ _ _ _ _ _ _ _ _ _ IP) as [v Hv]; exact (three_values F v _ (Nat.le_add_l _ _) Hv)).
    destruct (combine_first_ok F ord Ho n N1 D1 in_den m r Hp (proj1 KN) (proj1 KD)) as [Q1 Q2]; try assumption; try reflexivity.
    { intros e He. rewrite map_app in He. apply in_app_or in He as [He|He]; [apply KN|apply KD]; exact He. }
    exists in_den, m, N1, D1, r. split; [exists a0; auto|]. split; [apply (ip_n _ _ _ _ _ _ _ _ _ _ IP)|].
    split. { intros E0. pose proof (ip_points _ _ _ _ _ _ _ _ _ _ IP) as X. fold ts in E0. rewrite E0 in X. cbn [length] in X. clear - X. lia. }
    split. { intros Z. apply (ip_first _ _ _ _ _ _ _ _ _ _ IP). unfold first_value, point, ones. rewrite <- EB. exact Z. }
    split; [exact E|]. split; [exact Q1|]. split; [exact Q2|]. split; [exact KN|]. split; [exact KD|]. split.
    { intros t Ht. apply in_app_or in Ht as [Ht|Ht]; [exact (divided_lowest _ _ _ DN t Ht)|exact (divided_lowest _ _ _ DD t Ht)]. }
    split; [|rewrite (divided_length _ _ _ DN), (divided_length _ _ _ DD); apply (rf_size _ _ _ RF)].
    intros e He Et. unfold normalised_by in NB'. destruct (in_dec (list_eq_dec Z.eq_dec) (zeros n) _) as [Iz|Iz].
    - destruct NB' as [_ [Em _]]. rewrite Em in *. rewrite total_zeros in Et.
      assert (KO : key_ok n e) by (destruct in_den; [apply KD|apply KN]; exact He). destruct KO as [L1 [L2 _]]. rewrite <- L1. apply total_zero_zeros; assumption.
    - assert (Ea : alone m (if in_den then over F D else over F N)) by (destruct NB' as [[X [Y _]]|[[_ [X [Y _]]]|[_ [_ [_ [_ X]]]]]]; [rewrite X; exact Y|rewrite X; exact Y|discriminate X]).
      apply Ea; [|exact Et]. destruct in_den; rewrite over_keys; [rewrite <- (divided_keys _ _ _ DD)|rewrite <- (divided_keys _ _ _ DN)]; exact He.
  Qed.

  Lemma reconstruct_first s l : ms_ts s <> [] -> ms_bb s (repeat 1 (n - 1)) (nth 0 (ms_ts s) f0) <> f0 ->
    forall r, mdrive ord c (ms_y s) (ms_s s) (ms_bb s) (ms_ts s) (MFirst (mk_thiele [] [])) = Ret (MResult r) -> reconstruct ord c s l = qrun ord c (qcombine_first ord (ms_F s) 0 r) l.
  Proof.
    intros Ht Hv r E. unfold reconstruct, reconstruct_from. fold (reconstruct_from ord c). destruct (ms_ts s) as [|t ts] eqn:Et; [contradiction|]. cbn [nth] in Hv.
    destruct (feqb (ms_bb s (repeat 1 (n - 1)) t) f0) eqn:Ez; [apply (fl_eqb _ (HK (ms_F s))) in Ez; contradiction|]. change (qr_prime_number fresh =? 0)%Z with true. cbv iota. rewrite E. reflexivity.
  Qed.
End First.

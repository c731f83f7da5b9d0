(** Proofs for RatReconst in several variables over several primes, part 4: testing the guess at the start of a further prime. *)
From Coq Require Import Znumtheory Permutation.
From Verif Require Import Machine NumTheory FFInt FField FSum FPoly PolyFF PolySpec PolyFFProofs PolyFFProofs2 PolyFFProofs3 RatNum RatNumProofs Modular ModularProofs MqrrProofs PField RatUni RatUniSpec RatUniProofs RatUniFirst RatUniNext RatUniRun Newton PolyRec PolyRecSpec PolyRatSpec RatMulti RatMultiSpec RatMultiMath RatMultiShift RatMultiQ RatMultiQSpec RatMultiQCoef RatMultiQSide RatMultiQMaps.
Open Scope Z_scope.

Section Check.
  Variable ord : forall A : Type, list A -> list A.
  Hypothesis Hord : forall A (l : list A), Permutation (ord A l) l.
  Variable c : mcfg.
  Local Notation n := (mc_n c).
  Variable F : pfield.
  Local Notation K := (fld F).
  Local Notation KL := (HK F).
  Add Field KCK : (fl_field K (HK F)).
  Local Notation pv := (@poly_value K).
  Variables y s : nat -> K.

  Definition keys_fit (T : list qterm) : Prop := NoDup (map fst T) /\ forall k, In k (map fst T) -> key_ok n k.
  Lemma over_keys T : map fst (over F T) = map fst T. Proof. unfold over. rewrite map_map. reflexivity. Qed.
  Lemma over_ok T : keys_fit T -> poly_ok n (over F T).
  Proof.
    intros [ND H]. split; [rewrite over_keys; exact ND|]. apply Forall_forall. intros kc I. apply key_exp. apply H. rewrite <- over_keys. apply in_map. exact I.
  Qed.
  Lemma over_app A B : over F (A ++ B) = over F A ++ over F B. Proof. apply map_app. Qed.
  Lemma over_perm A B : Permutation A B -> Permutation (over F A) (over F B). Proof. apply Permutation_map. Qed.
  Lemma entry_over T : map (fun e : list Z * rn => (fst e, to_ff F (snd e))) (map qentry T) = over F T.
  Proof. unfold over. rewrite map_map. apply map_ext. intros [k [a b]]. cbn [qentry fst snd]. rewrite to_ff_krat. reflexivity. Qed.
  Lemma qconvert_perm g T : Permutation g (map qentry T) -> Permutation (convert_to_ffint ord F g) (over F T).
  Proof. intros HP. unfold convert_to_ffint. rewrite <- entry_over. apply Permutation_map. exact (Permutation_trans (Hord _ g) HP). Qed.
  Lemma qguess_value g T x : Permutation g (map qentry T) -> keys_fit T -> calc (ord _) (mk_polyff n (convert_to_ffint ord F g)) x = pv n (over F T) x.
  Proof.
    intros HP HT. pose proof (qconvert_perm g T HP) as Q. rewrite (calc_value KL); [|exact (Hord _)|].
    - cbn [pf_n pf_coefs]. apply (pv_perm KL n _ _ _ Q).
    - cbn [pf_n pf_coefs]. apply (poly_ok_perm _ _ _ (Permutation_sym Q)). apply over_ok. exact HT.
  Qed.
  Lemma guess_ray t i : (i < n)%nat -> guess_point F y s 1 t i = ray_point y s (repeat 1%nat (n - 1)) t i.
  Proof.
    intros Hi. unfold guess_point, ray_point. destruct i as [|j]; [reflexivity|]. f_equal. f_equal. unfold rand_zi. rewrite (fl_pow K KL) by (unfold two64; lia).
    f_equal. rewrite (nth_indep _ 0%nat 1%nat) by (rewrite repeat_length; lia). rewrite nth_repeat. reflexivity.
  Qed.
  Lemma qtest_guess_ok gn gd TN TD (v t : K) : v <> f0 -> Permutation gn (map qentry TN) -> Permutation gd (map qentry TD) -> keys_fit TN -> keys_fit TD ->
    let x := ray_point y s (repeat 1%nat (n - 1)) t in
    (qtest_guess ord c F y s 1 gn gd v t = true <-> pv n (over F TD) x <> f0 /\ pv n (over F TN) x = fmul v (pv n (over F TD) x)).
  Proof.
    intros Hv PN PD N1 N2 x. unfold qtest_guess. rewrite (qguess_value gn TN _ PN N1), (qguess_value gd TD _ PD N2), (fl_eqb K KL).
    rewrite (pv_ext_x n (over F TN) _ x) by (intros i Hi; apply guess_ray; exact Hi). rewrite (pv_ext_x n (over F TD) _ x) by (intros i Hi; apply guess_ray; exact Hi). split.
    - intros H. assert (Z : pv n (over F TD) x <> f0) by (intros Z; rewrite Z, (fl_div0 K KL) in H; congruence). split; [exact Z|]. rewrite <- H. field. exact Z.
    - intros [Z H]. rewrite H. field. exact Z.
  Qed.

  Variables (N D : list qterm) (in_den : bool) (m : list Z).
  Hypothesis FN : keys_fit N.
  Hypothesis FD : keys_fit D.
  Variables (M : Z) (g : qrr) (T1 T2 S1 S2 : list qterm).
  Hypothesis HM : 2 < M.
  Hypothesis Hcp : qr_combined_prime g = M.
  Hypothesis SN : qpart M N (qr_gni g) (qr_cni g) (qr_nsn g) T1 T2.
  Hypothesis SD : qpart M D (qr_gdi g) (qr_cdi g) (qr_nsd g) S1 S2.
  Hypothesis I0 : In (m, (1, 1)) (if in_den then S1 else T1).
  Variables (t v : K).
  Hypothesis Hv : v <> f0.
  Local Notation x := (ray_point y s (repeat 1%nat (n - 1)) t).

  Definition quntested (w : qwork F) : qrr * qwork F :=
    (mk_qrr (qr_prime_number g) false (qr_first_feed g) (qr_zero_counter g) false true (qr_combined_prime g) (qr_cni g) (qr_cdi g) (qr_gni g) (qr_gdi g) (qr_nsn g) (qr_nsd g) (qr_eqn g),
     mk_qwork F (set_solved F (qw_num F w) (qsolved_polys ord c F (qr_gni g))) (set_solved F (qw_den F w) (qsolved_polys ord c F (qr_gdi g))) (qw_order F w) (qw_eqn F w) (qw_subs F w) (qw_rows F w)).

  Lemma fit_guess T gm co ns A B B' L : keys_fit T -> qpart M T gm co ns A B -> Permutation B B' -> map fst L = map fst B' -> keys_fit (A ++ L).
  Proof.
    intros [ND H] [P1 _] PB E. assert (P : Permutation (map fst T) (map fst (A ++ L))).
    { apply (Permutation_trans (Permutation_map fst P1)). rewrite !map_app. apply Permutation_app_head. eapply Permutation_trans; [apply Permutation_map; exact PB|]. apply Permutation_refl'. symmetry. exact E. }
    split; [apply (Permutation_NoDup P); exact ND|]. intros k I. apply H. apply (Permutation_in _ (Permutation_sym P)). exact I.
  Qed.
  Lemma qvariant_of T gm co ns A B B' L : qpart M T gm co ns A B -> Permutation B B' -> Forall2 (qguess_of M) B' L -> exists T', Permutation (A ++ L) T' /\ qvariant M T T'.
  Proof.
    intros [P1 [_ [_ [_ G]]]] PB V. assert (V' : Forall2 (qguess_of M) (A ++ B') (A ++ L)).
    { apply Forall2_app; [|exact V]. clear - G HM. induction A as [|a A IH]; constructor; [|apply IH; intros u Hu; apply G; right; exact Hu].
      split; [reflexivity|]. split; [apply G; left; reflexivity|apply agrees_refl; exact HM]. }
    assert (Q : Permutation (A ++ B') T) by (apply Permutation_sym; apply (Permutation_trans P1); apply Permutation_app_head; exact PB).
    destruct (Permutation_Forall2 Q V') as [T' [Q1 Q2]]. exists T'. split; [exact Q1|exact Q2].
  Qed.

  Lemma qcheck_ok w : qw_order F w = 1%nat ->
    (forall N' D', qvariant M N N' -> qvariant M D D' -> In (m, (1, 1)) (if in_den then D' else N') -> pv n (over F D') x <> f0 -> pv n (over F N') x = fmul v (pv n (over F D') x) -> N' = N /\ D' = D) ->
    exists b g' w', qcheck_if_done ord c F y s g w v t = Ret (b, g', w') /\
      if b then is_polynomial (qr_gni g') N /\ is_polynomial (qr_gdi g') D /\ qr_done g' = true else (g', w') = quntested w.
  Proof.
    intros Hw Hmis.
    destruct (qpart_keys _ _ _ _ _ _ _ (proj1 FN) SN) as [KN1 [_ [KN2 KN3]]]. destruct (qpart_keys _ _ _ _ _ _ _ (proj1 FD) SD) as [KD1 [_ [KD2 KD3]]].
    pose proof SN as [_ [PN2 [MN _]]]. pose proof SD as [_ [PD2 [MD _]]].
    destruct (qmatches_reorder _ _ _ _ MN (Hord _ (qr_cni g))) as [T2' [QN MN']]. destruct (qmatches_reorder _ _ _ _ MD (Hord _ (qr_cdi g))) as [S2' [QD MD']].
    pose proof (Permutation_map fst QN) as QKN. pose proof (Permutation_map fst QD) as QKD.
    assert (DN : forall k, In k (map fst T2') -> ~ In k (map fst (qr_gni g))) by (intros k Hk; apply KN3; apply (Permutation_in _ (Permutation_sym QKN)); exact Hk).
    assert (DD : forall k, In k (map fst S2') -> ~ In k (map fst (qr_gdi g))) by (intros k Hk; apply KD3; apply (Permutation_in _ (Permutation_sym QKD)); exact Hk).
    destruct (qpromote_ok M T2' (ord _ (qr_cni g)) (qr_gni g) [] MN') as [okn [LN [En [IN VN]]]]; [apply (Permutation_NoDup QKN); exact KN2|exact DN|].
    destruct (qpromote_ok M S2' (ord _ (qr_cdi g)) (qr_gdi g) [] MD') as [okd [LD [Ed [ID VD]]]]; [apply (Permutation_NoDup QKD); exact KD2|exact DD|].
    rewrite app_nil_r in En, Ed.
    assert (RN : erase_all (qr_gni g ++ map qentry LN) (rev (map fst LN)) = qr_gni g).
    { apply erase_restores; [intros k Hk; apply DN; apply IN; apply in_rev; exact Hk|]. rewrite qentry_keys. intros k Hk. apply in_rev in Hk. exact Hk. }
    assert (RD : erase_all (qr_gdi g ++ map qentry LD) (rev (map fst LD)) = qr_gdi g).
    { apply erase_restores; [intros k Hk; apply DD; apply ID; apply in_rev; exact Hk|]. rewrite qentry_keys. intros k Hk. apply in_rev in Hk. exact Hk. }
    assert (RN' : erase_all (qr_gni g ++ map qentry LN) (map fst (ord _ (qr_cni g))) = qr_gni g).
    { rewrite (qmatches_keys _ _ _ MN'). apply erase_restores; [exact DN|]. rewrite qentry_keys. exact IN. }
    assert (RD' : erase_all (qr_gdi g ++ map qentry LD) (map fst (ord _ (qr_cdi g))) = qr_gdi g).
    { rewrite (qmatches_keys _ _ _ MD'). apply erase_restores; [exact DD|]. rewrite qentry_keys. exact ID. }
    unfold qcheck_if_done, qrec_rat_coef. rewrite Hcp, En. cbn [obind].
    destruct okn.
    2: { cbn [obind andb]. rewrite RN. exists false. eexists _, _. split; [reflexivity|]. unfold quntested. rewrite Hcp. reflexivity. }
    rewrite Ed. cbn [obind]. destruct okd.
    2: { cbn [obind andb]. rewrite RN, RD. exists false. eexists _, _. split; [reflexivity|]. unfold quntested. rewrite Hcp. reflexivity. }
    cbn [obind andb]. specialize (VN eq_refl). specialize (VD eq_refl). rewrite Hw.
    destruct (qtest_guess ord c F y s 1 (qr_gni g ++ map qentry LN) (qr_gdi g ++ map qentry LD) v t) eqn:ET.
    2: { rewrite RN', RD'. exists false. eexists _, _. split; [reflexivity|]. unfold quntested. rewrite Hcp, Hw. reflexivity. }
    exists true. eexists _, _. split; [reflexivity|]. cbn [qr_gni qr_gdi qr_done].
    assert (EN : Permutation (qr_gni g ++ map qentry LN) (map qentry (T1 ++ LN))) by (rewrite map_app; apply Permutation_app_tail; exact PN2).
    assert (ED : Permutation (qr_gdi g ++ map qentry LD) (map qentry (S1 ++ LD))) by (rewrite map_app; apply Permutation_app_tail; exact PD2).
    destruct (qvariant_of _ _ _ _ _ _ _ _ SN QN VN) as [N' [HN' VN']]. destruct (qvariant_of _ _ _ _ _ _ _ _ SD QD VD) as [D' [HD' VD']].
    assert (KL1 : map fst LN = map fst T2') by exact (qguess_keys _ _ _ VN). assert (KL2 : map fst LD = map fst S2') by exact (qguess_keys _ _ _ VD).
    apply (qtest_guess_ok _ _ (T1 ++ LN) (S1 ++ LD) v t Hv EN ED (fit_guess _ _ _ _ _ _ _ _ FN SN QN KL1) (fit_guess _ _ _ _ _ _ _ _ FD SD QD KL2)) in ET.
    destruct ET as [Z E]. rewrite (pv_perm KL n _ _ _ (over_perm _ _ HD')) in Z, E. rewrite (pv_perm KL n _ _ _ (over_perm _ _ HN')) in E.
    destruct (Hmis N' D' VN' VD') as [-> ->]; [|exact Z|exact E|].
    - destruct in_den; [apply (Permutation_in _ HD')|apply (Permutation_in _ HN')]; apply in_or_app; left; exact I0.
    - split; [|split; [|reflexivity]].
      + apply (Permutation_trans EN). apply (Permutation_map qentry HN').
      + apply (Permutation_trans ED). apply (Permutation_map qentry HD').
  Qed.

  (** every coefficient that is not yet fixed is small enough: the function is recognised *)
  Lemma qcheck_complete w : qw_order F w = 1%nat -> pv n (over F D) x <> f0 -> pv n (over F N) x = fmul v (pv n (over F D) x) -> (forall u, In u (T2 ++ S2) -> within_root M (snd u)) ->
    exists g' w', qcheck_if_done ord c F y s g w v t = Ret (true, g', w') /\ is_polynomial (qr_gni g') N /\ is_polynomial (qr_gdi g') D /\ qr_done g' = true.
  Proof.
    intros Hw Z E HS.
    destruct (qpart_keys _ _ _ _ _ _ _ (proj1 FN) SN) as [KN1 [_ [KN2 KN3]]]. destruct (qpart_keys _ _ _ _ _ _ _ (proj1 FD) SD) as [KD1 [_ [KD2 KD3]]].
    pose proof SN as [PN1 [PN2 [MN _]]]. pose proof SD as [PD1 [PD2 [MD _]]].
    destruct (qmatches_reorder _ _ _ _ MN (Hord _ (qr_cni g))) as [T2' [QN MN']]. destruct (qmatches_reorder _ _ _ _ MD (Hord _ (qr_cdi g))) as [S2' [QD MD']].
    pose proof (Permutation_map fst QN) as QKN. pose proof (Permutation_map fst QD) as QKD.
    assert (En : promote M (ord _ (qr_cni g)) (qr_gni g) [] = Ret (true, qr_gni g ++ map qentry T2', rev (map fst T2') ++ [])).
    { apply (qpromote_small M T2' HM); [exact MN'|apply (Permutation_NoDup QKN); exact KN2| |].
      - intros k Hk. apply KN3. apply (Permutation_in _ (Permutation_sym QKN)). exact Hk.
      - intros u Hu. apply HS. apply in_or_app. left. apply (Permutation_in _ (Permutation_sym QN)). exact Hu. }
    assert (Ed : promote M (ord _ (qr_cdi g)) (qr_gdi g) [] = Ret (true, qr_gdi g ++ map qentry S2', rev (map fst S2') ++ [])).
    { apply (qpromote_small M S2' HM); [exact MD'|apply (Permutation_NoDup QKD); exact KD2| |].
      - intros k Hk. apply KD3. apply (Permutation_in _ (Permutation_sym QKD)). exact Hk.
      - intros u Hu. apply HS. apply in_or_app. right. apply (Permutation_in _ (Permutation_sym QD)). exact Hu. }
    assert (EN : Permutation (qr_gni g ++ map qentry T2') (map qentry N)).
    { apply Permutation_sym. apply (Permutation_trans (Permutation_map qentry PN1)). rewrite map_app. apply Permutation_app; [apply Permutation_sym; exact PN2|apply Permutation_map; exact QN]. }
    assert (ED : Permutation (qr_gdi g ++ map qentry S2') (map qentry D)).
    { apply Permutation_sym. apply (Permutation_trans (Permutation_map qentry PD1)). rewrite map_app. apply Permutation_app; [apply Permutation_sym; exact PD2|apply Permutation_map; exact QD]. }
    assert (ET : qtest_guess ord c F y s 1 (qr_gni g ++ map qentry T2') (qr_gdi g ++ map qentry S2') v t = true) by (apply (qtest_guess_ok _ _ N D v t Hv EN ED FN FD); split; assumption).
    unfold qcheck_if_done, qrec_rat_coef. rewrite Hcp, En. cbn [obind]. rewrite Ed. cbn [obind andb]. rewrite Hw, ET. eexists _, _. split; [reflexivity|].
    cbn [qr_gni qr_gdi qr_done]. split; [exact EN|]. split; [exact ED|reflexivity].
  Qed.
End Check.

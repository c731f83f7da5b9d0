(** Proofs for shifted systems of RatReconst over several primes, part 2: a further prime and the run over the further primes. *)
From Coq Require Import Znumtheory Permutation.
From Verif Require Import Machine NumTheory FFInt FField FSum FPoly PolyFF PolySpec PolyFFProofs PolyFFProofs2 RatNum Modular PField RatUni RatUniSpec RatUniProofs Newton PolyRec PolyRecSpec PolyRecMath PolyRatSpec RatMulti RatMultiSpec RatMultiMath RatMultiRun RatMultiQ RatMultiQSpec RatMultiQCoef RatMultiQSide RatMultiQMaps RatMultiQCheck RatMultiQRays RatMultiQRun RatMultiQFirst RatMultiQMain RatSing RatSingSub RatSingSpec RatSingRun RatSingRunSpec RatSingNext Props_RatSing.
Open Scope nat_scope.

Lemma sing_drive_ext {K : fops} ord c (y s : nat -> K) gn gd eqn nd nm gni gdi (bb bb' : list nat -> K -> K) : (forall o t, bb o t = bb' o t) ->
  forall ts w, sing_drive ord c y s gn gd eqn nd nm gni gdi bb ts w = sing_drive ord c y s gn gd eqn nd nm gni gdi bb' ts w.
Proof.
  intros E. induction ts as [|t ts IH]; intros w; [reflexivity|]. cbn [sing_drive]. rewrite E. destruct (sing_feed ord c y s gn gd eqn nd nm gni gdi w t (bb' (repeat (sw_order w) (mc_n c - 1)) t)) as [f| | | |]; try reflexivity. cbn [obind]. destruct f; [apply IH|reflexivity].
Qed.
Lemma first_pt s : 0 < length (ms_ts s) -> ms_ts s = pt s 0 :: skipn 1 (ms_ts s).
Proof. intros H. unfold pt. destruct (ms_ts s); [cbn in H; lia|reflexivity]. Qed.
Section Scale.
  Context {K : fops} (HK : flaws K).
  Add Field KSCL : (fl_field K HK).
  Lemma cancel_k (k q : K) : k <> f0 -> fdiv (fmul k q) k = q. Proof. intros H. field. exact H. Qed.
  Lemma mul_1r (k : K) : fmul k f1 = k. Proof. ring. Qed.
  Lemma not_zero_factor (k a : K) : fmul k a = f1 -> k <> f0. Proof. intros E Z. rewrite Z in E. apply (F_1_neq_0 (fl_field K HK)). rewrite <- E. ring. Qed.
  Lemma mul_nz (k a : K) : k <> f0 -> a <> f0 -> fmul k a <> f0. Proof. intros A B E. apply (fmul_0 HK) in E as [E|E]; contradiction. Qed.
End Scale.

Section Run.
  Variable ord : forall A : Type, list A -> list A.
  Hypothesis Ho : forall A (l : list A), Permutation (ord A l) l.
  Variable c : mcfg.
  Local Notation n := (mc_n c).
  Hypothesis Hn : 2 <= n.
  Variables (N D : list qterm) (AN AD : list (list Z)) (in_den : bool) (m : list Z) (UN UD : list nat) (x : sing_fix).
  Local Notation nd := (mc_norm_den c).
  Hypothesis FN : keys_fit c N.
  Hypothesis FD : keys_fit c D.
  Hypothesis Hlow : forall t, In t (N ++ D) -> lowest (snd t).
  Hypothesis Hsize : (Z.of_nat (length N + length D) < 2 ^ 31)%Z.
  Hypothesis ncN : ~ In (zeros n) (map fst N).
  Hypothesis ncD : ~ In (zeros n) (map fst D).
  Hypothesis FX : fixed_by_first nd N D AN AD in_den m UN UD x.
  Local Notation qinv := (qinv N D in_den m).
  Local Notation found := (found N D).
  Definition tinv (u : sing_terms) : Prop := terms_of_shift n nd N D AN AD (sg_F u) (sg_num u) (sg_den u).

  (** ---- the coefficients of one side are combined with those of the primes before ---- *)
  Lemma remaining_coef (F : pfield) (k : fld F) T gm M co ns A B (img : pmap (fld F)) : k <> f0 -> keys_fit c T -> qpart M T gm co ns A B -> Permutation img (remaining (map fst gm) (times k (over F T)) k) ->
    forall t, In t B -> coef_at img (fst t) = krat (snd t).
  Proof.
    intros Hk FT Q P t Ht. destruct (qpart_keys _ _ _ _ _ _ _ (proj1 FT) Q) as [_ [_ [_ X]]]. destruct Q as [Q1 _].
    assert (NDr : NoDup (map fst (remaining (map fst gm) (times k (over F T)) k))).
    { unfold remaining. rewrite map_map. cbn [fst]. change (fun x0 : list Z * fld F => fst x0) with (@fst (list Z) (fld F)). apply NoDup_keys_filter. rewrite times_keys, over_keys. apply FT. }
    apply coef_in; [apply (Permutation_NoDup (Permutation_sym (Permutation_map fst P))); exact NDr|]. apply (Permutation_in _ (Permutation_sym P)). unfold remaining. apply in_map_iff. exists (fst t, fmul k (krat (snd t))). cbn [fst snd]. split.
    - f_equal. apply (cancel_k (HK F)). exact Hk.
    - apply filter_In. split.
      + unfold times, over. rewrite map_map. cbn [fst snd]. apply in_map_iff. exists t. split; [reflexivity|]. apply (Permutation_in _ (Permutation_sym Q1)). apply in_or_app. right. exact Ht.
      + cbn [fst]. destruct (in_dec _ (fst t) (map fst gm)) as [I|I]; [exfalso; apply (X (fst t)); [apply in_map; exact Ht|exact I]|reflexivity].
  Qed.

  Section Combine.
    Variables (F : pfield) (M : Z) (g : qrr) (T1 T2 S1 S2 : list qterm) (nu de : pmap (fld F)).
    Local Notation p := (pf_mod F).
    Hypothesis HM : (2 < M)%Z.
    Hypothesis Hfin : forall t, In t (N ++ D) -> ~ (p | snd (snd t))%Z.
    Hypothesis Hprime : ~ (p | M)%Z.
    Hypothesis Himp : forall t, In t (N ++ D) -> no_impostor M (M * p) (snd t).
    Hypothesis Hcp : qr_combined_prime g = M.
    Hypothesis SN : qpart M N (qr_gni g) (qr_cni g) (qr_nsn g) T1 T2.
    Hypothesis SD : qpart M D (qr_gdi g) (qr_cdi g) (qr_nsd g) S1 S2.
    Hypothesis I0 : In (m, (1, 1)%Z) (if in_den then S1 else T1).
    Hypothesis Hdone : qr_done g = false.
    Hypothesis Hzc : (0 <= qr_zero_counter g < qr_prime_number g)%Z.
    Hypothesis H300 : (qr_prime_number g + 1 < 300)%Z.
    Hypothesis Hopen : qr_nsn g <> [] \/ qr_nsd g <> [].
    Hypothesis Hnu : forall t, In t T2 -> coef_at nu (fst t) = krat (snd t).
    Hypothesis Hde : forall t, In t S2 -> coef_at de (fst t) = krat (snd t).
    Lemma combine_ok : exists g', qcombine_next ord F g nu de = Ret g' /\ qinv (M * p) g' /\ qr_prime_number g' = (qr_prime_number g + 1)%Z.
    Proof.
      pose proof (p_gt1 F) as Hp.
      destruct (qpart_next ord Ho n F M N (qr_gni g) (qr_cni g) (qr_nsn g) T1 T2 nu 0%Z HM Hprime (proj1 FN)) as [cn [En [cn2 [gn2 [nn2 [Ta [Tb [Fn Sn]]]]]]]]; [|exact SN|exact Hnu|].
      { intros t Ht. assert (Ht' : In t (N ++ D)) by (apply in_or_app; left; exact Ht). split; [apply (proj2 FN); apply in_map; exact Ht|]. split; [apply Hlow; exact Ht'|]. split; [apply Hfin; exact Ht'|apply Himp; exact Ht']. }
      destruct (qpart_next ord Ho n F M D (qr_gdi g) (qr_cdi g) (qr_nsd g) S1 S2 de (match qr_cni g with [] => 0 | _ => M * p end)%Z HM Hprime (proj1 FD)) as [cd [Ed [cd2 [gd2 [nd2 [Sa [Sb [Fd Sd]]]]]]]]; [|exact SD|exact Hde|].
      { intros t Ht. assert (Ht' : In t (N ++ D)) by (apply in_or_app; right; exact Ht). split; [apply (proj2 FD); apply in_map; exact Ht|]. split; [apply Hlow; exact Ht'|]. split; [apply Hfin; exact Ht'|apply Himp; exact Ht']. }
      unfold qcombine_next. rewrite Hcp, En. cbn [obind fst snd]. rewrite Ed. cbn [obind fst snd].
      assert (EL : match qr_cdi g with [] => match qr_cni g with [] => 0 | _ => M * p end | _ => M * p end%Z = (M * p)%Z).
      { destruct (qr_cdi g) eqn:E1; [|reflexivity]. destruct (qr_cni g) eqn:E2; [|reflexivity]. exfalso.
        destruct SN as [_ [_ [A1 [A2 _]]]]. destruct SD as [_ [_ [B1 [B2 _]]]]. rewrite ?E2 in A1. rewrite ?E1 in B1. inversion A1; inversion B1; subst.
        apply groups_length in A2, B2. cbn in A2, B2. destruct (qr_nsn g); [|cbn in A2; lia]. destruct (qr_nsd g); [|cbn in B2; lia]. clear - Hopen. destruct Hopen as [X|X]; apply X; reflexivity. }
      rewrite EL, Fn. cbn [obind]. rewrite Fd. cbn [obind]. destruct (Z.eqb_spec (qr_prime_number g + 1) 300) as [X|_]; [clear - X H300; lia|].
      eexists. split; [reflexivity|]. split; [|reflexivity]. unfold RatMultiQRays.qinv. cbn [qr_prime_number qr_new_prime qr_first_feed qr_zero_counter qr_done qr_combined_prime qr_cni qr_cdi qr_gni qr_gdi qr_nsn qr_nsd qr_eqn].
      split; [reflexivity|]. split; [reflexivity|]. split; [exact Hdone|]. split; [reflexivity|]. split; [clear - Hzc; lia|]. split; [rewrite !(Permutation_length (Ho _ _)); reflexivity|]. split; [clear - HM Hp; nia|].
      exists (T1 ++ Ta), Tb, (S1 ++ Sa), Sb. split; [exact Sn|]. split; [exact Sd|]. destruct in_den; apply in_or_app; left; exact I0.
    Qed.
  End Combine.

  Lemma hom_len (F : pfield) (k : fld F) T d : length (hom d (times k (over F T))) <= length T.
  Proof. unfold hom. induction T as [|t T IH]; [apply le_n|]. unfold times, over in *. cbn [map filter]. destruct (_ =? _)%Z; cbn [length]; [apply le_n_S; exact IH|apply le_S; exact IH]. Qed.

  Lemma prime_ok M s g u : shifted_session n nd N D AN AD in_den m UN UD M s -> qinv M g -> tinv u -> (qr_prime_number g + 1 < 300)%Z ->
    (exists g' u', sing_prime ord c x g u s = Ret (SRunning g' u') /\ qinv (M * pf_mod (ms_F s)) g' /\ tinv u' /\ qr_prime_number g' = (qr_prime_number g + 1)%Z) \/
    (exists g', sing_prime ord c x g u s = Ret (SComplete g') /\ found g').
  Proof.
    intros L I TI H300. destruct L as [Lfin Lpr Lval [k [Ns [Ds [Sk [SN1 SD1]]]]] [Lpos Lenough] Lfirst Lpole Lanch Lapart Limp Lmis Lreg].
    destruct TI as [s0 [k0 [Ns0 [Ds0 [[Sk0 [SN0 SD0]] [STN STD]]]]]].
    pose proof I as [Hnp [Hff [Hd [Hcp [Hzc [He [HM [T1 [T2 [S1 [S2 [SN [SD I0]]]]]]]]]]]]].
    destruct FX as [[X1 X2] [X3 X4] X5 X6 [X7 X8] X9].
    set (F := ms_F s) in *. set (y := ms_y s) in *. set (sh := ms_s s) in *. set (t0 := pt s 0) in *. set (v := first_val n s) in *.
    assert (Hk : k <> f0) by exact (not_zero_factor (HK F) _ _ Sk). assert (Hk0 : k0 <> f0) by exact (not_zero_factor (HK (sg_F u)) _ _ Sk0).
    unfold sing_prime. rewrite (first_pt s Lpos). cbv zeta beta iota. rewrite Hd. fold F t0 y sh.
    change (ms_bb s (repeat 1 (n - 1)) t0) with v. destruct (@feqb (fld F) v f0) eqn:Ez; [apply (fl_eqb _ (HK F)) in Ez; contradiction|].
    set (g0 := mk_qrr _ _ _ _ _ _ _ _ _ _ _ _ _ _). set (w := work_start F g0).
    destruct (qcheck_ok ord Ho c F y sh N D in_den m FN FD M g0 T1 T2 S1 S2 HM Hcp SN SD I0 t0 v Lfirst w eq_refl) as [bl [g1 [w1 [Ec Hb]]]]; [exact Lmis|].
    rewrite Ec. cbn [obind fst snd]. destruct bl; [right; exists g1; split; [reflexivity|]; exact Hb|]. left.
    pose proof (Hb : (g1, w1) = quntested ord c F g0 w) as Hb'. clear Hb. injection Hb' as -> ->.
    assert (Hx : poly_value n (over F D) (ray_point y sh (repeat 1 (n - 1)) t0) <> f0).
    { apply (Lpole 1 0); [|exact Lpos]. unfold rays. assert (HR : 1 <= length D); [|clear - HR; lia]. destruct (proj1 SD1) as [A _]. unfold over in A. destruct D; [exfalso; apply A; reflexivity|cbn [length]; clear; lia]. }
    assert (Hv : poly_value n (over F N) (ray_point y sh (repeat 1 (n - 1)) t0) = fmul v (poly_value n (over F D) (ray_point y sh (repeat 1 (n - 1)) t0))).
    { unfold v, first_val. rewrite Lval. symmetry. apply (div_mul (HK F)). exact Hx. }
    assert (Hopen : qr_nsn g <> [] \/ qr_nsd g <> []).
    { assert (X : T2 <> [] \/ S2 <> []).
      { destruct T2 as [|t2 l2]; [|left; discriminate]. destruct S2 as [|s2 l2]; [|right; discriminate]. exfalso.
        destruct (qcheck_complete ord Ho c F y sh N D FN FD M g0 T1 [] S1 [] HM Hcp SN SD t0 v Lfirst w eq_refl Hx Hv) as [g' [w' [X _]]]; [intros z []|]. rewrite Ec in X. discriminate. }
      destruct X as [X|X]; [left|right]; intros Y.
      - destruct SN as [_ [_ [_ [[_ [_ C]] _]]]]. rewrite Y in C. destruct T2 as [|t2 l2]; [contradiction|]. exact (C (fst t2) (or_introl eq_refl)).
      - destruct SD as [_ [_ [_ [[_ [_ C]] _]]]]. rewrite Y in C. destruct S2 as [|s2 l2]; [contradiction|]. exact (C (fst s2) (or_introl eq_refl)). }
    set (g1 := mk_qrr _ _ _ _ _ _ _ _ _ _ _ _ _ _). unfold sing_sides. change (qr_gni g1) with (qr_gni g). change (qr_gdi g1) with (qr_gdi g). change (qr_nsn g1) with (qr_nsn g). change (qr_nsd g1) with (qr_nsd g).
    rewrite X1, X2, X3, X4, X9.
    pose proof (proj1 SN1) as PN. pose proof (proj1 SD1) as PD. pose proof SN1 as [_ [TN [_ [[vN VN] CN]]]]. pose proof SD1 as [_ [TD [_ [[vD VD] CD]]]].
    assert (KN : known_side n (qdegree N) (negb nd) (times k (over F N)) Ns y (map fst (qr_gni g)) (map fst T2) (qr_nsn g) (sg_num u) (sx_zeron x)).
    { apply (next_side c Hn N AN FN ncN (sg_F u) F s0 k0 Ns0 sh k Ns Hk0 Hk SN0 SN1 (sg_num u) STN M (qr_gni g) (qr_cni g) (qr_nsn g) T1 T2 SN (negb nd) y (sx_zeron x) X5). intros e e'. apply Lapart. left. reflexivity. }
    assert (KD : known_side n (qdegree D) nd (times k (over F D)) Ds y (map fst (qr_gdi g)) (map fst S2) (qr_nsd g) (sg_den u) (sx_zerod x)).
    { apply (next_side c Hn D AD FD ncD (sg_F u) F s0 k0 Ds0 sh k Ds Hk0 Hk SD0 SD1 (sg_den u) STD M (qr_gdi g) (qr_cdi g) (qr_nsd g) S1 S2 SD nd y (sx_zerod x) X6). intros e e'. apply Lapart. right. reflexivity. }
    assert (QN : unknown_powers (qdegree N) (negb nd) (times k (over F N)) (sg_num u) UN).
    { apply (next_powers c Hn N AN FN (sg_F u) F s0 k0 Ns0 sh k Ns Hk0 Hk SN0 SN1 (sg_num u) STN). exact X7. }
    assert (QD : unknown_powers (qdegree D) nd (times k (over F D)) (sg_den u) UD).
    { apply (next_powers c Hn D AD FD (sg_F u) F s0 k0 Ds0 sh k Ds Hk0 Hk SD0 SD1 (sg_den u) STD). exact X8. }
    assert (Big : exists vv : nat -> fld F, distinct (S (Nat.max (qdegree N) (qdegree D))) vv) by (destruct (le_dec (qdegree N) (qdegree D)) as [Z|Z]; [exists vD; rewrite Nat.max_r by exact Z; exact VD|exists vN; rewrite Nat.max_l by (clear - Z; lia); exact VN]).
    destruct Big as [vv VV].
    pose proof (C56_prime_of_a_shifted_system (fld (sg_F u)) (fld F) (HK _) (HK _) ord Ho c y sh vv (times k (over F N)) (times k (over F D)) Ns Ds (map fst (qr_gni g)) (map fst (qr_gdi g)) (map fst T2) (map fst S2)
      (qr_nsn g) (qr_nsd g) (sg_num u) (sg_den u) (sx_zeron x) (sx_zerod x) UN UD (rays N D) (ms_ts s) in_den m k) as C56. cbv zeta in C56. rewrite !tdegree_times in C56.
    specialize (C56 Hn Lanch (times_polynomial F n _ k N Hk PN) (times_polynomial F n _ k D Hk PD) TN TD).
    assert (E1 : poly_value n (if nd then times k (over F D) else times k (over F N)) sh = f1) by (destruct nd; rewrite times_value; exact Sk).
    assert (CC : characteristic_above (fld F) (Nat.max (qdegree N) (qdegree D))) by (intros j Lj; destruct (le_dec (qdegree N) (qdegree D)) as [Z|Z]; [rewrite Nat.max_r in Lj by exact Z; apply CD; exact Lj|rewrite Nat.max_l in Lj by (clear - Z; lia); apply CN; exact Lj]).
    specialize (C56 E1 VV CC KN KD QN QD).
    assert (Im : In (m, k) (if in_den then times k (over F D) else times k (over F N))).
    { assert (Y : forall T co ns gm A B, qpart M T gm co ns A B -> In (m, (1, 1)%Z) A -> In (m, k) (times k (over F T))).
      { intros T co ns gm A B [Q1 _] IA. unfold times, over. rewrite map_map. cbn [fst snd]. apply in_map_iff. exists (m, (1, 1)%Z). cbn [fst snd]. split; [|apply (Permutation_in _ (Permutation_sym Q1)); apply in_or_app; left; exact IA].
        f_equal. rewrite krat_1. apply (mul_1r (HK F)). }
      destruct in_den; [exact (Y D _ _ _ _ _ SD I0)|exact (Y N _ _ _ _ _ SN I0)]. }
    specialize (C56 Im).
    assert (HR : forall d, length (hom d (times k (over F N))) <= rays N D /\ length (hom d (times k (over F D))) <= rays N D).
    { intros d. pose proof (hom_len F k N d). pose proof (hom_len F k D d). unfold rays. clear - H H0. lia. }
    assert (HR31 : (Z.of_nat (rays N D) < 2 ^ 31)%Z) by (unfold rays; clear - Hsize; lia).
    specialize (C56 HR HR31 Lenough).
    assert (EB : forall o t, ms_bb s o t = ray_value n (times k (over F N)) (times k (over F D)) y sh o t) by (intros o t; rewrite (times_ray F) by exact Hk; apply Lval).
    specialize (C56 ltac:(intros i j Li Lj; rewrite times_value; apply (mul_nz (HK F)); [exact Hk|exact (Lpole i j Li Lj)])).
    assert (Hreg' : forall i j VN VD, 1 <= i <= rays N D -> NoDup VN -> NoDup VD -> incl VN UN -> incl VD UD -> j + (length VN + length VD) <= length (ms_ts s) ->
      determined VN VD (fun q => nth (j + q) (ms_ts s) f0) (fun q => ray_value n (times k (over F N)) (times k (over F D)) y sh (repeat i (n - 1)) (nth (j + q) (ms_ts s) f0)) (length VN + length VD)).
    { intros i j VN' VD' Li B1 B2 B3 B4 B5 a b Hab. apply (Lreg i j VN' VD' Li B1 B2 B3 B4 B5). intros q Lq. rewrite EB. exact (Hab q Lq). }
    specialize (C56 Hreg').
    destruct (sing_start ord c false (negb nd) (map fst (qr_gni g)) (qr_nsn g) (sg_num u) (sx_zeron x) (qdegree N)) as [cn stn] eqn:EN.
    destruct (sing_start ord c true nd (map fst (qr_gdi g)) (qr_nsd g) (sg_den u) (sx_zerod x) (qdegree D)) as [cd std] eqn:ED.
    destruct C56 as [nu [de [un [ud [Edr [Pnu [Pde [Tn Td]]]]]]]].
    rewrite <- (sing_drive_ext ord c y sh cn cd _ _ _ _ _ (ms_bb s) _ EB) in Edr. rewrite (first_pt s Lpos) in Edr. fold t0 in Edr. cbv iota beta. match goal with |- context [obind ?X ?k] => replace (obind X k) with (obind (Ret (SResult nu de un ud)) k) by (f_equal; symmetry; exact Edr) end. cbn [obind].
    destruct (combine_ok F M g1 T1 T2 S1 S2 nu de HM Lfin Lpr Limp Hcp SN SD I0 eq_refl Hzc H300 Hopen) as [g' [Eg [Ig Pg]]].
    - exact (remaining_coef F k N (qr_gni g) M _ _ T1 T2 nu Hk FN SN Pnu).
    - exact (remaining_coef F k D (qr_gdi g) M _ _ S1 S2 de Hk FD SD Pde).
    - rewrite Eg. cbn [obind]. exists g', (mk_sing_terms F un ud). split; [reflexivity|]. split; [exact Ig|]. split; [|exact Pg]. unfold tinv. cbn [sg_F sg_num sg_den]. exists sh, k, Ns, Ds. split; [|split; assumption].
      split; [exact Sk|]. split; assumption.
  Qed.

  (** a prime whose first value is zero is not used *)
  Lemma zero_prime M s g u : ms_ts s <> [] -> first_val n s = f0 -> qinv M g -> (qr_prime_number g + 1 < 300)%Z ->
    exists g', sing_prime ord c x g u s = Ret (SRunning g' u) /\ qinv M g' /\ qr_prime_number g' = (qr_prime_number g + 1)%Z.
  Proof.
    intros Ht Hz I H300. pose proof I as [Hnp [Hff [Hd [Hcp [Hzc [He [HM X]]]]]]]. unfold sing_prime. rewrite (first_pt s) by (destruct (ms_ts s); [contradiction|cbn; lia]). cbv zeta beta iota. rewrite Hd.
    change (ms_bb s (repeat 1 (n - 1)) (pt s 0)) with (first_val n s). rewrite Hz.
    replace (feqb (@f0 (fld (ms_F s))) f0) with true by (symmetry; apply (fl_eqb _ (HK (ms_F s))); reflexivity). unfold qfeed_zero.
    destruct (Z.eqb_spec (qr_zero_counter g + 1) (qr_prime_number g + 1)) as [Y|_]; [clear - Y Hzc; lia|]. destruct (Z.eqb_spec (qr_prime_number g + 1) 300) as [Y|_]; [clear - Y H300; lia|].
    replace ((qr_zero_counter g + 1 =? 3) && (qr_prime_number g + 1 =? 3))%Z with false by (symmetry; apply andb_false_iff; destruct (Z.eqb_spec (qr_zero_counter g + 1) 3); [right; apply Z.eqb_neq; clear - Hzc e; lia|left; reflexivity]).
    cbn [obind]. eexists. split; [reflexivity|]. split; [|reflexivity]. unfold RatMultiQRays.qinv. cbn [qr_prime_number qr_new_prime qr_first_feed qr_zero_counter qr_done qr_combined_prime qr_cni qr_cdi qr_gni qr_gdi qr_nsn qr_nsd qr_eqn].
    do 2 (split; [assumption || reflexivity|]). split; [exact Hd|]. split; [exact Hcp|]. split; [clear - Hzc; lia|]. split; [exact He|]. split; [exact HM|exact X].
  Qed.
  Lemma srun_ok M l M' : shifted_sessions n nd N D AN AD in_den m UN UD M l M' -> forall g u, qinv M g -> tinv u -> (qr_prime_number g + Z.of_nat (length l) < 300)%Z ->
    (exists g' u', sing_run ord c x g u l = Ret (SRunning g' u') /\ qinv M' g' /\ tinv u' /\ qr_prime_number g' = (qr_prime_number g + Z.of_nat (length l))%Z) \/
    (exists g', sing_run ord c x g u l = Ret (SComplete g') /\ found g').
  Proof.
    induction 1 as [M|M s l M' H1 H2 _ IH|M s l M' H _ IH]; intros g u I TI HP.
    - left. exists g, u. split; [reflexivity|]. split; [exact I|]. split; [exact TI|cbn; lia].
    - cbn [length] in HP. destruct (zero_prime M s g u H1 H2 I) as [g' [E [I' P']]]; [clear - HP; lia|]. cbn [sing_run]. rewrite E. cbn [obind]. destruct (IH g' u I' TI) as [[g2 [u2 [A [B [C C']]]]]|X]; [clear - HP P'; lia| |right; exact X].
      left. exists g2, u2. split; [exact A|]. split; [exact B|]. split; [exact C|]. cbn [length]. clear - C' P'. lia.
    - cbn [length] in HP. cbn [sing_run]. destruct (prime_ok M s g u H I TI) as [[g' [u' [E [I' [TI' P']]]]]|[g' [E X]]]; [clear - HP; lia| |].
      + rewrite E. cbn [obind]. destruct (IH g' u' I' TI') as [[g2 [u2 [A [B [C C']]]]]|X]; [clear - HP P'; lia| |right; exact X]. left. exists g2, u2. split; [exact A|]. split; [exact B|]. split; [exact C|]. cbn [length]. clear - C' P'. lia.
      + rewrite E. cbn [obind]. right. exists g'. split; [reflexivity|exact X].
  Qed.
  Lemma srun_app g u l s : sing_run ord c x g u (l ++ [s]) = do r <- sing_run ord c x g u l; match r with SRunning g' u' => sing_run ord c x g' u' [s] | _ => Ret r end.
  Proof.
    revert g u. induction l as [|s' l IH]; intros g u; [reflexivity|]. cbn [app sing_run]. destruct (sing_prime ord c x g u s') as [f| | | |]; try reflexivity. cbn [obind]. destruct f; [reflexivity|apply IH|reflexivity].
  Qed.
  (** one more probe when every coefficient is within the bound *)
  Lemma slast_probe M s g u : shifted_probe n N D s -> all_within M (N ++ D) -> qinv M g -> exists g', sing_run ord c x g u [s] = Ret (SComplete g') /\ found g'.
  Proof.
    intros [Hfin [Hval [Hts [Hx Hv]]]] HW I. pose proof I as [Hnp [Hff [Hd [Hcp [Hzc [He [HM [T1 [T2 [S1 [S2 [SN [SD I0]]]]]]]]]]]]]. cbn [sing_run]. unfold sing_prime.
    rewrite (first_pt s) by (destruct (ms_ts s); [contradiction|cbn; lia]). cbv zeta beta iota. rewrite Hd. change (ms_bb s (repeat 1 (n - 1)) (pt s 0)) with (first_val n s).
    destruct (feqb (first_val n s) f0) eqn:Ez; [apply (fl_eqb _ (HK (ms_F s))) in Ez; contradiction|].
    set (g0 := mk_qrr _ _ _ _ _ _ _ _ _ _ _ _ _ _).
    destruct (qcheck_complete ord Ho c (ms_F s) (ms_y s) (ms_s s) N D FN FD M g0 T1 T2 S1 S2 HM Hcp SN SD (pt s 0) (first_val n s) Hv (work_start (ms_F s) g0) eq_refl Hx) as [g' [w' [E H]]].
    - unfold first_val. rewrite Hval. symmetry. apply (div_mul (HK (ms_F s))). exact Hx.
    - intros z Hu. apply HW. destruct SN as [P1 _]. destruct SD as [P2 _]. apply in_app_or in Hu as [Hu|Hu]; apply in_or_app; [left; apply (Permutation_in _ (Permutation_sym P1))|right; apply (Permutation_in _ (Permutation_sym P2))]; apply in_or_app; right; exact Hu.
    - rewrite E. cbn [obind fst snd]. exists g'. split; [reflexivity|exact H].
  Qed.
End Run.

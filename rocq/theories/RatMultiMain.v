(** Proofs for RatReconst in several variables, part 8: the result of the prime and the whole run. *)
From Coq Require Import Permutation Sorted.
From Verif Require Import Machine FField FSum LinAlg FPoly PolyFF PolySpec PolyFFProofs PolyFFProofs2 RatUni RatUniSpec BM Newton Combi CombiProofs PolyRec PolyRecSpec PolyRecRunSpec PolyRecMath PolyRecFile PolyRecStage RatMulti RatMultiSpec RatMultiMath RatMultiShift RatMultiSub RatMultiTraj RatMultiSide RatMultiRay RatMultiResult RatSingSpec.
Open Scope nat_scope.

Section Lists.
  Context {K : fops}.
  Lemma alone_perm m (A B : list (list Z * K)) : Permutation A B -> alone m A -> alone m B.
  Proof.
    intros P [I H]. pose proof (Permutation_map fst P) as Q. split; [apply (Permutation_in _ Q); exact I|]. intros m' I'. apply H. apply (Permutation_in _ (Permutation_sym Q)). exact I'.
  Qed.
  Lemma least_perm m (A B : list (list Z * K)) : Permutation A B -> least m A -> least m B.
  Proof.
    intros P [I H]. pose proof (Permutation_map fst P) as Q. split; [apply (Permutation_in _ Q); exact I|]. intros m' I'. apply H. apply (Permutation_in _ (Permutation_sym Q)). exact I'.
  Qed.
  Lemma normalised_perm n nd (N D N' D' : list (list Z * K)) b m sg : Permutation N N' -> Permutation D D' -> normalised_by n nd N D b m sg -> normalised_by n nd N' D' b m sg.
  Proof.
    intros PN PD. unfold normalised_by.
    assert (Q : forall x, In x (map fst (if nd then D else N)) <-> In x (map fst (if nd then D' else N'))).
    { intros x. assert (Q : Permutation (map fst (if nd then D else N)) (map fst (if nd then D' else N'))) by (destruct nd; apply Permutation_map; assumption). split; intros I; [apply (Permutation_in _ Q); exact I|apply (Permutation_in _ (Permutation_sym Q)); exact I]. }
    assert (ND : (forall m', ~ alone m' D) -> forall m', ~ alone m' D') by (intros H m' X; apply (H m'); apply (alone_perm m' D' D); [apply Permutation_sym; exact PD|exact X]).
    assert (NN : (forall m', ~ alone m' N) -> forall m', ~ alone m' N') by (intros H m' X; apply (H m'); apply (alone_perm m' N' N); [apply Permutation_sym; exact PN|exact X]).
    destruct (in_dec _ _ _) as [I|I]; destruct (in_dec _ _ _) as [J|J]; [auto|exfalso; apply J; apply Q; exact I|exfalso; apply I; apply Q; exact J|].
    intros [[A [B C]]|[[A [B [C E]]]|[A [B [C [E F]]]]]].
    - left. split; [exact A|]. split; [apply (alone_perm m D D' PD B)|exact C].
    - right. left. split; [apply ND; exact A|]. split; [exact B|]. split; [apply (alone_perm m N N' PN C)|exact E].
    - right. right. split; [apply ND; exact A|]. split; [apply NN; exact B|]. split; [exact C|]. split; [apply (least_perm m D D' PD E)|exact F].
  Qed.
End Lists.

Section Main.
  Context {K : fops} (HK : flaws K).
  Add Field KMN : (fl_field K HK).
  Local Notation pv := (@poly_value K).
  Variable ord : forall A : Type, list A -> list A.
  Hypothesis Ho : forall A (l : list A), Permutation (ord A l) l.
  Variable c : mcfg.
  Local Notation n := (mc_n c).
  Variables (y s : nat -> K) (GN GD : nat) (N D Ns Ds : list (list Z * K)) (vn vd : nat -> K).
  Hypothesis SHN : side_hyp c y s true GN N Ns vn.
  Hypothesis SHD : side_hyp c y s false GD D Ds vd.
  Hypothesis norm : pv n (if mc_norm_den c then D else N) s = f1.

  Definition result_ok (r : mres K) : Prop :=
    exists k a : K, In (mr_norm r, a) (if mr_norm_den r then D else N) /\ (k * a)%K = f1 /\
      Permutation (mr_num r) (times k N) /\ Permutation (mr_den r) (times k D) /\ normalised_by n (mc_norm_den c) N D (mr_norm_den r) (mr_norm r) (mr_singular r) /\ mr_div_by_zero r = false.

  (** what is left for the next primes *)
  Definition left_ok (r : mres K) : Prop :=
    mr_degs r = (GN, GD) /\
    (forall d, In d (fst (mr_zeros r)) <-> (d <= GN /\ hom d Ns <> []) /\ hom d N = []) /\ (forall d, In d (snd (mr_zeros r)) <-> (d <= GD /\ hom d Ds <> []) /\ hom d D = []) /\
    (exists LN LD, NoDup LN /\ NoDup LD /\ (forall d, In d LN <-> d <= GN /\ hom d Ns <> []) /\ (forall d, In d LD <-> d <= GD /\ hom d Ds <> []) /\ mr_eqn r = length LN + length LD - 1) /\
    (shifted c s = true -> shift_terms n GN N Ns (fst (mr_subs r)) /\ shift_terms n GD D Ds (snd (mr_subs r))).

  Lemma valid_perm (m m' : list (list Z * K)) : Permutation m m' -> valid c m' -> valid c m.
  Proof.
    intros P [A B]. pose proof (Permutation_map fst P) as Q. split; [apply (Permutation_NoDup (Permutation_sym Q)); exact A|]. intros e I. apply B. apply (Permutation_in _ Q). exact I.
  Qed.
  Lemma side_valid is_num G P Ps v : side_hyp c y s is_num G P Ps v -> valid c P.
  Proof.
    intros SH. destruct (sh_P _ _ _ _ _ _ _ _ SH) as [_ [ND X]]. split; [exact ND|]. intros e I. apply in_map_iff in I as [[e' a] [<- I]]. cbn [fst]. destruct (X e' a I) as [_ [Le [Pe Te]]].
    split; [exact Le|]. pose proof (total_range e' (fun i => proj1 (Pe i))) as T0. split; [|exact T0]. f_equal. apply degree32_spec; [apply nth_Forall; intros i; apply Pe|]. change (total_degree e') with (total e'). unfold two32. lia.
  Qed.
  Lemma const_part is_num G P Ps v x : side_hyp c y s is_num G P Ps v -> RatMultiSub.Hp c P 0 x = coef_at P (zero_mon c) /\ RatMultiSub.Hs c Ps 0 x = pv n P s.
  Proof.
    intros SH. split.
    - unfold RatMultiSub.Hp. assert (ND : NoDup (map fst P)) by apply (sh_P _ _ _ _ _ _ _ _ SH). pose proof (sh_wP _ _ _ _ _ _ _ _ SH) as W.
      assert (NH : NoDup (map fst (hom 0 P))) by (unfold hom; apply NoDup_keys_filter; exact ND).
      rewrite <- (const_list HK c (hom 0 P) x NH).
      + unfold coef_at. destruct (pfind P (zero_mon c)) as [a|] eqn:E.
        * apply pfind_In in E; [|exact ND]. assert (I : In (zero_mon c, a) (hom 0 P)). { apply in_hom. split; [exact E|]. unfold zero_mon. clear. induction n as [|k IH]; [reflexivity|]. cbn [repeat]. rewrite total_cons, IH. reflexivity. }
          apply (pfind_In _ _ _ NH) in I. rewrite I. reflexivity.
        * apply pfind_None in E. rewrite (proj2 (pfind_None (hom 0 P) (zero_mon c))); [reflexivity|]. intros I. apply E. apply in_map_iff in I as [[e a] [Ee I]]. apply in_hom in I as [I _]. apply in_map_iff. exists (e, a). auto.
      + intros k a I _. apply in_hom in I as [I T]. destruct (W k a I) as [L [Pk _]]. apply (zero_total c k L Pk T).
    - unfold RatMultiSub.Hs. pose proof (hom_value HK n G Ps x f0 (sh_wPs _ _ _ _ _ _ _ _ SH)) as E. rewrite (sh_V _ _ _ _ _ _ _ _ SH) in E.
      rewrite (pv_ext_x n P _ s) in E by (intros i _; ring). rewrite E. unfold ueval. rewrite (fsum_S_l HK). rewrite (fsum_0 HK); [cbn; ring|]. intros i _. cbn [pw]. ring.
  Qed.
  Lemma combine_ok num den : done_ok ord c y s GN GD N D Ns Ds num den -> exists r, combine_results ord c s num den = Ret r /\ result_ok r /\ left_ok r.
  Proof.
    intros [[bn IN] [bd ID]]. unfold combine_results.
    destruct (unshifted_ok HK ord Ho c y s true GN N Ns vn SHN bn num IN) as [num1 [EN [KN [CN [TN MN]]]]]. destruct (unshifted_ok HK ord Ho c y s false GD D Ds vd SHD bd den ID) as [den1 [ED [KD [CD [TD MD]]]]].
    unfold unshifted_side in EN, ED. rewrite EN. cbn [obind]. rewrite ED. cbn [obind].
    pose proof (sum_ok HK ord Ho c y s true GN N Ns vn SHN num1 KN) as PN. pose proof (sum_ok HK ord Ho c y s false GD D Ds vd SHD den1 KD) as PD.
    set (nu := sum_degrees ord num1) in *. set (de := sum_degrees ord den1) in *. set (cd := if shifted c s then _ else f0).
    pose proof (valid_perm _ _ PN (side_valid _ _ _ _ _ SHN)) as VN. pose proof (valid_perm _ _ PD (side_valid _ _ _ _ _ SHD)) as VD.
    assert (ZN : forall e a, In (e, a) (pf_coefs nu) -> a <> f0) by (intros e a I; apply (Permutation_in _ PN) in I; destruct (sh_P _ _ _ _ _ _ _ _ SHN) as [_ [_ X]]; apply (X e a I)).
    assert (ZD : forall e a, In (e, a) (pf_coefs de) -> a <> f0) by (intros e a I; apply (Permutation_in _ PD) in I; destruct (sh_P _ _ _ _ _ _ _ _ SHD) as [_ [_ X]]; apply (X e a I)).
    assert (NeD : pf_coefs de <> []) by (intros X; rewrite X in PD; apply Permutation_nil in PD; destruct (sh_P _ _ _ _ _ _ _ _ SHD) as [Y _]; contradiction).
    assert (CP : forall A B : list (list Z * K), Permutation A B -> NoDup (map fst B) -> coef_at A (zero_mon c) = coef_at B (zero_mon c)).
    { intros A B P ND. assert (NA : NoDup (map fst A)) by (apply (Permutation_NoDup (Permutation_sym (Permutation_map fst P))); exact ND). unfold coef_at. destruct (pfind A (zero_mon c)) as [a|] eqn:EA.
      - apply pfind_In in EA; [|exact NA]. apply (Permutation_in _ P) in EA. apply (pfind_In B _ _ ND) in EA. rewrite EA. reflexivity.
      - apply pfind_None in EA. rewrite (proj2 (pfind_None B (zero_mon c))); [reflexivity|]. intros I. apply EA. apply (Permutation_in _ (Permutation_sym (Permutation_map fst P))). exact I. }
    assert (Ecd : cd = (f1 - coef_at (if mc_norm_den c then pf_coefs de else pf_coefs nu) (zero_mon c))%K).
    { set (x := fun _ : nat => f0 : K). destruct (const_part _ _ _ _ _ x SHN) as [HN0 HNs]. destruct (const_part _ _ _ _ _ x SHD) as [HD0 HDs].
      assert (E0 : (if mc_norm_den c then RatMultiSub.Hs c Ds 0 x else RatMultiSub.Hs c Ns 0 x) = f1) by (destruct (mc_norm_den c); [rewrite HDs|rewrite HNs]; exact norm).
      assert (E1 : coef_at (if mc_norm_den c then pf_coefs de else pf_coefs nu) (zero_mon c) = if mc_norm_den c then RatMultiSub.Hp c D 0 x else RatMultiSub.Hp c N 0 x).
      { rewrite HN0, HD0. destruct (mc_norm_den c); apply CP; try assumption; [apply (sh_P _ _ _ _ _ _ _ _ SHD)|apply (sh_P _ _ _ _ _ _ _ _ SHN)]. }
      rewrite E1. unfold cd. destruct (shifted c s) eqn:Es.
      - destruct (mc_norm_den c); [rewrite (CD eq_refl x), E0|rewrite (CN eq_refl x), E0]; reflexivity.
      - pose proof (unshifted_same HK c y s true GN N Ns vn SHN 0 x Es (Nat.le_0_l _)) as U1. pose proof (unshifted_same HK c y s false GD D Ds vd SHD 0 x Es (Nat.le_0_l _)) as U2. destruct (mc_norm_den c); [rewrite <- U2, E0|rewrite <- U1, E0]; ring. }
    destruct (normaliser_ok HK ord Ho c (Nat.lt_le_trans _ _ _ Nat.lt_0_2 (sh_n _ _ _ _ _ _ _ _ SHN)) cd (pf_coefs nu) (pf_coefs de) VN VD NeD ZN ZD Ecd) as [te [nd [k [sing [E [NB IT]]]]]].
    rewrite E. eexists. split; [reflexivity|]. split.
    2:{ unfold left_ok. cbn [mr_degs mr_zeros mr_eqn mr_subs fst snd]. split; [rewrite MN, MD; reflexivity|]. split; [exact (zero_degrees_ok HK c y s true GN N Ns vn SHN num1 KN)|]. split; [exact (zero_degrees_ok HK c y s false GD D Ds vd SHD den1 KD)|].
        split; [|intros Es; split; [exact (TN Es)|exact (TD Es)]]. exists (map fst (sd_solved num1)), (map fst (sd_solved den1)). rewrite !map_length. destruct KN as [A1 [A2 _]]. destruct KD as [B1 [B2 _]]. auto 6. }
    unfold result_ok. cbn [mr_norm mr_norm_den mr_num mr_den mr_singular mr_div_by_zero].
    assert (Te : te <> f0) by (destruct nd; [apply (ZD k te IT)|apply (ZN k te IT)]).
    assert (Tm : forall A B : list (list Z * K), Permutation A B -> Permutation (map (fun kc => (fst kc, fmul (snd kc) (fdiv f1 te))) A) (times (fdiv f1 te) B)).
    { intros A B P. unfold times. etransitivity; [apply (Permutation_map _ P)|]. erewrite map_ext; [reflexivity|]. intros [e a]. cbn [fst snd]. f_equal. ring. }
    exists (fdiv f1 te), te. split; [destruct nd; [apply (Permutation_in _ PD)|apply (Permutation_in _ PN)]; exact IT|]. split; [field; exact Te|]. split; [apply Tm; exact PN|]. split; [apply Tm; exact PD|].
    split; [apply (normalised_perm _ _ _ _ _ _ _ _ _ PN PD NB)|]. apply (feqb_neq HK). intros X. apply (F_1_neq_0 (fl_field K HK)). transitivity (fdiv f1 te * te)%K; [field; exact Te|rewrite X; ring].
  Qed.
End Main.

(** Proofs for the interpolation that starts from known degrees (after the search for a shift): the whole run over the first prime.  Part of the lemmas
    repeats RatMultiRun.v under the weaker hypotheses [known_degrees]. *)
From Coq Require Import Permutation Sorted.
From Verif Require Import Machine FField FSum LinAlg LinSpec FPoly PolyFF PolySpec PolyFFProofs PolyFFProofs2 RatUni RatUniSpec RatUniThiele Thiele ThieleSpec ThieleProofs BM Newton PolyRec PolyRecSpec PolyRecRunSpec PolyRecMath PolyRecFile PolyRecStage RatMulti RatMultiSpec RatMultiRunSpec RatMultiMath RatMultiShift RatMultiSub RatMultiTraj RatMultiSide RatMultiRay RatMultiResult RatMultiMain RatMultiThiele RatMultiFirst RatMultiRun Scan ScanSpec.
Open Scope nat_scope.

Lemma sdrive_snoc {K : fops} ord c y s dn dd (bb : list nat -> K -> K) t l : forall st, sdrive ord c y s dn dd bb (l ++ [t]) st =
  (do f <- sdrive ord c y s dn dd bb l st; match f with SMore st' => sinterpolate ord c y s dn dd st' t (bb (srequested c st') t) | SResult _ => Ret f end).
Proof.
  induction l as [|u l IH]; intros st; cbn [app sdrive obind].
  - destruct (sinterpolate ord c y s dn dd st t (bb (srequested c st) t)) as [[st'|r]| | | |]; reflexivity.
  - destruct (sinterpolate ord c y s dn dd st u (bb (srequested c st) u)) as [[st'|r]| | | |]; cbn [obind]; [apply IH|reflexivity|reflexivity|reflexivity|reflexivity|reflexivity].
Qed.

Section Run.
  Context {K : fops} (HK : flaws K).
  Add Field KRN : (fl_field K HK).
  Local Notation pv := (@poly_value K).
  Variable ord : forall A : Type, list A -> list A.
  Hypothesis Ho : forall A (l : list A), Permutation (ord A l) l.
  Variable c : mcfg.
  Local Notation n := (mc_n c).
  Variables (N D Ns Ds : list (list Z * K)) (y s : nat -> K) (ts : list K).
  Variables (dn dd : list nat).
  Hypothesis IP : known_degrees n (mc_norm_den c) (mc_bt c) N D Ns Ds y s ts dn dd.
  Hypothesis CF : mconfig_fits c N D Ns Ds.
  Local Notation GN := (tdegree N).
  Local Notation GD := (tdegree D).
  Local Notation T := (max_terms N D Ns Ds).
  Local Notation Gm := (max_degree N D).
  Local Notation bb := (ray_value n N D y s).
  Local Notation pt := (point ts).
  Local Notation fv := (first_value n N D y s ts).

  (** ---- the hypotheses of both sides ---- *)
  Lemma steps_le (P Ps : list (list Z * K)) d dense : steps c P Ps d dense <= (n - 1) * (d + 2) * length (hom d (source P Ps dense)) + (if hom d (source P Ps dense) then 1 else 0).
  Proof.
    unfold steps, target, layer. destruct (hom d (source P Ps dense)) as [|t l]; cbn [map]; [cbn; lia|]. cbn [length]. rewrite map_length. lia.
  Qed.
  Lemma hom_length d (Q : list (list Z * K)) : length (hom d Q) <= length Q.
  Proof. unfold hom. induction Q as [|t Q IH]; [apply le_n|]. cbn [filter]. destruct (_ =? _)%Z; cbn [length]; lia. Qed.
  Lemma side_ok (is_num : bool) (P Ps : list (list Z * K)) : polynomial n (tdegree P) P -> translated n s P Ps -> tdegree P <= Gm -> length P <= T -> length Ps <= T ->
    (forall d, hom d P <> [] -> hom d Ps <> []) -> (forall Q d, In Q [P; Ps] -> 0 < d -> hom d Q <> [] -> suitable true (mc_bt c) (n - 1) d (layer d Q) y) ->
    (forall v : nat -> K, distinct (3 * (GN + GD) + 3) v -> distinct (S (tdegree P)) v) ->
    (forall b e i, (if is_num then mc_bn c else mc_bd c) = Some b -> In e (map fst (P ++ Ps)) -> S i < n -> (nth (S i) e 0 <= nth i b 0)%Z) ->
    forall v : nat -> K, distinct (3 * (GN + GD) + 3) v -> side_hyp c y s is_num (tdegree P) P Ps v.
  Proof.
    intros HP [HPs [Td HV]] LG LP LPs Lay Su Dv Bd v Hv. destruct CF. constructor; try assumption.
    - apply (kd_n _ _ _ _ _ _ _ _ _ _ _ _ IP).
    - apply (polynomial_wf n (tdegree P)). exact HP.
    - rewrite <- Td. apply (polynomial_wf n (tdegree P)). exact HPs.
    - apply Dv. exact Hv.
    - intros j Hj. apply (kd_char _ _ _ _ _ _ _ _ _ _ _ _ IP). lia.
    - lia.
    - destruct (tdegree_attained Ps (proj1 HPs)) as [e [a [I E]]]. intros X. destruct (proj2 (proj2 HPs) e a I) as [_ [_ [B _]]]. pose proof (total_range e (fun i => proj1 (B i))).
      assert (J : In (e, a) (hom (tdegree P) Ps)) by (apply in_hom; split; [exact I|lia]). rewrite X in J. exact J.
    - lia.
    - intros Q [<-|[<-|[]]]; lia.
    - intros Q b I Eb e i Ie Li. apply (Bd b e i Eb); [|exact Li]. rewrite map_app. apply in_or_app. destruct I as [<-|[<-|[]]]; [left|right]; exact Ie.
    - intros d dense Ld. pose proof (steps_le P Ps d dense) as X. pose proof (hom_length d (source P Ps dense)) as Y. assert (Z : length (source P Ps dense) <= T) by (destruct dense; cbn [source]; lia).
      assert (W : (n - 1) * (d + 2) * length (hom d (source P Ps dense)) <= (n - 1) * (Gm + 2) * T) by (apply Nat.mul_le_mono; [apply Nat.mul_le_mono_l; lia|lia]).
      destruct (hom d (source P Ps dense)); lia.
  Qed.
  Variable v : nat -> K.
  Hypothesis Hv : distinct (3 * (GN + GD) + 3) v.
  Lemma SHN : side_hyp c y s true GN N Ns v.
  Proof.
    destruct IP, CF. apply side_ok; try assumption.
    - unfold max_degree. lia.
    - unfold max_terms. lia.
    - unfold max_terms. lia.
    - intros d. apply kd_layers.
    - intros Q d I. apply kd_anchors. destruct I as [<-|[<-|[]]]; cbn; auto.
    - intros w Hw i j Hi Hj. apply Hw; lia.
  Qed.
  Lemma SHD : side_hyp c y s false GD D Ds v.
  Proof.
    destruct IP, CF. apply side_ok; try assumption.
    - unfold max_degree. lia.
    - unfold max_terms. lia.
    - unfold max_terms. lia.
    - intros d. apply kd_layers.
    - intros Q d I. apply kd_anchors. destruct I as [<-|[<-|[]]]; cbn; auto.
    - intros w Hw i j Hi Hj. apply Hw; lia.
  Qed.
  Lemma HT : length N <= T /\ length Ns <= T /\ length D <= T /\ length Ds <= T. Proof. unfold max_terms. lia. Qed.
  Lemma HGm : GN <= Gm /\ GD <= Gm. Proof. unfold max_degree. lia. Qed.

  (** ---- the number of rays ---- *)
  Lemma budget_bound (P Ps : list (list Z * K)) G : budget0 c G P Ps <= (n - 1) * (weight P + weight Ps) + G.
  Proof.
    unfold budget0. set (l := pend_degs G Ps).
    assert (ND : NoDup l) by (apply NoDup_filter; apply NoDup_rev; apply seq_NoDup).
    assert (Len : length l <= G) by (pose proof (split_count (pb Ps) (rev (seq 1 G))) as X; rewrite rev_length, seq_length in X; unfold l, pend_degs; lia).
    assert (Pos : forall d, In d l -> hom d Ps <> []) by (intros d I; apply filter_In in I as [_ I]; apply pb_true in I; exact I).
    pose proof (weight_sum P l ND) as W1. pose proof (weight_sum Ps l ND) as W2.
    assert (X : fold_right Nat.add 0 (map (fun d => cost c P Ps d true 0) l) <= (n - 1) * (fold_right Nat.add 0 (map (fun d => (d + 2) * length (hom d P)) l) + fold_right Nat.add 0 (map (fun d => (d + 2) * length (hom d Ps)) l)) + length l).
    { clear W1 W2 ND Len. revert Pos. generalize l as l'. induction l' as [|d l' IH]; intros Pos; [cbn; lia|]. cbn [map fold_right length]. specialize (IH (fun e I => Pos e (or_intror I))). specialize (Pos d (or_introl eq_refl)).
      unfold cost at 1. pose proof (steps_le P Ps d true) as A. pose proof (steps_le P Ps d false) as B. cbn [source] in A, B.
      assert (A' : (if hom d Ps then 1 else 0) = 0) by (destruct (hom d Ps); [contradiction|reflexivity]). rewrite A' in A. assert (B' : (if hom d P then 1 else 0) <= 1) by (destruct (hom d P); lia).
      rewrite <- Nat.mul_assoc in A, B. rewrite !Nat.mul_add_distr_l in *. lia. }
    assert (Y : (n - 1) * (fold_right Nat.add 0 (map (fun d => (d + 2) * length (hom d P)) l) + fold_right Nat.add 0 (map (fun d => (d + 2) * length (hom d Ps)) l)) <= (n - 1) * (weight P + weight Ps)) by (apply Nat.mul_le_mono_l; lia).
    lia.
  Qed.

  (** ---- the first ray ---- *)
  Local Notation one := (ones n).
  Local Notation TN := (fterms c y GN Ns).
  Local Notation TD := (fterms c y GD Ds).
  Lemma probe_one : probe_order (n - 1) T Gm one.
  Proof.
    pose proof (kd_n _ _ _ _ _ _ _ _ _ _ _ _ IP) as Hn. exists 0, 1, 1. split; [lia|]. split; [|split; [lia|]].
    - unfold max_terms. destruct (kd_num _ _ _ _ _ _ _ _ _ _ _ _ IP) as [X _]. destruct N; [contradiction|cbn [length]; lia].
    - unfold ones. generalize (n - 1) as k. intros k. assert (G : forall a b, repeat 1 k = map (fun j : nat => if j <? a then 1 else if j =? a then 1 else 1) (seq b k)).
      { intros a. induction k as [|k IH]; intros b; [reflexivity|]. cbn [repeat seq map]. rewrite <- IH. destruct (b <? a); [reflexivity|]. destruct (b =? a); reflexivity. }
      apply G.
  Qed.
  Lemma value_one i : i < length ts -> tval TD (pt i) <> f0 /\ (fv i * tval TD (pt i))%K = tval TN (pt i).
  Proof.
    intros Li. rewrite (fterms_value HK c y s true GN N Ns v SHN), (fterms_value HK c y s false GD D Ds v SHD).
    assert (Z : pv n D (ray_point y s one (pt i)) <> f0) by (apply (kd_poles _ _ _ _ _ _ _ _ _ _ _ _ IP); [apply probe_one|exact Li]).
    split; [exact Z|]. unfold first_value, ray_value. field. exact Z.
  Qed.
  Lemma fold_min (l : list (list Z * K)) : (forall kc, In kc l -> (0 <= expo (fst kc) 0)%Z) -> forall a, (match a with Some z => (0 <= z)%Z | None => True end) ->
    (a = Some 0%Z \/ exists kc, In kc l /\ expo (fst kc) 0 = 0%Z) ->
    fold_left (fun a kc => match a with None => Some (expo (fst kc) 0) | Some z => Some (Z.min z (expo (fst kc) 0)) end) l a = Some 0%Z.
  Proof.
    clear. induction l as [|kc l IH]; intros B a La H; cbn [fold_left].
    - destruct H as [H|[kc [[] _]]]. exact H.
    - pose proof (B kc (or_introl eq_refl)) as B0. apply IH; [intros k I; apply B; right; exact I|destruct a; lia|]. destruct H as [->|[k [[->|I] H]]]; [left; f_equal; lia|left; destruct a; f_equal; lia|right; exists k; auto].
  Qed.
  Lemma scaled_const is_num (P Ps : list (list Z * K)) w (m : pmap K) : side_hyp c y s is_num (tdegree P) P Ps v -> pv n P s = f1 -> Permutation m (as_map (scaled w (fterms c y (tdegree P) Ps))) ->
    min_deg1 ord m = Some 0%Z /\ coef_at m [0%Z] = w.
  Proof.
    intros SH E Pm. destruct (const_part HK c y s is_num _ P Ps v (ray_x y one) SH) as [_ E0]. rewrite E in E0.
    assert (I0 : In ([0%Z], (w * f1)%K) (as_map (scaled w (fterms c y (tdegree P) Ps)))).
    { unfold as_map, scaled, fterms. rewrite !map_map. cbn [fst snd]. apply in_map_iff. exists 0. split; [cbn [Z.of_nat]; rewrite E0; reflexivity|]. apply filter_In. split; [apply in_seq; lia|]. apply pb_true. intros X. unfold RatMultiSub.Hs in E0. rewrite X in E0. apply (F_1_neq_0 (fl_field K HK)). symmetry. exact E0. }
    assert (ND : NoDup (map fst m)).
    { eapply Permutation_NoDup; [apply Permutation_map, Permutation_sym; exact Pm|]. unfold as_map, scaled, fterms. rewrite !map_map. cbn [fst]. apply FinFun.Injective_map_NoDup; [intros a b X; injection X; lia|]. apply NoDup_filter, seq_NoDup. }
    split.
    - unfold min_deg1. apply fold_min; [|exact I|].
      + intros kc I. apply (Permutation_in _ (Ho _ m)) in I. apply (Permutation_in _ Pm) in I. unfold as_map in I. apply in_map_iff in I as [t [<- _]]. cbn [fst]. unfold expo. cbn [nth]. lia.
      + right. exists ([0%Z], (w * f1)%K). split; [|reflexivity]. apply (Permutation_in _ (Permutation_sym (Ho _ m))). apply (Permutation_in _ (Permutation_sym Pm)). exact I0.
    - unfold coef_at. apply (Permutation_in _ (Permutation_sym Pm)) in I0. apply (pfind_In m _ _ ND) in I0. rewrite I0. ring.
  Qed.
  Local Notation RS := (ray_state ord c y s GN GD N D Ns Ds pt).
  Local Notation done := (done_ok ord c y s GN GD N D Ns Ds).
  Lemma first_ray_ok w nu de m : w <> f0 -> Permutation (pf_coefs nu) (as_map (scaled w TN)) -> Permutation (pf_coefs de) (as_map (scaled w TD)) ->
    (exists num1 den1, done num1 den1 /\ first_ray ord c y s nu de = do r <- combine_results ord c s num1 den1; Ret (MResult r)) \/
    (exists st' M', first_ray ord c y s nu de = Ret (MMore st') /\ RS m 0 M' st' /\ M' <= max_rays n N D Ns Ds).
  Proof.
    intros Hw PN PD. unfold first_ray. set (side := pf_coefs (if mc_norm_den c then de else nu)).
    assert (SC : min_deg1 ord side = Some 0%Z /\ coef_at side [0%Z] = w).
    { pose proof (kd_norm _ _ _ _ _ _ _ _ _ _ _ _ IP) as En. pose proof SHN as SHN'. pose proof SHD as SHD'. unfold side. destruct (mc_norm_den c).
      - apply (scaled_const false D Ds w _ SHD' En PD).
      - apply (scaled_const true N Ns w _ SHN' En PN). }
    destruct SC as [-> ->]. cbv zeta. pose proof (scale_back HK w TN nu Hw PN) as QN. pose proof (scale_back HK w TD de Hw PD) as QD.
    set (cn := pf_coefs (pscale nu (f1 / w)%K)) in *. set (cd := pf_coefs (pscale de (f1 / w)%K)) in *.
    destruct (first_coefs HK ord Ho c y s true GN N Ns v SHN cn QN) as [KN VN]. destruct (first_coefs HK ord Ho c y s false GD D Ds v SHD cd QD) as [KD VD].
    pose proof (finish_state HK ord Ho c y s GN GD N D Ns Ds v v SHN SHD pt T Gm HT HGm one 2 _ _ _ _ _ _ m
      (first_inv HK ord Ho c y s true GN N Ns v SHN cn QN) (first_inv HK ord Ho c y s false GD D Ds v SHD cd QD) (first_restart HK ord Ho c y s true GN N Ns v SHN cn QN) (first_restart HK ord Ho c y s false GD D Ds v SHD cd QD) KN KD VN VD) as F.
    destruct F as [F|[st' [M' [E [R [Le _]]]]]]; [left; exact F|right]. exists st', M'. split; [exact E|]. split; [exact R|].
    pose proof (budget_bound N Ns GN). pose proof (budget_bound D Ds GD). unfold max_rays. rewrite !Nat.mul_add_distr_l in *. lia.
  Qed.

  (** ---- the equations of the first ray ---- *)
  Local Notation nd := (mc_norm_den c).
  Local Notation un := (unknowns (negb nd) dn).
  Local Notation ud := (unknowns nd dd).
  Local Notation an := (fun d => RatMultiSub.Hs c Ns d (ray_x y one)).
  Local Notation ad := (fun d => RatMultiSub.Hs c Ds d (ray_x y one)).
  Lemma filter_unfixed (b : bool) l : filter (fun el => negb (b && (el =? 0))) l = unknowns b l.
  Proof. clear. unfold unknowns. destruct b; [reflexivity|]. cbn [andb negb]. induction l as [|e l IH]; [reflexivity|]. cbn [filter]. rewrite IH. reflexivity. Qed.
  Lemma unknown_length (b : bool) l : NoDup l -> length (unknowns b l) + (if b then if in_dec Nat.eq_dec 0 l then 1 else 0 else 0) = length l.
  Proof.
    clear. intros ND. unfold unknowns. destruct b; [|lia]. induction l as [|e l IH]; [reflexivity|]. inversion ND as [|? ? N1 N2]; subst. specialize (IH N2). cbn [filter length].
    destruct e as [|e]; cbn [Nat.eqb negb length].
    - destruct (in_dec Nat.eq_dec 0 l) as [I|_]; [contradiction|]. destruct (in_dec Nat.eq_dec 0 (0 :: l)) as [_|X]; [lia|exfalso; apply X; left; reflexivity].
    - destruct (in_dec Nat.eq_dec 0 l) as [I|I]; destruct (in_dec Nat.eq_dec 0 (S e :: l)) as [J|J]; try lia; exfalso; [apply J; right; exact I|destruct J as [J|J]; [discriminate J|contradiction]].
  Qed.
  Lemma unknown_sum (b : bool) l (g : nat -> K) : NoDup l -> lsum g l = ((if b then if in_dec Nat.eq_dec 0%nat l then g 0%nat else f0 else f0) + lsum g (unknowns b l))%K.
  Proof.
    clear - HK. intros ND. unfold unknowns. destruct b; [|ring]. induction l as [|e l IH]; [cbn; ring|]. inversion ND as [|? ? N1 N2]; subst. specialize (IH N2). rewrite lsum_cons. cbn [filter].
    destruct e as [|e]; cbn [Nat.eqb negb].
    - rewrite IH. destruct (in_dec Nat.eq_dec 0 l) as [I|_]; [contradiction|]. destruct (in_dec Nat.eq_dec 0 (0 :: l)) as [_|X]; [ring|exfalso; apply X; left; reflexivity].
    - rewrite lsum_cons, IH. destruct (in_dec Nat.eq_dec 0 l) as [I|I]; destruct (in_dec Nat.eq_dec 0 (S e :: l)) as [J|J]; try ring; exfalso; [apply J; right; exact I|destruct J as [J|J]; [discriminate J|contradiction]].
  Qed.
  Lemma unknown_in (b : bool) l d : In d (unknowns b l) -> In d l.
  Proof. clear. unfold unknowns. destruct b; [|auto]. intros I. apply filter_In in I. apply I. Qed.
  Lemma unknown_nodup (b : bool) l : NoDup l -> NoDup (unknowns b l).
  Proof. clear. unfold unknowns. destruct b; [apply NoDup_filter|auto]. Qed.

  (** the constant of the normalised side is one *)
  Lemma const_one : (if nd then ad 0 else an 0) = f1 /\ In 0 (if nd then dd else dn).
  Proof.
    pose proof (kd_norm _ _ _ _ _ _ _ _ _ _ _ _ IP) as En. destruct (kd_degrees _ _ _ _ _ _ _ _ _ _ _ _ IP) as [_ [_ [In1 In2]]].
    pose proof SHN as sHN. pose proof SHD as sHD. destruct nd eqn:E.
    - destruct (const_part HK c y s false _ D Ds v (ray_x y one) sHD) as [_ E0]. rewrite En in E0. split; [exact E0|]. apply In2. intros X. unfold RatMultiSub.Hs in E0. rewrite X in E0. apply (F_1_neq_0 (fl_field K HK)). symmetry. exact E0.
    - destruct (const_part HK c y s true _ N Ns v (ray_x y one) sHN) as [_ E0]. rewrite En in E0. split; [exact E0|]. apply In1. intros X. unfold RatMultiSub.Hs in E0. rewrite X in E0. apply (F_1_neq_0 (fl_field K HK)). symmetry. exact E0.
  Qed.
  Lemma degs_perm : Permutation dn (filter (pb Ns) (seq 0 (S GN))) /\ Permutation dd (filter (pb Ds) (seq 0 (S GD))).
  Proof.
    destruct (kd_degrees _ _ _ _ _ _ _ _ _ _ _ _ IP) as [N1 [N2 [In1 In2]]].
    assert (B : forall (P Ps : list (list Z * K)) d, translated n s P Ps -> hom d Ps <> [] -> d <= tdegree P).
    { intros P Ps d [_ [Td _]] H. destruct (hom d Ps) as [|[e a] l] eqn:E; [contradiction|]. assert (J : In (e, a) (hom d Ps)) by (rewrite E; left; reflexivity). apply in_hom in J as [J T]. pose proof (tdegree_le Ps e a J). rewrite <- Td. lia. }
    split; apply NoDup_Permutation; try assumption; try (apply NoDup_filter, seq_NoDup); intros d; rewrite filter_In, in_seq, pb_true.
    - rewrite In1. split; [intros H; split; [|exact H]; pose proof (B N Ns d (kd_nums _ _ _ _ _ _ _ _ _ _ _ _ IP) H); lia|intros [_ H]; exact H].
    - rewrite In2. split; [intros H; split; [|exact H]; pose proof (B D Ds d (kd_dens _ _ _ _ _ _ _ _ _ _ _ _ IP) H); lia|intros [_ H]; exact H].
  Qed.
  Lemma sum_terms t : lsum (fun e => an e * pw t e)%K dn = tval TN t /\ lsum (fun e => ad e * pw t e)%K dd = tval TD t.
  Proof.
    destruct degs_perm as [PN PD]. rewrite (lsum_perm HK _ _ _ PN), (lsum_perm HK _ _ _ PD). rewrite !tval_lsum. unfold fterms. rewrite !lsum_map. split; reflexivity.
  Qed.
  Lemma unknown_total : length un + length ud = length dn + length dd - 1 /\ 0 < length un + length ud.
  Proof.
    destruct (kd_degrees _ _ _ _ _ _ _ _ _ _ _ _ IP) as [N1 [N2 [In1 In2]]]. pose proof (unknown_length (negb nd) dn N1) as L1. pose proof (unknown_length nd dd N2) as L2. destruct const_one as [_ I0]. destruct degs_perm as [PN PD].
    assert (P1 : 0 < length dn). { assert (J : In GN dn) by (apply In1; apply (sh_top _ _ _ _ _ _ _ _ SHN)). destruct dn; [contradiction|cbn; lia]. }
    assert (P2 : 0 < length dd). { assert (J : In GD dd) by (apply In2; apply (sh_top _ _ _ _ _ _ _ _ SHD)). destruct dd; [contradiction|cbn; lia]. }
    clear - I0 L1 L2 P1 P2. destruct nd; cbn [negb] in *; [destruct (in_dec Nat.eq_dec 0 dd) as [_|X]|destruct (in_dec Nat.eq_dec 0 dn) as [_|X]]; try contradiction; lia.
  Qed.
  Lemma fixed_exists (b : bool) l : existsb (fun el => b && (el =? 0)) l = b && (if in_dec Nat.eq_dec 0 l then true else false).
  Proof.
    clear. destruct b; cbn [andb].
    - destruct (in_dec Nat.eq_dec 0 l) as [I|I].
      + apply existsb_exists. exists 0. auto.
      + destruct (existsb (fun el : nat => el =? 0) l) eqn:E; [|reflexivity]. apply existsb_exists in E as [x [J E]]. apply Nat.eqb_eq in E. subst x. contradiction.
    - induction l; [reflexivity|]. exact IHl.
  Qed.
  Lemma factor_row_ok (t w : K) : factor_row c dn dd t w = sys_row (K := K) un ud (fun _ => t) (fun _ => w) (fun _ => if nd then w else fopp f1) 0.
  Proof.
    unfold factor_row, sys_row. unfold is_fixed. rewrite !filter_unfixed, !fixed_exists. f_equal. f_equal. f_equal. destruct const_one as [_ I0]. destruct nd; cbn [negb andb]; [destruct (in_dec Nat.eq_dec 0 dd) as [_|X]|destruct (in_dec Nat.eq_dec 0 dn) as [_|X]]; try contradiction; reflexivity.
  Qed.
  Lemma factor_terms_ok is_num l (a x : nat -> K) : (forall d, In d l -> a d <> f0) -> (existsb (is_fixed c is_num) l = true -> a 0 = f1) -> forall k,
    (forall j, j < length (filter (fun el => negb (is_fixed c is_num el)) l) -> x (k + j) = a (nth j (filter (fun el => negb (is_fixed c is_num el)) l) 0)) ->
    factor_terms c is_num l x k = (map (fun d => ([Z.of_nat d], a d)) l, k + length (filter (fun el => negb (is_fixed c is_num el)) l)).
  Proof.
    clear - HK. induction l as [|e l IH]; intros Hz H1 k Hx; cbn [factor_terms filter map].
    - rewrite Nat.add_0_r. reflexivity.
    - assert (Hz' : forall d, In d l -> a d <> f0) by (intros d I; apply Hz; right; exact I). cbn [existsb filter] in H1, Hx. destruct (is_fixed c is_num e) eqn:E; cbn [negb orb] in *.
      + rewrite (IH Hz' (fun _ => H1 eq_refl) k Hx). cbn [fst snd]. assert (e = 0) as -> by (unfold is_fixed in E; apply Bool.andb_true_iff in E as [_ E]; apply Nat.eqb_eq in E; exact E). rewrite (H1 eq_refl). reflexivity.
      + rewrite (IH Hz' H1 (S k)).
        * cbn [fst snd length]. pose proof (Hx 0 ltac:(cbn [length]; lia)) as X. rewrite Nat.add_0_r in X. cbn [nth] in X. rewrite X, (proj2 (feqb_neq HK _ _)) by (apply Hz; left; reflexivity). rewrite Nat.add_succ_r. reflexivity.
        * intros j Hj. specialize (Hx (S j) ltac:(cbn [length]; lia)). cbn [nth] in Hx. rewrite <- Hx. f_equal. lia.
  Qed.
  Lemma coef_nz : (forall d, In d dn -> an d <> f0) /\ (forall d, In d dd -> ad d <> f0).
  Proof.
    destruct degs_perm as [PN PD]. split; intros d I.
    - apply (Permutation_in _ PN), filter_In in I as [I B]. apply in_seq in I. apply (value_nz HK c y s true GN N Ns v SHN); [lia|apply pb_true; exact B].
    - apply (Permutation_in _ PD), filter_In in I as [I B]. apply in_seq in I. apply (value_nz HK c y s false GD D Ds v SHD); [lia|apply pb_true; exact B].
  Qed.
  Lemma solve_factor_ok rows : length rows = length dn + length dd - 1 -> length rows <= length ts ->
    (forall i, i < length rows -> nth i rows [] = factor_row c dn dd (pt i) (fv i)) ->
    exists nu de, solve_factor c dn dd rows = Ret (nu, de) /\ Permutation (pf_coefs nu) (as_map (scaled f1 TN)) /\ Permutation (pf_coefs de) (as_map (scaled f1 TD)).
  Proof.
    intros Lr Lt Hr. destruct (kd_degrees _ _ _ _ _ _ _ _ _ _ _ _ IP) as [N1 [N2 [In1 In2]]]. destruct unknown_total as [UT UP]. destruct const_one as [C1 I0]. destruct coef_nz as [ZN ZD]. destruct degs_perm as [PN PD].
    destruct (sys_solve HK un ud pt fv (fun i => if nd then fv i else fopp f1) an ad rows) as [x [Ex [XN XD]]].
    - apply unknown_nodup. exact N1.
    - apply unknown_nodup. exact N2.
    - intros e He. pose proof (mf_degree _ _ _ _ _ CF) as B. destruct HGm as [B1 B2]. assert (e <= Gm); [|lia]. destruct He as [I|I]; apply unknown_in in I.
      + apply (Permutation_in _ PN), filter_In in I as [I _]. apply in_seq in I. lia.
      + apply (Permutation_in _ PD), filter_In in I as [I _]. apply in_seq in I. lia.
    - intros i Hi. rewrite Hr by lia. rewrite factor_row_ok. reflexivity.
    - rewrite UT. apply (kd_first _ _ _ _ _ _ _ _ _ _ _ _ IP).
    - intros i Hi. destruct (value_one i ltac:(lia)) as [Z E]. destruct (sum_terms (pt i)) as [SN SD].
      rewrite <- SN, <- SD in E. rewrite (unknown_sum (negb nd) dn _ N1), (unknown_sum nd dd _ N2) in E.
      set (A := lsum (fun e => an e * pw (pt i) e)%K un) in *. set (B := lsum (fun e => ad e * pw (pt i) e)%K ud) in *. clearbody A B.
      destruct nd; cbn [negb] in *.
      + destruct (in_dec Nat.eq_dec 0 dd) as [_|X]; [|contradiction]. cbv beta in C1. rewrite C1 in E. cbn [pw] in E. transitivity ((f0 + A) - fv i * B)%K; [ring|]. rewrite <- E. ring.
      + destruct (in_dec Nat.eq_dec 0 dn) as [_|X]; [|contradiction]. cbv beta in C1. rewrite C1 in E. cbn [pw] in E. transitivity ((f1 * f1 + A) - fv i * (f0 + B) - f1)%K; [ring|]. rewrite E. ring.
    - exact UP.
    - unfold solve_factor. rewrite Lr, <- UT, Ex. cbn [obind].
      assert (FN : filter (fun el => negb (is_fixed c true el)) dn = un) by apply filter_unfixed. assert (FD : filter (fun el => negb (is_fixed c false el)) dd = ud) by apply filter_unfixed.
      rewrite (factor_terms_ok true dn an x ZN); [|intros H; unfold is_fixed in H; rewrite fixed_exists in H; destruct nd; [discriminate H|exact C1]|rewrite FN; exact XN]. cbn [fst snd]. rewrite FN. cbn [Nat.add].
      rewrite (factor_terms_ok false dd ad x ZD); [|intros H; unfold is_fixed in H; rewrite fixed_exists in H; destruct nd; [exact C1|discriminate H]|rewrite FD; exact XD]. cbn [fst snd].
      eexists. eexists. split; [reflexivity|]. cbn [pf_coefs]. unfold as_map, scaled, fterms. rewrite !map_map. cbn [fst snd].
      split; (eapply Permutation_trans; [apply Permutation_map; first [exact PN|exact PD]|]); (erewrite map_ext; [apply Permutation_refl|]); intros d; cbn beta; f_equal; ring.
  Qed.

  (** ---- the run ---- *)
  Local Notation fe := (length dn + length dd - 1).
  Definition srun_state (m : nat) (x : sst K) : Prop :=
    (exists rows, x = SDegs rows /\ length rows = m /\ m < fe /\ forall i, i < m -> nth i rows [] = factor_row c dn dd (pt i) (fv i)) \/
    (exists st k M, x = SRays st /\ RS m k M st /\ M <= max_rays n N D Ns Ds /\ m <= fe + (max_rays n N D Ns Ds - M) * (GN + GD) + k).
  Lemma srun_bound m x : srun_state m x -> m < max_probes_known n N D Ns Ds dn dd /\ probe_order (n - 1) T Gm (srequested c x).
  Proof.
    intros [[rows [-> [_ [L _]]]]|[st [k [M [-> [R [LM Lm]]]]]]].
    - split; [unfold max_probes_known; lia|]. apply probe_one.
    - destruct (ray_measure HK ord Ho c y s GN GD N D Ns Ds v v SHN SHD pt T Gm HT HGm m k M st R) as [Lk PM]. split.
      + unfold max_probes_known. set (B := max_rays n N D Ns Ds) in *. set (E := GN + GD) in *. assert (X : B * E = (B - M) * E + M * E) by (rewrite <- Nat.mul_add_distr_r; f_equal; lia).
        assert (Y : E <= M * E) by (destruct M; [lia|cbn [Nat.mul]; lia]). clear - X Y Lk Lm. lia.
      + destruct R as [num [den [r [bn [bd [-> [IN [ID [_ [_ [GR _]]]]]]]]]]]. cbn [srequested requested].
        apply (asks_order HK ord Ho c y s GN GD N D Ns Ds v v SHN SHD T Gm HT HGm num den bn bd _ _ IN ID GR).
  Qed.
  Lemma srun_step m x : srun_state m x -> m < length ts ->
    exists f, sinterpolate ord c y s dn dd x (pt m) (bb (srequested c x) (pt m)) = Ret f /\ match f with SMore x' => srun_state (S m) x' | SResult r => (result_ok c N D r /\ left_ok c s GN GD N D Ns Ds r) end.
  Proof.
    intros [[rows [-> [L [Lf Hr]]]]|[st [k [M [-> [R [LM Lm]]]]]]] Lt.
    - cbn [sinterpolate srequested]. change (bb (repeat 1 (n - 1)) (pt m)) with (fv m).
      assert (Len : length (rows ++ [factor_row c dn dd (pt m) (fv m)]) = S m) by (rewrite app_length; cbn [length]; lia).
      assert (Hr' : forall i, i < S m -> nth i (rows ++ [factor_row c dn dd (pt m) (fv m)]) [] = factor_row c dn dd (pt i) (fv i)).
      { intros i Hi. destruct (Nat.eq_dec i m) as [->|Ni]; [rewrite app_nth2 by lia; rewrite L, Nat.sub_diag; reflexivity|]. rewrite app_nth1 by lia. apply Hr. lia. }
      rewrite Len. unfold factor_eqns. destruct (Nat.eqb_spec (S m) fe) as [Ef|Nf].
      + destruct (solve_factor_ok _ ltac:(rewrite Len; exact Ef) ltac:(rewrite Len; exact Lt) ltac:(rewrite Len; exact Hr')) as [nu [de [-> [PN PD]]]]. cbn [obind fst snd].
        destruct (first_ray_ok f1 nu de (S m) (F_1_neq_0 (fl_field K HK)) PN PD) as [[num1 [den1 [Dn E]]]|[st' [M' [E [R Le]]]]].
        * destruct (combine_ok HK ord Ho c y s GN GD N D Ns Ds v v SHN SHD (kd_norm _ _ _ _ _ _ _ _ _ _ _ _ IP) num1 den1 Dn) as [r [Er Rr]]. rewrite E, Er. cbn [obind]. eexists. split; [reflexivity|exact Rr].
        * rewrite E. cbn [obind]. eexists. split; [reflexivity|]. right. exists st', 0, M'. split; [reflexivity|]. split; [exact R|]. split; [exact Le|]. rewrite Ef. rewrite <- Nat.add_assoc. apply Nat.le_add_r.
      + eexists. split; [reflexivity|]. left. eexists. split; [reflexivity|]. split; [exact Len|]. split; [lia|exact Hr'].
    - cbn [sinterpolate srequested].
      destruct (ray_measure HK ord Ho c y s GN GD N D Ns Ds v v SHN SHD pt T Gm HT HGm m k M st R) as [Lk PM].
      destruct (ray_step HK ord Ho c y s GN GD N D Ns Ds v v SHN SHD pt (length ts) T Gm HT HGm (kd_poles _ _ _ _ _ _ _ _ _ _ _ _ IP) (kd_regular _ _ _ _ _ _ _ _ _ _ _ _ IP) m k M st R Lt) as [out [-> [[num1 [den1 [Dn E]]]|[st' [k' [M' [E [R' C]]]]]]]].
      + destruct (combine_ok HK ord Ho c y s GN GD N D Ns Ds v v SHN SHD (kd_norm _ _ _ _ _ _ _ _ _ _ _ _ IP) num1 den1 Dn) as [r [Er Rr]]. rewrite E, Er. cbn [obind]. eexists. split; [reflexivity|exact Rr].
      + rewrite E. cbn [obind]. eexists. split; [reflexivity|]. right. exists st', k', M'. split; [reflexivity|]. split; [exact R'|]. destruct C as [[C ->]|[-> ->]]; [|split; [exact LM|lia]]. split; [lia|].
        set (B := max_rays n N D Ns Ds) in *. set (E' := GN + GD) in *. assert (X : (B - M) * E' + E' <= (B - M') * E') by (replace ((B - M) * E' + E') with (S (B - M) * E') by (cbn [Nat.mul]; lia); apply Nat.mul_le_mono_r; lia). clear - X Lm Lk. lia.
  Qed.
  Lemma srun_all m : m <= length ts -> exists f, sdrive ord c y s dn dd bb (firstn m ts) (SDegs []) = Ret f /\ match f with SMore x => srun_state m x | SResult r => (result_ok c N D r /\ left_ok c s GN GD N D Ns Ds r) end.
  Proof.
    induction m as [|m IH]; intros L.
    - eexists. split; [reflexivity|]. left. exists []. split; [reflexivity|]. split; [reflexivity|]. destruct unknown_total as [UT UP]. split; [lia|]. intros i Hi. lia.
    - destruct IH as [f [E H]]; [lia|]. rewrite (firstn_snoc' f0) by lia. rewrite sdrive_snoc, E. cbn [obind]. destruct f as [x|r].
      + apply srun_step; [exact H|lia].
      + eexists. split; [reflexivity|exact H].
  Qed.
End Run.

(** Proofs for RatReconst in several variables, part 10: the whole run over the first prime. *)
From Coq Require Import Permutation Sorted.
From Verif Require Import Machine FField FSum LinAlg FPoly PolyFF PolySpec PolyFFProofs PolyFFProofs2 RatUni RatUniSpec RatUniThiele Thiele ThieleSpec ThieleProofs BM Newton PolyRec PolyRecSpec PolyRecRunSpec PolyRecMath PolyRecFile PolyRecStage RatMulti RatMultiSpec RatMultiRunSpec RatMultiMath RatMultiShift RatMultiSub RatMultiTraj RatMultiSide RatMultiRay RatMultiResult RatMultiMain RatMultiThiele RatMultiFirst.
Open Scope nat_scope.

Section Weight.
  Context {K : fops}.
  Lemma weight_sum (Q : list (list Z * K)) l : NoDup l -> fold_right Nat.add 0 (map (fun d => (d + 2) * length (hom d Q)) l) <= weight Q.
  Proof.
    intros ND. induction Q as [|[e a] Q IH]; [clear ND; induction l as [|d l IH]; cbn in *; lia|].
    set (k := Z.to_nat (total e)).
    assert (X : fold_right Nat.add 0 (map (fun d => (d + 2) * length (hom d ((e, a) :: Q))) l) <= fold_right Nat.add 0 (map (fun d => (d + 2) * length (hom d Q)) l) + (if in_dec Nat.eq_dec k l then k + 2 else 0)).
    { clear IH. induction l as [|d l IH]; [cbn; lia|]. inversion ND as [|? ? N1 N2]; subst. specialize (IH N2). cbn [map fold_right]. rewrite hom_cons.
      destruct (Z.eqb_spec (total e) (Z.of_nat d)) as [E|E].
      - assert (k = d) by (unfold k; lia). subst d. destruct (in_dec Nat.eq_dec k l) as [I|_]; [contradiction|]. destruct (in_dec Nat.eq_dec k (k :: l)) as [_|I]; [|exfalso; apply I; left; reflexivity]. cbn [length]. lia.
      - destruct (in_dec Nat.eq_dec k l) as [I|I]; destruct (in_dec Nat.eq_dec k (d :: l)) as [J|J]; try lia. exfalso. apply J. right. exact I. }
    unfold weight in *. cbn [map fst fold_right]. fold k. destruct (in_dec Nat.eq_dec k l); lia.
  Qed.
  Lemma tdegree_le (Q : list (list Z * K)) e a : In (e, a) Q -> Z.to_nat (total e) <= tdegree Q.
  Proof.
    unfold tdegree. induction Q as [|[e' a'] Q IH]; intros I; [contradiction|]. cbn [map fst fold_right]. destruct I as [E|I]; [injection E as -> ->; lia|]. specialize (IH I). lia.
  Qed.
  Lemma tdegree_attained (Q : list (list Z * K)) : Q <> [] -> exists e a, In (e, a) Q /\ Z.to_nat (total e) = tdegree Q.
  Proof.
    unfold tdegree. induction Q as [|[e a] Q IH]; intros H; [contradiction|]. cbn [map fst fold_right]. destruct (Nat.max_spec (Z.to_nat (total e)) (fold_right Nat.max 0 (map (fun t => Z.to_nat (total (fst t))) Q))) as [[L ->]|[L ->]].
    - destruct Q as [|t Q]; [cbn in L; lia|]. destruct IH as [e' [a' [I E]]]; [discriminate|]. exists e', a'. split; [right; exact I|exact E].
    - exists e, a. split; [left; reflexivity|reflexivity].
  Qed.
  Lemma polynomial_wf n G (Q : list (list Z * K)) : polynomial n G Q -> wf n (tdegree Q) Q.
  Proof.
    intros [_ [_ X]] e a I. destruct (X e a I) as [_ [L [B _]]]. split; [exact L|]. split; [intros i; apply B|]. pose proof (tdegree_le Q e a I). pose proof (total_range e (fun i => proj1 (B i))). lia.
  Qed.
End Weight.

Lemma mdrive_snoc {K : fops} ord c y s (bb : list nat -> K -> K) t l : forall st, mdrive ord c y s bb (l ++ [t]) st =
  (do f <- mdrive ord c y s bb l st; match f with MMore st' => minterpolate ord c y s st' t (bb (requested c st') t) | MResult _ => Ret f end).
Proof.
  induction l as [|u l IH]; intros st; cbn [app mdrive obind].
  - destruct (minterpolate ord c y s st t (bb (requested c st) t)) as [[st'|r]| | | |]; reflexivity.
  - destruct (minterpolate ord c y s st u (bb (requested c st) u)) as [[st'|r]| | | |]; cbn [obind]; [apply IH|reflexivity|reflexivity|reflexivity|reflexivity|reflexivity].
Qed.
Lemma firstn_snoc' {A} (d : A) l : forall m, m < length l -> firstn (S m) l = firstn m l ++ [nth m l d].
Proof. induction l as [|a l IH]; intros m H; [cbn in H; lia|]. destruct m as [|m]; [reflexivity|]. cbn [firstn nth app]. f_equal. apply IH. cbn in H. lia. Qed.

Section Run.
  Context {K : fops} (HK : flaws K).
  Add Field KRN : (fl_field K HK).
  Local Notation pv := (@poly_value K).
  Variable ord : forall A : Type, list A -> list A.
  Hypothesis Ho : forall A (l : list A), Permutation (ord A l) l.
  Variable c : mcfg.
  Local Notation n := (mc_n c).
  Variables (N D Ns Ds : list (list Z * K)) (y s : nat -> K) (ts : list K).
  Hypothesis IP : interpolable n (mc_norm_den c) (mc_bt c) N D Ns Ds y s ts.
  Hypothesis CF : mconfig_fits c N D Ns Ds.
  Local Notation GN := (tdegree N).
  Local Notation GD := (tdegree D).
  Local Notation T := (max_terms N D Ns Ds).
  Local Notation Gm := (max_degree N D).
  Local Notation fp := (first_points N D).
  Local Notation bb := (ray_value n N D y s).
  Local Notation pt := (point ts).
  Local Notation fv := (first_value n N D y s ts).

  (** ---- the hypotheses of both sides ---- *)
  Lemma steps_le (P Ps : list (list Z * K)) d dense : steps c P Ps d dense <= (n - 1) * (d + 2) * length (hom d (source P Ps dense)) + (if hom d (source P Ps dense) then 1 else 0).
  Proof.
    unfold steps, target, layer. destruct (hom d (source P Ps dense)) as [|t l]; cbn [map]; [cbn; lia|]. cbn [length]. rewrite map_length. lia.
  Qed.
  Lemma hom_length d (Q : list (list Z * K)) : length (hom d Q) <= length Q.
  Proof. unfold hom. induction Q as [|t Q IH]; [apply le_n|]. cbn [filter]. destruct (_ =? _)%Z; cbn [length]; lia. Qed.
  Lemma side_ok (is_num : bool) (P Ps : list (list Z * K)) : polynomial n (tdegree P) P -> translated n s P Ps -> tdegree P <= Gm -> length P <= T -> length Ps <= T ->
    (forall d, hom d P <> [] -> hom d Ps <> []) -> (forall Q d, In Q [P; Ps] -> 0 < d -> hom d Q <> [] -> suitable true (mc_bt c) (n - 1) d (layer d Q) y) ->
    (forall v : nat -> K, distinct (3 * (GN + GD) + 3) v -> distinct (S (tdegree P)) v) ->
    (forall b e i, (if is_num then mc_bn c else mc_bd c) = Some b -> In e (map fst (P ++ Ps)) -> S i < n -> (nth (S i) e 0 <= nth i b 0)%Z) ->
    forall v : nat -> K, distinct (3 * (GN + GD) + 3) v -> side_hyp c y s is_num (tdegree P) P Ps v.
  Proof.
    intros HP [HPs [Td HV]] LG LP LPs Lay Su Dv Bd v Hv. destruct CF. constructor; try assumption.
    - apply (ip_n _ _ _ _ _ _ _ _ _ _ IP).
    - apply (polynomial_wf n (tdegree P)). exact HP.
    - rewrite <- Td. apply (polynomial_wf n (tdegree P)). exact HPs.
    - apply Dv. exact Hv.
    - intros j Hj. apply (ip_char _ _ _ _ _ _ _ _ _ _ IP). lia.
    - lia.
    - destruct (tdegree_attained Ps (proj1 HPs)) as [e [a [I E]]]. intros X. destruct (proj2 (proj2 HPs) e a I) as [_ [_ [B _]]]. pose proof (total_range e (fun i => proj1 (B i))).
      assert (J : In (e, a) (hom (tdegree P) Ps)) by (apply in_hom; split; [exact I|lia]). rewrite X in J. exact J.
    - lia.
    - intros Q [<-|[<-|[]]]; lia.
    - intros Q b I Eb e i Ie Li. apply (Bd b e i Eb); [|exact Li]. rewrite map_app. apply in_or_app. destruct I as [<-|[<-|[]]]; [left|right]; exact Ie.
    - intros d dense Ld. pose proof (steps_le P Ps d dense) as X. pose proof (hom_length d (source P Ps dense)) as Y. assert (Z : length (source P Ps dense) <= T) by (destruct dense; cbn [source]; lia).
      assert (W : (n - 1) * (d + 2) * length (hom d (source P Ps dense)) <= (n - 1) * (Gm + 2) * T) by (apply Nat.mul_le_mono; [apply Nat.mul_le_mono_l; lia|lia]).
      destruct (hom d (source P Ps dense)); lia.
  Qed.
  Variable v : nat -> K.
  Hypothesis Hv : distinct (3 * (GN + GD) + 3) v.
  Lemma SHN : side_hyp c y s true GN N Ns v.
  Proof.
    destruct IP, CF. apply side_ok; try assumption.
    - unfold max_degree. lia.
    - unfold max_terms. lia.
    - unfold max_terms. lia.
    - intros d. apply ip_layers.
    - intros Q d I. apply ip_anchors. destruct I as [<-|[<-|[]]]; cbn; auto.
    - intros w Hw i j Hi Hj. apply Hw; lia.
  Qed.
  Lemma SHD : side_hyp c y s false GD D Ds v.
  Proof.
    destruct IP, CF. apply side_ok; try assumption.
    - unfold max_degree. lia.
    - unfold max_terms. lia.
    - unfold max_terms. lia.
    - intros d. apply ip_layers.
    - intros Q d I. apply ip_anchors. destruct I as [<-|[<-|[]]]; cbn; auto.
    - intros w Hw i j Hi Hj. apply Hw; lia.
  Qed.
  Lemma HT : length N <= T /\ length Ns <= T /\ length D <= T /\ length Ds <= T. Proof. unfold max_terms. lia. Qed.
  Lemma HGm : GN <= Gm /\ GD <= Gm. Proof. unfold max_degree. lia. Qed.

  (** ---- the number of rays ---- *)
  Lemma budget_bound (P Ps : list (list Z * K)) G : budget0 c G P Ps <= (n - 1) * (weight P + weight Ps) + G.
  Proof.
    unfold budget0. set (l := pend_degs G Ps).
    assert (ND : NoDup l) by (apply NoDup_filter; apply NoDup_rev; apply seq_NoDup).
    assert (Len : length l <= G) by (pose proof (split_count (pb Ps) (rev (seq 1 G))) as X; rewrite rev_length, seq_length in X; unfold l, pend_degs; lia).
    assert (Pos : forall d, In d l -> hom d Ps <> []) by (intros d I; apply filter_In in I as [_ I]; apply pb_true in I; exact I).
    pose proof (weight_sum P l ND) as W1. pose proof (weight_sum Ps l ND) as W2.
    assert (X : fold_right Nat.add 0 (map (fun d => cost c P Ps d true 0) l) <= (n - 1) * (fold_right Nat.add 0 (map (fun d => (d + 2) * length (hom d P)) l) + fold_right Nat.add 0 (map (fun d => (d + 2) * length (hom d Ps)) l)) + length l).
    { clear W1 W2 ND Len. revert Pos. generalize l as l'. induction l' as [|d l' IH]; intros Pos; [cbn; lia|]. cbn [map fold_right length]. specialize (IH (fun e I => Pos e (or_intror I))). specialize (Pos d (or_introl eq_refl)).
      unfold cost at 1. pose proof (steps_le P Ps d true) as A. pose proof (steps_le P Ps d false) as B. cbn [source] in A, B.
      assert (A' : (if hom d Ps then 1 else 0) = 0) by (destruct (hom d Ps); [contradiction|reflexivity]). rewrite A' in A. assert (B' : (if hom d P then 1 else 0) <= 1) by (destruct (hom d P); lia).
      rewrite <- Nat.mul_assoc in A, B. rewrite !Nat.mul_add_distr_l in *. lia. }
    assert (Y : (n - 1) * (fold_right Nat.add 0 (map (fun d => (d + 2) * length (hom d P)) l) + fold_right Nat.add 0 (map (fun d => (d + 2) * length (hom d Ps)) l)) <= (n - 1) * (weight P + weight Ps)) by (apply Nat.mul_le_mono_l; lia).
    lia.
  Qed.

  (** ---- the first ray ---- *)
  Local Notation one := (ones n).
  Local Notation TN := (fterms c y GN Ns).
  Local Notation TD := (fterms c y GD Ds).
  Lemma probe_one : probe_order (n - 1) T Gm one.
  Proof.
    pose proof (ip_n _ _ _ _ _ _ _ _ _ _ IP) as Hn. exists 0, 1, 1. split; [lia|]. split; [|split; [lia|]].
    - unfold max_terms. destruct (ip_num _ _ _ _ _ _ _ _ _ _ IP) as [X _]. destruct N; [contradiction|cbn [length]; lia].
    - unfold ones. generalize (n - 1) as k. intros k. assert (G : forall a b, repeat 1 k = map (fun j : nat => if j <? a then 1 else if j =? a then 1 else 1) (seq b k)).
      { intros a. induction k as [|k IH]; intros b; [reflexivity|]. cbn [repeat seq map]. rewrite <- IH. destruct (b <? a); [reflexivity|]. destruct (b =? a); reflexivity. }
      apply G.
  Qed.
  Lemma value_one i : i <= fp -> tval TD (pt i) <> f0 /\ (fv i * tval TD (pt i))%K = tval TN (pt i).
  Proof.
    intros Li. rewrite (fterms_value HK c y s true GN N Ns v SHN), (fterms_value HK c y s false GD D Ds v SHD).
    assert (Z : pv n D (ray_point y s one (pt i)) <> f0) by (apply (ip_poles _ _ _ _ _ _ _ _ _ _ IP); [apply probe_one|pose proof (ip_points _ _ _ _ _ _ _ _ _ _ IP); lia]).
    split; [exact Z|]. unfold first_value, ray_value. field. exact Z.
  Qed.
  Lemma coprime_one : exists U V : K -> K, polynomial_function GD U /\ polynomial_function GN V /\ forall t, (U t * tval TN t + V t * tval TD t)%K = f1.
  Proof.
    destruct (ip_coprime _ _ _ _ _ _ _ _ _ _ IP) as [U [V [HU [HV E]]]]. exists U, V. split; [exact HU|]. split; [exact HV|]. intros t. rewrite (fterms_value HK c y s true GN N Ns v SHN), (fterms_value HK c y s false GD D Ds v SHD). apply E.
  Qed.
  Lemma fp_bound : (Z.of_nat fp < 2 ^ 32)%Z.
  Proof. pose proof (mf_degree _ _ _ _ _ CF) as B. unfold first_points, max_degree in *. change (2 ^ 32)%Z with (2 * 2 ^ 31)%Z. lia. Qed.
  Lemma first_step k : k <= fp -> add_point (st pt fv k) (fv k) (pt k) = Ret (if k =? fp then (true, mk_thiele (alist pt fv fp) (tlist pt (S fp))) else (false, st pt fv (S k))).
  Proof.
    destruct IP. apply (thiele_step HK TN TD GN GD (fterms_ok HK c y s true GN N Ns v SHN) (fterms_ok HK c y s false GD D Ds v SHD) pt fv v Hv coprime_one value_one ip_distinct ip_breakdown ip_fraction).
  Qed.
  Lemma first_maps : exists w nu de, w <> f0 /\ thiele_canonical (ord _) (alist pt fv fp) (tlist pt fp) = (nu, de) /\
    Permutation (pf_coefs nu) (as_map (scaled w TN)) /\ Permutation (pf_coefs de) (as_map (scaled w TD)).
  Proof.
    destruct IP. apply (thiele_maps HK (ord _) (Ho _) TN TD GN GD (fterms_ok HK c y s true GN N Ns v SHN) (fterms_ok HK c y s false GD D Ds v SHD) pt fv fp_bound v Hv coprime_one value_one ip_first ip_distinct ip_nonzero ip_breakdown). unfold first_points; lia.
  Qed.
  Lemma fold_min (l : list (list Z * K)) : (forall kc, In kc l -> (0 <= expo (fst kc) 0)%Z) -> forall a, (match a with Some z => (0 <= z)%Z | None => True end) ->
    (a = Some 0%Z \/ exists kc, In kc l /\ expo (fst kc) 0 = 0%Z) ->
    fold_left (fun a kc => match a with None => Some (expo (fst kc) 0) | Some z => Some (Z.min z (expo (fst kc) 0)) end) l a = Some 0%Z.
  Proof.
    clear. induction l as [|kc l IH]; intros B a La H; cbn [fold_left].
    - destruct H as [H|[kc [[] _]]]. exact H.
    - pose proof (B kc (or_introl eq_refl)) as B0. apply IH; [intros k I; apply B; right; exact I|destruct a; lia|]. destruct H as [->|[k [[->|I] H]]]; [left; f_equal; lia|left; destruct a; f_equal; lia|right; exists k; auto].
  Qed.
  Lemma scaled_const is_num (P Ps : list (list Z * K)) w (m : pmap K) : side_hyp c y s is_num (tdegree P) P Ps v -> pv n P s = f1 -> Permutation m (as_map (scaled w (fterms c y (tdegree P) Ps))) ->
    min_deg1 ord m = Some 0%Z /\ coef_at m [0%Z] = w.
  Proof.
    intros SH E Pm. destruct (const_part HK c y s is_num _ P Ps v (ray_x y one) SH) as [_ E0]. rewrite E in E0.
    assert (I0 : In ([0%Z], (w * f1)%K) (as_map (scaled w (fterms c y (tdegree P) Ps)))).
    { unfold as_map, scaled, fterms. rewrite !map_map. cbn [fst snd]. apply in_map_iff. exists 0. split; [cbn [Z.of_nat]; rewrite E0; reflexivity|]. apply filter_In. split; [apply in_seq; lia|]. apply pb_true. intros X. unfold RatMultiSub.Hs in E0. rewrite X in E0. apply (F_1_neq_0 (fl_field K HK)). symmetry. exact E0. }
    assert (ND : NoDup (map fst m)).
    { eapply Permutation_NoDup; [apply Permutation_map, Permutation_sym; exact Pm|]. unfold as_map, scaled, fterms. rewrite !map_map. cbn [fst]. apply FinFun.Injective_map_NoDup; [intros a b X; injection X; lia|]. apply NoDup_filter, seq_NoDup. }
    split.
    - unfold min_deg1. apply fold_min; [|exact I|].
      + intros kc I. apply (Permutation_in _ (Ho _ m)) in I. apply (Permutation_in _ Pm) in I. unfold as_map in I. apply in_map_iff in I as [t [<- _]]. cbn [fst]. unfold expo. cbn [nth]. lia.
      + right. exists ([0%Z], (w * f1)%K). split; [|reflexivity]. apply (Permutation_in _ (Permutation_sym (Ho _ m))). apply (Permutation_in _ (Permutation_sym Pm)). exact I0.
    - unfold coef_at. apply (Permutation_in _ (Permutation_sym Pm)) in I0. apply (pfind_In m _ _ ND) in I0. rewrite I0. ring.
  Qed.
  Local Notation RS := (ray_state ord c y s GN GD N D Ns Ds pt).
  Local Notation done := (done_ok ord c y s GN GD N D Ns Ds).
  Lemma first_ray_ok w nu de m : w <> f0 -> Permutation (pf_coefs nu) (as_map (scaled w TN)) -> Permutation (pf_coefs de) (as_map (scaled w TD)) ->
    (exists num1 den1, done num1 den1 /\ first_ray ord c y s nu de = do r <- combine_results ord c s num1 den1; Ret (MResult r)) \/
    (exists st' M', first_ray ord c y s nu de = Ret (MMore st') /\ RS m 0 M' st' /\ M' <= max_rays n N D Ns Ds).
  Proof.
    intros Hw PN PD. unfold first_ray. set (side := pf_coefs (if mc_norm_den c then de else nu)).
    assert (SC : min_deg1 ord side = Some 0%Z /\ coef_at side [0%Z] = w).
    { pose proof (ip_norm _ _ _ _ _ _ _ _ _ _ IP) as En. pose proof SHN as SHN'. pose proof SHD as SHD'. unfold side. destruct (mc_norm_den c).
      - apply (scaled_const false D Ds w _ SHD' En PD).
      - apply (scaled_const true N Ns w _ SHN' En PN). }
    destruct SC as [-> ->]. cbv zeta. pose proof (scale_back HK w TN nu Hw PN) as QN. pose proof (scale_back HK w TD de Hw PD) as QD.
    set (cn := pf_coefs (pscale nu (f1 / w)%K)) in *. set (cd := pf_coefs (pscale de (f1 / w)%K)) in *.
    destruct (first_coefs HK ord Ho c y s true GN N Ns v SHN cn QN) as [KN VN]. destruct (first_coefs HK ord Ho c y s false GD D Ds v SHD cd QD) as [KD VD].
    pose proof (finish_state HK ord Ho c y s GN GD N D Ns Ds v v SHN SHD pt T Gm HT HGm one 2 _ _ _ _ _ _ m
      (first_inv HK ord Ho c y s true GN N Ns v SHN cn QN) (first_inv HK ord Ho c y s false GD D Ds v SHD cd QD) (first_restart HK ord Ho c y s true GN N Ns v SHN cn QN) (first_restart HK ord Ho c y s false GD D Ds v SHD cd QD) KN KD VN VD) as F.
    destruct F as [F|[st' [M' [E [R [Le _]]]]]]; [left; exact F|right]. exists st', M'. split; [exact E|]. split; [exact R|].
    pose proof (budget_bound N Ns GN). pose proof (budget_bound D Ds GD). unfold max_rays. rewrite !Nat.mul_add_distr_l in *. lia.
  Qed.

  (** ---- the run ---- *)
  Definition run_state (m : nat) (x : mst K) : Prop :=
    (x = MFirst (st pt fv m) /\ m <= fp) \/
    (exists k M, RS m k M x /\ M <= max_rays n N D Ns Ds /\ m <= S fp + (max_rays n N D Ns Ds - M) * (GN + GD) + k).
  Lemma run_bound m x : run_state m x -> m < max_probes n N D Ns Ds /\ probe_order (n - 1) T Gm (requested c x).
  Proof.
    intros [[-> L]|[k [M [R [LM Lm]]]]].
    - split; [unfold max_probes; lia|]. apply probe_one.
    - destruct (ray_measure HK ord Ho c y s GN GD N D Ns Ds v v SHN SHD pt T Gm HT HGm m k M x R) as [Lk PM]. split.
      + unfold max_probes. set (B := max_rays n N D Ns Ds) in *. set (E := GN + GD) in *. assert (X : B * E = (B - M) * E + M * E) by (rewrite <- Nat.mul_add_distr_r; f_equal; lia).
        assert (Y : E <= M * E) by (destruct M; [lia|cbn [Nat.mul]; lia]). lia.
      + destruct R as [num [den [r [bn [bd [-> [IN [ID [_ [_ [GR _]]]]]]]]]]]. cbn [requested].
        apply (asks_order HK ord Ho c y s GN GD N D Ns Ds v v SHN SHD T Gm HT HGm num den bn bd _ _ IN ID GR).
  Qed.
  Lemma run_step m x : run_state m x -> m < length ts ->
    exists f, minterpolate ord c y s x (pt m) (bb (requested c x) (pt m)) = Ret f /\
      match f with MMore x' => run_state (S m) x' | MResult r => (result_ok c N D r /\ left_ok c s GN GD N D Ns Ds r) end.
  Proof.
    intros [[-> L]|[k [M [R [LM Lm]]]]] Lt.
    - cbn [minterpolate requested]. change (bb (repeat 1 (n - 1)) (pt m)) with (fv m). rewrite (first_step m L). cbn [obind]. destruct (Nat.eqb_spec m fp) as [->|Nm]; cbn [fst snd].
      + unfold get_result. cbn [th_t th_a]. destruct (tlist pt (S fp)) as [|t0 tl] eqn:Etl; [apply (f_equal (@length _)) in Etl; rewrite tlist_len in Etl; discriminate|]. rewrite <- Etl. clear t0 tl Etl.
        rewrite tlist_S, removelast_last. destruct first_maps as [w [nu [de [Hw [-> [PN PD]]]]]]. cbn [obind fst snd].
        destruct (first_ray_ok w nu de (S fp) Hw PN PD) as [[num1 [den1 [Dn E]]]|[st' [M' [E [R Le]]]]].
        * destruct (combine_ok HK ord Ho c y s GN GD N D Ns Ds v v SHN SHD (ip_norm _ _ _ _ _ _ _ _ _ _ IP) num1 den1 Dn) as [r [Er Rr]]. rewrite E, Er. cbn [obind]. eexists. split; [reflexivity|exact Rr].
        * rewrite E. eexists. split; [reflexivity|]. right. exists 0, M'. split; [exact R|]. split; [exact Le|rewrite <- Nat.add_assoc; apply Nat.le_add_r].
      + eexists. split; [reflexivity|]. left. split; [reflexivity|lia].
    - destruct (ray_measure HK ord Ho c y s GN GD N D Ns Ds v v SHN SHD pt T Gm HT HGm m k M x R) as [Lk PM].
      destruct (ray_step HK ord Ho c y s GN GD N D Ns Ds v v SHN SHD pt (length ts) T Gm HT HGm (ip_poles _ _ _ _ _ _ _ _ _ _ IP) (ip_regular _ _ _ _ _ _ _ _ _ _ IP) m k M x R Lt) as [out [-> [[num1 [den1 [Dn E]]]|[st' [k' [M' [E [R' C]]]]]]]].
      + destruct (combine_ok HK ord Ho c y s GN GD N D Ns Ds v v SHN SHD (ip_norm _ _ _ _ _ _ _ _ _ _ IP) num1 den1 Dn) as [r [Er Rr]]. rewrite E, Er. cbn [obind]. eexists. split; [reflexivity|exact Rr].
      + rewrite E. eexists. split; [reflexivity|]. right. exists k', M'. split; [exact R'|]. destruct C as [[C ->]|[-> ->]]; [|split; [exact LM|lia]]. split; [lia|].
        set (B := max_rays n N D Ns Ds) in *. set (E' := GN + GD) in *. assert (X : (B - M) * E' + E' <= (B - M') * E') by (replace ((B - M) * E' + E') with (S (B - M) * E') by (cbn [Nat.mul]; lia); apply Nat.mul_le_mono_r; lia). lia.
  Qed.
  Lemma run_all m : m <= length ts -> exists f, mdrive ord c y s bb (firstn m ts) (MFirst (mk_thiele [] [])) = Ret f /\
    match f with MMore x => run_state m x | MResult r => (result_ok c N D r /\ left_ok c s GN GD N D Ns Ds r) end.
  Proof.
    induction m as [|m IH]; intros L.
    - eexists. split; [reflexivity|]. left. split; [reflexivity|lia].
    - destruct IH as [f [E H]]; [lia|]. rewrite (firstn_snoc' f0) by lia. rewrite mdrive_snoc, E. cbn [obind]. destruct f as [x|r].
      + apply run_step; [exact H|lia].
      + eexists. split; [reflexivity|exact H].
  Qed.
End Run.

(** Proofs for RatReconst in several variables, part 9: the state after the first ray. *)
From Coq Require Import Permutation Sorted.
From Verif Require Import Machine FField FSum LinAlg FPoly PolyFF PolySpec PolyFFProofs PolyFFProofs2 RatUni RatUniSpec RatUniThiele BM Newton PolyRec PolyRecSpec PolyRecRunSpec PolyRecMath PolyRecFile PolyRecStage RatMulti RatMultiSpec RatMultiMath RatMultiShift RatMultiSub RatMultiClean RatMultiTraj RatMultiSide RatMultiRay RatMultiResult RatMultiThiele.
Open Scope nat_scope.

Lemma part_all {K : fops} (f : list (list Z * K)) : part f 0 [] = f.
Proof. unfold part. induction f as [|t f IH]; [reflexivity|]. cbn [filter]. destruct (list_eq_dec _ _ _) as [_|N]; [rewrite IH; reflexivity|exfalso; apply N; reflexivity]. Qed.
Lemma nfind_map_seq {A} (q : A) k : forall a d, a <= d < a + k -> nfind (map (fun i => (i, q)) (seq a k)) d = Some q.
Proof.
  induction k as [|k IH]; intros a d L; [lia|]. cbn [seq map nfind]. destruct (Nat.eqb_spec d a) as [_|N]; [reflexivity|]. apply IH. lia.
Qed.

Section FirstSide.
  Context {K : fops} (HK : flaws K).
  Add Field KFS : (fl_field K HK).
  Local Notation pv := (@poly_value K).
  Variable ord : forall A : Type, list A -> list A.
  Hypothesis Ho : forall A (l : list A), Permutation (ord A l) l.
  Variable c : mcfg.
  Local Notation n := (mc_n c).
  Variables (y s : nat -> K) (is_num : bool).
  Variables (G : nat) (P Ps : list (list Z * K)) (v : nat -> K).
  Hypothesis SH : side_hyp c y s is_num G P Ps v.
  Local Notation Hs := (Hs c Ps).
  Local Notation one := (ones n).

  Definition pb (d : nat) : bool := match hom d Ps with [] => false | _ => true end.
  Lemma pb_true d : pb d = true <-> hom d Ps <> [].
  Proof. unfold pb. destruct (hom d Ps); split; intros H; [discriminate H|contradiction|discriminate|reflexivity]. Qed.
  Lemma pb_false d : pb d = false <-> hom d Ps = [].
  Proof. unfold pb. destruct (hom d Ps); split; intros H; [reflexivity|reflexivity|discriminate H|discriminate H]. Qed.
  Lemma pb_present d : d <= G -> pb d = true <-> present G Ps d.
  Proof. intros L. rewrite pb_true. unfold present. tauto. Qed.
  Definition fterms : list (nat * K) := map (fun d => (d, Hs d (ray_x y one))) (filter pb (seq 0 (S G))).

  Lemma constant_part : hom 0 Ps <> [] -> exists a, a <> f0 /\ hom 0 Ps = [(zero_mon c, a)] /\ forall x, Hs 0 x = a.
  Proof.
    intros H. destruct (sh_Ps _ _ _ _ _ _ _ _ SH) as [_ [ND X]].
    assert (Z : forall e a, In (e, a) (hom 0 Ps) -> a <> f0 /\ e = zero_mon c).
    { intros e a I. apply in_hom in I as [I T]. destruct (X e a I) as [Na [L [B _]]]. split; [exact Na|]. apply (zero_total c); [exact L|intros i; apply B|exact T]. }
    assert (ND' : NoDup (map fst (hom 0 Ps))) by (unfold hom; apply NoDup_keys_filter; exact ND).
    destruct (hom 0 Ps) as [|[e a] [|[e' a'] l]] eqn:E; [contradiction| |].
    - destruct (Z e a (or_introl eq_refl)) as [Na ->]. exists a. split; [exact Na|]. split; [reflexivity|]. intros x. unfold RatMultiSub.Hs. rewrite E, pv_cons. cbn [fst snd]. rewrite (zero_mon_value HK c). cbn. ring.
    - exfalso. destruct (Z e a (or_introl eq_refl)) as [_ ->]. destruct (Z e' a' (or_intror (or_introl eq_refl))) as [_ ->]. inversion ND' as [|? ? N1 _]. apply N1. left. reflexivity.
  Qed.
  Lemma value_nz d : d <= G -> hom d Ps <> [] -> Hs d (ray_x y one) <> f0.
  Proof.
    intros L H. destruct (Nat.eq_dec d 0) as [->|Nd].
    - destruct (constant_part H) as [a [Na [_ E]]]. rewrite E. exact Na.
    - pose proof (sh_su _ _ _ _ _ _ _ _ SH Ps d (or_intror (or_introl eq_refl)) ltac:(lia) H) as SU.
      pose proof (bb_value HK c y s is_num G P Ps v SH d Ps one (sh_wPs _ _ _ _ _ _ _ _ SH)) as BB. unfold RatMultiSub.Hs. rewrite <- BB. unfold black_box.
      destruct (hom d Ps) as [|[e a] l] eqn:E; [contradiction|].
      pose proof (su_coefficients _ _ _ _ _ _ SU 0 (tl e) ltac:(lia)) as C. unfold layer in *. rewrite E in *. cbn [map fst snd] in C. specialize (C (or_introl eq_refl)).
      unfold coefficient in C. rewrite part_all in C. intros Z. apply C. rewrite <- Z. apply pv_ext_x. intros i Hi. cbn [Nat.ltb Nat.leb]. unfold ones. rewrite (nth_indep _ 0 1) by (rewrite repeat_length; exact Hi). rewrite nth_repeat. cbn [pw]. ring.
  Qed.
  Lemma fterms_ok : terms_ok fterms G.
  Proof.
    unfold terms_ok, fterms. rewrite map_map. cbn [fst]. rewrite map_id. split; [apply NoDup_filter; apply seq_NoDup|]. split.
    - apply filter_In. split; [apply in_seq; lia|]. apply pb_true. apply (sh_top _ _ _ _ _ _ _ _ SH).
    - intros t I. apply in_map_iff in I as [d [<- I]]. apply filter_In in I as [I B]. apply in_seq in I. cbn [fst snd]. split; [lia|]. apply value_nz; [lia|]. apply pb_true. exact B.
  Qed.
  Lemma fterms_value t : tval fterms t = pv n P (ray_point y s one t).
  Proof.
    rewrite <- (ray_value_sum HK c y s). rewrite <- (sh_V _ _ _ _ _ _ _ _ SH (fun i => t * ray_x y one i)%K). rewrite (hom_value HK n G) by (apply SH).
    rewrite tval_lsum. unfold fterms. rewrite lsum_map. cbn [fst snd]. change (fun d => pv n (hom d Ps) (ray_x y one)) with (fun d => Hs d (ray_x y one)).
    apply (part_sum HK). 
    - apply NoDup_filter, seq_NoDup.
    - intros e I. apply filter_In in I as [I _]. apply in_seq in I. lia.
    - intros e L NI. unfold RatMultiSub.Hs. destruct (hom e Ps) eqn:E; [reflexivity|]. exfalso. apply NI. apply filter_In. split; [apply in_seq; lia|]. apply pb_true. rewrite E. discriminate.
  Qed.

  Section Map.
  Variable m : pmap K.
  Hypothesis Hm : Permutation m (as_map fterms).
  Lemma m_nodup : NoDup (map fst m).
  Proof.
    eapply Permutation_NoDup; [apply Permutation_map, Permutation_sym; exact Hm|]. unfold as_map, fterms. rewrite !map_map. cbn [fst]. apply FinFun.Injective_map_NoDup; [intros a b E; injection E; lia|]. apply NoDup_filter, seq_NoDup.
  Qed.
  Lemma m_find d : d <= G -> pfind m [Z.of_nat d] = if pb d then Some (Hs d (ray_x y one)) else None.
  Proof.
    intros L. destruct (pb d) eqn:E.
    - apply (pfind_In m _ _ m_nodup). apply (Permutation_in _ (Permutation_sym Hm)). unfold as_map, fterms. rewrite map_map. apply in_map_iff. exists d. split; [reflexivity|]. apply filter_In. split; [apply in_seq; lia|exact E].
    - apply pfind_None. intros I. apply (Permutation_in _ (Permutation_map fst Hm)) in I. unfold as_map, fterms in I. rewrite !map_map in I. cbn [fst] in I. apply in_map_iff in I as [d' [X I]]. injection X as X. apply filter_In in I as [_ I]. assert (d' = d) by lia. subst d'. congruence.
  Qed.
  Lemma fold_max (l : list (list Z * K)) : forall a, (forall kc, In kc l -> (expo (fst kc) 0 <= Z.of_nat G)%Z) -> (a <= Z.of_nat G)%Z -> (a = Z.of_nat G \/ exists kc, In kc l /\ expo (fst kc) 0 = Z.of_nat G) ->
    fold_left (fun a kc => Z.max a (expo (fst kc) 0)) l a = Z.of_nat G.
  Proof.
    clear. induction l as [|kc l IH]; intros a B La H; cbn [fold_left].
    - destruct H as [H|[kc [[] _]]]. exact H.
    - pose proof (B kc (or_introl eq_refl)). apply IH; [intros k I; apply B; right; exact I|lia|]. destruct H as [H|[k [[->|I] H]]]; [left; lia|left; lia|right; exists k; auto].
  Qed.
  Lemma m_max : max_deg1 ord m = Z.of_nat G.
  Proof.
    unfold max_deg1. apply fold_max.
    - intros kc I. apply (Permutation_in _ (Ho _ m)) in I. apply (Permutation_in _ Hm) in I. unfold as_map in I. apply in_map_iff in I as [t [<- I]]. cbn [fst expo nth]. unfold expo. cbn [nth]. apply fterms_ok in I. lia.
    - lia.
    - right. destruct fterms_ok as [_ [I _]]. apply in_map_iff in I as [t [E I]]. exists ([Z.of_nat (fst t)], snd t). split; [|cbn [fst]; unfold expo; cbn [nth]; rewrite E; reflexivity].
      apply (Permutation_in _ (Permutation_sym (Ho _ m))). apply (Permutation_in _ (Permutation_sym Hm)). unfold as_map. apply in_map_iff. exists t. auto.
  Qed.
  Local Notation sd := (first_side ord c s is_num m).
  Definition pend_degs : list nat := filter pb (rev (seq 1 G)).
  Definition budget0 : nat := fold_right Nat.add 0 (map (fun d => cost c P Ps d true 0) pend_degs).
  Lemma filter_ext_in' {A} (f g : A -> bool) l : (forall a, In a l -> f a = g a) -> filter f l = filter g l.
  Proof. apply filter_ext_in. Qed.
  Lemma nonzero_pb d : d <= G -> (match pfind m [Z.of_nat d] with Some a => negb (feqb a f0) | None => false end) = pb d.
  Proof.
    intros L. rewrite m_find by exact L. destruct (pb d) eqn:E; [|reflexivity]. rewrite (proj2 (feqb_neq HK _ _)); [reflexivity|]. apply value_nz; [exact L|]. apply pb_true. exact E.
  Qed.
  Lemma first_shape : sd = mk_side (map (fun d => (d, ps_start (poly_cfg c is_num d))) pend_degs) []
      (if pb 0 then [(0, mk_polyff n [(zero_mon c, Hs 0 (ray_x y one))])] else [])
      (if shifted c s then map (fun i => (i, zero_poly c)) (seq 0 (S G)) else [])
      (filter pb (seq 0 (S G))) false (length (filter (fun d => negb (pb d)) (seq 1 G)) + 1) G.
  Proof.
    unfold first_side. cbv zeta. rewrite m_max, Nat2Z.id. unfold pend_degs. f_equal.
    - f_equal. apply filter_ext_in. intros d I. apply in_rev, in_seq in I. apply nonzero_pb. lia.
    - pose proof (m_find 0 ltac:(lia)) as E. cbn [Z.of_nat] in E. rewrite E. destruct (pb 0); reflexivity.
    - apply filter_ext_in. intros d I. apply in_seq in I. rewrite m_find by lia. destruct (pb d); reflexivity.
    - f_equal. f_equal. apply filter_ext_in. intros d I. apply in_seq in I. rewrite nonzero_pb by lia. reflexivity.
  Qed.
  Lemma sorted_rev k : forall a, StronglySorted gt (rev (seq a k)).
  Proof.
    clear. induction k as [|k IH]; intros a; [constructor|]. rewrite seq_S, rev_app_distr. cbn [rev app]. constructor; [apply IH|]. apply Forall_forall. intros x I. apply in_rev, in_seq in I. lia.
  Qed.
  Lemma sorted_filter f l : StronglySorted gt l -> StronglySorted gt (filter f l).
  Proof.
    clear. induction 1 as [|x l S IH F]; [constructor|]. cbn [filter]. destruct (f x); [|exact IH]. constructor; [exact IH|]. rewrite Forall_forall in *. intros z I. apply filter_In in I as [I _]. apply F. exact I.
  Qed.
  Lemma pend_in d : In d pend_degs <-> 0 < d /\ present G Ps d.
  Proof.
    unfold pend_degs. rewrite filter_In, <- in_rev, in_seq, pb_true. unfold present. split; [intros [A B]; repeat split; try assumption; lia|intros [A [B C]]; split; [lia|exact C]].
  Qed.
  Lemma split_count (f : nat -> bool) l : length (filter (fun d => negb (f d)) l) + length (filter f l) = length l.
  Proof. clear. induction l as [|x l IH]; [reflexivity|]. cbn [filter]. destruct (f x); cbn [negb length]; lia. Qed.
  Lemma filter_rev (f : nat -> bool) l : filter f (rev l) = rev (filter f l).
  Proof. clear. induction l as [|x l IH]; [reflexivity|]. cbn [rev filter]. rewrite filter_app, IH. cbn [filter]. destruct (f x); [reflexivity|apply app_nil_r]. Qed.
  Lemma first_inv : inv ord c y s is_num G P Ps (sd_coef sd) sd budget0.
  Proof.
    assert (DE : forall d, nmem d (filter pb (seq 0 (S G))) = true <-> present G Ps d).
    { intros d. rewrite nmem_In, filter_In, in_seq, pb_true. unfold present. split; intros [A B]; split; try assumption; lia. }
    assert (PR : forall k, proc (if pb 0 then [(0, mk_polyff n [(zero_mon c, Hs 0 (ray_x y one))])] else []) (filter pb (seq 0 (S G))) k = false).
    { intros k. unfold proc. destruct (nmem k (filter pb (seq 0 (S G)))) eqn:E; [rewrite Bool.andb_false_r; reflexivity|]. cbn [negb]. rewrite Bool.andb_true_r. apply nmem_false. intros I. destruct (pb 0) eqn:B; [|contradiction]. destruct I as [<-|[]].
      cbn [fst] in E. apply nmem_false in E. apply E. apply filter_In. split; [apply in_seq; lia|exact B]. }
    unfold inv. rewrite first_shape. cbn [sd_coef sd_solved sd_sub sd_dense sd_saved sd_count sd_max]. split; [|split; [|split; [|split; [|split; [|reflexivity]]]]].
    - constructor.
      + rewrite map_map. cbn [fst]. rewrite map_id. apply sorted_filter. apply sorted_rev.
      + intros d I. rewrite map_map in I. cbn [fst] in I. rewrite map_id in I. apply pend_in. exact I.
      + destruct (pb 0); repeat constructor. intros [].
      + intros d. rewrite map_map. cbn [fst]. rewrite map_id, pend_in. destruct (pb 0) eqn:B; cbn [map fst In].
        * split; [intros [<-|[]]; split; [apply pb_present; [lia|exact B]|lia]|]. intros [A C]. left. destruct d; [reflexivity|]. exfalso. apply C. split; [lia|exact A].
        * split; [intros []|]. intros [A C]. destruct d; [apply pb_present in A; [congruence|lia]|]. apply C. split; [lia|exact A].
      + intros d q F. destruct (pb 0) eqn:B; [|discriminate F]. cbn [nfind] in F. destruct (Nat.eqb_spec d 0) as [->|_]; [|discriminate F]. injection F as <-.
        rewrite (proj2 (DE 0)) by (apply pb_present; [lia|exact B]). destruct (constant_part (proj1 (pb_true 0) B)) as [a [Na [E V]]].
        apply (hom_repr HK c y s is_num G P Ps v SH 0 Ps); [right; left; reflexivity|lia|reflexivity|]. cbn [pf_coefs]. rewrite V, E. apply Permutation_refl.
      + intros Es. rewrite Es, map_map. cbn [fst]. apply map_id.
      + intros Es d L. rewrite Es. unfold nget. rewrite (nfind_map_seq (zero_poly c)) by lia. eapply subrepr_ext; [|apply (zero_poly_sub HK c G (sh_n _ _ _ _ _ _ _ _ SH))].
        intros x. symmetry. unfold subsum. apply (fsum_0 HK). intros k Hk. rewrite PR, Bool.andb_false_r. reflexivity.
      + intros d. apply DE.
      + intros _ d. apply DE.
      + intros Es d. rewrite Es. destruct (Nat.le_gt_cases d G) as [L|L]; [unfold nget; rewrite (nfind_map_seq (zero_poly c)) by lia; apply clean_zero|].
        unfold nget. destruct (nfind _ d) as [q0|] eqn:F0; [|intros e a []]. exfalso. apply nfind_In in F0. apply (in_map fst) in F0. rewrite map_map, map_id in F0. cbn [fst] in F0. apply in_seq in F0. lia.
    - split.
      + intros d k Pd E. apply DE in Pd. congruence.
      + intros _ d st r E _. destruct G as [|g] eqn:EG; [unfold pend_degs in E; rewrite EG in E; discriminate E|]. unfold pend_degs in E. rewrite EG in E. rewrite seq_S, rev_app_distr in E. cbn [rev app filter Nat.add] in E.
        assert (T : pb (S g) = true) by (apply pb_true; apply (sh_top _ _ _ _ _ _ _ _ SH)). rewrite T in E. cbn [map] in E. injection E as <- _ _. reflexivity.
    - unfold budget0. assert (B : forall l, (forall d, In d l -> nmem d (filter pb (seq 0 (S G))) = true) -> budget ord c y is_num P Ps (filter pb (seq 0 (S G))) (map (fun d => (d, ps_start (poly_cfg c is_num d))) l) (fold_right Nat.add 0 (map (fun d => cost c P Ps d true 0) l))).
      { induction l as [|d l IH]; intros H; cbn [map fold_right]; [constructor|]. pose proof (H d (or_introl eq_refl)) as E. assert (IHB := IH (fun e I => H e (or_intror I))). eapply (bu_cons _ _ _ _ _ _ _ d (ps_start (poly_cfg c is_num d)) _ 0) in IHB; [|rewrite E; apply traj_start]. rewrite E in IHB. exact IHB. }
      apply B. intros d I. apply DE. apply pend_in. exact I.
    - intros o d z w F. discriminate F.
    - rewrite map_length. unfold pend_degs. rewrite filter_rev, rev_length. pose proof (split_count pb (seq 1 G)) as X. rewrite seq_length in X. lia.
  Qed.
  Lemma first_coefs : map fst (first_values m sd) = map fst (sd_coef sd) /\ forall d w, In (d, w) (first_values m sd) -> w = Hs d (ray_x y one).
  Proof.
    unfold first_values. rewrite map_map. split; [reflexivity|]. intros d w I. apply in_map_iff in I as [e [E I]]. injection E as <- <-. rewrite first_shape in I. cbn [sd_coef] in I. apply in_map_iff in I as [d [<- I]]. cbn [fst].
    apply pend_in in I as [_ I]. unfold coef_at. rewrite m_find by apply I. rewrite (proj2 (pb_present d (proj1 I)) I). reflexivity.
  Qed.
  Lemma first_restart : sd_restart sd = false. Proof. rewrite first_shape. reflexivity. Qed.
  End Map.
End FirstSide.

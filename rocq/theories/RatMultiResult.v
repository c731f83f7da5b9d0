(** Proofs for RatReconst in several variables, part 7: the numerator and the denominator after all degrees are solved. *)
From Coq Require Import Permutation Sorted.
From Verif Require Import Machine FField FSum LinAlg FPoly PolyFF PolySpec PolyFFProofs PolyFFProofs2 RatUni BM Newton Combi CombiProofs PolyRec PolyRecSpec PolyRecRunSpec PolyRecMath PolyRecFile PolyRecStage RatMulti RatMultiSpec RatMultiMath RatMultiShift RatMultiSub RatMultiClean RatMultiTraj RatMultiSide RatSingSpec.
Open Scope nat_scope.

Section Result.
  Context {K : fops} (HK : flaws K).
  Add Field KRS : (fl_field K HK).
  Local Notation pv := (@poly_value K).
  Variable ord : forall A : Type, list A -> list A.
  Hypothesis Ho : forall A (l : list A), Permutation (ord A l) l.
  Variable c : mcfg.
  Local Notation n := (mc_n c).
  Variables (y s : nat -> K) (is_num : bool).
  Variables (G : nat) (P Ps : list (list Z * K)) (v : nat -> K).
  Hypothesis SH : side_hyp c y s is_num G P Ps v.
  Local Notation Hp := (Hp c P).
  Local Notation Hs := (Hs c Ps).
  Local Notation repr := (repr c).
  Local Notation subrepr := (subrepr c).
  Local Notation core := (core ord c s G P Ps).
  Local Notation present := (present G Ps).
  Local Notation subsum := (subsum ord c s G P).
  Local Notation inv := (inv ord c y s is_num G P Ps).

  Lemma unshift_all_ok m : forall sd dense, shifted c s = true -> core [] (sd_solved sd) (sd_sub sd) dense -> m <= S G ->
    (forall j, m <= j -> present j -> proc (sd_solved sd) dense j = true) -> (forall j, j < m -> nmem j dense = nmem j (sd_dense sd)) ->
    exists sd' dense', unshift_all ord c s (rev (seq 0 m)) sd = Ret sd' /\ core [] (sd_solved sd') (sd_sub sd') dense' /\ sd_max sd' = sd_max sd /\ forall j, present j -> proc (sd_solved sd') dense' j = true.
  Proof.
    induction m as [|m IH]; intros sd dense Es C Lm Hu Hd.
    - exists sd, dense. split; [reflexivity|]. split; [exact C|]. split; [reflexivity|]. intros j. apply Hu. lia.
    - rewrite seq_S, rev_app_distr. cbn [plus rev app unshift_all].
      destruct (nmem m (sd_dense sd)) eqn:Em.
      + assert (Dm : nmem m dense = true) by (rewrite Hd by lia; exact Em). pose proof (co_dense _ _ _ _ _ _ _ _ _ _ C m Dm) as Pm.
        assert (Im : In m (map fst (sd_solved sd))) by (apply (co_iff _ _ _ _ _ _ _ _ _ _ C); split; [exact Pm|intros []]).
        destruct (unshift_ok HK ord Ho c y s is_num G P Ps v SH m sd [] dense Es C Im Dm) as [so [su [E [C' Ke]]]]; [intros j Lj Pj; apply Hu; [lia|exact Pj]|].
        rewrite E. cbn [obind]. apply (IH (with_solved sd so su) (nremove m dense) Es); cbn [with_solved sd_solved sd_sub sd_dense]; [exact C'|lia| |].
        * intros j Lj Pj. unfold proc. rewrite Ke, nremove_mem. destruct (Nat.eqb_spec j m) as [->|N]; [rewrite Bool.andb_false_r; rewrite (proj2 (nmem_In m _) Im); reflexivity|]. cbn [negb]. rewrite Bool.andb_true_r. apply Hu; [lia|exact Pj].
        * intros j Lj. rewrite nremove_mem. destruct (Nat.eqb_spec j m); [lia|]. cbn [negb]. rewrite Bool.andb_true_r. apply Hd. lia.
      + cbn [obind]. apply (IH sd dense Es C); [lia| |intros j Lj; apply Hd; lia]. intros j Lj Pj. destruct (Nat.eq_dec j m) as [->|N]; [|apply Hu; [lia|exact Pj]].
        unfold proc. rewrite Hd, Em by lia. rewrite (proj2 (nmem_In m _)); [reflexivity|]. apply (co_iff _ _ _ _ _ _ _ _ _ _ C). split; [exact Pj|intros []].
  Qed.

  (** all degrees are known without the shift *)
  Definition all_known (solved : list (nat * polyff K)) : Prop :=
    NoDup (map fst solved) /\ (forall d, In d (map fst solved) <-> present d) /\ forall d q, In (d, q) solved -> repr d (Hp d) q.
  Definition unshifted_side (sd : side K) : outcome (side K) := if shifted c s then unshift_all ord c s (rev (seq 0 (S (sd_max sd)))) sd else Ret sd.
  Lemma zero_total e : length e = n -> (forall i, (0 <= nth i e 0)%Z) -> total e = 0%Z -> e = zero_mon c.
  Proof.
    clear. unfold zero_mon. intros <-. induction e as [|z e IH]; intros Ps T; [reflexivity|]. rewrite total_cons in T. pose proof (Ps 0) as P0. cbn [nth] in P0. assert (P' : forall i, (0 <= nth i e 0)%Z) by (intros i; apply (Ps (S i))).
    pose proof (total_range e P'). cbn [length repeat]. f_equal; [lia|]. apply IH; [exact P'|lia].
  Qed.
  Lemma zero_mon_value (x : nat -> K) : monomial_value n (zero_mon c) x = f1.
  Proof.
    clear - HK. unfold zero_mon. generalize n at 2 as m. induction n as [|k IH]; intros m; [reflexivity|]. cbn [monomial_value]. rewrite IH. unfold expo. rewrite nth_repeat. cbn. ring.
  Qed.
  Lemma const_list (l : list (list Z * K)) x : NoDup (map fst l) -> (forall k a, In (k, a) l -> a <> f0 -> k = zero_mon c) -> coef_at l (zero_mon c) = pv n l x.
  Proof.
    clear - HK. induction l as [|[k a] l IH]; intros ND H; [reflexivity|]. inversion ND as [|? ? N1 N2]; subst. rewrite pv_cons. cbn [fst snd]. rewrite <- IH by (try exact N2; intros k' a' I; apply (H k' a'); right; exact I).
    unfold coef_at. cbn [pfind]. destruct (mon_eqb_spec (zero_mon c) k) as [E|E].
    - subst k. rewrite zero_mon_value. rewrite (proj2 (pfind_None l (zero_mon c)) N1). ring.
    - destruct (K_dec HK a f0) as [->|Na]; [ring|]. exfalso. apply E. symmetry. apply (H k a (or_introl eq_refl) Na).
  Qed.
  Lemma const_value q (F : (nat -> K) -> K) x : subrepr 0 F q -> coef_at (pf_coefs q) (zero_mon c) = F x.
  Proof.
    intros [A [B [C D]]]. rewrite <- D. apply const_list; [apply B|]. intros k a I Na. destruct (poly_ok_pos c (pf_coefs q) k a B I) as [Lk Pk]. apply zero_total; [exact Lk|exact Pk|]. apply (C k a I Na).
  Qed.
  Lemma unshifted_ok b sd : inv [] sd b -> exists sd', unshifted_side sd = Ret sd' /\ all_known (sd_solved sd') /\
    (shifted c s = true -> forall x, coef_at (pf_coefs (nget no_poly (sd_sub sd') 0)) (zero_mon c) = (Hs 0 x - Hp 0 x)%K) /\
    (shifted c s = true -> shift_terms n G P Ps (sd_sub sd')) /\ sd_max sd' = G.
  Proof.
    intros [C [U [_ [_ [_ Mx]]]]]. unfold unshifted_side. rewrite Mx. destruct (shifted c s) eqn:Es.
    - destruct (unshift_all_ok (S G) sd (sd_dense sd) Es C (le_n _)) as [sd' [dense' [E [C' [Mx' Pr]]]]]; [intros j Lj Pj; pose proof (present_le G Ps j Pj); lia|reflexivity|].
      exists sd'. split; [exact E|]. split.
      + split; [apply C'|]. split; [intros d; rewrite (co_iff _ _ _ _ _ _ _ _ _ _ C'); cbn; tauto|]. intros d q I. pose proof (proj2 (nfind_iff _ d q (co_keys _ _ _ _ _ _ _ _ _ _ C')) I) as F. pose proof (co_solved _ _ _ _ _ _ _ _ _ _ C' d q F) as R.
        assert (Pd : present d) by (apply (co_iff _ _ _ _ _ _ _ _ _ _ C'); apply in_map_iff; exists (d, q); split; [reflexivity|exact I]). specialize (Pr d Pd). unfold proc in Pr. apply Bool.andb_true_iff in Pr as [_ Pr]. apply Bool.negb_true_iff in Pr. rewrite Pr in R. exact R.
      + split; [|split; [|rewrite Mx'; exact Mx]]. 2:{ intros _. split; [apply (co_subk _ _ _ _ _ _ _ _ _ _ C' Es)|]. intros d Ld. pose proof (co_sub _ _ _ _ _ _ _ _ _ _ C' Es d Ld) as [R1 [R2 [R3 R4]]]. pose proof (co_clean _ _ _ _ _ _ _ _ _ _ C' Es d) as Cl.
          assert (ES : sub_at (sd_sub sd') d = pf_coefs (nget no_poly (sd_sub sd') d)) by (unfold sub_at, nget; destruct (nfind (sd_sub sd') d); reflexivity). rewrite ES. split; [apply R2|]. split.
          - intros k a I. destruct (feqb a f0) eqn:Ea.
            + apply (fl_eqb K HK) in Ea. destruct (Cl k a I) as [X|X]; [contradiction|exact X].
            + apply (feqb_neq HK) in Ea. destruct (poly_ok_pos c _ k a R2 I) as [L1 L2]. split; [exact L1|]. split; [exact L2|exact (R3 k a I Ea)].
          - intros x. rewrite R4. pose proof (subsum_full HK ord Ho c y s is_num G P Ps v SH (sd_solved sd') dense' d x Ld (fun k _ Pk => Pr k Pk)) as Z. unfold RatMultiSub.Hs, RatMultiSub.Hp in Z. rewrite Z. ring. }
        intros _ x. rewrite (const_value _ _ x (co_sub _ _ _ _ _ _ _ _ _ _ C' Es 0 (Nat.le_0_l _))). rewrite (subsum_full HK ord Ho c y s is_num G P Ps v SH (sd_solved sd') dense' 0 x (Nat.le_0_l _)); [ring|]. intros k _ Pk. apply Pr. exact Pk.
    - exists sd. split; [reflexivity|]. split; [|split; [discriminate|split; [discriminate|exact Mx]]]. split; [apply C|]. split; [intros d; rewrite (co_iff _ _ _ _ _ _ _ _ _ _ C); cbn; tauto|]. intros d q I. pose proof (proj2 (nfind_iff _ d q (co_keys _ _ _ _ _ _ _ _ _ _ C)) I) as F.
      pose proof (co_solved _ _ _ _ _ _ _ _ _ _ C d q F) as R. assert (Pd : present d) by (apply (co_iff _ _ _ _ _ _ _ _ _ _ C); apply in_map_iff; exists (d, q); split; [reflexivity|exact I]). rewrite (co_all _ _ _ _ _ _ _ _ _ _ C Es d Pd) in R.
      eapply repr_ext; [|exact R]. intros x. apply (unshifted_same HK c y s is_num G P Ps v SH); [exact Es|apply Pd].
  Qed.
  Lemma zero_degrees_ok sd : all_known (sd_solved sd) -> forall d, In d (zero_degrees sd) <-> present d /\ hom d P = [].
  Proof.
    intros [ND [Iff R]] d.
    assert (Q : forall q, In (d, q) (sd_solved sd) -> (pzero q = true <-> hom d P = [])).
    { intros q I. destruct (R d q I) as [_ [R2 [R3 [R4 R5]]]]. pose proof (proj1 (Iff d) (in_map fst _ _ I)) as Pd. pose proof (present_le G Ps d Pd) as Ld.
      assert (E : pf_coefs q = [] <-> hom d P = []).
      { assert (U : Permutation (pf_coefs q) (hom d P)); [|split; intros E; rewrite E in U; [apply Permutation_nil in U; exact U|apply Permutation_sym, Permutation_nil in U; exact U]].
        apply (coefficients_unique HK n G v); [apply SH|apply R2| | | |].
        - unfold hom. apply NoDup_keys_filter. apply (sh_P _ _ _ _ _ _ _ _ SH).
        - intros e a J. destruct (poly_ok_pos c _ e a R2 J) as [Le Pe]. split; [|split; [exact Le|]].
          + unfold no_zero_coefficient in R3. rewrite Forall_forall in R3. apply (R3 _ J).
          + intros i. pose proof (nth_total e i Pe). rewrite (R4 e a J) in H. specialize (Pe i). lia.
        - intros e a J. apply in_hom in J as [J _]. destruct (sh_P _ _ _ _ _ _ _ _ SH) as [_ [_ X]]. destruct (X e a J) as [X1 [X2 [X3 _]]]. auto.
        - intros x. rewrite R5. reflexivity. }
      rewrite <- E. unfold pzero. destruct (pf_coefs q) as [|[k a] [|]] eqn:Ec; [tauto| |split; discriminate]. split; [|discriminate]. intros Z. exfalso. apply (fl_eqb K HK) in Z. cbn [snd] in Z. unfold no_zero_coefficient in R3. rewrite Forall_forall in R3. apply (R3 (k, a)); [left; reflexivity|exact Z]. }
    unfold zero_degrees. rewrite in_map_iff. split.
    - intros [[d' q] [<- I]]. apply filter_In in I as [I Z]. cbn [fst snd] in *. split; [apply Iff; apply (in_map fst _ _ I)|apply (Q q I); exact Z].
    - intros [Pd E]. apply Iff in Pd. apply in_map_iff in Pd as [[d' q] [Ed I]]. cbn [fst] in Ed. subst d'. exists (d, q). split; [reflexivity|]. apply filter_In. split; [exact I|]. cbn [snd]. apply (Q q I). exact E.
  Qed.
  Lemma sum_ok sd : all_known (sd_solved sd) -> Permutation (pf_coefs (sum_degrees ord sd)) P.
  Proof.
    intros [ND [Iff R]]. unfold sum_degrees.
    set (f := fun (r : polyff K) (e : nat * polyff K) => if pzero (snd e) then r else padd_assign (ord _) r (snd e)).
    assert (Fold : forall l r x, (forall d q, In (d, q) l -> repr d (Hp d) q /\ d <= G) -> poly_ok n (pf_coefs r) -> no_zero_coefficient (pf_coefs r) -> (forall e a, In (e, a) (pf_coefs r) -> (total e <= Z.of_nat G)%Z) ->
      let r' := fold_left f l r in poly_ok n (pf_coefs r') /\ no_zero_coefficient (pf_coefs r') /\ (forall e a, In (e, a) (pf_coefs r') -> (total e <= Z.of_nat G)%Z) /\ pv n (pf_coefs r') x = (pv n (pf_coefs r) x + lsum (fun d => Hp d x) (map fst l))%K).
    { induction l as [|[d q] l IH]; intros r x Hl O Z B; [cbn; repeat split; try assumption; try apply O; ring|]. cbn [fold_left map fst]. destruct (Hl d q (or_introl eq_refl)) as [[Q1 [Q2 [Q3 [Q4 Q5]]]] Ld].
      assert (St : poly_ok n (pf_coefs (f r (d, q))) /\ no_zero_coefficient (pf_coefs (f r (d, q))) /\ (forall e a, In (e, a) (pf_coefs (f r (d, q))) -> (total e <= Z.of_nat G)%Z) /\ pv n (pf_coefs (f r (d, q))) x = (pv n (pf_coefs r) x + Hp d x)%K).
      { unfold f. cbn [snd]. destruct (pzero q) eqn:Ez.
        - repeat split; try assumption; try apply O. rewrite <- Q5. assert (Eq : pv n (pf_coefs q) x = f0); [|rewrite Eq; ring]. unfold pzero in Ez. destruct (pf_coefs q) as [|[k a] [|]]; [reflexivity| |discriminate Ez]. apply (fl_eqb K HK) in Ez. subst a. rewrite pv_cons, pv_nil. cbn [snd]. ring.
        - pose proof (padd_assign_ok HK (ord _) (ord_any ord Ho) (mk_polyff n (pf_coefs r)) q O Q2) as [X1 X2]. cbn [pf_n pf_coefs] in X1, X2.
          assert (Ec : pf_coefs (padd_assign (ord _) r q) = pf_coefs (padd_assign (ord _) (mk_polyff n (pf_coefs r)) q)) by reflexivity. rewrite Ec. split; [exact X1|]. split; [|split].
          + unfold padd_assign. cbn [pf_coefs]. apply (assign_fold_nz HK n true); [exact O|exact Z|]. apply (ord_ok (ord _) (ord_any ord Ho) n _ Q2).
          + intros e a I. unfold padd_assign in I. cbn [pf_coefs] in I. apply (add_entry HK) in I as [I|[a' [_ I]]]; [apply (B e a I)|]. rewrite (in_ord_any ord Ho) in I. rewrite (Q4 e a' I). lia.
          + rewrite X2, Q5. reflexivity. }
      destruct St as [S1 [S2 [S3 S4]]]. destruct (IH (f r (d, q)) x (fun d' q' I => Hl d' q' (or_intror I)) S1 S2 S3) as [T1 [T2 [T3 T4]]]. split; [exact T1|]. split; [exact T2|]. split; [exact T3|]. rewrite T4, S4, lsum_cons. ring. }
    assert (Hl : forall d q, In (d, q) (ord _ (sd_solved sd)) -> repr d (Hp d) q /\ d <= G).
    { intros d q I. rewrite (in_ord_any ord Ho) in I. split; [apply (R d q I)|]. apply (present_le G Ps). apply Iff. apply in_map_iff. exists (d, q). split; [reflexivity|exact I]. }
    assert (F0 : forall x, _) by (intros x; exact (Fold (ord _ (sd_solved sd)) no_poly x Hl (conj (NoDup_nil _) (Forall_nil _)) (Forall_nil _) (fun e a I => match I with end))).
    cbv zeta in F0. set (r' := fold_left f (ord _ (sd_solved sd)) no_poly) in *.
    apply (coefficients_unique HK n G v); [apply SH|apply (F0 (fun _ => f0))|apply SH| | |].
    - intros e a I. destruct (F0 (fun _ => f0)) as [O [Z [B _]]]. destruct (poly_ok_pos c _ e a O I) as [Le Pe]. split; [|split; [exact Le|]].
      + unfold no_zero_coefficient in Z. rewrite Forall_forall in Z. apply (Z _ I).
      + intros i. pose proof (nth_total e i Pe). pose proof (B e a I). specialize (Pe i). lia.
    - intros e a I. destruct (sh_P _ _ _ _ _ _ _ _ SH) as [_ [_ X]]. destruct (X e a I) as [X1 [X2 [X3 _]]]. auto.
    - intros x. destruct (F0 x) as [_ [_ [_ E]]]. rewrite E. cbn [no_poly pf_coefs]. rewrite pv_nil.
      rewrite (hom_sum HK n G P x (sh_wP _ _ _ _ _ _ _ _ SH)). rewrite (lsum_perm HK _ _ _ (Permutation_map fst (Ho _ (sd_solved sd)))).
      assert (ES : lsum (fun d => Hp d x) (map fst (sd_solved sd)) = ueval (S G) (fun d => Hp d x) f1).
      { rewrite <- (part_sum HK G (map fst (sd_solved sd)) (fun d => Hp d x) f1 ND).
        - apply lsum_ext. intros d _. rewrite (pw_1 HK). ring.
        - intros e I. apply (present_le G Ps). apply Iff. exact I.
        - intros e Le Ne. unfold RatMultiSub.Hp. destruct (hom e P) eqn:Eh; [reflexivity|]. exfalso. apply Ne. apply Iff. split; [exact Le|]. apply (sh_layers _ _ _ _ _ _ _ _ SH). rewrite Eh. discriminate. }
      rewrite ES. unfold ueval. rewrite <- (fsum_ext (S G) (fun d => pv n (hom d P) x)); [ring|]. intros i _. rewrite (pw_1 HK). unfold RatMultiSub.Hp. ring.
  Qed.
End Result.

(** ---- the coefficient that is set to one ---- *)
Section Norm.
  Context {K : fops} (HK : flaws K).
  Add Field KNM : (fl_field K HK).
  Variable ord : forall A : Type, list A -> list A.
  Hypothesis Ho : forall A (l : list A), Permutation (ord A l) l.
  Variable c : mcfg.
  Local Notation n := (mc_n c).
  Hypothesis Hn : 0 < n.
  (** the terms are valid *)
  Definition valid (m : list (list Z * K)) : Prop := NoDup (map fst m) /\ forall e, In e (map fst m) -> length e = n /\ Z.to_nat (degree32 e) = Z.to_nat (total e) /\ (0 <= total e)%Z.
  Definition tdeg (e : list Z) : nat := Z.to_nat (degree32 e).

  Lemma groups (l : list (list Z * K)) : forall g, NoDup (map fst g) ->
    let g' := fold_left (fun g el => let d := Z.to_nat (degree32 (fst el)) in nset g d (nget [] g d ++ [fst el])) l g in
    NoDup (map fst g') /\ forall d, nget [] g' d = nget [] g d ++ filter (fun e => tdeg e =? d) (map fst l).
  Proof.
    clear. induction l as [|[e a] l IH]; intros g Ng; [split; [exact Ng|intros d; cbn; rewrite app_nil_r; reflexivity]|]. cbn [fold_left fst].
    destruct (IH (nset g (tdeg e) (nget [] g (tdeg e) ++ [e])) (nset_nodup _ _ _ Ng)) as [N' V]. cbv zeta in N', V. unfold tdeg in N', V. split; [exact N'|]. intros d. rewrite V. cbn [map fst filter]. unfold nget at 1. rewrite nfind_set. fold (tdeg e). fold (tdeg e).
    rewrite (Nat.eqb_sym (tdeg e) d). destruct (Nat.eqb_spec d (tdeg e)) as [->|Nd]; [rewrite <- app_assoc; reflexivity|reflexivity].
  Qed.
  Lemma single_ok m : valid m -> match single ord m with Some k => alone k m | None => forall k, ~ alone k m end.
  Proof.
    intros [ND Hv]. unfold single. destruct (groups (ord _ m) [] (NoDup_nil _)) as [Ng Vg]. cbv zeta in Ng, Vg. fold (by_degree ord m) in Ng, Vg.
    assert (Pm : Permutation (map fst (ord _ m)) (map fst m)) by (apply Permutation_map; apply Ho).
    assert (Val : forall d ks, In (d, ks) (by_degree ord m) -> ks = filter (fun e => tdeg e =? d) (map fst (ord _ m))).
    { intros d ks I. specialize (Vg d). unfold nget in Vg. rewrite (proj2 (nfind_iff _ d ks Ng) I) in Vg. exact Vg. }
    assert (Deg : forall e e', In e (map fst m) -> In e' (map fst m) -> (tdeg e = tdeg e' <-> total e = total e')).
    { intros e e' I I'. destruct (Hv e I) as [_ [D P0]]. destruct (Hv e' I') as [_ [D' P0']]. unfold tdeg. rewrite D, D'. split; [lia|intros ->; reflexivity]. }
    destruct (find _ _) as [[d ks]|] eqn:E.
    - apply find_some in E as [I L]. cbn [snd] in L. apply Nat.eqb_eq in L. rewrite (in_ord_any ord Ho) in I. pose proof (Val d ks I) as Ek. destruct ks as [|k [|k2 ks]]; try discriminate L.
      assert (Ik : In k (map fst (ord _ m)) /\ (tdeg k =? d) = true) by (apply (proj1 (filter_In (fun e => tdeg e =? d) k (map fst (ord _ m)))); rewrite <- Ek; left; reflexivity). destruct Ik as [Ik Dk].
      split; [apply (Permutation_in _ Pm); exact Ik|]. intros m' I' T. apply Nat.eqb_eq in Dk.
      assert (J : In m' [k]). { rewrite Ek. apply filter_In. split; [apply (Permutation_in _ (Permutation_sym Pm)); exact I'|]. apply Nat.eqb_eq. rewrite <- Dk. apply Deg; [exact I'|apply (Permutation_in _ Pm); exact Ik|exact T]. }
      destruct J as [J|[]]. symmetry. exact J.
    - intros k [Ik Hk]. assert (Ng0 : nget [] (by_degree ord m) (tdeg k) = [k]).
      { rewrite Vg. cbn [nget nfind app]. assert (I1 : In k (map fst (ord _ m))) by (apply (Permutation_in _ (Permutation_sym Pm)); exact Ik).
        assert (N1 : NoDup (filter (fun e => tdeg e =? tdeg k) (map fst (ord _ m)))) by (apply NoDup_filter; apply (Permutation_NoDup (Permutation_sym Pm)); exact ND).
        assert (A1 : forall e, In e (filter (fun e => tdeg e =? tdeg k) (map fst (ord _ m))) <-> e = k).
        { intros e. rewrite filter_In, Nat.eqb_eq. split; [|intros ->; auto]. intros [I T]. assert (I' : In e (map fst m)) by (apply (Permutation_in _ Pm); exact I). apply Hk; [exact I'|]. apply Deg; assumption. }
        destruct (filter _ _) as [|e1 [|e2 r]].
        - exfalso. apply (proj2 (A1 k) eq_refl).
        - rewrite (proj1 (A1 e1) (or_introl eq_refl)). reflexivity.
        - exfalso. inversion N1 as [|? ? X _]; subst. apply X. rewrite (proj1 (A1 e1) (or_introl eq_refl)), (proj1 (A1 e2) (or_intror (or_introl eq_refl))). left. reflexivity. }
      unfold nget in Ng0. destruct (nfind (by_degree ord m) (tdeg k)) as [ks|] eqn:Ef; [|discriminate Ng0]. subst ks. apply nfind_In in Ef.
      pose proof (find_none _ _ E (tdeg k, [k])) as F. rewrite (in_ord_any ord Ho) in F. specialize (F Ef). discriminate F.
  Qed.

  Lemma grt_lists a b : length a = length b -> (match a_grt_b a b with Some true => true | _ => false end) = true <-> colex_below b a.
  Proof.
    intros L. destruct (a_grt_b_spec a b L) as [r [E H]]. rewrite E. unfold colex_below. split.
    - intros X. destruct r; [|discriminate X]. destruct (proj1 H eq_refl) as [i [Hi [Lt Eq]]]. exists i. split; [lia|]. split; [exact Lt|]. intros j Hj. symmetry. apply Eq. lia.
    - intros [i [Hi [Lt Eq]]]. assert (r = true); [|subst r; reflexivity]. apply H. exists i. split; [lia|]. split; [exact Lt|]. intros j Hj. symmetry. apply Eq. lia.
  Qed.
  Lemma below_gt a b : length a = length b -> (colex_below a b <-> colex_gt b a).
  Proof.
    intros L. unfold colex_below, colex_gt. rewrite L. split; intros [i [Hi [Lt Eq]]]; exists i; (split; [lia|split; [exact Lt|]]); intros j Hj; symmetry; apply Eq; lia.
  Qed.
  Lemma min_ok m : valid m -> m <> [] -> least (min_mon ord m) m.
  Proof.
    intros [ND Hv] Ne. unfold min_mon.
    set (f := fun (acc : mon) (el : list Z * K) => match acc with [] => fst el | _ => match a_grt_b acc (fst el) with Some true => fst el | _ => acc end end).
    assert (Fold : forall l acc, length acc = n -> (forall e, In e (map fst l) -> length e = n) ->
      let r := fold_left f l acc in (r = acc \/ In r (map fst l)) /\ length r = n /\ (forall e, e = acc \/ In e (map fst l) -> e = r \/ colex_below r e)).
    { induction l as [|[e a] l IH]; intros acc La Hl; [cbn; split; [left; reflexivity|]; split; [exact La|]; intros e [->|[]]; left; reflexivity|]. cbn [fold_left map fst In].
      assert (Le : length e = n) by (apply Hl; left; reflexivity).
      assert (St : (f acc (e, a) = acc \/ f acc (e, a) = e) /\ (acc = f acc (e, a) \/ colex_below (f acc (e, a)) acc) /\ (e = f acc (e, a) \/ colex_below (f acc (e, a)) e)).
      { unfold f. cbn [fst]. destruct acc as [|z acc']; [cbn in La; lia|]. set (acc := z :: acc') in *. pose proof (grt_lists acc e ltac:(congruence)) as Gt.
        destruct (match a_grt_b acc e with Some true => true | _ => false end) eqn:Eg.
        - assert (Eg' : a_grt_b acc e = Some true) by (destruct (a_grt_b acc e) as [[]|]; [reflexivity|discriminate Eg|discriminate Eg]). rewrite Eg'. split; [right; reflexivity|]. split; [right; apply Gt; reflexivity|left; reflexivity].
        - assert (Eg' : (match a_grt_b acc e with Some true => e | _ => acc end) = acc) by (destruct (a_grt_b acc e) as [[]|]; [discriminate Eg|reflexivity|reflexivity]). rewrite Eg'. split; [left; reflexivity|]. split; [left; reflexivity|].
          destruct (colex_total acc e ltac:(congruence)) as [X|[X|X]]; [|right; apply below_gt; [congruence|exact X]|left; symmetry; exact X].
          exfalso. apply (below_gt e acc ltac:(congruence)) in X. apply Gt in X. discriminate X. }
      destruct St as [S1 [S2 S3]]. set (acc' := f acc (e, a)) in *. assert (La' : length acc' = n) by (destruct S1 as [->| ->]; assumption).
      destruct (IH acc' La' (fun e' I => Hl e' (or_intror I))) as [T1 [T2 T3]]. set (r := fold_left f l acc') in *. split; [|split; [exact T2|]].
      - destruct T1 as [->|T1]; [|right; right; exact T1]. destruct S1 as [->| ->]; [left; reflexivity|right; left; reflexivity].
      - assert (Tr : forall x, length x = n -> x = acc' \/ colex_below acc' x -> x = r \/ colex_below r x).
        { intros x Lx [->|X]; [apply T3; left; reflexivity|]. destruct (T3 acc' (or_introl eq_refl)) as [<-|Y]; [right; exact X|right]. apply below_gt in X; [|congruence]. apply below_gt in Y; [|congruence]. apply below_gt; [congruence|]. apply (colex_trans x acc' r); try congruence; assumption. }
        intros x [->|[<-|I]]; [apply Tr; [exact La|exact S2]|apply Tr; [exact Le|exact S3]|apply T3; right; exact I]. }
    assert (Pm : Permutation (map fst (ord _ m)) (map fst m)) by (apply Permutation_map; apply Ho).
    assert (Hl : forall e, In e (map fst (ord _ m)) -> length e = n) by (intros e I; apply Hv; apply (Permutation_in _ Pm); exact I).
    destruct (ord _ m) as [|[e a] l] eqn:El; [exfalso; apply Ne; apply Permutation_nil; rewrite <- El; apply Ho|]. cbn [fold_left].
    assert (Fe : f [] (e, a) = e) by reflexivity. rewrite Fe. cbn [map fst] in *. destruct (Fold l e (Hl e (or_introl eq_refl)) (fun e' I => Hl e' (or_intror I))) as [T1 [_ T3]].
    split.
    - apply (Permutation_in _ Pm). destruct T1 as [->|T1]; [left; reflexivity|right; exact T1].
    - intros m' I. apply T3. apply (Permutation_in _ (Permutation_sym Pm)) in I. destruct I as [<-|I]; [left; reflexivity|right; exact I].
  Qed.

  Lemma coef_at_in (m : list (list Z * K)) k : NoDup (map fst m) -> In k (map fst m) -> In (k, coef_at m k) m.
  Proof. clear. intros ND I. unfold coef_at. destruct (pfind m k) as [a|] eqn:E; [apply pfind_In in E; assumption|]. apply pfind_None in E. contradiction. Qed.

  (** const: the constant of the chosen side *)
  Lemma normaliser_ok (cd : K) nu de (a0 := coef_at (if mc_norm_den c then de else nu) (zero_mon c)) : valid nu -> valid de -> de <> [] ->
    (forall e a, In (e, a) nu -> a <> f0) -> (forall e a, In (e, a) de -> a <> f0) ->
    cd = (f1 - a0)%K ->
    exists te nd k sing, normaliser ord c cd nu de = (te, nd, k, sing) /\ normalised_by n (mc_norm_den c) nu de nd k sing /\ In (k, te) (if nd then de else nu).
  Proof.
    intros Vn Vd Ne Zn Zd Ecd. unfold normaliser. set (sd := if mc_norm_den c then de else nu) in *. assert (Vs : valid sd) by (unfold sd; destruct (mc_norm_den c); assumption).
    assert (Zs : forall e a, In (e, a) sd -> a <> f0) by (unfold sd; destruct (mc_norm_den c); assumption).
    destruct (in_dec (list_eq_dec Z.eq_dec) (zeros n) (map fst sd)) as [I0|N0].
    - pose proof (coef_at_in sd (zero_mon c) (proj1 Vs) I0) as Ia. fold a0 in Ia.
      assert (Nc : cd <> f1). { intros X. apply (Zs _ _ Ia). rewrite Ecd in X. transitivity (f1 - (f1 - a0))%K; [ring|rewrite X; ring]. }
      destruct (feqb cd f1) eqn:Ef; [apply (fl_eqb K HK) in Ef; contradiction|]. cbn [negb]. exists (f1 - cd)%K, (mc_norm_den c), (zero_mon c), false. split; [reflexivity|]. split.
      + unfold normalised_by. fold sd. destruct (in_dec _ _ _); [|contradiction]. auto.
      + fold sd. replace (f1 - cd)%K with a0 by (rewrite Ecd; ring). exact Ia.
    - assert (Ep : pfind sd (zero_mon c) = None) by (apply pfind_None; exact N0). assert (Ea : a0 = f0) by (unfold a0, coef_at; rewrite Ep; reflexivity).
      assert (Ef : feqb cd f1 = true) by (apply (fl_eqb K HK); rewrite Ecd, Ea; ring). rewrite Ef. cbn [negb].
      assert (Ep' : (if mc_norm_den c then pfind de (zero_mon c) else pfind nu (zero_mon c)) = None) by (unfold sd in Ep; destruct (mc_norm_den c); exact Ep). rewrite Ep'.
      unfold normalised_by. fold sd. destruct (in_dec _ _ _) as [X|_]; [contradiction|].
      pose proof (single_ok de Vd) as Sd. destruct (single ord de) as [k|].
      + eexists. eexists. eexists. eexists. split; [reflexivity|]. split; [left; auto|]. cbn. apply coef_at_in; [apply Vd|apply Sd].
      + pose proof (single_ok nu Vn) as Sn. destruct (single ord nu) as [k|].
        * eexists. eexists. eexists. eexists. split; [reflexivity|]. split; [right; left; auto|]. cbn. apply coef_at_in; [apply Vn|apply Sn].
        * pose proof (min_ok de Vd Ne) as M. eexists. eexists. eexists. eexists. split; [reflexivity|]. split; [right; right; auto 10|]. cbn. apply coef_at_in; [apply Vd|apply M].
  Qed.
End Norm.

(** Proofs for RatReconst in several variables over several primes, part 9: a first prime whose first value is zero. *)
From Coq Require Import Znumtheory Permutation.
From Verif Require Import Machine FField FSum LinAlg FPoly PolyFF PolySpec PolyFFProofs Thiele ThieleSpec ThieleProofs RatNum Modular Primes PField RatUni RatUniSpec RatUniThiele RatUniFirst RatUniProofs Newton PolyRec PolyRecSpec PolyRecMath PolyRatSpec RatMulti RatMultiSpec RatMultiRunSpec RatMultiMath RatMultiFirst RatMultiThiele RatMultiMain RatMultiRun RatMultiQ RatMultiQSpec RatMultiQFirst RatMultiQMain.
Open Scope nat_scope.

Section Late.
  Variable ord : forall A : Type, list A -> list A.
  Hypothesis Ho : forall A (l : list A), Permutation (ord A l) l.
  Variable c : mcfg.
  Local Notation n := (mc_n c).
  Variable F : pfield.
  Local Notation K := (fld F).
  Variables (N D Ns Ds : list (list Z * K)) (y s : nat -> K) (ts : list K).
  Hypothesis IP : interpolable n (mc_norm_den c) (mc_bt c) N D Ns Ds y s ts.
  Hypothesis CF : mconfig_fits c N D Ns Ds.
  Hypothesis Hdeg : 0 < max_degree N D.
  Local Notation GN := (tdegree N).
  Local Notation GD := (tdegree D).
  Local Notation fp := (first_points N D).
  Local Notation pt := (point ts).
  Local Notation fv := (first_value n N D y s ts).
  Local Notation bb := (ray_value n N D y s).

  Lemma file_ub (l : list (nat * K)) : l <> [] -> file_values ord c F y l (mk_qside F [] [] []) = UB.
  Proof. intros H. destruct l as [|e l]; [contradiction|]. reflexivity. Qed.
  Definition positive (m : pmap K) : list (nat * K) := map (fun e => (Z.to_nat (expo (fst e) 0), snd e)) (filter (fun e => negb (mon_eqb (fst e) [0%Z])) m).
  Lemma positive_some (m : pmap K) d a : 0 < d -> In ([Z.of_nat d], a) m -> ord _ (positive m) <> [].
  Proof.
    intros Hd H E. assert (X : In (Z.to_nat (expo [Z.of_nat d] 0), a) (positive m)).
    { unfold positive. apply in_map_iff. exists ([Z.of_nat d], a). split; [reflexivity|]. apply filter_In. split; [exact H|]. cbn [fst]. rewrite mon_eqb_neq; [reflexivity|]. intros Y. assert (Z.of_nat d = 0%Z) by congruence. lia. }
    apply (Permutation_in _ (Permutation_sym (Ho _ (positive m)))) in X. rewrite E in X. destruct X.
  Qed.
  Lemma late_ray_ub (v : nat -> K) w nu de : distinct (3 * (GN + GD) + 3) v -> w <> f0 -> Permutation (pf_coefs nu) (as_map (scaled w (fterms c y GN Ns))) -> Permutation (pf_coefs de) (as_map (scaled w (fterms c y GD Ds))) ->
    late_first_ray ord c F y nu de = UB.
  Proof.
    intros Hv Hw PN PD. pose proof (SHN c N D Ns Ds y s ts IP CF v Hv) as SN. pose proof (SHD c N D Ns Ds y s ts IP CF v Hv) as SD.
    unfold late_first_ray. set (side := pf_coefs (if mc_norm_den c then de else nu)).
    assert (SC : min_deg1 ord side = Some 0%Z /\ coef_at side [0%Z] = w).
    { pose proof (ip_norm _ _ _ _ _ _ _ _ _ _ IP) as En. unfold side. destruct (mc_norm_den c).
      - apply (scaled_const (HK F) ord Ho c y s v false D Ds w _ SD En PD).
      - apply (scaled_const (HK F) ord Ho c y s v true N Ns w _ SN En PN). }
    destruct SC as [-> ->]. cbv zeta. fold (positive (pf_coefs (pscale nu (fdiv f1 w)))). fold (positive (pf_coefs (pscale de (fdiv f1 w)))).
    pose proof (RatMultiThiele.scale_back (HK F) w _ nu Hw PN) as QN. pose proof (RatMultiThiele.scale_back (HK F) w _ de Hw PD) as QD.
    assert (Top : forall T g (m : pmap K), terms_ok T g -> Permutation m (as_map T) -> exists a, In ([Z.of_nat g], a) m).
    { intros T g m [_ [I _]] P. apply in_map_iff in I as [[e a] [E I]]. cbn [fst] in E. subst e. exists a. apply (Permutation_in _ (Permutation_sym P)). unfold as_map. apply in_map_iff. exists (g, a). auto. }
    destruct (Top _ _ _ (fterms_ok (HK F) c y s true GN N Ns v SN) QN) as [a IN]. destruct (Top _ _ _ (fterms_ok (HK F) c y s false GD D Ds v SD) QD) as [b ID].
    destruct (ord _ (positive (pf_coefs (pscale nu (fdiv f1 w))))) as [|e l] eqn:E.
    - cbn [file_values obind]. apply file_ub. apply (positive_some _ GD b); [|exact ID]. assert (~ 0 < GN) by (intros X; exact (positive_some _ GN a X IN E)). clear - H Hdeg. unfold max_degree in Hdeg. lia.
    - rewrite file_ub by discriminate. reflexivity.
  Qed.
  Lemma late_ub (bb' : list nat -> K -> K) : (forall o t, bb' o t = bb o t) -> late_thiele ord c F y bb' ts (mk_thiele [] []) = UB.
  Proof.
    intros EB. destruct (ip_field _ _ _ _ _ _ _ _ _ _ IP) as [v Hv]. pose proof (ip_points _ _ _ _ _ _ _ _ _ _ IP) as Lts.
    assert (G : forall j k, k + j = fp -> late_thiele ord c F y bb' (skipn k ts) (st pt fv k) = UB).
    { induction j as [|j IH]; intros k Ek; rewrite (skipn_nth f0) by lia; cbn [late_thiele]; rewrite EB; change (bb (repeat 1 (n - 1)) (nth k ts f0)) with (fv k); change (nth k ts f0) with (pt k); rewrite (first_step (HK F) c N D Ns Ds y s ts IP CF v Hv k) by lia; cbn [obind].
      - assert (k = fp) by lia. subst k. rewrite Nat.eqb_refl. cbn [fst snd]. unfold get_result. cbn [th_t th_a].
        destruct (tlist pt (S fp)) as [|t0 tl] eqn:Etl; [apply (f_equal (@length _)) in Etl; rewrite tlist_len in Etl; discriminate|]. rewrite <- Etl. clear t0 tl Etl.
        rewrite tlist_S, removelast_last. destruct (first_maps (HK F) ord Ho c N D Ns Ds y s ts IP CF v Hv) as [w [nu [de [Hw [-> [PN PD]]]]]]. cbn [obind fst snd]. rewrite (late_ray_ub v w nu de Hv Hw PN PD). reflexivity.
      - destruct (Nat.eqb_spec k fp) as [E|_]; [lia|]. cbn [fst snd]. apply (IH (S k)). lia. }
    exact (G fp 0 eq_refl).
  Qed.
End Late.

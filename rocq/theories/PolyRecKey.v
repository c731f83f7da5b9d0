(** Proofs for PolyReconst, part 1: the univariate interpolation of one coefficient (Newton and Ben-Or/Tiwari) *)
From Coq Require Import Permutation.
From Verif Require Import Machine FField FSum LinAlg LinAlgProofs FPoly Vandermonde VandermondeProofs PolyFF PolySpec PolyFFProofs PolyFFProofs2 Thiele ThieleSpec ThieleProofs Newton NewtonProofs BM BMSpec BMProofs BTProofs RatUni RatUniThiele PolyRec PolyRecSpec.
Open Scope nat_scope.

Section Key.
  Context {K : fops} (HK : flaws K).
  Add Field KF : (fl_field K HK).
  Variable z : K.
  Variable terms : list (nat * K).
  Variable D : nat.
  Hypothesis HT : terms <> [].
  Hypothesis Hnd : NoDup (map fst terms).
  Hypothesis Hnz : forall t, In t terms -> snd t <> f0.
  Hypothesis HM : forall t, In t terms -> fst t <= D.
  Hypothesis Hz : z <> f0.
  Hypothesis Hd : distinct (D + 2) (pw z).
  Hypothesis H32 : (Z.of_nat D + 2 < 2 ^ 32)%Z.
  Hypothesis H64 : (Z.of_nat (length terms) + 1 < 2 ^ 64)%Z.

  Let s (k : nat) : K := tval terms (pw z (S k)).
  Lemma s_probe k : probe z terms k = s k.
  Proof.
    unfold probe, exponential_sum, s, tc, tv, te. clear Hnd Hnz HM H64 HT. induction terms as [|[e c] l IH]; [reflexivity|]. cbn [length tval fold_right fst snd].
    rewrite (fsum_S_l HK). fold (tval l (pw z (S k))). rewrite <- IH. cbn [nth fst snd]. rewrite !(pw_pw HK). rewrite (Nat.mul_comm e). reflexivity.
  Qed.

  Lemma pt_distinct : distinct (D + 2) (ypt z).
  Proof.
    intros i j Hi Hj E. unfold ypt in E. cbn [pw] in E. apply Hd; [exact Hi|exact Hj|].
    apply (f_equal (fun u => (1 / z * u)%K)) in E. transitivity (1 / z * (z * pw z i))%K; [field; exact Hz|]. rewrite E. field. exact Hz.
  Qed.
  Lemma pt_distinct_le k : k <= D + 2 -> distinct k (ypt z).
  Proof. intros H i j Hi Hj. apply pt_distinct; lia. Qed.
  Lemma terms_polyfun : polyfun (S D) (tval terms).
  Proof. exists (tcoef terms). intros x. apply (tval_ueval HK). exact HM. Qed.
  (** all exponents are below k *)
  Definition below (k : nat) : Prop := forall t, In t terms -> fst t < k.
  Lemma below_polyfun k : 0 < k -> below k -> polyfun k (tval terms).
  Proof. intros Hk H. exists (tcoef terms). intros x. replace k with (S (k - 1)) at 1 by lia. apply (tval_ueval HK). intros t Ht. specialize (H t Ht). lia. Qed.
  Lemma polyfun_below k h : k <= S D -> polyfun k h -> (forall x, h x = tval terms x) -> below k.
  Proof.
    intros Hk [a Ha] E t Ht. destruct (Nat.lt_ge_cases (fst t) k) as [L|L]; [exact L|]. exfalso. pose proof (HM t Ht) as B.
    assert (C : forall i, i < S D -> (if i <? k then a i else f0) = tcoef terms i).
    { apply (interp_unique HK (S D) _ _ (pw z)); [intros i j Hi Hj; apply Hd; lia|]. intros i Hi. rewrite <- (tval_ueval HK _ D) by exact HM. rewrite <- E, Ha.
      rewrite (ueval_trunc HK (S D) k (fun i => if i <? k then a i else f0)); [|lia|intros j Hj; destruct (Nat.ltb_spec j k); [lia|reflexivity]].
      apply ueval_ext. intros j Hj. destruct (Nat.ltb_spec j k); [reflexivity|lia]. }
    specialize (C (fst t) ltac:(lia)). destruct (Nat.ltb_spec (fst t) k); [lia|]. destruct t as [e c]. cbn [fst] in *.
    rewrite (tcoef_in HK terms e c Hnd Ht) in C. apply (Hnz _ Ht). symmetry. exact C.
  Qed.

  Lemma not_below_0 : ~ below 0.
  Proof. unfold below. clear - HT. intros H. destruct terms as [|t l]; [apply HT; reflexivity|]. specialize (H t (or_introl eq_refl)). lia. Qed.

  Hypothesis HN : prediction_is_right D z (tval terms).
  Lemma dd_zero_below k : k <= S D -> dd z s k k = f0 -> below k.
  Proof.
    intros Hk E. destruct (Nat.eq_dec k (S D)) as [->|Nk]; [intros t Ht; specialize (HM t Ht); lia|].
    destruct k as [|k].
    - apply (polyfun_below 0 (fun _ => f0)); [lia|exists (fun _ => f0); intros x; reflexivity|]. apply (HN 0); [lia|exists (fun _ => f0); intros x; reflexivity|].
      intros i Hi. replace i with 0 by lia. symmetry. exact E.
    - apply (dd_zero HK z s (S k)) in E; [|apply pt_distinct_le; lia|lia]. pose proof (tail_polyfun HK z s 0 (S k - 1)) as P. replace (S (S k - 1)) with (S k) in P by lia.
      apply (polyfun_below (S k) (tail z s 0 (S k - 1))); [lia|exact P|]. apply (HN (S k)); [lia|exact P|].
      intros i Hi. change (pw z (S i)) with (ypt z i). destruct (Nat.eq_dec i (S k)) as [->|Ni]; [exact E|].
      rewrite (tail_fed HK z s (S k)); [reflexivity|apply pt_distinct_le; lia|lia|lia|lia].
  Qed.
  Lemma below_tail k x : 0 < k -> k <= D + 2 -> below k -> tail z s 0 (k - 1) x = tval terms x.
  Proof. intros Hk Hk2 B. apply (tail_of_poly HK z s k (tval terms)); [apply pt_distinct_le; exact Hk2|exact Hk|apply below_polyfun; assumption|reflexivity]. Qed.
  Lemma below_dd_zero k : k <= S D -> below k -> dd z s k k = f0.
  Proof.
    intros Hk B. assert (P : 0 < k) by (destruct k; [exfalso; exact (not_below_0 B)|lia]). apply (dd_zero HK); [apply pt_distinct_le; lia|exact P|].
    rewrite below_tail; [reflexivity|exact P|lia|exact B].
  Qed.

  Section Ord.
  Variable ord : pmap K -> pmap K.
  Hypothesis Ho : any_order ord.
  Lemma canonical_terms k nv : 0 < k -> k <= D + 2 -> below k ->
    Permutation (filter (fun kc => negb (feqb (snd kc) f0)) (newton_canonical ord nv z (dlist z s k))) (as_map terms) /\
    poly_ok 1 (newton_canonical ord nv z (dlist z s k)).
  Proof.
    intros Hk Hk2 B. destruct (newton_canonical_ok HK z s ord Ho k Hk ltac:(lia) nv) as [_ [U2 [U3 U4]]]. cbn [pf_coefs] in *. split; [|exact U2].
    set (m := newton_canonical ord nv z (dlist z s k)) in *. apply (map_unique HK _ (k - 1) (tval terms) terms (pw z)).
    - split; [split; [reflexivity|split; [|split]]|]; cbn [pf_coefs].
      + destruct U2 as [A1 A2]. split; [|rewrite Forall_forall in *; intros x Hx; apply filter_In in Hx as [Hx _]; apply A2; exact Hx].
        clear - A1. induction m as [|kc m IH]; [constructor|]. inversion A1 as [|? ? N1 N2]; subst. cbn [filter]. destruct (feqb (snd kc) f0); cbn [negb]; [apply IH; exact N2|].
        cbn [map]. constructor; [|apply IH; exact N2]. intros X. apply N1. apply in_map_iff in X as [x [<- X]]. apply filter_In in X as [X _]. apply in_map. exact X.
      + intros e He. apply U3. apply in_map_iff in He as [x [<- X]]. apply filter_In in X as [X _]. apply in_map. exact X.
      + intros x. rewrite (pv_filter_nz HK), U4. apply below_tail; assumption.
      + unfold no_zero_coefficient. rewrite Forall_forall. intros x Hx. apply filter_In in Hx as [_ Hx]. apply Bool.negb_true_iff in Hx. apply (feqb_neq HK). exact Hx.
    - intros i j Hi Hj. apply Hd; lia.
    - exact Hnd.
    - intros t Ht. split; [specialize (B t Ht); lia|apply Hnz; exact Ht].
    - reflexivity.
  Qed.
  End Ord.

  (** ---- Berlekamp/Massey ---- *)
  Notation T := (length terms).
  Hypothesis HB : recurrence_is_right z s.
  Lemma rec_ext' (a : nat -> K) L (u v : nat -> K) m : (forall k, u k = v k) -> recurrence a L u m -> recurrence a L v m.
  Proof.
    intros E [R1 [R2 R3]]. split; [exact R1|]. split; [exact R2|]. intros k H1 H2. rewrite <- (R3 k H1 H2). apply fsum_ext. intros i Hi. rewrite E. reflexivity.
  Qed.
  Lemma Tpos : 0 < T. Proof. clear - HT. destruct terms; [contradiction|cbn; lia]. Qed.
  Lemma HnzF : Forall (fun ec : nat * K => snd ec <> f0) terms. Proof. apply Forall_forall. exact Hnz. Qed.
  Lemma HMF : Forall (fun ec : nat * K => fst ec <= D) terms. Proof. apply Forall_forall. exact HM. Qed.
  Lemma HdS : distinct (S D) (pw z). Proof. intros i j Hi Hj. apply Hd; lia. Qed.
  Lemma early_is_T L a es : recurrence a L s (2 * L + 1) -> length es <= L -> splits z a es -> T <= L.
  Proof.
    intros R HL Sp. destruct (Nat.le_gt_cases T L) as [G|G]; [exact G|]. exfalso.
    assert (R' : recurrence a L (exponential_sum T (tc terms) (tv z terms)) (2 * T)) by (apply (rec_ext' a L s); [intros k; symmetry; apply s_probe|apply (HB L a es R HL Sp)]).
    destruct (rec_unique HK T (tc terms) (tv z terms) Tpos (tv_distinct z terms D Hnd HMF HdS) (tv_nz HK z terms Hz) (tc_nz terms HnzF) a L (2 * T) R') as [E _]; lia.
  Qed.

  (** the search for exponents, whatever the polynomial *)
  Lemma rev_value_spec (lam : list K) (a : K) : (Z.of_nat (length lam) < 2 ^ 64)%Z -> lam <> [] ->
    lambda_rev_value lam a = fsum (S (length lam - 1)) (fun i => fmul (cf lam i) (pw a (length lam - 1 - i))).
  Proof.
    intros HL Hn. unfold lambda_rev_value. assert (Lp : 0 < length lam) by (clear - Hn; destruct lam; [contradiction|cbn; lia]). rewrite (rev_sum HK).
    assert (G : forall n b, n <= length lam -> fold_left (fun r i => fadd r (fmul (nth (length lam - i - 1) lam f0) (fpow a (Z.of_nat i)))) (seq 0 n) b = (b + fsum n (fun i => cf lam (length lam - 1 - i)%nat * pw a i))%K).
    { induction n as [|n IH]; intros b Hb; [cbn; ring|]. rewrite seq_S, fold_left_app, IH by lia. cbn [fold_left fsum Nat.add].
      rewrite (fl_pow K HK) by (unfold two64; lia). rewrite Nat2Z.id. replace (length lam - n - 1) with (length lam - 1 - n) by lia. unfold cf. ring. }
    rewrite G by lia. replace (S (length lam - 1)) with (length lam) by lia. ring.
  Qed.
  Lemma distinct_next m : distinct (S m) (pw z) -> pw z (S m) <> f1 -> distinct (S (S m)) (pw z).
  Proof.
    intros Dm N. assert (X : forall i, i < S m -> pw z i <> pw z (S m)).
    { intros i Hi E. destruct i as [|i]; [apply N; symmetry; exact E|]. assert (E' : pw z i = pw z m) by (cbn [pw] in E; apply (fmul_cancel HK z); [exact Hz|exact E]). apply Dm in E'; lia. }
    intros i j Hi Hj E. destruct (Nat.eq_dec i (S m)) as [->|Ni]; destruct (Nat.eq_dec j (S m)) as [->|Nj]; try reflexivity.
    - exfalso. apply (X j ltac:(lia)). symmetry. exact E.
    - exfalso. apply (X i ltac:(lia)). exact E.
    - apply Dm; lia || exact E.
  Qed.
  Lemma search_ok (lam : list K) maxc r : (pw z r = f1 \/ (maxc < Z.of_nat r)%Z) ->
    forall fuel m exps, m < r -> r - m <= fuel -> distinct (S m) (pw z) -> NoDup (map (pw z) exps) -> (forall e, In e exps -> e < m /\ lambda_rev_value lam (pw z e) = f0) ->
    exists exps', rootsexp fuel lam z maxc (map (pw z) exps) exps (pw z m) m = Some (map (pw z) exps', exps') /\ NoDup (map (pw z) exps') /\
      forall e, In e exps' -> lambda_rev_value lam (pw z e) = f0.
  Proof.
    intros Hr. induction fuel as [|fuel IH]; intros m exps Hm Hf Dm Nd He; [lia|]. cbn [rootsexp].
    destruct (Nat.ltb (length (map (pw z) exps)) (length lam - 1)); [|exists exps; split; [reflexivity|]; split; [exact Nd|intros e Ie; apply He; exact Ie]].
    cbn zeta. replace (fmul (pw z m) z) with (pw z (S m)) by (cbn [pw]; ring).
    set (exps' := if feqb (lambda_rev_value lam (pw z m)) f0 then exps ++ [m] else exps).
    assert (E1 : (if feqb (lambda_rev_value lam (pw z m)) f0 then map (pw z) exps ++ [pw z m] else map (pw z) exps) = map (pw z) exps').
    { unfold exps'. destruct (feqb _ f0); [rewrite map_app|]; reflexivity. }
    assert (Nd' : NoDup (map (pw z) exps')).
    { unfold exps'. destruct (feqb _ f0); [|exact Nd]. rewrite map_app. cbn [map]. apply (Permutation_NoDup (Permutation_cons_append _ _)). constructor; [|exact Nd].
      intros I. apply in_map_iff in I as [e [E I]]. destruct (He e I) as [L _]. apply Dm in E; lia. }
    assert (He' : forall e, In e exps' -> e < S m /\ lambda_rev_value lam (pw z e) = f0).
    { unfold exps'. intros e I. destruct (feqb (lambda_rev_value lam (pw z m)) f0) eqn:Ef; [|destruct (He e I); split; [lia|assumption]].
      apply in_app_or in I as [I|[<-|[]]]; [destruct (He e I); split; [lia|assumption]|]. split; [lia|apply (fl_eqb K HK); exact Ef]. }
    rewrite E1. destruct (feqb (pw z (S m)) f1) eqn:E; [exists exps'; split; [reflexivity|]; split; [exact Nd'|intros e Ie; apply He'; exact Ie]|].
    apply (feqb_neq HK) in E. destruct (Z.ltb_spec maxc (Z.of_nat (S m))) as [G|G]; [exists exps'; split; [reflexivity|]; split; [exact Nd'|intros e Ie; apply He'; exact Ie]|].
    assert (S m < r) by (destruct (Nat.eq_dec (S m) r) as [Er|]; [|lia]; rewrite <- Er in Hr; destruct Hr as [Hr|Hr]; [contradiction|lia]).
    apply IH; [assumption|lia|apply distinct_next; assumption|exact Nd'|exact He'].
  Qed.

  Variables (thr fuel : nat) (maxc : Z).
  Hypothesis Hfuel : S D < fuel.
  Hypothesis Hmaxc : forall t, In t terms -> (Z.of_nat (fst t) <= maxc)%Z.
  Hypothesis Hends : exists r, 0 < r < fuel /\ (pw z r = f1 \/ (maxc < Z.of_nat r)%Z).
  Lemma search_result (lam : list K) : exists exps, rootsexponents fuel lam z maxc = Some (map (pw z) exps, exps) /\ NoDup (map (pw z) exps) /\
      forall e, In e exps -> lambda_rev_value lam (pw z e) = f0.
  Proof.
    destruct Hends as [r [Hr1 Hr2]]. apply (search_ok lam maxc r Hr2 fuel 0 []); [lia|lia| |constructor|intros e []]. intros i j Hi Hj _. lia.
  Qed.

  Let top : nat := fold_right Nat.max 0 (map fst terms).
  Lemma top_ge t : In t terms -> fst t <= top.
  Proof. unfold top. clear. induction terms as [|u l IH]; intros H; [contradiction|]. cbn [map fold_right]. destruct H as [->|H]; [lia|]. specialize (IH H). lia. Qed.
  Lemma top_in : exists t, In t terms /\ fst t = top.
  Proof.
    unfold top. clear - HT. induction terms as [|u l IH]; [contradiction|]. cbn [map fold_right]. destruct l as [|v l]; [exists u; split; [left; reflexivity|cbn; lia]|].
    destruct (IH ltac:(discriminate)) as [t [I E]]. destruct (Nat.le_gt_cases (fst u) (fold_right Nat.max 0 (map fst (v :: l)))) as [G|G].
    - exists t. split; [right; exact I|lia].
    - exists u. split; [left; reflexivity|lia].
  Qed.

  (** the state after k values *)
  Definition bt_at (k : nat) (st : bm K) : Prop := inv (probe z terms) (S k) st /\ 1 + (k - 2 * T) <= bm_term st.

  Lemma vals_S k : map s (seq 0 k) ++ [s k] = map (probe z terms) (seq 0 (S k)).
  Proof. rewrite seq_S, map_app. cbn [map Nat.add]. rewrite <- s_probe. f_equal. apply map_ext. intros i. symmetry. apply s_probe. Qed.

  Lemma bt_first : s 0 <> f0 -> exists st, bm_step thr bm_init [s 0] = Ret (false, st) /\ bt_at 1 st.
  Proof.
    intros H0. rewrite <- s_probe in *. destruct (bm_first HK thr (probe z terms) [probe z terms 0] eq_refl H0) as [st [E [I Ht]]]; [cbn; constructor|].
    exists st. split; [exact E|]. split; [exact I|]. rewrite Ht. pose proof Tpos as P. clear - P. lia.
  Qed.

  (** one further value: either no success, or a success that is not confirmed by the roots, or the terms *)
  Lemma bt_next k st : bt_at k st ->
    (exists st', bm_step thr st (map s (seq 0 k) ++ [s k]) = Ret (false, st') /\ bt_at (S k) st' /\ S k < 2 * T + Nat.max 1 thr) \/
    (exists st' roots exps, bm_step thr st (map s (seq 0 k) ++ [s k]) = Ret (true, st') /\ rootsexponents fuel (bm_lambda st') z maxc = Some (roots, exps) /\
       length roots <> length (bm_lambda st') - 1 /\
       bt_at (S k) (mk_bm (bm_lambda st') (bm_b st') (bm_l st') (bm_delta st') (bm_iter st') 1) /\ S k < 2 * T + Nat.max 1 thr) \/
    (exists st' p roots exps, bm_step thr st (map s (seq 0 k) ++ [s k]) = Ret (true, st') /\
       rootsexponents fuel (bm_lambda st') z maxc = Some (roots, exps) /\ length roots = length (bm_lambda st') - 1 /\
       combine exps (solve_tv roots (map s (seq 0 k) ++ [s k])) = p /\ Permutation p terms).
  Proof.
    intros [I Ht]. rewrite !vals_S. pose proof Tpos as Tp.
    pose proof (inv_lambda HK T (tc terms) (tv z terms) Tp (tv_distinct z terms D Hnd HMF HdS) (tv_nz HK z terms Hz) (tc_nz terms HnzF)) as IL.
    destruct (bm_step_inv HK thr (probe z terms) (S k) st (map (probe z terms) (seq 0 (S k))) I) as [fl [st' [E [I' [F1 [F2 F3]]]]]].
    { rewrite map_length, seq_length. lia. }
    { intros j Hj. apply (nth_map_seq (probe z terms)). exact Hj. }
    replace (S k - 1) with k in * by lia. rewrite E.
    assert (Z : 2 * T <= k -> conv (cf (bm_lambda st)) (probe z terms) k = f0 /\ bm_l st = T).
    { intros H. destruct (IL k st I H) as [L1 [L2 L3]]. split; [|exact L1].
      assert (R : recurrence (locator T (tv z terms)) T (probe z terms) (S k)) by (apply (locator_rec HK T (tc terms) (tv z terms)); exact Tp).
      rewrite (conv_ext _ (locator T (tv z terms)) _ k L2). apply (rec_conv HK _ _ _ _ k R). lia. }
    assert (Ht' : 1 + (S k - 2 * T) <= bm_term st').
    { destruct (Nat.le_gt_cases (2 * T) k) as [H|H].
      - destruct (F2 (proj1 (Z H))) as [_ [_ F]]. rewrite F. lia.
      - destruct (K_dec HK (conv (cf (bm_lambda st)) (probe z terms) k) f0) as [C|C].
        + destruct (F2 C) as [_ [_ F]]. rewrite F. lia.
        + rewrite (F3 C). lia. }
    destruct fl.
    - right. destruct (proj1 F1 eq_refl) as [C [_ L]]. destruct (F2 C) as [E1 [E2 _]].
      destruct (search_result (bm_lambda st')) as [exps [RE [Nd Rt]]].
      assert (Ok : 2 * T <= S k -> exists p, length (map (pw z) exps) = length (bm_lambda st') - 1 /\ combine exps (solve_tv (map (pw z) exps) (map (probe z terms) (seq 0 (S k)))) = p /\ Permutation p terms).
      { intros TL. assert (HTop : Forall (fun ec : nat * K => fst ec <= top) terms) by (apply Forall_forall; exact top_ge).
        assert (TD : top <= D) by (destruct top_in as [t [It <-]]; apply HM; exact It).
        assert (HdT : distinct (S top) (pw z)) by (intros i j Hi Hj; apply Hd; lia).
        assert (Mc : (Z.of_nat top <= maxc)%Z) by (destruct top_in as [t [It <-]]; apply Hmaxc; exact It).
        destruct (bt_result_ok HK z terms top HT Hnd HnzF HTop Hz HdT H64 (S k) st' fuel maxc I' TL ltac:(lia) Mc) as [p [B P]].
        unfold bt_result in B. rewrite RE in B. destruct (Nat.eqb_spec (length (map (pw z) exps)) (length (bm_lambda st') - 1)) as [EL|]; [|discriminate]. injection B as B.
        exists p. split; [exact EL|]. split; [exact B|exact P]. }
      destruct (Nat.eq_dec (length (map (pw z) exps)) (length (bm_lambda st') - 1)) as [EL|NL].
      + right. assert (LT : bm_l st' <= T).
        { apply (i_min _ _ _ I' (locator T (tv z terms)) T). apply (locator_rec HK T (tc terms) (tv z terms)). exact Tp. }
        pose proof (i_len _ _ _ I') as IL2. pose proof (i_last _ _ _ I') as ILa.
        assert (Ln : bm_lambda st' <> []) by (intros X; rewrite X in ILa; apply ILa; reflexivity). assert (Lp : 0 < length (bm_lambda st')) by (clear - Ln; destruct (bm_lambda st'); [contradiction|cbn; lia]).
        rewrite map_length in EL. assert (TL : T <= bm_l st').
        { apply (early_is_T (bm_l st') (cf (bm_lambda st')) exps).
          - apply (rec_ext' _ _ (probe z terms)); [apply s_probe|]. apply (rec_weaken _ _ _ (S (S k) - 1)); [rewrite E2; lia|exact (i_rec _ _ _ I')].
          - lia.
          - split; [exact Nd|]. split.
            + intros i Hi. unfold cf. apply nth_overflow. lia.
            + intros e Ie. rewrite EL. rewrite <- (rev_value_spec (bm_lambda st') (pw z e)); [apply Rt; exact Ie|lia|exact Ln]. }
        destruct (Ok ltac:(rewrite E2 in TL; lia)) as [p [EL' [B P]]]. exists st', p, (map (pw z) exps), exps. repeat (split; [assumption || reflexivity|]). exact P.
      + left. assert (G : S k < 2 * T) by (destruct (Nat.lt_ge_cases (S k) (2 * T)) as [G|G]; [exact G|]; destruct (Ok G) as [p [X _]]; contradiction).
        exists st', (map (pw z) exps), exps. split; [reflexivity|]. split; [exact RE|]. split; [exact NL|]. split; [|lia]. split; [apply inv_term; exact I'|cbn [bm_term]; lia].
    - left. exists st'. split; [reflexivity|]. split; [split; [exact I'|exact Ht']|].
      destruct (Nat.lt_ge_cases (S k) (2 * T + Nat.max 1 thr)) as [G|G]; [exact G|]. exfalso.
      assert (X : false = true); [|discriminate]. apply F1. destruct (Z ltac:(lia)) as [Z1 Z2]. split; [exact Z1|]. split; [lia|]. rewrite Z2. lia.
  Qed.
End Key.

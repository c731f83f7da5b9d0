(** Proofs about Ben-Or/Tiwari *)
From Coq Require Import Permutation.
From Verif Require Import Machine FField FSum LinAlg LinAlgProofs FPoly Vandermonde VandermondeProofs BM BMSpec BMProofs.
Open Scope nat_scope.

Section Proofs.
  Context {K : fops} (HK : flaws K).
  Add Field KF : (fl_field K HK).

    Lemma rev_sum (lam : nat -> K) (L : nat) (z : K) :
      fsum (S L) (fun i => lam i * pw z (L - i))%K = fsum (S L) (fun i => lam (L - i)%nat * pw z i)%K.
    Proof.
      revert lam. induction L as [|L IH]; intros lam; [reflexivity|].
      rewrite (fsum_S_l HK).
      change (fsum (S (S L)) (fun i => lam (S L - i)%nat * pw z i)%K) with (fsum (S L) (fun i => lam (S L - i)%nat * pw z i)%K + lam (S L - S L)%nat * pw z (S L))%K.
      rewrite Nat.sub_diag, Nat.sub_0_r. pose proof (IH (fun i => lam (S i))) as E. cbn beta in E.
      rewrite (fsum_ext (S L) (fun i => lam (S L - i)%nat * pw z i)%K (fun i => lam (S (L - i)) * pw z i)%K) by (intros i Hi; replace (S L - i) with (S (L - i)) by lia; reflexivity).
      rewrite <- E. rewrite (fsum_ext (S L) (fun i => lam (S i) * pw z (S L - S i))%K (fun i => lam (S i) * pw z (L - i))%K) by (intros; reflexivity). ring.
    Qed.

  Section Sums.
    Variables (T : nat) (c v : nat -> K).
    Hypothesis HT : 0 < T.
    Hypothesis Hd : distinct T v.
    Hypothesis Hv : forall j, j < T -> v j <> f0.
    Hypothesis Hc : forall j, j < T -> c j <> f0.
    Notation s := (exponential_sum T c v).

    (** reversed coefficients of the product of (x - v_j) *)
    Definition locator (i : nat) : K := if i =? 0 then f1 else if i <=? T then master T v (T - i) else f0.

    Lemma conv_sum lam L k : L <= k ->
      fsum (S L) (fun i => lam i * s (k - i)%nat)%K = fsum T (fun j => c j * fsum (S L) (fun i => lam i * pw (v j) (L - i)) * pw (v j) (S (k - L)))%K.
    Proof.
      intros HL. rewrite (fsum_ext (S L) _ (fun i => fsum T (fun j => c j * lam i * pw (v j) (L - i) * pw (v j) (S (k - L))))%K).
      2:{ intros i Hi. unfold exponential_sum. rewrite <- (fsum_mul_l HK). apply fsum_ext. intros j Hj.
          replace (S (k - i)) with (L - i + S (k - L)) by lia. rewrite (pw_add HK). ring. }
      rewrite (fsum_swap HK). apply fsum_ext. intros j Hj. rewrite <- (fsum_mul_l HK), <- (fsum_mul_r HK). apply fsum_ext. intros i Hi. ring.
    Qed.

    Lemma locator_value z : fsum (S T) (fun i => locator i * pw z (T - i))%K = nodal T v z.
    Proof.
      rewrite (fsum_S_l HK). rewrite <- (master_spec HK T v z HT). unfold ueval. unfold locator at 1. cbn [Nat.eqb]. rewrite Nat.sub_0_r.
      assert (E : fsum T (fun i => locator (S i) * pw z (T - S i))%K = fsum T (fun i => master T v i * pw z i)%K).
      { assert (G : forall T1, T = S T1 -> fsum (S T1) (fun i => locator (S i) * pw z (T - S i))%K = fsum (S T1) (fun i => master T v i * pw z i)%K).
        { intros T1 ET. rewrite (fsum_ext (S T1) _ (fun i => master T v (T1 - i) * pw z (T1 - i))%K).
          - rewrite (rev_sum (fun i => master T v (T1 - i)) T1 z). apply fsum_ext. intros i Hi. replace (T1 - (T1 - i)) with i by lia. reflexivity.
          - intros i Hi. unfold locator. cbn [Nat.eqb]. destruct (Nat.leb_spec (S i) T); [|lia]. replace (T - S i) with (T1 - i) by lia. reflexivity. }
        specialize (G (T - 1) ltac:(lia)). replace (S (T - 1)) with T in G by lia. exact G. }
      rewrite E. ring.
    Qed.
    Lemma locator_rec n : recurrence locator T s n.
    Proof.
      split; [reflexivity|]. split.
      - intros i Hi. unfold locator. destruct (Nat.eqb_spec i 0); [lia|]. destruct (Nat.leb_spec i T); [lia|reflexivity].
      - intros k H1 H2. rewrite (conv_sum locator T k H1). apply (fsum_0 HK). intros j Hj. rewrite locator_value.
        assert (Z : nodal T v (v j) = f0) by (apply (nodal_0 HK); exists j; auto). rewrite Z. ring.
    Qed.

    (** every recurrence long enough has the v_j as roots of the reversed polynomial *)
    Lemma rec_roots lam L n : recurrence lam L s n -> L + T <= n -> forall j, j < T -> fsum (S L) (fun i => lam i * pw (v j) (L - i))%K = f0.
    Proof.
      intros [R1 [R2 R3]] Hn j Hj. set (g := fun j => fsum (S L) (fun i => lam i * pw (v j) (L - i))%K).
      assert (E : (c j * g j)%K = f0).
      { pose proof (vdm_unique HK T v (fun _ => f0) HT Hd Hv) as U. transitivity (vdm_solve T v (fun _ => f0) j).
        - apply (U (fun j => c j * g j)%K); [|exact Hj]. intros k Hk. rewrite <- (R3 (L + (k - 1)) ltac:(lia) ltac:(lia)).
          rewrite conv_sum by lia. apply fsum_ext. intros i Hi. replace (S (L + (k - 1) - L)) with k by lia. reflexivity.
        - symmetry. apply (U (fun _ => f0)); [|exact Hj]. intros k Hk. apply (fsum_0 HK). intros; ring. }
      apply (fmul_0 HK) in E as [E|E]; [exfalso; exact (Hc j Hj E)|exact E].
    Qed.

    Theorem rec_unique lam L n : recurrence lam L s n -> L <= T -> 2 * T <= n -> L = T /\ forall i, lam i = locator i.
    Proof.
      intros R HL Hn. pose proof (rec_roots lam L n R ltac:(lia)) as Hr. pose proof R as [R1 [R2 R3]].
      assert (EL : L = T).
      { destruct (Nat.eq_dec L T) as [E|N]; [exact E|]. exfalso. apply (f1_neq_0 HK). rewrite <- R1.
        pose proof (roots_zero HK (S L) (fun i => lam (L - i)%nat) v) as Z. specialize (Z ltac:(intros i j Hi Hj; apply Hd; lia)).
        rewrite <- (Z ltac:(intros i Hi; unfold ueval; rewrite <- rev_sum; apply Hr; lia) L ltac:(lia)). rewrite Nat.sub_diag. reflexivity. }
      split; [exact EL|]. subst L. intros i. destruct (Nat.le_gt_cases i T) as [Hi|Hi].
      - destruct (Nat.eq_dec i 0) as [->|N]; [rewrite R1; reflexivity|].
        apply (fsub_0 HK). pose proof (roots_zero HK T (fun i => lam (T - i)%nat - locator (T - i)%nat)%K v Hd) as Z.
        replace i with (T - (T - i)) by lia. apply Z; [|lia]. intros j Hj. unfold ueval.
        assert (A : fsum (S T) (fun i => lam (T - i)%nat * pw (v j) i)%K = f0) by (rewrite <- rev_sum; apply Hr; exact Hj).
        assert (B : fsum (S T) (fun i => locator (T - i)%nat * pw (v j) i)%K = f0).
        { rewrite <- rev_sum, locator_value. apply (nodal_0 HK). exists j. auto. }
        cbn [fsum] in A, B. rewrite Nat.sub_diag in A, B. rewrite R1 in A. change (locator 0) with (@f1 K) in B.
        rewrite (fsum_ext T _ (fun i => lam (T - i)%nat * pw (v j) i - locator (T - i)%nat * pw (v j) i)%K) by (intros; ring).
        rewrite (fsum_sub HK). transitivity ((fsum T (fun i => lam (T - i)%nat * pw (v j) i) + f1 * pw (v j) T) - (fsum T (fun i => locator (T - i)%nat * pw (v j) i) + f1 * pw (v j) T))%K; [ring|].
        rewrite A, B. ring.
      - rewrite R2 by exact Hi. destruct (locator_rec 0) as [_ [Q _]]. rewrite Q by exact Hi. reflexivity.
    Qed.

    Lemma locator_T : locator T <> f0.
    Proof.
      intros E. assert (N : nodal T v f0 = f0).
      { rewrite <- locator_value. apply (fsum_0 HK). intros i Hi. destruct (Nat.eq_dec i T) as [->|N]; [rewrite E; ring|]. rewrite (pw_0 HK) by lia. ring. }
      apply (nodal_0 HK) in N as [j [Hj N]]. apply (Hv j Hj). symmetry. exact N.
    Qed.

    (** the state after at least 2T values *)
    Lemma inv_lambda n st : inv s (S n) st -> 2 * T <= n -> bm_l st = T /\ (forall i, cf (bm_lambda st) i = locator i) /\ length (bm_lambda st) = S T.
    Proof.
      intros I Hn. destruct I as [Ir Ir2 Il Irec Ilen Ilast Ibdeg Ibconv Ibdelta Idelta Imin]. replace (S n - 1) with n in * by lia.
      destruct (rec_unique _ _ n Irec) as [E1 E2]; [apply (Imin locator); apply locator_rec|exact Hn|].
      split; [exact E1|]. split; [exact E2|]. destruct (Nat.lt_ge_cases (length (bm_lambda st)) (S T)) as [G|G]; [|lia].
      exfalso. apply locator_T. rewrite <- E2. unfold cf. apply nth_overflow. lia.
    Qed.

    Lemma lambda_rev_value_spec lam z : (Z.of_nat (length lam) < 2 ^ 64)%Z -> length lam = S T -> (forall i, cf lam i = locator i) -> lambda_rev_value lam z = nodal T v z.
    Proof.
      intros H64 Hl He. unfold lambda_rev_value. rewrite <- locator_value, rev_sum. rewrite Hl.
      assert (G : forall n a, n <= S T -> fold_left (fun r i => fadd r (fmul (nth (S T - i - 1) lam f0) (fpow z (Z.of_nat i)))) (seq 0 n) a = (a + fsum n (fun i => locator (T - i)%nat * pw z i))%K).
      { induction n as [|n IH]; intros a Hn; [cbn; ring|]. rewrite seq_S, fold_left_app, IH by lia. cbn [fold_left fsum Nat.add].
        rewrite (fl_pow K HK) by (unfold two64; lia). rewrite Nat2Z.id. replace (S T - n - 1) with (T - n) by lia. rewrite <- He. unfold cf. ring. }
      rewrite G by lia. ring.
    Qed.
  End Sums.

  (** ---- sparse polynomials ---- *)
  Section Sparse.
    Variable z : K.
    Variable terms : list (nat * K).
    Notation T := (length terms).
    Definition tc (j : nat) : K := snd (nth j terms (0, f0)).
    Definition te (j : nat) : nat := fst (nth j terms (0, f0)).
    Definition tv (j : nat) : K := pw z (te j).
    Definition probe (k : nat) : K := exponential_sum T tc tv k.
    Variable M : nat.
    Hypothesis HT : terms <> [].
    Hypothesis Hnd : NoDup (map fst terms).
    Hypothesis Hnz : Forall (fun ec => snd ec <> f0) terms.
    Hypothesis HM : Forall (fun ec => fst ec <= M) terms.
    Hypothesis Hz : z <> f0.
    Hypothesis Hp : distinct (S M) (pw z).

    Lemma T_pos : 0 < T. Proof. destruct terms; [congruence|cbn; lia]. Qed.
    Lemma te_le j : j < T -> te j <= M.
    Proof. intros H. rewrite Forall_forall in HM. apply (HM (nth j terms (0, f0))). apply nth_In. exact H. Qed.
    Lemma tc_nz j : j < T -> tc j <> f0.
    Proof. intros H. rewrite Forall_forall in Hnz. apply (Hnz (nth j terms (0, f0))). apply nth_In. exact H. Qed.
    Lemma te_inj i j : i < T -> j < T -> te i = te j -> i = j.
    Proof.
      intros Hi Hj E. unfold te in E. rewrite <- !(map_nth fst) in E. rewrite NoDup_nth in Hnd. apply (Hnd i j); rewrite ?map_length; [exact Hi|exact Hj|exact E].
    Qed.
    Lemma tv_distinct : distinct T tv.
    Proof. intros i j Hi Hj E. apply Hp in E; [apply te_inj; assumption|pose proof (te_le i Hi); lia|pose proof (te_le j Hj); lia]. Qed.
    Lemma tv_nz j : j < T -> tv j <> f0. Proof. intros _. apply (pw_neq0 HK). exact Hz. Qed.

    Definition is_exp (e : nat) : bool := existsb (fun ec => fst ec =? e) terms.
    Lemma is_exp_spec e : is_exp e = true <-> In e (map fst terms).
    Proof.
      unfold is_exp. rewrite existsb_exists, in_map_iff. split; intros [ec [A B]]; exists ec.
      - apply Nat.eqb_eq in B. auto.
      - split; [exact B|]. apply Nat.eqb_eq. exact A.
    Qed.
    Lemma nodal_root e : e <= M -> (feqb (nodal T tv (pw z e)) f0 = true <-> is_exp e = true).
    Proof.
      intros He. rewrite (fl_eqb K HK), (nodal_0 HK), is_exp_spec, in_map_iff. split.
      - intros [j [Hj E]]. exists (nth j terms (0, f0)). split; [|apply nth_In; exact Hj]. fold (te j). unfold tv in E. apply Hp in E; [symmetry; exact E|lia|pose proof (te_le j Hj); lia].
      - intros [ec [E1 E2]]. apply (In_nth _ _ (0, f0)) in E2 as [j [Hj E2]]. exists j. split; [exact Hj|]. unfold tv, te. rewrite E2, E1. reflexivity.
    Qed.

    Definition found_exps (m : nat) : list nat := filter is_exp (seq 0 m).
    Lemma found_S m : found_exps (S m) = found_exps m ++ (if is_exp m then [m] else []).
    Proof. unfold found_exps. rewrite seq_S, filter_app. cbn [filter Nat.add]. reflexivity. Qed.
    Lemma found_all : Permutation (found_exps (S M)) (map fst terms).
    Proof.
      apply NoDup_Permutation; [apply NoDup_filter; apply seq_NoDup|exact Hnd|]. intros e. unfold found_exps. rewrite filter_In, in_seq, is_exp_spec. split; [tauto|].
      intros H. split; [|exact H]. apply in_map_iff in H as [ec [<- H]]. rewrite Forall_forall in HM. specialize (HM ec H). lia.
    Qed.
    Lemma found_le m : m <= S M -> length (found_exps m) <= T.
    Proof.
      intros H. rewrite <- (map_length fst terms), <- (Permutation_length found_all). unfold found_exps.
      replace (seq 0 (S M)) with (seq 0 m ++ seq m (S M - m)) by (rewrite <- seq_app; f_equal; lia). rewrite filter_app, app_length. lia.
    Qed.
    Lemma found_stop m : m <= S M -> T <= length (found_exps m) -> found_exps m = found_exps (S M).
    Proof.
      intros H HL. pose proof (Permutation_length found_all) as P. rewrite map_length in P. unfold found_exps in *.
      replace (seq 0 (S M)) with (seq 0 m ++ seq m (S M - m)) in P |- * by (rewrite <- seq_app; f_equal; lia). rewrite filter_app in *. rewrite app_length in P.
      destruct (filter is_exp (seq m (S M - m))); [rewrite app_nil_r; reflexivity|cbn in P; lia].
    Qed.

    Lemma rootsexp_ok lam maxc (Hl : length lam = S T) (Hv : forall a, lambda_rev_value lam a = nodal T tv a) (Hm : (Z.of_nat M <= maxc)%Z) :
      forall fuel m, m <= S M -> S M - m < fuel ->
      rootsexp fuel lam z maxc (map (pw z) (found_exps m)) (found_exps m) (pw z m) m = Some (map (pw z) (found_exps (S M)), found_exps (S M)).
    Proof.
      induction fuel as [|fuel IH]; intros m Hm1 Hf; [lia|]. cbn [rootsexp]. rewrite Hl, map_length. replace (S T - 1) with T by lia.
      destruct (Nat.ltb_spec (length (found_exps m)) T) as [Hlt|Hge]; [|rewrite (found_stop m Hm1 Hge); reflexivity].
      assert (HmM : m <= M).
      { destruct (Nat.eq_dec m (S M)) as [->|]; [|lia]. pose proof (Permutation_length found_all) as P. rewrite map_length in P. lia. }
      rewrite Hv. cbn zeta.
      assert (E1 : (if feqb (nodal T tv (pw z m)) f0 then map (pw z) (found_exps m) ++ [pw z m] else map (pw z) (found_exps m)) = map (pw z) (found_exps (S m))).
      { rewrite found_S. pose proof (nodal_root m HmM) as N. destruct (feqb (nodal T tv (pw z m)) f0), (is_exp m); try (exfalso; destruct N as [N1 N2]; (discriminate (N1 eq_refl) || discriminate (N2 eq_refl))).
        - rewrite map_app. reflexivity.
        - rewrite app_nil_r. reflexivity. }
      assert (E2 : (if feqb (nodal T tv (pw z m)) f0 then found_exps m ++ [m] else found_exps m) = found_exps (S m)).
      { rewrite found_S. pose proof (nodal_root m HmM) as N. destruct (feqb (nodal T tv (pw z m)) f0), (is_exp m); try (exfalso; destruct N as [N1 N2]; (discriminate (N1 eq_refl) || discriminate (N2 eq_refl))).
        - reflexivity.
        - rewrite app_nil_r. reflexivity. }
      rewrite E1, E2. assert (E3 : fmul (pw z m) z = pw z (S m)) by (cbn [pw]; ring). rewrite E3.
      destruct (Nat.eq_dec m M) as [->|N].
      - destruct (feqb _ f1); [reflexivity|]. destruct (maxc <? _)%Z; [reflexivity|]. apply IH; lia.
      - destruct (feqb (pw z (S m)) f1) eqn:E.
        + exfalso. apply (fl_eqb K HK) in E. change (@f1 K) with (pw z 0) in E. apply Hp in E; lia.
        + destruct (Z.ltb_spec maxc (Z.of_nat (S m))); [lia|]. apply IH; lia.
    Qed.
  End Sparse.

  Lemma exponential_sum_perm z terms terms' k : Permutation terms terms' -> probe z terms k = probe z terms' k.
  Proof.
    intros P.
    assert (G : forall l, probe z l k = fold_right (fun (ec : nat * K) acc => snd ec * pw (pw z (fst ec)) (S k) + acc)%K f0 l).
    { induction l as [|ec l IH]; [reflexivity|]. unfold probe, exponential_sum in *. cbn [length fold_right]. rewrite (fsum_S_l HK). rewrite <- IH. reflexivity. }
    rewrite !G. induction P; cbn [fold_right]; try congruence. ring.
  Qed.

  Section Result.
    Variable z : K.
    Variable terms : list (nat * K).
    Variable M : nat.
    Hypothesis HT : terms <> [].
    Hypothesis Hnd : NoDup (map fst terms).
    Hypothesis Hnz : Forall (fun ec => snd ec <> f0) terms.
    Hypothesis HM : Forall (fun ec => fst ec <= M) terms.
    Hypothesis Hz : z <> f0.
    Hypothesis Hp : distinct (S M) (pw z).
    Hypothesis H64 : (Z.of_nat (length terms) + 1 < 2 ^ 64)%Z.

    Theorem bt_result_ok n st fuel maxc : inv (probe z terms) (S n) st -> 2 * length terms <= n -> S M < fuel -> (Z.of_nat M <= maxc)%Z ->
      exists p, bt_result fuel z maxc st (map (probe z terms) (seq 0 n)) = Some p /\ Permutation p terms.
    Proof.
      intros I Hn Hf Hm. set (T := length terms) in *.
      pose proof (T_pos terms M HT Hnd Hnz HM) as Tp.
      destruct (inv_lambda T (tc terms) (tv z terms) Tp (tv_distinct z terms M Hnd HM Hp) (tv_nz z terms Hz) (tc_nz terms Hnz) n st I Hn) as [L1 [L2 L3]].
      assert (LV : forall a, lambda_rev_value (bm_lambda st) a = nodal T (tv z terms) a).
      { intros a. apply (lambda_rev_value_spec T (tv z terms) Tp); [fold T in H64; lia|exact L3|exact L2]. }
      unfold bt_result, rootsexponents.
      pose proof (rootsexp_ok z terms M Hnd HM Hp (bm_lambda st) maxc L3 LV Hm fuel 0 ltac:(lia) ltac:(lia)) as RE. cbn [map] in RE.
      change (found_exps terms 0) with (@nil nat) in RE. cbn [map] in RE. change (pw z 0) with (@f1 K) in RE. rewrite RE.
      pose proof (found_all terms M Hnd HM) as P. pose proof (Permutation_length P) as PL. rewrite map_length in PL. fold T in PL.
      rewrite map_length, PL, L3. replace (S T - 1) with T by lia. rewrite Nat.eqb_refl.
      destruct (Permutation_map_inv _ _ P) as [terms' [E' P']].
      eexists. split; [reflexivity|]. rewrite E'. assert (T' : length terms' = T) by (rewrite <- (Permutation_length P'); reflexivity).
      assert (V : solve_tv (map (pw z) (map fst terms')) (map (probe z terms) (seq 0 n)) = map snd terms').
      { unfold solve_tv. destruct (map (pw z) (map fst terms')) as [|r0 rs] eqn:Er; [apply (f_equal (@length _)) in Er; rewrite !map_length in Er; cbn in Er; lia|].
        rewrite <- Er. rewrite !map_length, T'.
        apply (nth_ext _ _ f0 f0); rewrite map_length, seq_length; [rewrite map_length; symmetry; exact T'|]. intros i Hi.
        rewrite (nth_indep _ f0 (vdm_solve T (fun i => nth i (map (pw z) (map fst terms')) f0) (fun i => nth i (map (probe z terms) (seq 0 n)) f0) 0)) by (rewrite map_length, seq_length; exact Hi).
        rewrite map_nth, seq_nth by exact Hi. cbn [Nat.add].
        assert (Ev : forall j, j < T -> nth j (map (pw z) (map fst terms')) f0 = tv z terms' j).
        { intros j Hj. rewrite (nth_indep _ f0 (pw z 0)) by (rewrite !map_length; lia). rewrite map_nth. unfold tv, te. rewrite <- (map_nth fst). reflexivity. }
        assert (Hnd' : NoDup (map fst terms')) by (apply (Permutation_NoDup (Permutation_map fst P')); exact Hnd).
        assert (HM' : Forall (fun ec => fst ec <= M) terms') by (apply (Permutation_Forall P'); exact HM).
        symmetry. transitivity (tc terms' i); [unfold tc; rewrite <- (map_nth snd); reflexivity|].
        apply (vdm_unique HK T (fun i => nth i (map (pw z) (map fst terms')) f0) (fun i => nth i (map (probe z terms) (seq 0 n)) f0) Tp).
        - intros a b Ha Hb E. rewrite !Ev in E by assumption. apply (tv_distinct z terms' M Hnd' HM' Hp) in E; lia.
        - intros a Ha. rewrite Ev by exact Ha. apply (pw_neq0 HK). exact Hz.
        - intros k Hk. rewrite (nth_indep _ f0 (probe z terms 0)) by (rewrite map_length, seq_length; lia). rewrite map_nth, seq_nth by lia. cbn [Nat.add].
          rewrite (exponential_sum_perm z terms terms' (k - 1) P'). unfold probe, exponential_sum. rewrite T'. apply fsum_ext. intros j Hj. rewrite Ev by exact Hj.
          replace (S (k - 1)) with k by lia. reflexivity.
        - exact Hi. }
      rewrite V. assert (C : combine (map fst terms') (map snd terms') = terms') by (clear; induction terms' as [|[e c] l IH]; [reflexivity|cbn; rewrite IH; reflexivity]).
      rewrite C. symmetry. exact P'.
    Qed.

    Lemma nums_nth n k : k <= n -> nth k (map (probe z terms) (seq 0 n) ++ [probe z terms n]) f0 = probe z terms k.
    Proof.
      intros Hk. set (s := probe z terms). destruct (Nat.eq_dec k n) as [->|Nk].
      - replace n with (length (map s (seq 0 n))) at 1 by (rewrite map_length, seq_length; reflexivity). rewrite nth_middle. reflexivity.
      - rewrite app_nth1 by (rewrite map_length, seq_length; lia). rewrite (nth_indep _ f0 (s 0%nat)) by (rewrite map_length, seq_length; lia).
        rewrite map_nth, seq_nth by lia. reflexivity.
    Qed.
    Lemma nums_S n : map (probe z terms) (seq 0 n) ++ [probe z terms n] = map (probe z terms) (seq 0 (S n)).
    Proof. rewrite seq_S, map_app. reflexivity. Qed.
    Lemma inv_term (s : nat -> K) r (st : bm K) t : inv s r st -> inv s r (mk_bm (bm_lambda st) (bm_b st) (bm_l st) (bm_delta st) (bm_iter st) t).
    Proof. intros []. constructor; assumption. Qed.

    Variables (thr fuel : nat) (maxc : Z).
    Hypothesis Hfuel : S M < fuel.
    Hypothesis Hmaxc : (Z.of_nat M <= maxc)%Z.
    Notation T := (length terms).

    Lemma bt_feed_ok m : forall n st, inv (probe z terms) (S n) st -> 1 + (n - 2 * T) <= bm_term st ->
      exists o, bt_feed thr fuel z maxc st (map (probe z terms) (seq 0 n)) (map (probe z terms) (seq n m)) = Ret o /\
        (forall p used, o = Some (p, used) -> n < used <= n + m /\ (2 * T <= used -> Permutation p terms)) /\
        (o = None -> 0 < m -> n + m < 2 * T + Nat.max 1 thr).
    Proof.
      pose proof (T_pos terms M HT Hnd Hnz HM) as Tp.
      pose proof (inv_lambda T (tc terms) (tv z terms) Tp (tv_distinct z terms M Hnd HM Hp) (tv_nz z terms Hz) (tc_nz terms Hnz)) as IL.
      induction m as [|m IH]; intros n st I Ht; cbn [seq map bt_feed].
      - exists None. split; [reflexivity|]. split; [discriminate|lia].
      - destruct (bm_step_inv HK thr (probe z terms) (S n) st (map (probe z terms) (seq 0 n) ++ [probe z terms n]) I) as [fl [st' [E [I' [F1 [F2 F3]]]]]].
        { rewrite app_length, map_length, seq_length. cbn. lia. }
        { intros k Hk. apply nums_nth. lia. }
        rewrite E. rewrite nums_S. cbn [Nat.sub] in F1, F2, F3. rewrite Nat.sub_0_r in *.
        (* beyond 2T values the discrepancy vanishes *)
        assert (Z : 2 * T <= n -> conv (cf (bm_lambda st)) (probe z terms) n = f0 /\ bm_l st = T).
        { intros H. destruct (IL n st I H) as [L1 [L2 L3]]. split; [|exact L1].
          assert (R : recurrence (locator T (tv z terms)) T (probe z terms) (S n)).
          { apply (locator_rec T (tc terms) (tv z terms)). exact Tp. }
          rewrite (conv_ext _ (locator T (tv z terms)) _ n L2). apply (rec_conv HK _ _ _ _ n R). lia. }
        assert (Ht' : 1 + (S n - 2 * T) <= bm_term st').
        { destruct (Nat.le_gt_cases (2 * T) n) as [H|H].
          - destruct (F2 (proj1 (Z H))) as [_ [_ F]]. rewrite F. lia.
          - destruct (K_dec HK (conv (cf (bm_lambda st)) (probe z terms) n) f0) as [D|D].
            + destruct (F2 D) as [_ [_ F]]. rewrite F. lia.
            + rewrite (F3 D). lia. }
        assert (Fl : 2 * T <= n -> thr <= 1 + (n - 2 * T) -> fl = true).
        { intros H1 H2. apply F1. destruct (Z H1) as [Z1 Z2]. split; [exact Z1|]. split; [lia|]. rewrite Z2. lia. }
        destruct fl.
        + destruct (bt_result fuel z maxc st' (map (probe z terms) (seq 0 (S n)))) as [p|] eqn:B.
          * exists (Some (p, S (length (map (probe z terms) (seq 0 n))))). rewrite map_length, seq_length. split; [reflexivity|]. split; [|discriminate].
            intros p' used H. injection H as <- <-. split; [lia|]. intros H. destruct (bt_result_ok (S n) st' fuel maxc I' H Hfuel Hmaxc) as [p' [B' P]].
            rewrite B in B'. injection B' as <-. exact P.
          * assert (N : S n < 2 * T).
            { destruct (Nat.lt_ge_cases (S n) (2 * T)) as [G|G]; [exact G|]. exfalso. destruct (bt_result_ok (S n) st' fuel maxc I' G Hfuel Hmaxc) as [p' [B' P]]. congruence. }
            destruct (IH (S n) _ (inv_term _ _ st' 1 I')) as [o [O1 [O2 O3]]]; [cbn [bm_term]; lia|]. exists o. split; [exact O1|]. split.
            -- intros p used H. destruct (O2 p used H) as [U1 U2]. split; [lia|exact U2].
            -- intros H _. destruct m as [|m]; [lia|]. specialize (O3 H ltac:(lia)). lia.
        + destruct (IH (S n) st' I' Ht') as [o [O1 [O2 O3]]]. exists o. split; [exact O1|]. split.
          -- intros p used H. destruct (O2 p used H) as [U1 U2]. split; [lia|exact U2].
          -- intros H _. destruct m as [|m]; [|specialize (O3 H ltac:(lia)); lia].
             destruct (Nat.le_gt_cases (2 * T) n) as [G|G]; [|lia]. destruct (Nat.le_gt_cases thr (1 + (n - 2 * T))) as [G2|G2]; [|lia].
             specialize (Fl G G2). discriminate.
    Qed.

    Theorem bt_feed_start m : 0 < m -> probe z terms 0 <> f0 ->
      exists o, bt_feed thr fuel z maxc bm_init [] (map (probe z terms) (seq 0 m)) = Ret o /\
        (forall p used, o = Some (p, used) -> 0 < used <= m /\ (2 * T <= used -> Permutation p terms)) /\
        (o = None -> m < 2 * T + Nat.max 1 thr).
    Proof.
      intros Hm H0. destruct m as [|m]; [lia|]. cbn [seq map bt_feed app].
      destruct (bm_first HK thr (probe z terms) [probe z terms 0] eq_refl H0) as [st [E [I Ht]]]; [cbn; lia|]. rewrite E.
      pose proof (T_pos terms M HT Hnd Hnz HM) as Tp.
      destruct (bt_feed_ok m 1 st I ltac:(lia)) as [o [O1 [O2 O3]]]. exists o. split; [exact O1|]. split.
      - intros p used H. destruct (O2 p used H) as [U1 U2]. split; [lia|exact U2].
      - intros H. destruct m as [|m]; [lia|]. specialize (O3 H ltac:(lia)). lia.
    Qed.
  End Result.
End Proofs.

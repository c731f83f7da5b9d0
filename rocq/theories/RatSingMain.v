(** Proofs for the shifted systems of RatReconst over a further prime, part 6: both sides from the state at the beginning of the prime. *)
From Coq Require Import Permutation.
From Verif Require Import Machine FField FSum LinAlg FPoly PolyFF PolySpec PolyFFProofs PolyFFProofs2 PolyFFProofs3 Vandermonde ThieleProofs RatUni RatUniSpec Newton PolyRec PolyRecSpec PolyRecMath RatMulti RatMultiSpec RatMultiMath RatMultiShift RatMultiSub RatMultiClean RatMultiSide RatMultiRun RatMultiQ RatMultiQCoef RatMultiQSide RatMultiQMaps RatMultiQFirst RatSing RatSingSub RatSingSide RatSingSum RatSingSpec RatSingStart RatSingRays.
Open Scope nat_scope.

Section One.
  Context {K K0 : fops} (HK : flaws K) (HK0 : flaws K0).
  Add Field KON : (fl_field K HK).
  Local Notation pv := (@poly_value K).
  Variable ord : forall A : Type, list A -> list A.
  Hypothesis Ho : forall A (l : list A), Permutation (ord A l) l.
  Variable c : mcfg.
  Local Notation n := (mc_n c).
  Variables y s : nat -> K.
  Variables (P Ps : list (list Z * K)) (v : nat -> K).
  Local Notation G := (tdegree P).
  Hypothesis Hn : 2 <= n.
  Hypothesis PP : polynomial n G P.
  Hypothesis TP : translated n s P Ps.
  Hypothesis Hv : distinct (S G) v.
  Hypothesis Hchar : characteristic_above K G.
  Hypothesis anchors : forall i, i < n - 1 -> y i <> f0.
  Variables (norm is_den : bool) (g W : list mon) (ns : list (nat * list mon)) (sub : list (nat * polyff K0)) (zero : list nat).
  Hypothesis KB : known_side n G norm P Ps y g W ns sub zero.
  Hypothesis Hone : norm = true -> pv n P s = f1.
  Variable R : nat.
  Hypothesis HR : forall d, length (hom d P) <= R.
  Hypothesis HR31 : (Z.of_nat R < 2 ^ 31)%Z.
  Local Notation st := (sing_start (K:=K) ord c is_den norm g ns sub zero G).
  Local Notation ns0 := (ss_ns (snd st)).

  Lemma P_wf : wf n G P. Proof. apply (polynomial_wf n G). exact PP. Qed.
  Lemma Ps_wf : wf n G Ps. Proof. destruct TP as [A [B _]]. rewrite <- B. apply (polynomial_wf n G). exact A. Qed.
  Lemma P_nd : NoDup (map fst P). Proof. apply PP. Qed.
  Lemma Ps_nd : NoDup (map fst Ps). Proof. destruct TP as [A _]. apply A. Qed.
  Lemma HV x : pv n Ps x = pv n P (fun i => x i + s i)%K. Proof. destruct TP as [_ [_ A]]. apply A. Qed.
  Lemma top_term : exists e a, In (e, a) P /\ total e = Z.of_nat G.
  Proof.
    destruct (tdegree_attained P (proj1 PP)) as [e [a [I T]]]. exists e, a. split; [exact I|]. destruct (P_wf e a I) as [_ [B _]]. pose proof (total_range e B). lia.
  Qed.
  Lemma G31 : (Z.of_nat G < 2 ^ 31)%Z.
  Proof. destruct top_term as [e [a [I T]]]. rewrite <- T. destruct PP as [_ [_ H]]. apply (H e a I). Qed.
  Lemma top_ok : 0 < G /\ exists k, In k (map fst P) /\ total k = Z.of_nat G.
  Proof.
    destruct top_term as [e [a [I T]]]. assert (Ie : In e (map fst P)) by (apply in_map_iff; exists (e, a); auto). split; [|exists e; auto]. destruct (Nat.eq_dec G 0) as [E|E]; [exfalso|clear - E; lia].
    apply (kb_noconst _ _ _ _ _ _ _ _ _ _ _ KB). destruct (P_wf e a I) as [A [B _]]. replace (repeat 0%Z n) with e; [exact Ie|]. apply (nth_ext _ _ 0%Z 0%Z); [rewrite repeat_length; exact A|].
    intros i _. rewrite nth_repeat. pose proof (nth_total e i B). specialize (B i). rewrite T, E in *. lia.
  Qed.
  Lemma pl : plan n G P Ps y (fst st) ns0.
  Proof. apply (start_plan HK0 ord Ho c y G P Ps Hn P_wf P_nd G31 norm is_den g W ns sub zero KB top_ok). Qed.
  Lemma lmax_R : lmax (fst st) ns0 <= R.
  Proof. apply (start_max ord Ho c y G P Ps Hn P_wf P_nd G31 norm g W ns sub zero KB top_ok R HR). Qed.
  Lemma lmax31 : (Z.of_nat (lmax (fst st) ns0) < 2 ^ 31)%Z. Proof. pose proof lmax_R. lia. Qed.
  Definition cs : K := if norm then f1 else f0.
  Lemma const_value x : norm = true -> Hs c Ps 0 x = f1.
  Proof.
    intros E. rewrite <- (Hone E). unfold Hs. pose proof (hom_value HK n G Ps x f0 Ps_wf) as V. rewrite HV in V. rewrite (pv_ext_x n P _ s) in V by (intros i _; ring). rewrite V. unfold ueval. rewrite (fsum_S_l HK). rewrite (fsum_0 HK); [cbn; ring|]. intros i _. cbn [pw]. ring.
  Qed.
  Lemma subs_left k b u : k = 0 -> invB ord c y s G P Ps (fst st) ns0 k b u -> shift_terms n G P Ps (ss_sub u).
  Proof.
    intros -> I. split; [apply (ib_keys _ _ _ _ _ _ _ _ _ _ _ _ I)|]. intros d Ld. destruct (ib_sub _ _ _ _ _ _ _ _ _ _ _ _ I d Ld) as [_ [Ok [T V]]]. pose proof (ib_clean _ _ _ _ _ _ _ _ _ _ _ _ I d) as Cl.
    assert (E : sub_at (ss_sub u) d = pf_coefs (nget no_poly (ss_sub u) d)).
    { unfold sub_at, nget. destruct (nfind (ss_sub u) d) as [q|] eqn:Eq; [reflexivity|]. exfalso. apply nfind_None in Eq. apply Eq. rewrite (ib_keys _ _ _ _ _ _ _ _ _ _ _ _ I). apply in_seq. clear - Ld. lia. }
    rewrite E. split; [apply Ok|]. split.
    - intros k a J. destruct (feqb a f0) eqn:Ea.
      + destruct (Cl k a J) as [X|X]; [|exact X]. apply (fl_eqb K HK) in Ea. contradiction.
      + apply (feqb_neq HK) in Ea. destruct (poly_ok_pos c _ k a Ok J) as [A B]. split; [exact A|]. split; [exact B|]. apply (T k a J Ea).
    - intros x. rewrite V. pose proof (part_above HK ord Ho c s G P Ps v Hn P_wf Ps_wf P_nd HV Hv Hchar G31 d x Ld) as X. unfold Hs, Hp in X. rewrite X.
      assert (A : above ord c s G P 0 d x = above ord c s G P d d x).
      { unfold above. apply fsum_ext. intros j _. destruct (Nat.ltb_spec d j); [|rewrite Bool.andb_false_r; reflexivity]. destruct (Nat.ltb_spec 0 j); [reflexivity|]. exfalso. clear - H H0. lia. }
      rewrite A. ring.
  Qed.
  Theorem one_side : side_ok ord c y s (fst st) ns0 (snd st) (lmax (fst st) ns0) (sstate ord c y s G P Ps (fst st) ns0) (rv c y Ps) cs Ps (coef_at P) (shift_terms n G P Ps).
  Proof.
    pose proof pl as PL. pose proof P_wf as W1. pose proof Ps_wf as W2. pose proof P_nd as N1. pose proof Ps_nd as N2. pose proof HV as V. pose proof G31 as L. pose proof lmax31 as LM. constructor.
    - apply (pl_nd _ _ _ _ _ _ _ PL).
    - intros d I. pose proof (pl_le _ _ _ _ _ _ _ PL d I). lia.
    - split; [apply (lmax_pos c y G P Ps Hn _ _ PL)|exact LM].
    - exact (begin_ok ord c y s G P Ps Hn _ _ PL).
    - intros r u l. apply (sray HK ord Ho c y s G P Ps v Hn W1 W2 N1 N2 V Hv Hchar L anchors _ _ PL LM).
    - intros r u I. apply (sstate_nil ord c y s G P Ps Hn _ _ PL r u I).
    - intros r u I. apply (sstate_open ord c y s G P Ps Hn _ _ PL r u I).
    - intros r u I. apply (sstate_perm ord c y s G P Ps _ _ PL r u I).
    - intros r u order t Lo I. apply (known_sum HK ord Ho c y s G P Ps v Hn W1 W2 N1 V Hv Hchar L _ _ PL r u order t Lo I).
    - intros i t. apply (ray_total HK c y G P Ps Hn W2 _ _ PL). destruct (start_const HK0 ord Ho c y G P Ps Hn P_wf P_nd L norm g W ns sub zero KB top_ok) as [C1 C2]. unfold cs.
      change (ss_ns (snd st)) with (fst (res ord c G norm g ns sub)). destruct (nmem 0 (map fst (fst (res ord c G norm g ns sub)))) eqn:M.
      + apply nmem_In in M. pose proof (fun E => C1 E M) as C1'. clear - C1'. destruct norm; [exfalso; apply C1'; reflexivity|reflexivity].
      + apply nmem_false in M. intros x. pose proof (const_value x) as CV. assert (C2' : norm = false -> hom 0 Ps = []) by (intros E; destruct (C2 E) as [X|X]; [contradiction|exact X]). clear - CV C2'. destruct norm; [apply CV; reflexivity|]. unfold Hs. rewrite C2' by reflexivity. reflexivity.
    - intros r u I Lr. destruct (sum_ok HK ord Ho c y s G P Ps v Hn W1 W2 N1 V Hv Hchar L _ _ PL r u I Lr) as [_ [[O _] _]]. split; [exact O|]. split; [|intros k; apply (sum_coef HK ord Ho c y s G P Ps v Hn W1 W2 N1 V Hv Hchar L _ _ PL r u k I Lr)].
      apply (sum_clean HK ord Ho c y s G P Ps v Hn W1 W2 N1 V Hv Hchar L _ _ PL r u I Lr).
    - intros r u I Lr. unfold sstate in I. destruct (Nat.ltb_spec r (lmax (fst st) ns0)) as [X|_]; [clear - X Lr; lia|]. apply (subs_left 0 true u eq_refl I).
  Qed.
  Lemma one_powers U : unknown_powers G norm P sub U -> Permutation U (map fst ns0).
  Proof.
    intros [NU H]. apply NoDup_Permutation; [exact NU|apply (pl_nd _ _ _ _ _ _ _ pl)|]. intros d. rewrite H. symmetry. apply (start_keys HK0 ord Ho c y G P Ps Hn P_wf P_nd G31 norm g W ns sub zero KB top_ok d).
  Qed.
End One.

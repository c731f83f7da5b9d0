(** Proofs for RatReconst in several variables, part 1: homogeneous parts, translation, uniqueness of the coefficients. *)
From Coq Require Import Permutation.
From Verif Require Import Machine FField FSum LinAlg FPoly PolyFF PolySpec PolyFFProofs PolyFFProofs2 PolyFFProofs3 ThieleProofs RatUni RatUniThiele PolyRec PolyRecSpec PolyRecMath RatMultiSpec.
Open Scope nat_scope.

Section Math.
  Context {K : fops} (HK : flaws K).
  Add Field KMM : (fl_field K HK).
  Local Notation pv := (@poly_value K).
  Local Notation mv := (@monomial_value K).

  (** ---- functions of t ---- *)
  Lemma ueval_inj M (c d v : nat -> K) : distinct M v -> (forall t, ueval M c t = ueval M d t) -> forall i, i < M -> c i = d i.
  Proof.
    intros Hv H i Hi. apply (fsub_0 HK). apply (roots_zero HK M (fun i => c i - d i)%K v Hv); [|exact Hi].
    intros j Hj. rewrite (ueval_sub HK), H. ring.
  Qed.

  (** ---- homogeneous parts ---- *)
  Definition wf (n M : nat) (Q : list (list Z * K)) : Prop := forall e a, In (e, a) Q -> length e = n /\ (forall i, (0 <= nth i e 0)%Z) /\ (total e <= Z.of_nat M)%Z.
  Lemma nth_Forall (e : list Z) : (forall i, (0 <= nth i e 0)%Z) -> Forall (fun z => (0 <= z)%Z) e.
  Proof. intros H. apply Forall_forall. intros z I. apply (In_nth _ _ 0%Z) in I as [i [_ <-]]. apply H. Qed.
  Lemma hom_cons d e (a : K) Q : hom d ((e, a) :: Q) = if (total e =? Z.of_nat d)%Z then (e, a) :: hom d Q else hom d Q. Proof. reflexivity. Qed.
  Lemma hom_value n M Q x t : wf n M Q -> pv n Q (fun i => t * x i)%K = ueval (S M) (fun d => pv n (hom d Q) x) t.
  Proof.
    induction Q as [|[e a] Q IH]; intros H.
    - symmetry. apply (ueval_0 HK). reflexivity.
    - destruct (H e a (or_introl eq_refl)) as [L [P T]]. rewrite pv_cons. cbn [fst snd]. rewrite IH by (intros e' a' I; apply (H e' a'); right; exact I).
      rewrite (mv_scale HK) by (try exact L; apply nth_Forall; exact P). change (total_degree e) with (total e).
      set (k := Z.to_nat (total e)). pose proof (total_range e P) as P0.
      transitivity (ueval (S M) (fun d => (if d =? k then a * mv n e x else f0) + pv n (hom d Q) x) t)%K.
      + rewrite (ueval_add HK). f_equal. unfold ueval. rewrite (fsum_single HK (S M) k); [rewrite Nat.eqb_refl; ring|unfold k; lia|].
        intros j _ Nj. destruct (Nat.eqb_spec j k); [contradiction|ring].
      + apply ueval_ext. intros d Hd. rewrite hom_cons. destruct (Nat.eqb_spec d k) as [->|N].
        * unfold k. rewrite Z2Nat.id by exact P0. rewrite Z.eqb_refl, pv_cons. reflexivity.
        * destruct (Z.eqb_spec (total e) (Z.of_nat d)) as [E|_]; [exfalso; apply N; unfold k; lia|]. ring.
  Qed.
  Lemma pv_ext_x n (Q : list (list Z * K)) x y : (forall i, i < n -> x i = y i) -> pv n Q x = pv n Q y.
  Proof. intros H. induction Q as [|[e a] Q IH]; [reflexivity|]. rewrite !pv_cons. cbn [fst snd]. rewrite IH. f_equal. f_equal. apply mv_ext_x. exact H. Qed.
  (** the homogeneous parts are determined by the values along the rays through x *)
  Lemma hom_determined n M Q (v x F : nat -> K) : distinct (S M) v -> wf n M Q -> (forall t, pv n Q (fun i => t * x i)%K = ueval (S M) F t) ->
    forall d, d <= M -> pv n (hom d Q) x = F d.
  Proof.
    intros Hv Hw H d Hd. apply (ueval_inj (S M) (fun d => pv n (hom d Q) x) F v Hv); [|lia]. intros t. rewrite <- hom_value by exact Hw. apply H.
  Qed.
  Lemma hom_high n M Q d : wf n M Q -> M < d -> hom d Q = [].
  Proof.
    intros H L. induction Q as [|[e a] Q IH]; [reflexivity|]. rewrite hom_cons. destruct (H e a (or_introl eq_refl)) as [_ [_ T]].
    destruct (Z.eqb_spec (total e) (Z.of_nat d)); [lia|]. apply IH. intros e' a' I. apply (H e' a'). right. exact I.
  Qed.
  Lemma in_hom d (Q : list (list Z * K)) e a : In (e, a) (hom d Q) <-> In (e, a) Q /\ total e = Z.of_nat d.
  Proof. unfold hom. rewrite filter_In. cbn [fst]. rewrite Z.eqb_eq. reflexivity. Qed.
  Lemma hom_sum n M Q x : wf n M Q -> pv n Q x = fsum (S M) (fun d => pv n (hom d Q) x).
  Proof.
    intros H. rewrite (pv_ext_x n Q x (fun i => f1 * x i)%K) by (intros; ring). rewrite (hom_value n M) by exact H. unfold ueval. apply fsum_ext. intros i _. rewrite (pw_1 HK). ring.
  Qed.
  Lemma wf_le n M M' Q : M <= M' -> wf n M Q -> wf n M' Q.
  Proof. intros L H e a I. destruct (H e a I) as [A [B C]]. repeat split; try assumption. lia. Qed.
  Lemma wf_hom n d Q M : wf n M Q -> wf n d (hom d Q).
  Proof. intros H e a I. apply in_hom in I as [I T]. destruct (H e a I) as [A [B _]]. repeat split; try assumption. lia. Qed.

  (** ---- the top coefficient after a translation ---- *)
  Lemma pw_shift_top (a s : K) k : exists g, polyfun k g /\ forall t, pw (t * a + s)%K k = (pw t k * pw a k + g t)%K.
  Proof.
    induction k as [|k [g [Hg IH]]].
    - exists (fun _ => f0). split; [exists (fun _ => f0); intros x; reflexivity|]. intros t. cbn [pw]. ring.
    - exists (fun t => s * (pw t k * pw a k) + a * (t * g t) + s * g t)%K. split.
      + apply (polyfun_add HK); [apply (polyfun_add HK)|].
        * apply (polyfun_ext (S k) (fun t => (s * pw a k) * pw t k)%K); [intros; ring|]. apply (polyfun_pw HK).
        * apply (polyfun_scale HK). apply (polyfun_x HK). exact Hg.
        * apply (polyfun_le HK k); [lia|]. apply (polyfun_scale HK). exact Hg.
      + intros t. cbn [pw]. rewrite IH. ring.
  Qed.
  Lemma mv_shift_top n e (x s : nat -> K) : (forall i, (0 <= nth i e 0)%Z) -> exists k g, Z.of_nat k = fold_right Z.add 0%Z (map (fun i => nth i e 0%Z) (seq 0 n)) /\ polyfun k g /\
    forall t, mv n e (fun i => t * x i + s i)%K = (pw t k * mv n e x + g t)%K.
  Proof.
    intros P. induction n as [|n [k [g [Ek [Hg IH]]]]].
    - exists 0, (fun _ => f0). split; [reflexivity|]. split; [exists (fun _ => f0); intros; reflexivity|]. intros t. cbn. ring.
    - set (j := Z.to_nat (nth n e 0%Z)). destruct (pw_shift_top (x n) (s n) j) as [h [Hh IHh]].
      exists (j + k), (fun t => (pw t k * mv n e x) * h t + g t * (pw t j * pw (x n) j + h t))%K. split; [|split].
      + rewrite seq_S, map_app, fold_right_app. cbn [map fold_right]. rewrite Z.add_0_r. assert (G : forall l a, fold_right Z.add a l = (fold_right Z.add 0 l + a)%Z) by (induction l as [|z l IHl]; intros a; cbn [fold_right]; [lia|rewrite IHl; lia]).
        rewrite G, <- Ek. unfold j. specialize (P n). cbn [Nat.add]. lia.
      + apply (polyfun_add HK).
        * apply (polyfun_ext _ (fun t => (mv n e x * pw t k) * h t)%K); [intros; ring|].
          replace (j + k) with (k + j) by lia. apply (polyfun_mul HK); [|exact Hh]. apply (polyfun_pw HK).
        * apply (polyfun_ext _ (fun t => (pw t j * pw (x n) j + h t) * g t)%K); [intros; ring|].
          apply (polyfun_mul HK); [|exact Hg]. apply (polyfun_add HK); [|apply (polyfun_le HK j); [lia|exact Hh]].
          apply (polyfun_ext _ (fun t => pw (x n) j * pw t j)%K); [intros; ring|]. apply (polyfun_pw HK).
      + intros t. cbn [monomial_value]. rewrite IH. fold j. rewrite IHh, (pw_add HK). ring.
  Qed.
  Lemma pv_shift_top n d Q (x s : nat -> K) : (forall e a, In (e, a) Q -> length e = n /\ (forall i, (0 <= nth i e 0)%Z) /\ total e = Z.of_nat d) ->
    exists g, polyfun d g /\ forall t, pv n Q (fun i => t * x i + s i)%K = (pw t d * pv n Q x + g t)%K.
  Proof.
    induction Q as [|[e a] Q IH]; intros H.
    - exists (fun _ => f0). split; [exists (fun _ => f0); intros t; symmetry; apply (ueval_0 HK); reflexivity|]. intros t. cbn. ring.
    - destruct (H e a (or_introl eq_refl)) as [L [P T]]. destruct (mv_shift_top n e x s P) as [k [g [Ek [Hg E]]]].
      destruct IH as [h [Hh E']]; [intros e' a' I; apply (H e' a'); right; exact I|]. rewrite <- L, as_nths in Ek. unfold total in T. assert (k = d) by lia. subst k.
      exists (fun t => a * g t + h t)%K. split; [apply (polyfun_add HK); [apply (polyfun_scale HK); exact Hg|exact Hh]|].
      intros t. rewrite !pv_cons. cbn [fst snd]. rewrite E, E'. ring.
  Qed.

  (** ---- uniqueness of the coefficients ---- *)
  Definition csum (m : nat) (A : list (list Z * K)) (q : list Z) : K := lsum (fun t => if mon_eqb (firstn m (fst t)) q then snd t else f0) A.
  Definition bounded (m M : nat) (A : list (list Z * K)) : Prop := forall e a, In (e, a) A -> m <= length e /\ forall i, i < m -> (0 <= nth i e 0 <= Z.of_nat M)%Z.
  Definition slice_at (m j : nat) (A : list (list Z * K)) : list (list Z * K) := filter (fun t => (nth m (fst t) 0 =? Z.of_nat j)%Z) A.
  Lemma pv_slices m M A x t : bounded (S m) M A -> pv (S m) A (fun i => if i =? m then t else x i) = ueval (S M) (fun j => pv m (slice_at m j A) x) t.
  Proof.
    induction A as [|[e a] A IH]; intros H; [symmetry; apply (ueval_0 HK); reflexivity|].
    destruct (H e a (or_introl eq_refl)) as [_ P]. specialize (P m (Nat.lt_succ_diag_r m)). rewrite pv_cons. cbn [fst snd monomial_value]. rewrite Nat.eqb_refl.
    rewrite IH by (intros e' a' I; apply (H e' a'); right; exact I). rewrite (mv_ext_x m e _ x) by (intros i Hi; destruct (Nat.eqb_spec i m); [lia|reflexivity]).
    set (k := Z.to_nat (nth m e 0%Z)).
    transitivity (ueval (S M) (fun d => (if d =? k then a * mv m e x else f0) + pv m (slice_at m d A) x) t)%K.
    - rewrite (ueval_add HK). f_equal. unfold ueval. rewrite (fsum_single HK (S M) k); [rewrite Nat.eqb_refl; ring|unfold k; lia|].
      intros j _ Nj. destruct (Nat.eqb_spec j k); [contradiction|ring].
    - apply ueval_ext. intros d Hd. unfold slice_at. cbn [filter fst]. destruct (Nat.eqb_spec d k) as [->|N].
      + unfold k. rewrite Z2Nat.id by lia. rewrite Z.eqb_refl, pv_cons. reflexivity.
      + destruct (Z.eqb_spec (nth m e 0%Z) (Z.of_nat d)) as [E|_]; [exfalso; apply N; unfold k; lia|]. ring.
  Qed.
  Lemma firstn_snoc (e : list Z) m : m < length e -> firstn (S m) e = firstn m e ++ [nth m e 0%Z].
  Proof. revert m. induction e as [|z e IH]; intros m H; [cbn in H; lia|]. destruct m as [|m]; [reflexivity|]. cbn [firstn nth app]. f_equal. apply IH. cbn in H. lia. Qed.
  Lemma csum_slice m j A q : (forall e a, In (e, a) A -> S m <= length e) -> csum (S m) A (q ++ [Z.of_nat j]) = csum m (slice_at m j A) q.
  Proof.
    intros H. unfold csum, slice_at. induction A as [|[e a] A IH]; [reflexivity|]. rewrite lsum_cons. cbn [fst snd filter]. rewrite IH by (intros e' a' I; apply (H e' a'); right; exact I).
    specialize (H e a (or_introl eq_refl)). rewrite firstn_snoc by lia.
    destruct (Z.eqb_spec (nth m e 0%Z) (Z.of_nat j)) as [E|E].
    - rewrite lsum_cons. cbn [fst snd]. f_equal. rewrite E. destruct (mon_eqb_spec (firstn m e ++ [Z.of_nat j]) (q ++ [Z.of_nat j])) as [X|X]; destruct (mon_eqb_spec (firstn m e) q) as [Y|Y]; try reflexivity.
      + exfalso. apply Y. apply app_inj_tail in X. apply X.
      + exfalso. apply X. rewrite Y. reflexivity.
    - destruct (mon_eqb_spec (firstn m e ++ [nth m e 0%Z]) (q ++ [Z.of_nat j])) as [X|X]; [exfalso; apply E; apply app_inj_tail in X; apply X|ring].
  Qed.
  Lemma csum_miss m A q : (forall e a, In (e, a) A -> firstn m e <> q) -> csum m A q = f0.
  Proof. intros H. unfold csum. apply (lsum_0 HK). intros [e a] I. cbn [fst snd]. destruct (mon_eqb_spec (firstn m e) q) as [X|_]; [exfalso; apply (H e a I X)|reflexivity]. Qed.
  Lemma csum_unique M (v : nat -> K) : distinct (S M) v -> forall m A B, bounded m M A -> bounded m M B -> (forall x, pv m A x = pv m B x) -> forall q, csum m A q = csum m B q.
  Proof.
    intros Hv. induction m as [|m IH]; intros A B HA HB H q.
    - assert (G : forall A, csum 0 A [] = pv 0 A (fun _ => f0)).
      { intros A'. unfold csum. induction A' as [|[e a] A' IHA]; [reflexivity|]. rewrite lsum_cons, pv_cons, IHA. cbn [fst snd firstn monomial_value]. rewrite mon_eqb_refl. ring. }
      destruct q as [|z q]; [rewrite !G; apply H|]. rewrite !csum_miss; [reflexivity| |]; intros e a _; discriminate.
    - destruct (Nat.eq_dec (length q) (S m)) as [Lq|Lq].
      2:{ assert (G : forall A, bounded (S m) M A -> csum (S m) A q = f0) by (intros A' HA'; apply csum_miss; intros e a I X; apply Lq; rewrite <- X, firstn_length; destruct (HA' e a I) as [L _]; lia).
          rewrite !G by assumption. reflexivity. }
      destruct (exists_last (l := q)) as [q' [z Eq]]; [destruct q; [discriminate Lq|discriminate]|]. subst q.
      destruct (Z.le_gt_cases 0 z) as [Hz|Hz]; [destruct (Z.le_gt_cases z (Z.of_nat M)) as [Hz'|Hz']|].
      2-3: assert (G : forall A, bounded (S m) M A -> csum (S m) A (q' ++ [z]) = f0) by (intros A' HA'; apply csum_miss; intros e a I X; destruct (HA' e a I) as [L P]; rewrite firstn_snoc in X by lia; apply app_inj_tail in X as [_ X]; specialize (P m (Nat.lt_succ_diag_r m)); lia); rewrite !G by assumption; reflexivity.
      replace z with (Z.of_nat (Z.to_nat z)) by lia. rewrite !csum_slice by (intros e a I; first [apply (HA e a I)|apply (HB e a I)]).
      apply IH.
      + intros e a I. apply filter_In in I as [I _]. destruct (HA e a I) as [L P]. split; [lia|]. intros i Hi. apply P. lia.
      + intros e a I. apply filter_In in I as [I _]. destruct (HB e a I) as [L P]. split; [lia|]. intros i Hi. apply P. lia.
      + intros x. apply (ueval_inj (S M) (fun j => pv m (slice_at m j A) x) (fun j => pv m (slice_at m j B) x) v Hv); [|lia].
        intros t. rewrite <- !pv_slices by assumption. apply H.
  Qed.
  Lemma csum_key n A e : NoDup (map fst A) -> (forall e a, In (e, a) A -> length e = n) -> (forall a, In (e, a) A -> csum n A e = a) /\ (~ In e (map fst A) -> csum n A e = f0).
  Proof.
    intros N L. split.
    - intros a I. unfold csum. induction A as [|[e' a'] A IH]; [contradiction|]. rewrite lsum_cons. cbn [fst snd]. cbn [map fst] in N. inversion N as [|? ? N1 N2]; subst.
      assert (L' : forall e a, In (e, a) A -> length e = n) by (intros x b Ix; apply (L x b); right; exact Ix).
      rewrite <- (L e' a' (or_introl eq_refl)), firstn_all. destruct I as [I|I].
      + injection I as -> ->. rewrite mon_eqb_refl. rewrite (L e a (or_introl eq_refl)). fold (csum n A e). rewrite csum_miss; [ring|].
        intros x b Ix E. rewrite <- (L' x b Ix), firstn_all in E. subst x. apply N1. apply in_map_iff. exists (e, b). split; [reflexivity|exact Ix].
      + destruct (mon_eqb_spec e' e) as [->|_]; [exfalso; apply N1; apply in_map_iff; exists (e, a); split; [reflexivity|exact I]|].
        rewrite (L e' a' (or_introl eq_refl)). rewrite (IH N2 L' I). ring.
    - intros Ni. apply csum_miss. intros x b Ix E. rewrite <- (L x b Ix), firstn_all in E. subst x. apply Ni. apply in_map_iff. exists (e, b). split; [reflexivity|exact Ix].
  Qed.
  Lemma NoDup_pairs (A : list (list Z * K)) : NoDup (map fst A) -> NoDup A.
  Proof. apply NoDup_map_inv. Qed.
  Theorem coefficients_unique n M (v : nat -> K) A B : distinct (S M) v -> NoDup (map fst A) -> NoDup (map fst B) ->
    (forall e a, In (e, a) A -> a <> f0 /\ length e = n /\ forall i, (0 <= nth i e 0 <= Z.of_nat M)%Z) ->
    (forall e a, In (e, a) B -> a <> f0 /\ length e = n /\ forall i, (0 <= nth i e 0 <= Z.of_nat M)%Z) ->
    (forall x, pv n A x = pv n B x) -> Permutation A B.
  Proof.
    intros Hv NA NB HA HB H.
    assert (BA : bounded n M A) by (intros e a I; destruct (HA e a I) as [_ [L P]]; split; [lia|intros i _; apply P]).
    assert (BB : bounded n M B) by (intros e a I; destruct (HB e a I) as [_ [L P]]; split; [lia|intros i _; apply P]).
    pose proof (csum_unique M v Hv n A B BA BB H) as C.
    assert (LA : forall e a, In (e, a) A -> length e = n) by (intros e a I; apply (HA e a I)). assert (LB : forall e a, In (e, a) B -> length e = n) by (intros e a I; apply (HB e a I)).
    assert (G : forall A B : list (list Z * K), NoDup (map fst A) -> NoDup (map fst B) -> (forall e a, In (e, a) A -> length e = n) -> (forall e a, In (e, a) B -> length e = n) ->
      (forall e a, In (e, a) A -> a <> f0) -> (forall q, csum n A q = csum n B q) -> forall t, In t A -> In t B).
    { clear - HK. intros A B NA NB LA LB ZA C [e a] I. destruct (csum_key n A e NA LA) as [CA _]. destruct (csum_key n B e NB LB) as [CB CB'].
      specialize (CA a I). destruct (in_dec (list_eq_dec Z.eq_dec) e (map fst B)) as [J|J].
      - apply in_map_iff in J as [[e' b] [E J]]. cbn [fst] in E. subst e'. rewrite C in CA. rewrite (CB b J) in CA. subst b. exact J.
      - exfalso. apply (ZA e a I). rewrite <- CA, C. apply CB'. exact J. }
    apply NoDup_Permutation; [apply NoDup_pairs; exact NA|apply NoDup_pairs; exact NB|]. intros t. split.
    - apply G; try assumption. intros e a I. apply (HA e a I).
    - apply (G B A); try assumption; [intros e a I; apply (HB e a I)|]. intros q. symmetry. apply C.
  Qed.
End Math.

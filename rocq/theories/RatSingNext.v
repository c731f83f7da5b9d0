(** Proofs for shifted systems of RatReconst over several primes, part 1: what one prime leaves is what the next one needs. *)
From Coq Require Import Znumtheory Permutation.
From Verif Require Import Machine FField FSum FPoly PolyFF PolySpec PolyFFProofs PolyFFProofs2 RatNum PField RatUniSpec RatUniProofs Newton PolyRec PolyRecSpec PolyRecMath PolyRatSpec RatMulti RatMultiSpec RatMultiMath RatMultiShift RatMultiRun RatMultiSub RatMultiQ RatMultiQSpec RatMultiQCoef RatMultiQSide RatMultiQMaps RatMultiQCheck RatMultiQRays RatMultiQFirst RatMultiQMain RatSing RatSingSub RatSingSpec RatSingRunSpec.
Open Scope nat_scope.

Section Terms.
  Context {K : fops} (HK : flaws K).
  Add Field KST : (fl_field K HK).
  Local Notation pv := (@poly_value K).
  Local Notation terms := (list (list Z * K)).
  Local Notation dec := (list_eq_dec Z.eq_dec).
  Variable c : mcfg.
  Local Notation n := (mc_n c).
  Variables (G : nat) (v : nat -> K).
  Hypothesis Hn : 2 <= n.
  Hypothesis Hv : distinct (S G) v.
  Hypothesis G31 : (Z.of_nat G < 2 ^ 31)%Z.
  Variables (P Ps : terms) (sub : list (nat * polyff K)).
  Hypothesis WP : wf n G P.
  Hypothesis WPs : wf n G Ps.
  Hypothesis NP : NoDup (map fst P).
  Hypothesis NPs : NoDup (map fst Ps).
  Hypothesis ST : shift_terms n G P Ps sub.

  Lemma small_ok (Q : terms) : NoDup (map fst Q) -> (forall e a, In (e, a) Q -> length e = n /\ (forall i, (0 <= nth i e 0)%Z) /\ (total e <= Z.of_nat G)%Z) -> poly_ok n Q.
  Proof.
    intros N H. split; [exact N|]. apply Forall_forall. intros [e a] I. destruct (H e a I) as [A [B C]]. cbn [fst]. split; [exact A|]. apply Forall_forall. intros z Iz. destruct (In_nth e z 0%Z Iz) as [i [_ <-]]. pose proof (B i). pose proof (nth_total e i B). lia.
  Qed.
  Lemma coef_hom (Q : terms) d k : NoDup (map fst Q) -> coef_at (hom d Q) k = if (total k =? Z.of_nat d)%Z then coef_at Q k else f0.
  Proof.
    intros N. assert (Nh : NoDup (map fst (hom d Q))) by (apply NoDup_keys_filter; exact N). destruct (Z.eqb_spec (total k) (Z.of_nat d)) as [E|E].
    - destruct (in_dec dec k (map fst Q)) as [I|I].
      + apply in_map_iff in I as [[k' a] [<- I]]. cbn [fst] in *. rewrite (coef_in Q k' a N I). apply coef_in; [exact Nh|]. apply in_hom. auto.
      + rewrite (coef_out Q k I). apply coef_out. intros J. apply I. apply in_map_iff in J as [[k' a] [<- J]]. apply in_hom in J as [J _]. apply in_map_iff. exists (k', a). auto.
    - apply coef_out. intros J. apply in_map_iff in J as [[k' a] [<- J]]. apply in_hom in J as [_ J]. apply E. exact J.
  Qed.
  Lemma sub_entry d k a : d <= G -> In (k, a) (sub_at sub d) -> a <> f0 -> length k = n /\ (forall i, (0 <= nth i k 0)%Z) /\ total k = Z.of_nat d.
  Proof.
    intros Ld I Na. destruct ST as [_ H]. destruct (H d Ld) as [_ [E _]]. specialize (E k a I). destruct (feqb a f0) eqn:X; [apply (fl_eqb K HK) in X; contradiction|exact E].
  Qed.
  Lemma sub_coefs d k : d <= G -> coef_at (sub_at sub d) k = fsub (coef_at (hom d Ps) k) (coef_at (hom d P) k).
  Proof.
    intros Ld. pose proof (proj2 ST d Ld) as [N [E V]]. set (hs := hom d Ps) in *. set (h := hom d P) in *. set (ks := nodup dec (map fst hs ++ map fst h)).
    assert (Nk : NoDup ks) by apply NoDup_nodup. assert (Ns : NoDup (map fst hs)) by (apply NoDup_keys_filter; exact NPs). assert (Nh : NoDup (map fst h)) by (apply NoDup_keys_filter; exact NP).
    assert (I1 : incl (map fst hs) ks) by (intros e I; apply nodup_In; apply in_or_app; left; exact I). assert (I2 : incl (map fst h) ks) by (intros e I; apply nodup_In; apply in_or_app; right; exact I).
    set (full := map (fun e => (e, fsub (coef_at hs e) (coef_at h e))) ks).
    assert (Kf : map fst full = ks) by (unfold full; rewrite map_map; cbn [fst]; apply map_id).
    assert (Nf : NoDup (map fst full)) by (rewrite Kf; exact Nk).
    assert (Ef : coef_at full k = fsub (coef_at hs k) (coef_at h k)).
    { destruct (in_dec dec k ks) as [I|I]; [apply coef_in; [exact Nf|]; apply (in_map (fun e => (e, fsub (coef_at hs e) (coef_at h e)))); exact I|].
      rewrite (coef_out full k) by (rewrite Kf; exact I). rewrite (coef_out hs k) by (intros J; apply I; apply I1; exact J). rewrite (coef_out h k) by (intros J; apply I; apply I2; exact J). ring. }
    assert (Kw : forall e, In e ks -> length e = n /\ (forall i, (0 <= nth i e 0)%Z) /\ total e = Z.of_nat d).
    { intros e I. apply nodup_In, in_app_or in I as [I|I]; apply in_map_iff in I as [[e' a] [<- I]]; apply in_hom in I as [I T]; cbn [fst].
      - destruct (WPs e' a I) as [A [B _]]. auto.
      - destruct (WP e' a I) as [A [B _]]. auto. }
    rewrite <- Ef. apply (coefs_of_values HK c G v Hn Hv (sub_at sub d) full d Ld).
    - split; [exact N|]. apply Forall_forall. intros [e a] I. cbn [fst]. specialize (E e a I). destruct (feqb a f0) eqn:X.
      + subst e. split; [apply repeat_length|]. apply Forall_forall. intros z Iz. apply repeat_spec in Iz. subst z. lia.
      + destruct E as [A [B C]]. split; [exact A|]. apply Forall_forall. intros z Iz. destruct (In_nth e z 0%Z Iz) as [i [_ <-]]. pose proof (B i). pose proof (nth_total e i B). lia.
    - apply small_ok; [exact Nf|]. intros e a I. assert (I' : In e ks) by (rewrite <- Kf; apply in_map_iff; exists (e, a); auto). destruct (Kw e I') as [A [B C]]. split; [exact A|]. split; [exact B|]. lia.
    - intros e a I Na. apply in_app_or in I as [I|I].
      + destruct (sub_entry d e a Ld I Na) as [_ [_ T]]. lia.
      + assert (I' : In e ks) by (rewrite <- Kf; apply in_map_iff; exists (e, a); auto). destruct (Kw e I') as [_ [_ C]]. lia.
    - intros x. rewrite V. rewrite (pv_over HK n hs ks x Ns Nk I1), (pv_over HK n h ks x Nh Nk I2), pv_lsum. unfold full. rewrite lsum_map. cbn [fst snd].
      clear - HK. induction ks as [|e ks IH]; [cbn; ring|]. rewrite !lsum_cons. rewrite <- IH. ring.
  Qed.
  (** a monomial with a non-zero coefficient belongs to the polynomial or to the shifted one; a monomial of the shifted one that is not in the polynomial is there *)
  Lemma sub_known d k a : d <= G -> In (k, a) (sub_at sub d) -> a <> f0 -> (In k (map fst P) \/ In k (map fst Ps)) /\ total k = Z.of_nat d.
  Proof.
    intros Ld I Na. split; [|apply (sub_entry d k a Ld I Na)]. destruct (in_dec dec k (map fst P)) as [J|J]; [left; exact J|]. destruct (in_dec dec k (map fst Ps)) as [J'|J']; [right; exact J'|]. exfalso. apply Na.
    rewrite <- (coef_in (sub_at sub d) k a); [|apply (proj2 ST d Ld)|exact I]. rewrite (sub_coefs d k Ld), !coef_hom by assumption. destruct (total k =? Z.of_nat d)%Z; [rewrite (coef_out _ _ J), (coef_out _ _ J'); ring|ring].
  Qed.
  Lemma sub_new k : In k (map fst Ps) -> ~ In k (map fst P) -> (forall e a, In (e, a) Ps -> a <> f0) -> exists a, In (k, a) (sub_at sub (Z.to_nat (total k))) /\ a <> f0.
  Proof.
    intros I J NZ. apply in_map_iff in I as [[k' b] [<- I]]. cbn [fst] in *. destruct (WPs k' b I) as [A [B C]]. pose proof (total_range k' B) as T0. set (d := Z.to_nat (total k')). assert (Ld : d <= G) by (unfold d; lia).
    assert (E : coef_at (sub_at sub d) k' = b). { rewrite (sub_coefs d k' Ld), !coef_hom by assumption. replace (total k' =? Z.of_nat d)%Z with true by (symmetry; apply Z.eqb_eq; unfold d; lia). rewrite (coef_in Ps k' b NPs I), (coef_out P k' J). ring. }
    exists b. split; [|apply (NZ k' b I)]. destruct (in_dec dec k' (map fst (sub_at sub d))) as [X|X].
    - apply in_map_iff in X as [[e a] [E' X]]. cbn [fst] in E'. subst e. rewrite <- (coef_in _ k' a (proj1 (proj2 ST d Ld)) X) in X. rewrite E in X. exact X.
    - exfalso. apply (NZ k' b I). rewrite <- E. apply coef_out. exact X.
  Qed.
End Terms.

Lemma tdegree_times (F : pfield) (k : fld F) T : tdegree (times k (over F T)) = qdegree T.
Proof. unfold tdegree, qdegree, times, over. rewrite !map_map. reflexivity. Qed.
Lemma tdegree_over (F : pfield) T : tdegree (over F T) = qdegree T.
Proof. unfold tdegree, qdegree, over. rewrite !map_map. reflexivity. Qed.
Lemma times_polynomial (F : pfield) n G (k : fld F) T : k <> f0 -> polynomial n G (over F T) -> polynomial n G (times k (over F T)).
Proof.
  intros Hk [A [B C]]. split; [|split].
  - intros E. apply A. apply map_eq_nil in E. exact E.
  - rewrite times_keys. exact B.
  - intros e a I. unfold times in I. apply in_map_iff in I as [[e' a'] [E I]]. cbn [fst snd] in E. injection E as <- <-. destruct (C e' a' I) as [X Y]. split; [|exact Y]. intros Z. apply X.
    apply (fmul_0 (HK F)) in Z as [Z|Z]; [contradiction|exact Z].
Qed.

Section Side.
  Variable c : mcfg.
  Local Notation n := (mc_n c).
  Hypothesis Hn : 2 <= n.
  Variables (T : list qterm) (A : list (list Z)).
  Local Notation G := (qdegree T).
  Hypothesis FT : keys_fit c T.
  Hypothesis noconst : ~ In (zeros n) (map fst T).
  Variables (F0 F : pfield) (s0 : nat -> fld F0) (k0 : fld F0) (Ps0 : list (list Z * fld F0)) (s : nat -> fld F) (k : fld F) (Ps : list (list Z * fld F)).
  Hypothesis Hk0 : k0 <> f0.
  Hypothesis Hk : k <> f0.
  Hypothesis H0 : shifts n F0 s0 k0 T A Ps0.
  Hypothesis H1 : shifts n F s k T A Ps.
  Variable sub : list (nat * polyff (fld F0)).
  Hypothesis ST : shift_terms n G (times k0 (over F0 T)) Ps0 sub.
  Local Notation P0 := (times k0 (over F0 T)).
  Local Notation P := (times k (over F T)).

  Lemma P_keys (F' : pfield) (k' : fld F') : map fst (times k' (over F' T)) = map fst T.
  Proof. rewrite times_keys. apply over_keys. Qed.
  Lemma poly_of (F' : pfield) (s' : nat -> fld F') k' Q : k' <> f0 -> shifts n F' s' k' T A Q ->
    wf n G (times k' (over F' T)) /\ wf n G Q /\ NoDup (map fst Q) /\ (forall e a, In (e, a) Q -> a <> f0).
  Proof.
    intros Hk' [S1 [S2 _]]. pose proof (times_polynomial F' n G k' T Hk' S1) as S1'. destruct S2 as [B1 [B2 _]]. rewrite tdegree_times in B1, B2. split; [|split; [|split]].
    - pose proof (polynomial_wf n G _ S1') as X. rewrite tdegree_times in X. exact X.
    - pose proof (polynomial_wf n G _ B1) as X. rewrite B2 in X. exact X.
    - apply B1.
    - intros e a I. apply (proj2 (proj2 B1) e a I).
  Qed.
  Lemma deg31 : (Z.of_nat G < 2 ^ 31)%Z.
  Proof.
    destruct H1 as [[A1 [A2 A3]] _]. destruct (tdegree_attained _ A1) as [e [a [I E]]]. rewrite tdegree_over in E. destruct (A3 e a I) as [_ [_ [B1 B2]]]. pose proof (total_range e (fun i => proj1 (B1 i))). lia.
  Qed.
  Lemma facts0 : exists v : nat -> fld F0, distinct (S G) v. Proof. destruct H0 as [_ [_ [_ [X _]]]]. exact X. Qed.
  Lemma A_low e : In e A -> length e = n /\ (forall i, (0 <= nth i e 0)%Z) /\ (total e <= Z.of_nat G)%Z.
  Proof.
    intros I. destruct H1 as [_ [_ [S _]]]. apply S in I. apply in_map_iff in I as [[e' a] [<- I]]. destruct (poly_of F s k Ps Hk H1) as [_ [W _]]. apply (W e' a I).
  Qed.
  Lemma T_low e : In e (map fst T) -> length e = n /\ (forall i, (0 <= nth i e 0)%Z) /\ (total e <= Z.of_nat G)%Z.
  Proof.
    intros I. rewrite <- (P_keys F k) in I. apply in_map_iff in I as [[e' a] [<- I]]. destruct (poly_of F s k Ps Hk H1) as [W _]. apply (W e' a I).
  Qed.
  Lemma sub_known' d e a : d <= G -> In (e, a) (sub_at sub d) -> a <> f0 -> (In e (map fst T) \/ In e A) /\ total e = Z.of_nat d.
  Proof.
    intros Ld I Na. destruct facts0 as [v Hv]. destruct (poly_of F0 s0 k0 Ps0 Hk0 H0) as [W1 [W2 [N2 _]]].
    destruct (sub_known (HK F0) c G v Hn Hv deg31 P0 Ps0 sub W1 W2) with (d := d) (k := e) (a := a) as [X Y]; try assumption; [rewrite P_keys; apply FT|].
    split; [|exact Y]. rewrite P_keys in X. destruct X as [X|X]; [left; exact X|right]. destruct H0 as [_ [_ [S _]]]. apply S. exact X.
  Qed.
  Lemma sub_new' e : In e A -> ~ In e (map fst T) -> exists a, In (e, a) (sub_at sub (Z.to_nat (total e))) /\ a <> f0.
  Proof.
    intros I J. destruct facts0 as [v Hv]. destruct (poly_of F0 s0 k0 Ps0 Hk0 H0) as [W1 [W2 [N2 NZ]]].
    apply (sub_new (HK F0) c G v Hn Hv deg31 P0 Ps0 sub W1 W2); try assumption; [rewrite P_keys; apply FT| |rewrite P_keys; exact J]. destruct H0 as [_ [_ [S _]]]. apply S. exact I.
  Qed.
  Lemma sub_out d : ~ d <= G -> sub_at sub d = [].
  Proof.
    intros Ld. unfold sub_at. destruct (nfind sub d) as [q|] eqn:E; [|reflexivity]. exfalso. apply Ld. assert (X : In d (map fst sub)) by (destruct (in_dec Nat.eq_dec d (map fst sub)) as [I|I]; [exact I|apply nfind_None in I; congruence]).
    rewrite (proj1 ST) in X. apply in_seq in X. lia.
  Qed.

  Variables (M : Z) (gm : list (list Z * rn)) (co : list (list Z * Z)) (ns : list (nat * list (list Z))) (T1 T2 : list qterm).
  Hypothesis Q : qpart M T gm co ns T1 T2.
  Variables (norm : bool) (y : nat -> fld F) (zero : list nat).
  Hypothesis Hzero : forall d, In d zero <-> has_degree d A /\ forall e, In e (map fst T) -> total e <> Z.of_nat d.
  Hypothesis Hapart : forall e e', In e (map fst T ++ A) -> In e' (map fst T ++ A) -> total e = total e' ->
      monomial_value (n - 1) (tl e) y = monomial_value (n - 1) (tl e') y -> e = e'.

  Lemma next_side : known_side n G norm P Ps y (map fst gm) (map fst T2) ns sub zero.
  Proof.
    pose proof Q as [Q1 [Q2 [_ [[Q3 [Q4 Q5]] _]]]]. destruct H1 as [_ [_ [SA _]]]. constructor.
    - rewrite P_keys. exact noconst.
    - rewrite P_keys. apply Permutation_sym. apply (Permutation_trans (Permutation_map fst Q1)). rewrite map_app. apply (Permutation_trans (Permutation_app_comm _ _)). apply Permutation_app_head.
      apply Permutation_sym. apply (Permutation_trans (Permutation_map fst Q2)). rewrite qentry_keys. reflexivity.
    - split; [exact Q3|]. split; [exact Q4|exact Q5].
    - rewrite (proj1 ST). split; [apply seq_NoDup|]. intros d I. apply in_seq in I. lia.
    - intros d. destruct (le_dec d G) as [Ld|Ld]; [|rewrite (sub_out d Ld); split; [constructor|intros e a []]]. destruct (proj2 ST d Ld) as [X [Y _]]. split; [exact X|exact Y].
    - intros e I J _. rewrite P_keys in J. apply SA in I. apply sub_new'; assumption.
    - intros d I. rewrite P_keys. apply Hzero. exact I.
    - intros d Ld J [e [a [I Na]]]. rewrite P_keys in J. destruct (sub_known' d e a Ld I Na) as [[X|X] E]; [exfalso; exact (J e X E)|]. apply Hzero. split; [exists e; auto|exact J].
    - intros d e e' I I' Te Te'. rewrite P_keys in I, I'.
      assert (X : forall x, In x (map fst T) \/ In x (map fst (sub_at sub d)) -> total x = Z.of_nat d -> In x (map fst T ++ A) \/ (x = zeros n /\ d = 0)).
      { intros x [Ix|Ix] Tx; [left; apply in_or_app; left; exact Ix|]. destruct (le_dec d G) as [Ld|Ld]; [|rewrite (sub_out d Ld) in Ix; contradiction]. apply in_map_iff in Ix as [[x' a] [<- Ix]]. cbn [fst] in *.
        destruct (feqb a f0) eqn:Ea.
        - right. destruct (proj2 ST d Ld) as [_ [Y _]]. specialize (Y x' a Ix). rewrite Ea in Y. split; [exact Y|]. subst x'. change (repeat 0%Z n) with (zeros n) in Tx. rewrite total_zeros in Tx. lia.
        - apply (feqb_neq (HK F0)) in Ea. left. apply in_or_app. apply (sub_known' d x' a Ld Ix Ea). }
      assert (Z0 : forall x, In x (map fst T ++ A) -> total x = 0%Z -> x = zeros n).
      { intros x Ix Tx. assert (L : length x = n /\ forall i, (0 <= nth i x 0)%Z) by (apply in_app_or in Ix as [Ix|Ix]; [destruct (T_low x Ix) as [A1 [A2 _]]|destruct (A_low x Ix) as [A1 [A2 _]]]; auto). destruct L as [L1 L2]. rewrite <- L1. apply total_zero_zeros; assumption. }
      destruct (X e I Te) as [Y|[Y Yd]]; destruct (X e' I' Te') as [Y'|[Y' Yd']].
      + intros E. apply Hapart; try assumption. congruence.
      + intros _. rewrite Y'. apply Z0; [exact Y|]. rewrite Te, Yd'. reflexivity.
      + intros _. rewrite Y. symmetry. apply Z0; [exact Y'|]. rewrite Te', Yd. reflexivity.
      + intros _. congruence.
  Qed.
  Lemma next_powers U : unknown_degrees norm T A U -> unknown_powers G norm P sub U.
  Proof.
    intros [NU H]. split; [exact NU|]. intros d. rewrite H, P_keys. split.
    - intros [[e [I E]]|[Hd [e [I E]]]].
      + split; [destruct (T_low e I) as [_ [_ L]]; lia|]. left. exists e. auto.
      + split; [destruct (A_low e I) as [_ [_ L]]; lia|]. destruct (in_dec (list_eq_dec Z.eq_dec) e (map fst T)) as [J|J]; [left; exists e; auto|]. right. split; [exact Hd|]. destruct (sub_new' e I J) as [a X]. exists e, a. rewrite E, Nat2Z.id in X. exact X.
    - intros [Ld [[e [I E]]|[Hd [e [a [I Na]]]]]]; [left; exists e; auto|]. destruct (sub_known' d e a Ld I Na) as [[X|X] E]; [left; exists e; auto|right]. split; [exact Hd|]. exists e. auto.
  Qed.
End Side.

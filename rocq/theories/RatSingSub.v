(** Proofs for the shifted systems of RatReconst over a further prime, part 1: the polynomials of one degree and the subtraction terms. *)
From Coq Require Import Permutation.
From Verif Require Import Machine FField FSum LinAlg FPoly PolyFF PolySpec PolyFFProofs PolyFFProofs2 PolyFFProofs3 Vandermonde VandermondeProofs ThieleProofs RatUni RatUniThiele Newton PolyRec PolyRecSpec PolyRecMath RatMulti RatMultiSpec RatMultiMath RatMultiShift RatMultiSub RatMultiClean RatMultiQ RatMultiQCoef RatSing Props_PolyFF.
Open Scope nat_scope.

Section SingSub.
  Context {K : fops} (HK : flaws K).
  Add Field KSS : (fl_field K HK).
  Local Notation pv := (@poly_value K).
  Local Notation mv := (@monomial_value K).
  Variable ord : forall A : Type, list A -> list A.
  Hypothesis Ho : forall A (l : list A), Permutation (ord A l) l.
  Variable c : mcfg.
  Local Notation n := (mc_n c).
  Variables y s : nat -> K.
  Variables (G : nat) (P Ps : list (list Z * K)) (v : nat -> K).
  Hypothesis Hn : 2 <= n.
  Hypothesis HP : wf n G P.
  Hypothesis HPs : wf n G Ps.
  Hypothesis NP : NoDup (map fst P).
  Hypothesis NPs : NoDup (map fst Ps).
  Hypothesis HV : forall x, pv n Ps x = pv n P (fun i => x i + s i)%K.
  Hypothesis Hv : distinct (S G) v.
  Hypothesis Hchar : characteristic_above K G.
  Hypothesis HG : (Z.of_nat G < 2 ^ 31)%Z.
  Hypothesis anchors : forall i, i < n - 1 -> y i <> f0.

  Local Notation Hp' := (Hp c P).
  Local Notation Hs' := (Hs c Ps).
  Local Notation contrib' := (contrib ord c s P).
  Local Notation subrepr' := (subrepr c).

  (** all terms have degree d, zero coefficients are allowed *)
  Definition hrepr (d : nat) (F : (nat -> K) -> K) (q : polyff K) : Prop :=
    pf_n q = n /\ poly_ok n (pf_coefs q) /\ (forall e a, In (e, a) (pf_coefs q) -> total e = Z.of_nat d) /\ forall x, pv n (pf_coefs q) x = F x.
  Lemma hrepr_sub d F q : hrepr d F q -> subrepr' d F q.
  Proof. intros [A [B [D E]]]. split; [exact A|]. split; [exact B|]. split; [intros e a I _; apply (D e a I)|exact E]. Qed.
  Lemma hrepr_ext d F F' q : (forall x, F x = F' x) -> hrepr d F q -> hrepr d F' q.
  Proof. intros H [A [B [D E]]]. repeat (split; [assumption|]). intros x. rewrite E. apply H. Qed.


  Lemma shift_polys_h q d : 0 < d <= G -> hrepr d (Hp' d) q ->
    exists l, shift_polys ord c s q d = Ret l /\ map fst l = seq 0 d /\ forall e, e < d -> subrepr' e (contrib' d e) (nget no_poly l e).
  Proof.
    intros L [En [Ok [T V]]]. destruct (translate HK ord Ho c s G Hn Hchar q d L En Ok T) as [r [E [_ [_ [W VR]]]]]. unfold shift_polys. rewrite E. cbn [obind].
    assert (W' : wf n d (ord _ (pf_coefs r))) by (apply (wf_perm c d (pf_coefs r)); [apply Permutation_sym; apply Ho|exact W]).
    destruct (add_one_fold HK ord Ho c G Hn HG d (ord _ (pf_coefs r)) (map (fun i => (i, zero_poly c)) (seq 0 d)) (fun _ _ => f0) (proj2 L) W') as [I1 I2].
    - rewrite map_map. cbn [fst]. apply map_id.
    - intros e He. assert (X : forall l, In e l -> nget no_poly (map (fun i => (i, zero_poly (K:=K) c)) l) e = zero_poly c).
      { induction l as [|i l IH]; intros I; [contradiction|]. unfold nget. cbn. destruct (Nat.eqb_spec e i) as [->|Ne]; [reflexivity|]. destruct I as [->|I]; [contradiction|]. apply IH. exact I. }
      rewrite X by (apply in_seq; lia). apply (zero_poly_sub HK c G Hn).
    - eexists. split; [reflexivity|]. split; [exact I1|]. intros e He. eapply subrepr_ext; [|apply I2; exact He]. intros x. cbn beta.
      rewrite (pv_perm HK n (hom e (ord _ (pf_coefs r))) (hom e (pf_coefs r))) by (apply filter_perm'; apply Ho).
      rewrite (contrib_char HK ord Ho c s G P v Hn HP NP Hv Hchar HG d e (pf_coefs r) x L); [ring|lia|exact W|]. intros z. rewrite VR, V. reflexivity.
  Qed.

  Lemma nz_filter_in (q : list (list Z * K)) e a : In (e, a) (filter (fun t => negb (feqb (snd t) f0)) q) <-> In (e, a) q /\ a <> f0.
  Proof. rewrite filter_In. cbn [snd]. rewrite Bool.negb_true_iff. rewrite (feqb_neq HK). reflexivity. Qed.
  (** two polynomials with the same values have the same coefficients *)
  Lemma coefs_of_values A B d : d <= G -> poly_ok n A -> poly_ok n B -> (forall e a, In (e, a) (A ++ B) -> a <> f0 -> (total e <= Z.of_nat d)%Z) -> (forall x, pv n A x = pv n B x) -> forall k, coef_at A k = coef_at B k.
  Proof.
    intros Ld OA OB T E k. set (nz := fun t : list Z * K => negb (feqb (snd t) f0)).
    assert (X : forall Q, poly_ok n Q -> (forall e a, In (e, a) Q -> In (e, a) (A ++ B)) -> forall e a, In (e, a) (filter nz Q) -> a <> f0 /\ length e = n /\ forall i, (0 <= nth i e 0 <= Z.of_nat G)%Z).
    { intros Q OQ IQ e a I. apply nz_filter_in in I as [I Na]. split; [exact Na|]. destruct (poly_ok_pos c Q e a OQ I) as [L P0]. split; [exact L|]. intros i. split; [apply P0|]. pose proof (nth_total e i P0). pose proof (T e a (IQ e a I) Na). lia. }
    assert (Pm : Permutation (filter nz A) (filter nz B)).
    { apply (coefficients_unique HK n G v); [exact Hv|apply NoDup_keys_filter; apply OA|apply NoDup_keys_filter; apply OB|apply X; [exact OA|intros e a I; apply in_or_app; left; exact I]|apply X; [exact OB|intros e a I; apply in_or_app; right; exact I]|].
      intros x. unfold nz. rewrite !(pv_filter_nz HK). apply E. }
    assert (Y : forall Q, NoDup (map fst Q) -> coef_at (filter nz Q) k = coef_at Q k).
    { intros Q NQ. destruct (in_dec (list_eq_dec Z.eq_dec) k (map fst Q)) as [I|I].
      - apply in_map_iff in I as [[k' a] [<- I]]. cbn [fst]. rewrite (coef_in Q k' a NQ I). destruct (feqb a f0) eqn:Ea.
        + apply (fl_eqb K HK) in Ea. subst a. apply coef_out. intros J. apply in_map_iff in J as [[k2 a2] [E2 J]]. cbn [fst] in E2. subst k2. apply nz_filter_in in J as [J Na]. apply Na.
          rewrite <- (coef_in Q k' a2 NQ J). apply coef_in; assumption.
        + apply coef_in; [apply NoDup_keys_filter; exact NQ|]. apply nz_filter_in. split; [exact I|]. apply (feqb_neq HK). exact Ea.
      - rewrite !coef_out; [reflexivity|exact I|]. intros J. apply I. apply in_map_iff in J as [t [Et J]]. apply filter_In in J as [J _]. apply in_map_iff. exists t. auto. }
    rewrite <- (Y A) by apply OA. rewrite <- (Y B) by apply OB. apply coef_perm; [exact Pm|apply NoDup_keys_filter; apply OA].
  Qed.
  (** a subtraction term with the value zero *)
  Lemma pzero_sub d F q : d <= G -> subrepr' d F q -> clean c q -> (forall x, F x = f0) -> pzero (K:=K) q = true.
  Proof.
    intros Ld [En [Ok [T V]]] C Z. assert (Z0 : forall k, coef_at (pf_coefs q) k = f0).
    { intros k. rewrite (coefs_of_values (pf_coefs q) [] d Ld Ok); [reflexivity|split; constructor|intros e a I Na; rewrite app_nil_r in I; rewrite (T e a I Na); lia|]. intros x. rewrite V, Z. reflexivity. }
    unfold pzero. destruct Ok as [N _]. assert (W : forall e a, In (e, a) (pf_coefs q) -> e = zero_mon c /\ a = f0).
    { intros e a I. assert (Ea : a = f0) by (rewrite <- (coef_in (pf_coefs q) e a N I); apply Z0). split; [|exact Ea]. destruct (C e a I) as [X|X]; [contradiction|exact X]. }
    destruct (pf_coefs q) as [|[e a] [|[e' a'] r]]; [reflexivity| |].
    - destruct (W e a (or_introl eq_refl)) as [_ ->]. apply (feqb_refl HK).
    - exfalso. destruct (W e a (or_introl eq_refl)) as [-> _]. destruct (W e' a' (or_intror (or_introl eq_refl))) as [-> _]. cbn in N. inversion N as [|? ? X _]. apply X. left. reflexivity.
  Qed.
  (** the Vandermonde system for a list of monomials that contains those of the polynomial *)
  Lemma solve_superset degs Q nums d : degs <> [] -> NoDup degs -> Forall (fun k => exponents_ok n k /\ total k = Z.of_nat d) degs -> NoDup (map fst Q) -> incl (map fst Q) degs ->
    (forall k k', In k degs -> In k' degs -> mv (n - 1) (tl k) y = mv (n - 1) (tl k') y -> k = k') ->
    (forall i, i < length degs -> nums i = pv n Q (diag y (S i))) ->
    exists q, solve_vandermonde_system (n - 1) degs nums y = Ret q /\ hrepr d (pv n Q) q.
  Proof.
    intros Ne Nd Hd NQ Hi Ha Hv0. set (Q' := map (fun k => (k, coef_at Q k)) degs). assert (KQ : map fst Q' = degs) by (unfold Q'; rewrite map_map; cbn [fst]; apply map_id).
    assert (VQ : forall x, pv n Q' x = pv n Q x).
    { intros x. rewrite (pv_over HK n Q degs x NQ Nd Hi). unfold Q'. rewrite pv_lsum, lsum_map. reflexivity. }
    rewrite Forall_forall in Hd. assert (En : S (n - 1) = n) by lia.
    assert (Ex : solve_vandermonde_system (n - 1) degs nums y = Ret (mk_polyff n (map (fun k => (k, coef_at Q' k)) degs))).
    { rewrite <- En at 2. apply (vandermonde_exact HK (n - 1) degs Q'); [exact Ne|exact Nd| |rewrite KQ; exact Nd|rewrite KQ; apply Permutation_refl|exact anchors|exact Ha|].
      - rewrite En. apply Forall_forall. intros k I. apply (Hd k I).
      - intros i L. rewrite En, VQ. apply Hv0. exact L. }
    eexists. split; [exact Ex|]. assert (EQ : map (fun k => (k, coef_at Q' k)) degs = Q').
    { unfold Q' at 2. apply map_ext_in. intros k I. f_equal. apply coef_in; [rewrite KQ; exact Nd|]. unfold Q'. apply in_map_iff. exists k. auto. }
    rewrite EQ. split; [reflexivity|]. cbn [pf_coefs]. split; [|split].
    - split; [rewrite KQ; exact Nd|]. apply Forall_forall. intros t I. unfold Q' in I. apply in_map_iff in I as [k [<- I]]. cbn [fst]. apply (Hd k I).
    - intros e a I. apply (Hd e). rewrite <- KQ. apply in_map_iff. exists (e, a). auto.
    - exact VQ.
  Qed.
  (** the value of a subtraction term on a ray *)
  Lemma rand_diag_k order i : (Z.of_nat order < 2 ^ 31)%Z -> i < n -> x1 (rand_vec y (repeat order (n - 1))) i = diag y order i.
  Proof.
    intros L Hi. unfold x1, diag. destruct i as [|i]; [reflexivity|]. cbn [x1]. unfold rand_vec, rand_zi. assert (E : nth i (repeat order (n - 1)) 0 = order) by (rewrite (nth_indep _ 0 order) by (rewrite repeat_length; lia); apply nth_repeat). rewrite E.
    rewrite (fl_pow K HK) by (unfold two64; lia). rewrite Nat2Z.id. reflexivity.
  Qed.
  Lemma calc_ray d F q order : (Z.of_nat order < 2 ^ 31)%Z -> subrepr' d F q -> calc_n_m_1 (ord _) q (rand_vec y (repeat order (n - 1))) = pv n (pf_coefs q) (diag y order).
  Proof.
    intros L [A [B [_ D]]]. rewrite (C16_calc_n_m_1 K HK (ord _) (ord_any ord Ho)); [|unfold well_formed; rewrite A; exact B|lia].
    rewrite (calc_value HK) by (try exact (ord_any ord Ho); rewrite A; exact B). rewrite A. apply pv_ext_x. intros i Hi. apply (rand_diag_k order i L Hi).
  Qed.
End SingSub.

(** Proofs for the univariate reconstruction, part 2: polynomial functions, the Thiele interpolation of the first prime *)
From Coq Require Import Znumtheory Permutation.
From Verif Require Import Machine FField FSum LinAlg LinAlgProofs FPoly Vandermonde PolyFF PolySpec PolyFFProofs PolyFFProofs2 Thiele ThieleSpec ThieleProofs.
Open Scope nat_scope.

Section General.
  Context {K : fops} (HK : flaws K).
  Add Field KF : (fl_field K HK).

  (** ---- the interpolation is not finished as long as no division by zero occurs ---- *)
  Lemma no_early_stop (y f : nat -> K) n k : distinct n y -> no_breakdown y f n -> 0 < k -> k < n ->
    continued_fraction y f 0 (k - 1) (y k) <> f k.
  Proof.
    intros Hd Hb Hk Hkn.
    assert (G : forall l, l <= k - 1 -> continued_fraction y f (k - 1 - l) l (y k) <> inverse_difference y f k (k - 1 - l)).
    { induction l as [|l IH]; intros Hl.
      - rewrite Nat.sub_0_r. cbn [continued_fraction]. intros E. exact (Hb k (k - 1) ltac:(lia) Hkn (eq_sym E)).
      - specialize (IH ltac:(lia)). set (j := k - 1 - S l) in *. replace (k - 1 - l) with (S j) in IH by (unfold j; lia).
        cbn [continued_fraction]. intros E. pose proof (Hb k j ltac:(unfold j; lia) Hkn) as B.
        cbn [inverse_difference] in IH. set (c := continued_fraction y f (S j) l (y k)) in *. set (r := inverse_difference y f k j) in *.
        set (a := inverse_difference y f j j) in *.
        assert (Y : (y k - y j)%K <> f0) by (intros X; apply (fsub_0 HK) in X; apply Hd in X; unfold j in *; lia).
        assert (B' : (r - a)%K <> f0) by (apply (fsub_neq0 HK); exact B).
        destruct (K_dec HK c f0) as [Z|Z].
        + rewrite Z, (fl_div0 K HK) in E. apply B. rewrite <- E. ring.
        + apply IH. assert (E2 : ((y k - y j) / c)%K = (r - a)%K) by (rewrite <- E; ring).
          rewrite <- E2. field. split; assumption. }
    specialize (G (k - 1) (le_n _)). rewrite Nat.sub_diag in G. exact G.
  Qed.

  (** ---- no zero coefficient in the canonical form ---- *)
  Definition uniz (a : polyff K) (d : nat) (g : K -> K) : Prop := uni a d g /\ no_zero_coefficient (pf_coefs a).
  Lemma uniz_le a d e g : d <= e -> uniz a d g -> uniz a e g.
  Proof. intros H [A B]. split; [exact (uni_le a d e g H A)|exact B]. Qed.
  Lemma uniz_ext a d g h : (forall x, g x = h x) -> uniz a d g -> uniz a d h.
  Proof. intros H [A B]. split; [exact (uni_ext a d g h H A)|exact B]. Qed.
  Lemma uniz_const c : c <> f0 -> uniz (const_poly c) 0 (fun _ => c).
  Proof. intros H. split; [apply (uni_const HK)|]. constructor; [exact H|constructor]. Qed.
  Lemma uniz_scale a d g c : c <> f0 -> uniz a d g -> uniz (pscale a c) d (fun x => g x * c)%K.
  Proof.
    intros Hc [A B]. split; [apply (uni_scale HK); exact A|]. unfold no_zero_coefficient in *. cbn [pscale pf_coefs].
    rewrite Forall_forall in *. intros kc Hin. apply in_map_iff in Hin as [kc' [<- Hin]]. cbn [snd]. apply (fmul_neq0 HK); [apply B; exact Hin|exact Hc].
  Qed.

  Section Ord.
    Variable ord : pmap K -> pmap K.
    Hypothesis Ho : any_order ord.
    Lemma uniz_add a b d e g h : uniz a d g -> uniz b e h -> uniz (padd ord a b) (Nat.max d e) (fun x => g x + h x)%K.
    Proof.
      intros [A ZA] [B ZB]. split; [apply (uni_add HK ord Ho); assumption|].
      destruct A as [A1 [A2 _]], B as [B1 [B2 _]]. pose proof (ord_ok ord Ho _ _ A2) as Ha'. pose proof (ord_ok ord Ho _ _ B2) as Hb'.
      unfold padd. cbn [pf_coefs]. destruct (_ <? _).
      - exact (term_fold_nz HK 1 true _ _ B2 ZB (proj2 Ha') (ord_nz ord Ho _ ZA)).
      - exact (term_fold_nz HK 1 true _ _ A2 ZA (proj2 Hb') (ord_nz ord Ho _ ZB)).
    Qed.
    Lemma uniz_mulx a d g : (Z.of_nat d + 1 < 2 ^ 32)%Z -> uniz a d g -> uniz (pmul_var ord a 1) (S d) (fun x => x * g x)%K.
    Proof.
      intros Hd [A Z]. split; [apply (uni_mulx HK ord Ho); assumption|]. unfold pmul_var. cbn [pf_coefs Nat.sub].
      assert (G : forall l m, no_zero_coefficient l -> no_zero_coefficient m ->
                no_zero_coefficient (fold_left (fun (m : pmap K) kc => pemplace m (incr_at (fst kc) 0) (snd kc)) l m)).
      { induction l as [|kc l IH]; intros m Hl Hm; [exact Hm|]. cbn [fold_left]. inversion_clear Hl as [|? ? H1 H2]. apply IH; [exact H2|].
        unfold pemplace. destruct (pfind m _); [exact Hm|]. apply nz_app; assumption. }
      apply G; [apply (ord_nz ord Ho); exact Z|constructor].
    Qed.

    Variables (y f : nat -> K) (n : nat).
    Hypothesis Hn : 0 < n.
    Hypothesis H32 : (Z.of_nat n < 2 ^ 32)%Z.
    Hypothesis Hd : distinct n y.
    Hypothesis Hb : no_breakdown y f n.
    Hypothesis Hy : forall i, i < n -> y i <> f0.
    Hypothesis Hf : f 0 <> f0.

    Definition at_indexz (k : nat) (r : polyff K * polyff K) : Prop :=
      uniz (fst r) ((n - k) / 2) (P y f n k) /\ uniz (snd r) ((n - S k) / 2) (P y f n (S k)).
    Lemma a_neq0 i : i < n -> inverse_difference y f i i <> f0.
    Proof. intros Hi. destruct i as [|i]; [exact Hf|]. apply (rho_neq0 HK y f n Hn Hd Hb); lia. Qed.

    Variable m : nat.
    Hypothesis Hm : n - 1 <= m.
    Lemma canon_stepz k r : k + 2 <= n -> at_indexz (S k) r -> at_indexz k (canon_step ord (alist y f n) (tlist y m) r k).
    Proof.
      intros Hk [A B]. unfold canon_step, at_indexz. cbn [fst snd]. split; [|exact A].
      rewrite alist_nth, tlist_nth by lia.
      eapply uniz_le; [|eapply uniz_ext; [|apply uniz_add; [apply uniz_add; [apply uniz_scale; [|exact A]|apply uniz_mulx; [|exact B]]|apply uniz_scale; [|exact B]]]].
      - rewrite (half n Hn k Hk). pose proof (half_mono n Hn (n - S k) (n - k) ltac:(lia)). rewrite (half n Hn k Hk) in H. lia.
      - intros x. cbn beta. rewrite (P_rec y f n Hn k x Hk). ring.
      - apply a_neq0. lia.
      - pose proof (Nat.div_le_upper_bound (n - S (S k)) 2 (n - S (S k)) ltac:(lia) ltac:(lia)). lia.
      - apply (fopp_neq0 HK). apply Hy. lia.
    Qed.
    Lemma iteratez k r : k + 2 <= n -> at_indexz (S k) r -> at_indexz 1 (fold_left (canon_step ord (alist y f n) (tlist y m)) (rev (seq 1 k)) r).
    Proof.
      revert r. induction k as [|k IH]; intros r Hk Hr; [exact Hr|].
      rewrite seq_S, rev_app_distr. cbn [rev app fold_left Nat.add]. apply IH; [lia|]. apply canon_stepz; [lia|exact Hr].
    Qed.
    Theorem canonicalz : let r := thiele_canonical ord (alist y f n) (tlist y m) in
      uniz (fst r) (n / 2) (P y f n 0) /\ uniz (snd r) ((n - 1) / 2) (P y f n 1).
    Proof.
      cbn zeta. unfold thiele_canonical. rewrite alist_len. destruct (Nat.eqb_spec n 1) as [E|N].
      - cbn [fst snd]. rewrite alist_nth by lia. rewrite E. split.
        + eapply uniz_ext; [|apply uniz_const; exact Hf]. intros x. unfold P. reflexivity.
        + eapply uniz_ext; [|apply uniz_const; apply (f1_neq_0 HK)]. intros x. unfold P. reflexivity.
      - assert (I : at_indexz 1 (thiele_iterate ord (alist y f n) (tlist y m))).
        { unfold thiele_iterate. rewrite alist_len. apply iteratez; [lia|]. unfold at_indexz. cbn [fst snd].
          replace (S (n - 2)) with (n - 1) by lia. replace (S (n - 1)) with n by lia. rewrite Nat.sub_diag. replace (n - (n - 1)) with 1 by lia.
          rewrite alist_nth by lia. split.
          - eapply uniz_ext; [|apply uniz_const; apply a_neq0; lia]. intros x. cbn beta. symmetry. apply P_n1. exact Hn.
          - eapply uniz_ext; [|apply uniz_const; apply (f1_neq_0 HK)]. intros x. cbn beta. symmetry. apply P_n. }
        destruct I as [A B]. cbn zeta. set (r := thiele_iterate ord (alist y f n) (tlist y m)) in *. cbn [fst snd]. split; [|exact A].
        rewrite alist_nth, tlist_nth by lia.
        eapply uniz_le; [|eapply uniz_ext; [|apply uniz_add; [apply uniz_add; [apply uniz_scale; [|exact A]|apply uniz_scale; [|exact B]]|apply uniz_mulx; [|exact B]]]].
        + pose proof (half n Hn 0 ltac:(lia)) as H0. rewrite Nat.sub_0_r in H0. rewrite H0. pose proof (half_mono n Hn (n - 1) n ltac:(lia)) as H. rewrite H0 in H. lia.
        + intros x. cbn beta. rewrite (P_rec y f n Hn 0 x ltac:(lia)). ring.
        + exact Hf.
        + apply (fopp_neq0 HK). apply Hy. lia.
        + pose proof (Nat.div_le_upper_bound (n - 2) 2 (n - 2) ltac:(lia) ltac:(lia)). lia.
    Qed.
  End Ord.

  (** ---- a factor that does not raise the degree is a constant ---- *)
  Lemma polyfun_split n (g : K -> K) : polyfun (S n) g -> exists c h, polyfun n h /\ forall x, g x = (h x + c * pw x n)%K.
  Proof. intros [c H]. exists (c n), (ueval n c). split; [exists c; reflexivity|]. intros x. rewrite H. apply ueval_S. Qed.
  Lemma polyfun_pw n (c : K) : polyfun (S n) (fun x => c * pw x n)%K.
  Proof.
    exists (fun i => if i =? n then c else f0). intros x. unfold ueval. rewrite (fsum_single HK (S n) n); [rewrite Nat.eqb_refl; reflexivity|lia|].
    intros j Hj Hne. nb. ring.
  Qed.
  Lemma top_coefficient n (c : K) h (v : nat -> K) : polyfun n h -> distinct (S n) v -> (forall x, h x + c * pw x n = f0)%K -> c = f0.
  Proof.
    intros [d Hh] Hd H. pose proof (roots_zero HK (S n) (fun i => if i =? n then c else d i) v Hd) as R.
    assert (E : (if n =? n then c else d n) = f0). { apply R; [|lia]. intros i Hi. rewrite ueval_S, Nat.eqb_refl. rewrite <- (H (v i)), Hh. f_equal. apply ueval_ext. intros j Hj. nb. }
    rewrite Nat.eqb_refl in E. exact E.
  Qed.
  Lemma constant_factor a (c : K) f' h (v : nat -> K) : forall w g, c <> f0 -> polyfun a f' -> polyfun (S a) h -> polyfun (S w) g -> distinct (S (a + w)) v ->
    (forall x, (f' x + c * pw x a) * g x = h x)%K -> exists k, forall x, g x = k.
  Proof.
    induction w as [|w IH]; intros g Hc Hf Hh Hg Hv E.
    - destruct Hg as [d Hd]. exists (d 0). intros x. rewrite Hd. unfold ueval. cbn. ring.
    - destruct (polyfun_split _ _ Hg) as [e [g' [Hg' Eg]]].
      assert (Z : (c * e)%K = f0).
      { apply (top_coefficient (a + S w) (c * e)%K (fun x => (f' x * g x + (c * pw x a) * g' x) - h x)%K v).
        - apply (polyfun_sub HK).
          + apply (polyfun_add HK).
            * apply (polyfun_ext _ (fun x => g x * f' x)%K); [intros; ring|]. replace (a + S w) with (S w + a) by lia. apply (polyfun_mul HK); assumption.
            * apply (polyfun_mul HK a (S w)); [apply polyfun_pw|exact Hg'].
          + apply (polyfun_le HK (S a)); [lia|exact Hh].
        - replace (S (a + S w)) with (S (a + S w)) by lia. exact Hv.
        - intros x. rewrite <- E, !Eg, (pw_add HK). ring. }
      apply (fmul_0 HK) in Z as [Z|Z]; [contradiction|]. apply IH; try assumption.
      + apply (polyfun_ext _ g'); [|exact Hg']. intros x. rewrite Eg, Z. ring.
      + intros i j Hi Hj X. apply Hv in X; lia.
  Qed.

  (** ---- coefficients are determined by the values ---- *)
  Definition tval (T : list (nat * K)) (x : K) : K := fold_right (fun t s => snd t * pw x (fst t) + s)%K f0 T.
  Definition tcoef (T : list (nat * K)) (i : nat) : K := fold_right (fun t s => (if fst t =? i then snd t else f0) + s)%K f0 T.
  Lemma tval_ueval T d x : (forall t, In t T -> fst t <= d) -> tval T x = ueval (S d) (tcoef T) x.
  Proof.
    induction T as [|[e c] T IH]; intros H; cbn [tval tcoef fold_right fst snd].
    - symmetry. apply (ueval_0 HK). reflexivity.
    - fold (tval T x). rewrite IH by (intros t Ht; apply H; right; exact Ht).
      assert (E : ueval (S d) (tcoef ((e, c) :: T)) x = (ueval (S d) (fun i => if e =? i then c else f0) x + ueval (S d) (tcoef T) x)%K).
      { rewrite <- (ueval_add HK). apply ueval_ext. intros i Hi. reflexivity. }
      change (fun i => ((if e =? i then c else f0) + fold_right (fun t s => (if fst t =? i then snd t else f0) + s)%K f0 T)%K) with (tcoef ((e, c) :: T)) in *.
      rewrite E. f_equal. unfold ueval. specialize (H (e, c) (or_introl eq_refl)). cbn [fst] in H.
      rewrite (fsum_single HK (S d) e); [rewrite Nat.eqb_refl; reflexivity|lia|]. intros j Hj Hne. nb. ring.
  Qed.
  Lemma tcoef_notin T e : ~ In e (map fst T) -> tcoef T e = f0.
  Proof.
    induction T as [|[e' c] T IH]; cbn [tcoef fold_right map fst snd In]; intros H; [reflexivity|]. fold (tcoef T e).
    destruct (Nat.eqb_spec e' e); [tauto|]. rewrite IH by tauto. ring.
  Qed.
  Lemma tcoef_in T e c : NoDup (map fst T) -> In (e, c) T -> tcoef T e = c.
  Proof.
    induction T as [|[e' c'] T IH]; cbn [tcoef fold_right map fst snd In]; intros ND H; [contradiction|]. fold (tcoef T e).
    inversion ND as [|? ? N1 N2]; subst. destruct H as [H|H].
    - injection H as -> ->. rewrite Nat.eqb_refl, tcoef_notin by exact N1. ring.
    - destruct (Nat.eqb_spec e' e) as [->|N]; [exfalso; apply N1; apply (in_map fst) in H; exact H|]. rewrite IH by assumption. ring.
  Qed.
  Lemma tcoef_inv T e : NoDup (map fst T) -> tcoef T e <> f0 -> In (e, tcoef T e) T.
  Proof.
    intros ND H. destruct (in_dec Nat.eq_dec e (map fst T)) as [I|I]; [|rewrite tcoef_notin in H by exact I; contradiction].
    apply in_map_iff in I as [[e' c] [E I]]. cbn [fst] in E. subst e'. rewrite (tcoef_in T e c ND I). exact I.
  Qed.
  Lemma terms_unique T T' d (v : nat -> K) : distinct (S d) v -> NoDup (map fst T) -> NoDup (map fst T') ->
    (forall t, In t T -> fst t <= d /\ snd t <> f0) -> (forall t, In t T' -> fst t <= d /\ snd t <> f0) ->
    (forall x, tval T x = tval T' x) -> Permutation T T'.
  Proof.
    intros Hv N N' H H' E.
    assert (C : forall i, i < S d -> tcoef T i = tcoef T' i).
    { apply (interp_unique HK (S d) _ _ v Hv). intros i Hi. rewrite <- !tval_ueval; [apply E|intros t Ht; apply H'; exact Ht|intros t Ht; apply H; exact Ht]. }
    apply NoDup_Permutation; [exact (NoDup_map_inv _ _ N)|exact (NoDup_map_inv _ _ N')|]. intros [e c]. split; intros I.
    - pose proof (H _ I) as [B Z]. cbn [fst snd] in *. rewrite <- (tcoef_in T e c N I), C by lia. apply tcoef_inv; [exact N'|]. rewrite <- C by lia. rewrite (tcoef_in T e c N I). exact Z.
    - pose proof (H' _ I) as [B Z]. cbn [fst snd] in *. rewrite <- (tcoef_in T' e c N' I), <- C by lia. apply tcoef_inv; [exact N|]. rewrite C by lia. rewrite (tcoef_in T' e c N' I). exact Z.
  Qed.

  (** a map in one variable as a list of terms *)
  Definition as_terms (m : pmap K) : list (nat * K) := map (fun kc => (Z.to_nat (nth 0 (fst kc) 0%Z), snd kc)) m.
  Definition as_map (T : list (nat * K)) : pmap K := map (fun t => ([Z.of_nat (fst t)], snd t)) T.
  Lemma as_map_terms m : Forall (fun kc => exponents_ok 1 (fst kc)) m -> as_map (as_terms m) = m.
  Proof.
    unfold as_map, as_terms. induction 1 as [|[k c] m H _ IH]; [reflexivity|]. cbn [map fst snd] in *. rewrite IH.
    destruct H as [L F]. destruct k as [|z [|? ?]]; try discriminate. inversion_clear F as [|? ? F1 _]. cbn [nth]. rewrite Z2Nat.id by lia. reflexivity.
  Qed.
  Lemma as_terms_value m x : poly_value 1 m (fun _ => x) = tval (as_terms m) x.
  Proof.
    induction m as [|[k c] m IH]; [reflexivity|]. unfold poly_value in *. cbn [fold_right as_terms map tval fst snd monomial_value]. cbn [monomial_value] in IH. rewrite IH.
    unfold tval, as_terms. f_equal. f_equal. ring.
  Qed.
  Lemma as_terms_nodup m : poly_ok 1 m -> NoDup (map fst (as_terms m)).
  Proof.
    intros [N F]. rewrite <- (as_map_terms m F) in N. unfold as_map in N. rewrite map_map in N. cbn [fst] in N.
    assert (G : NoDup (map (fun z => [Z.of_nat z]) (map fst (as_terms m)))) by (rewrite map_map; exact N). exact (NoDup_map_inv _ _ G).
  Qed.
  Lemma map_unique (m : pmap K) d g T (v : nat -> K) : uniz (mk_polyff 1 m) d g -> distinct (S d) v -> NoDup (map fst T) -> (forall t, In t T -> fst t <= d /\ snd t <> f0) ->
    (forall x, g x = tval T x) -> Permutation m (as_map T).
  Proof.
    intros [[_ [Hok [Hdeg Hval]]] Hz] Hv N H E. cbn [pf_coefs] in *.
    rewrite <- (as_map_terms m (proj2 Hok)). unfold as_map. apply Permutation_map.
    apply (terms_unique _ _ d v); [exact Hv|apply as_terms_nodup; exact Hok|exact N| |exact H|].
    - intros t Ht. unfold as_terms in Ht. apply in_map_iff in Ht as [kc [<- Hin]]. cbn [fst snd]. split.
      + pose proof (Hdeg (fst kc) (in_map fst _ _ Hin)). lia.
      + unfold no_zero_coefficient in Hz. rewrite Forall_forall in Hz. apply Hz. exact Hin.
    - intros x. rewrite <- as_terms_value, Hval. apply E.
  Qed.
End General.

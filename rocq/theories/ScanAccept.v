(** Proofs for the search for a sparse shift: what an accepted shift is good for *)
From Coq Require Import Permutation.
From Verif Require Import Machine FField FSum FPoly PolySpec ThieleSpec ThieleProofs RatUniSpec RatUniThiele PolyRecSpec PolyRecMath RatMultiSpec RatMultiMath RatMultiThiele RatMultiRun ScanSpec ScanProofs.
Open Scope nat_scope.

Section Line.
  Context {K : fops} (HK : flaws K).
  Add Field KSA : (fl_field K HK).
  Fixpoint msum (m : nat) (e : list Z) : nat := match m with O => 0 | S k => msum k e + Z.to_nat (nth k e 0%Z) end.
  Lemma msum_total e : (forall i, (0 <= nth i e 0)%Z) -> msum (length e) e = Z.to_nat (total e).
  Proof.
    intros B. assert (G : forall l, Forall (fun z => (0 <= z)%Z) l -> msum (length l) l = Z.to_nat (total l)).
    { clear. intros l. induction l as [|x l IH] using rev_ind; intros F; [reflexivity|]. apply Forall_app in F as [F1 F2]. rewrite app_length. cbn [length]. rewrite Nat.add_1_r. cbn [msum]. rewrite app_nth2, Nat.sub_diag by lia. cbn [nth].
      assert (E : forall k, k <= length l -> msum k (l ++ [x]) = msum k l) by (induction k as [|k IHk]; intros Hk; [reflexivity|]; cbn [msum]; rewrite IHk, app_nth1 by lia; reflexivity). rewrite E by lia. rewrite (IH F1).
      assert (T : forall l', total (l' ++ [x]) = (total l' + x)%Z) by (unfold total; induction l' as [|z l' IHl]; [cbn; lia|cbn [app fold_right]; rewrite IHl; lia]). rewrite T. inversion F2 as [|? ? X _]; subst.
      assert (P : (0 <= total l)%Z) by (clear - F1; unfold total; induction F1; [cbn; lia|cbn [fold_right]; lia]). lia. }
    apply G. apply Forall_forall. intros z I. apply (In_nth _ _ 0%Z) in I as [i [_ <-]]. apply B.
  Qed.
  Lemma pw_polyfun (g : K -> K) k : polyfun 2 g -> polyfun (S k) (fun t => pw (g t) k).
  Proof.
    intros H. induction k as [|k IH]; [exact (polyfun_const HK f1)|]. apply (polyfun_ext (S (S k)) (fun t => g t * pw (g t) k)%K); [reflexivity|]. apply (polyfun_mul HK 1 (S k)); [exact H|exact IH].
  Qed.
  Lemma monomial_polyfun (x : K -> nat -> K) e m : (forall i, polyfun 2 (fun t => x t i)) -> polyfun (S (msum m e)) (fun t => monomial_value m e (x t)).
  Proof.
    intros H. induction m as [|m IH]; [exact (polyfun_const HK f1)|]. cbn [monomial_value msum].
    apply (polyfun_le HK (msum m e + S (Z.to_nat (nth m e 0%Z)))); [lia|]. apply (polyfun_mul HK); [exact IH|]. apply pw_polyfun. apply H.
  Qed.
  Lemma poly_polyfun n (P : list (list Z * K)) (x : K -> nat -> K) : polynomial n (tdegree P) P -> (forall i, polyfun 2 (fun t => x t i)) -> polyfun (S (tdegree P)) (fun t => poly_value n P (x t)).
  Proof.
    intros [_ [_ HP]] H. assert (G : forall Q, incl Q P -> polyfun (S (tdegree P)) (fun t => poly_value n Q (x t))).
    { induction Q as [|[e a] Q IH]; intros I.
      - unfold poly_value. cbn [fold_right]. apply (polyfun_le HK 1); [lia|apply (polyfun_const HK)].
      - apply (polyfun_ext _ (fun t => a * monomial_value n e (x t) + poly_value n Q (x t))%K); [reflexivity|]. apply (polyfun_add HK); [|apply IH; intros z J; apply I; right; exact J]. apply (polyfun_scale HK).
        pose proof (I _ (or_introl eq_refl)) as J. destruct (HP e a J) as [_ [L [B _]]]. pose proof (tdegree_le P e a J) as T. rewrite <- (msum_total e (fun i => proj1 (B i))), L in T.
        apply (polyfun_le HK (S (msum n e))); [lia|]. apply monomial_polyfun. exact H. }
    apply G. apply incl_refl.
  Qed.
  Lemma ray_polyfun (y s : nat -> K) i : polyfun 2 (fun t => match i with O => fadd t (s 0) | S j => fadd (fmul t (y j)) (s (S j)) end).
  Proof.
    assert (G : forall a b : K, polyfun 2 (fun t => t * a + b)%K) by (intros a b; apply (polyfun_add HK); [apply (polyfun_x HK); apply (polyfun_const HK)|apply (polyfun_le HK 1); [lia|apply (polyfun_const HK)]]).
    destruct i as [|j]; [|apply G]. apply (polyfun_ext 2 (fun t => t * f1 + s 0%nat)%K); [intros t; ring|apply G].
  Qed.
  Lemma uvalue_0 (P : list (nat * K)) : upolynomial P -> (uvalue P f0 <> f0 <-> In 0 (map fst P)).
  Proof.
    intros [_ [ND NZ]]. assert (G : forall d, pw (f0 : K) (S d) = f0) by (intros d; cbn [pw]; ring). induction P as [|[d a] P IH]; [cbn; split; [intros H; contradiction H; reflexivity|intros []]|].
    inversion ND as [|? ? N1 N2]; subst. specialize (IH N2 (fun t I => NZ t (or_intror I))). unfold uvalue in *. cbn [fold_right map fst snd] in *. destruct d as [|d].
    - split; [intros _; left; reflexivity|intros _]. assert (Z : fold_right (fun t r => snd t * pw f0 (fst t) + r)%K f0 P = f0).
      { destruct (K_dec HK (fold_right (fun t r => snd t * pw f0 (fst t) + r)%K f0 P) f0) as [Z|Z]; [exact Z|]. exfalso. apply N1. apply IH. exact Z. }
      rewrite Z. cbn [pw]. intros X. apply (NZ (0, a) (or_introl eq_refl)). cbn [snd]. rewrite <- X. ring.
    - rewrite G. split.
      + intros H. right. apply IH. intros Z. apply H. rewrite Z. ring.
      + intros [X|I]; [discriminate X|]. intros Z. apply (proj2 IH I). match type of Z with ?l = _ => transitivity l; [ring|exact Z] end.
  Qed.

  (** if the degrees on the ray are the total degrees, nothing was cancelled *)
  Lemma nothing_cancelled n (N D : list (list Z * K)) (y s : nat -> K) ts R S bb : polynomial n (tdegree N) N -> polynomial n (tdegree D) D ->
    (forall x, poly_value n D x <> f0 -> bb x = fdiv (poly_value n N x) (poly_value n D x)) ->
    fraction (on_ray bb y s) ts R S -> udegree R = tdegree N -> udegree S = tdegree D ->
    (forall i, i <= points_needed R S -> poly_value n D (fun j => match j with O => fadd (point ts i) (s 0) | Datatypes.S k => fadd (fmul (point ts i) (y k)) (s (Datatypes.S k)) end) <> f0) ->
    exists k, k <> f0 /\ forall t, let x := fun j => match j with O => fadd t (s 0) | Datatypes.S k => fadd (fmul t (y k)) (s (Datatypes.S k)) end in
      poly_value n N x = fmul k (uvalue R t) /\ poly_value n D x = fmul k (uvalue S t).
  Proof.
    intros HN HD Hbb FR EN ED Pol. destruct FR. set (x := fun t j => match j with O => fadd t (s 0) | Datatypes.S k => fadd (fmul t (y k)) (s (Datatypes.S k)) end) in *.
    change (forall i, i <= points_needed R S -> poly_value n D (x (point ts i)) <> f0) in Pol.
    pose proof (poly_polyfun n N x HN (ray_polyfun y s)) as PN. pose proof (poly_polyfun n D x HD (ray_polyfun y s)) as PD. set (F := fun t => poly_value n N (x t)) in *. set (G := fun t => poly_value n D (x t)) in *.
    pose proof (upoly_terms R fr_num) as TR. pose proof (upoly_terms S fr_den) as TS. rewrite EN in TR. rewrite ED in TS.
    pose proof (tval_polyfun HK R _ TR) as QR. pose proof (tval_polyfun HK S _ TS) as QS.
    assert (Z : forall t, (F t * tval S t - G t * tval R t)%K = f0).
    { apply (polyfun_zero HK (Datatypes.S (tdegree N + tdegree D)) _ (point ts)).
      - apply (polyfun_sub HK).
        + apply (polyfun_le HK (tdegree N + Datatypes.S (tdegree D))); [lia|]. apply (polyfun_mul HK); assumption.
        + apply (polyfun_le HK (tdegree D + Datatypes.S (tdegree N))); [lia|]. apply (polyfun_mul HK); assumption.
      - intros i j Hi Hj. apply fr_distinct; unfold points_needed; rewrite EN, ED; lia.
      - intros i Hi. assert (Li : i <= points_needed R S) by (unfold points_needed; rewrite EN, ED; lia). destruct (fr_values i Li) as [_ V]. specialize (Pol i Li). unfold on_ray in V. change (bb (x (point ts i)) * uvalue S (point ts i) = uvalue R (point ts i))%K in V.
        rewrite (Hbb _ Pol) in V. change (uvalue S (point ts i)) with (tval S (point ts i)) in V. change (uvalue R (point ts i)) with (tval R (point ts i)) in V. rewrite <- V. unfold F, G. field. exact Pol. }
    assert (C : forall t, (F t * tval S t)%K = (G t * tval R t)%K) by (intros t; apply (fsub_0 HK); apply Z). clear Z.
    destruct fr_coprime as [U [V [HU [HV UV]]]]. rewrite EN in HV. rewrite ED in HU. change (forall t, (U t * tval R t + V t * tval S t)%K = f1) in UV. set (W := fun t => (U t * F t + V t * G t)%K).
    assert (E0 : forall t, F t = (tval R t * W t)%K).
    { intros t. transitivity (F t * (U t * tval R t + V t * tval S t))%K; [rewrite (UV t); ring|]. transitivity (U t * tval R t * F t + V t * (F t * tval S t))%K; [ring|]. rewrite C. unfold W. ring. }
    assert (E1 : forall t, G t = (tval S t * W t)%K).
    { intros t. transitivity (G t * (U t * tval R t + V t * tval S t))%K; [rewrite (UV t); ring|]. transitivity (U t * (G t * tval R t) + V t * tval S t * G t)%K; [ring|]. rewrite <- C. unfold W. ring. }
    destruct fr_field as [v Hv]. rewrite EN, ED in Hv. set (w := tdegree N + tdegree D).
    assert (HW : polyfun (Datatypes.S w) W).
    { apply (polyfun_add HK); [apply (polyfun_le HK (tdegree D + Datatypes.S (tdegree N)))|apply (polyfun_le HK (tdegree N + Datatypes.S (tdegree D)))]; try (unfold w; lia); apply (polyfun_mul HK); assumption. }
    destruct (tval_lead HK R _ TR) as [c [h [Hc [Hh Eh]]]].
    destruct (constant_factor HK (tdegree N) c h F v w W Hc Hh PN HW) as [k Hk].
    - intros i j Hi Hj. apply Hv; unfold w in *; lia.
    - intros t. rewrite <- Eh. symmetry. apply E0.
    - exists k. split.
      + intros X. apply (Pol 0); [lia|]. change (G (point ts 0) = f0). rewrite E1, Hk, X. ring.
      + intros t. cbv zeta. change (F t = (k * tval R t)%K /\ G t = (k * tval S t)%K). rewrite E0, E1, Hk. split; ring.
  Qed.
  Lemma normalisable n (N D : list (list Z * K)) (y s : nat -> K) ts R S bb : polynomial n (tdegree N) N -> polynomial n (tdegree D) D ->
    (forall x, poly_value n D x <> f0 -> bb x = fdiv (poly_value n N x) (poly_value n D x)) ->
    fraction (on_ray bb y s) ts R S -> udegree R = tdegree N -> udegree S = tdegree D ->
    (forall i, i <= points_needed R S -> poly_value n D (fun j => match j with O => fadd (point ts i) (s 0) | Datatypes.S k => fadd (fmul (point ts i) (y k)) (s (Datatypes.S k)) end) <> f0) ->
    (In 0 (map fst S) <-> poly_value n D s <> f0) /\ (poly_value n D s = f0 -> poly_value n N s <> f0).
  Proof.
    intros HN HD Hbb FR EN ED Pol. destruct (nothing_cancelled n N D y s ts R S bb HN HD Hbb FR EN ED Pol) as [k [Hk H]]. specialize (H f0). cbv zeta in H.
    assert (E : forall P, poly_value n P (fun j => match j with O => fadd f0 (s 0) | Datatypes.S k => fadd (fmul f0 (y k)) (s (Datatypes.S k)) end) = poly_value n P s) by (intros P; apply pv_ext_x; intros [|i] _; ring).
    rewrite !E in H. destruct H as [H1 H2]. destruct (fr_coprime _ _ _ _ FR) as [U [V [_ [_ UV]]]]. specialize (UV f0).
    assert (NZ : poly_value n D s = f0 -> poly_value n N s <> f0).
    { intros X Y. rewrite X in H2. rewrite Y in H1. symmetry in H1, H2. apply (fmul_0 HK) in H1 as [A|A]; [contradiction|]. apply (fmul_0 HK) in H2 as [B|B]; [contradiction|]. rewrite A, B in UV. apply (F_1_neq_0 (fl_field K HK)). rewrite <- UV. ring. }
    split; [|exact NZ]. rewrite <- (uvalue_0 S (fr_den _ _ _ _ FR)), H2. split.
    - intros X Y. apply (fmul_0 HK) in Y as [Y|Y]; contradiction.
    - intros X Y. apply X. rewrite Y. ring.
  Qed.
End Line.

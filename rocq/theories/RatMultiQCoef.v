(** Proofs for RatReconst in several variables over several primes, part 1: coefficients of sparse polynomials. *)
From Coq Require Import Permutation.
From Verif Require Import Machine FField FSum LinAlg FPoly PolyFF PolySpec PolyFFProofs PolyFFProofs2 PolyFFProofs3 Vandermonde VandermondeProofs RatUni PolyRec PolyRecMath RatMulti RatMultiSpec RatMultiMath RatMultiShift.
Open Scope nat_scope.

Section Coef.
  Context {K : fops} (HK : flaws K).
  Add Field KCO : (fl_field K HK).
  Local Notation pv := (@poly_value K).
  Local Notation mv := (@monomial_value K).
  Local Notation terms := (list (list Z * K)).

  Lemma coef_in (m : terms) k a : NoDup (map fst m) -> In (k, a) m -> coef_at m k = a.
  Proof. intros ND I. unfold coef_at. rewrite (proj2 (pfind_In m k a ND) I). reflexivity. Qed.
  Lemma coef_out (m : terms) k : ~ In k (map fst m) -> coef_at m k = f0.
  Proof. intros H. unfold coef_at. rewrite (proj2 (pfind_None m k) H). reflexivity. Qed.
  Lemma coef_perm (m m' : terms) k : Permutation m m' -> NoDup (map fst m) -> coef_at m k = coef_at m' k.
  Proof.
    intros P ND. assert (ND' : NoDup (map fst m')) by (apply (Permutation_NoDup (Permutation_map fst P)); exact ND).
    destruct (in_dec (list_eq_dec Z.eq_dec) k (map fst m)) as [I|I].
    - apply in_map_iff in I as [[k' a] [<- I]]. cbn [fst]. rewrite (coef_in m k' a ND I). symmetry. apply coef_in; [exact ND'|]. apply (Permutation_in _ P). exact I.
    - rewrite (coef_out m k I). symmetry. apply coef_out. intros X. apply I. apply (Permutation_in _ (Permutation_sym (Permutation_map fst P))). exact X.
  Qed.
  Lemma coef_cons k' a (m : terms) k : coef_at ((k', a) :: m) k = if mon_eqb k k' then a else coef_at m k.
  Proof. unfold coef_at. cbn [pfind]. destruct (mon_eqb k k'); reflexivity. Qed.
  Lemma coef_app (A B : terms) k : (In k (map fst A) -> ~ In k (map fst B)) -> coef_at (A ++ B) k = (coef_at A k + coef_at B k)%K.
  Proof.
    induction A as [|[k' a] A IH]; intros H; cbn [app]; [unfold coef_at at 2; cbn [pfind]; ring|]. rewrite !coef_cons. destruct (mon_eqb_spec k k') as [E|E].
    - rewrite (coef_out B) by (apply H; left; cbn; congruence). ring.
    - apply IH. intros I. apply H. right. exact I.
  Qed.
  Lemma coef_map_seq (g : list Z -> K) ks k : coef_at (map (fun k => (k, g k)) ks) k = if in_dec (list_eq_dec Z.eq_dec) k ks then g k else f0.
  Proof.
    induction ks as [|k' ks IH]; [reflexivity|]. cbn [map]. rewrite coef_cons, IH. destruct (mon_eqb_spec k k') as [E|E].
    - subst k'. destruct (in_dec _ k (k :: ks)) as [_|X]; [reflexivity|]. destruct X. left. reflexivity.
    - destruct (in_dec _ k ks) as [I|I]; destruct (in_dec _ k (k' :: ks)) as [J|J]; try reflexivity; [destruct J; right; exact I|]. destruct J as [J|J]; [congruence|contradiction].
  Qed.
  Lemma coef_update (m : terms) k' f k : NoDup (map fst m) -> coef_at (pupdate m k' f) k = if mon_eqb k' k then (if in_dec (list_eq_dec Z.eq_dec) k (map fst m) then f (coef_at m k) else f0) else coef_at m k.
  Proof.
    induction m as [|[k1 a] m IH]; intros ND; [destruct (mon_eqb k' k); reflexivity|]. inversion ND as [|? ? N1 N2]; subst. unfold pupdate in *. cbn [map fst snd] in *.
    destruct (mon_eqb_spec k' k) as [E|E].
    - subst k'. destruct (mon_eqb_spec k k1) as [E1|E1]; rewrite !coef_cons.
      + subst k1. rewrite mon_eqb_refl. destruct (in_dec _ k (k :: map fst m)) as [_|X]; [reflexivity|]. destruct X. left. reflexivity.
      + destruct (mon_eqb_spec k k1); [contradiction|]. rewrite (IH N2). destruct (in_dec _ k (map fst m)) as [I|I]; destruct (in_dec _ k (k1 :: map fst m)) as [J|J]; try reflexivity; [destruct J; right; exact I|]. destruct J as [J|J]; [congruence|contradiction].
    - destruct (mon_eqb_spec k' k1) as [E1|E1]; rewrite !coef_cons; destruct (mon_eqb_spec k k1) as [E2|E2]; try (apply IH; exact N2); [congruence|reflexivity].
  Qed.
  Lemma coef_erase (m : terms) k' k : coef_at (perase m k') k = if mon_eqb k' k then f0 else coef_at m k.
  Proof.
    induction m as [|[k1 a] m IH]; [destruct (mon_eqb k' k); reflexivity|]. unfold perase in *. cbn [filter fst]. destruct (mon_eqb_spec k' k1) as [E|E]; cbn [negb].
    - rewrite IH. subst k1. rewrite coef_cons. destruct (mon_eqb_spec k' k) as [X|X]; [reflexivity|]. destruct (mon_eqb_spec k k'); [congruence|reflexivity].
    - rewrite !coef_cons, IH. destruct (mon_eqb_spec k k1) as [X|X]; [|reflexivity]. subst k1. destruct (mon_eqb_spec k' k); [contradiction|reflexivity].
  Qed.
  Lemma nodup_put (m : terms) k c f : NoDup (map fst m) -> NoDup (map fst (put m k c f)).
  Proof.
    intros ND. unfold put. destruct (feqb c f0); [|rewrite pupdate_keys; exact ND]. rewrite perase_keys, pupdate_keys. apply NoDup_filter. exact ND.
  Qed.
  Lemma coef_add_term (m : terms) k' a k : NoDup (map fst m) ->
    NoDup (map fst (add_assign_term m (k', a))) /\ coef_at (add_assign_term m (k', a)) k = (coef_at m k + if mon_eqb k' k then a else f0)%K.
  Proof.
    intros ND. unfold add_assign_term. cbn [fst snd]. destruct (feqb a f0) eqn:Z.
    { apply (fl_eqb K HK) in Z. subst a. split; [exact ND|]. destruct (mon_eqb k' k); ring. }
    destruct (pfind m k') as [b|] eqn:E.
    - split; [exact (nodup_put m k' (b + a)%K (fun c => c + a)%K ND)|].
      assert (I : In k' (map fst m)) by (apply pfind_In in E; [|exact ND]; apply in_map_iff; exists (k', b); split; [reflexivity|exact E]).
      assert (Eb : coef_at m k' = b) by (unfold coef_at; rewrite E; reflexivity).
      destruct (feqb (fadd b a) f0) eqn:Z2.
      + rewrite coef_erase, (coef_update m k' _ k ND). destruct (mon_eqb_spec k' k) as [X|X]; [|ring]. subst k. rewrite Eb. apply (fl_eqb K HK) in Z2. rewrite Z2. reflexivity.
      + rewrite (coef_update m k' _ k ND). destruct (mon_eqb_spec k' k) as [X|X]; [|ring]. subst k. destruct (in_dec _ k' (map fst m)); [reflexivity|contradiction].
    - unfold passign. rewrite E. apply pfind_None in E. split; [apply nodup_app_one; assumption|]. rewrite coef_app.
      + rewrite coef_cons. unfold coef_at at 2. cbn [pfind]. destruct (mon_eqb_spec k k') as [X|X]; destruct (mon_eqb_spec k' k) as [Y|Y]; try congruence; ring.
      + cbn [map fst]. intros I [X|[]]. subst k. contradiction.
  Qed.
  Lemma coef_add_fold (l : terms) k : forall m, NoDup (map fst m) ->
    NoDup (map fst (fold_left (add_assign_term (K:=K)) l m)) /\ coef_at (fold_left (add_assign_term (K:=K)) l m) k = (coef_at m k + lsum (fun t => if mon_eqb (fst t) k then snd t else f0) l)%K.
  Proof.
    induction l as [|[k' a] l IH]; intros m ND; cbn [fold_left]; [split; [exact ND|cbn; ring]|]. destruct (coef_add_term m k' a k ND) as [N1 E1].
    destruct (IH _ N1) as [N2 E2]. split; [exact N2|]. rewrite E2, E1, lsum_cons. cbn [fst snd]. ring.
  Qed.
  Lemma lsum_coef (l : terms) k : NoDup (map fst l) -> lsum (fun t => if mon_eqb (fst t) k then snd t else f0) l = coef_at l k.
  Proof.
    induction l as [|[k' a] l IH]; intros ND; [reflexivity|]. inversion ND as [|? ? N1 N2]; subst. rewrite lsum_cons, coef_cons, (IH N2). cbn [fst snd].
    destruct (mon_eqb_spec k' k) as [X|X]; destruct (mon_eqb_spec k k') as [Y|Y]; try congruence; [|ring]. subst k'. rewrite (coef_out l k N1). ring.
  Qed.
  Lemma coef_padd (ord : pmap K -> pmap K) (a b : polyff K) k : any_order ord -> NoDup (map fst (pf_coefs a)) -> NoDup (map fst (pf_coefs b)) ->
    NoDup (map fst (pf_coefs (padd_assign ord a b))) /\ coef_at (pf_coefs (padd_assign ord a b)) k = (coef_at (pf_coefs a) k + coef_at (pf_coefs b) k)%K.
  Proof.
    intros Ho Na Nb. unfold padd_assign. cbn [pf_coefs]. destruct (coef_add_fold (ord (pf_coefs b)) k _ Na) as [N1 E1]. split; [exact N1|]. rewrite E1. f_equal.
    rewrite lsum_coef; [apply coef_perm; [apply Ho|]|]; apply (Permutation_NoDup (Permutation_sym (Permutation_map fst (Ho (pf_coefs b))))); exact Nb.
  Qed.

  (** values from coefficients *)
  Lemma pv_over n (A : terms) ks x : NoDup (map fst A) -> NoDup ks -> incl (map fst A) ks -> pv n A x = lsum (fun k => coef_at A k * mv n k x)%K ks.
  Proof.
    intros NA Nk I. assert (E0 : pv n A x = lsum (fun k => coef_at A k * mv n k x)%K (map fst A)).
    { rewrite pv_lsum, lsum_map. apply lsum_ext. intros [k a] J. cbn [fst snd]. rewrite (coef_in A k a NA J). reflexivity. }
    set (inA := fun k => if in_dec (list_eq_dec Z.eq_dec) k (map fst A) then true else false).
    assert (E1 : lsum (fun k => coef_at A k * mv n k x)%K ks = lsum (fun k => coef_at A k * mv n k x)%K (filter inA ks)).
    { clear - HK. induction ks as [|k ks IH]; [reflexivity|]. cbn [filter]. unfold inA at 1. destruct (in_dec _ k (map fst A)) as [J|J]; rewrite ?lsum_cons, IH; [reflexivity|]. rewrite (coef_out A k J). ring. }
    rewrite E0, E1. apply (lsum_perm HK). apply NoDup_Permutation; [exact NA|apply NoDup_filter; exact Nk|]. intros k. rewrite filter_In. unfold inA. destruct (in_dec _ k (map fst A)) as [J|J].
    - split; [intros _; split; [apply I; exact J|reflexivity]|intros _; exact J].
    - split; [contradiction|intros [_ X]; discriminate].
  Qed.
  Lemma pv_coef n (A B : terms) x : NoDup (map fst A) -> NoDup (map fst B) -> (forall k, coef_at A k = coef_at B k) -> pv n A x = pv n B x.
  Proof.
    intros NA NB E. set (ks := nodup (list_eq_dec Z.eq_dec) (map fst A ++ map fst B)). assert (Nk : NoDup ks) by apply NoDup_nodup.
    rewrite (pv_over n A ks x NA Nk) by (intros k I; apply nodup_In; apply in_or_app; left; exact I). rewrite (pv_over n B ks x NB Nk) by (intros k I; apply nodup_In; apply in_or_app; right; exact I).
    apply lsum_ext. intros k _. rewrite E. reflexivity.
  Qed.

  (** the Vandermonde system returns the coefficients of the polynomial whose values are given *)
  Definition diag (val : nat -> K) (k : nat) : nat -> K := x1 (fun j => pw (val j) k).
  Lemma vandermonde_exact n (degs : list (list Z)) (Q : terms) (nums val : nat -> K) :
    degs <> [] -> NoDup degs -> Forall (exponents_ok (S n)) degs -> NoDup (map fst Q) -> Permutation (map fst Q) degs ->
    (forall i, i < n -> val i <> f0) ->
    (forall k k', In k degs -> In k' degs -> mv n (tl k) val = mv n (tl k') val -> k = k') ->
    (forall i, i < length degs -> nums i = pv (S n) Q (diag val (S i))) ->
    solve_vandermonde_system n degs nums val = Ret (mk_polyff (S n) (map (fun k => (k, coef_at Q k)) degs)).
  Proof.
    intros Hne Hd Hx NQ PQ Hnz Hinj Hv. destruct degs as [|d0 degs0] eqn:ED; [contradiction|]. rewrite <- ED in *. clear Hne. unfold solve_vandermonde_system. rewrite ED. rewrite <- ED.
    set (N := length degs) in *.
    assert (W : forall i, i < N -> vdm_nodes n degs val i = mv n (tl (nth i degs [])) val).
    { intros i Hi. apply (vdm_nodes_mv HK). intros j. rewrite Forall_forall in Hx. pose proof (expo_range (S n) _ j (Hx _ (nth_In degs [] Hi))). unfold two64. lia. }
    set (sol := vdm_solve N (vdm_nodes n degs val) nums).
    assert (Em : map (fun i => nth i degs []) (seq 0 N) = degs).
    { unfold N. clear. induction degs as [|d l IH]; [reflexivity|]. cbn [length seq map nth]. f_equal. rewrite <- seq_shift, map_map. exact IH. }
    rewrite (fold_pemplace (fun i => nth i degs []) sol) by (cbn [map app]; rewrite Em; exact Hd). cbn [app]. f_equal. f_equal.
    transitivity (map (fun k => (k, coef_at Q k)) (map (fun i => nth i degs []) (seq 0 N))); [|rewrite Em; reflexivity]. rewrite map_map. apply map_ext_in. intros i Hi. apply in_seq in Hi. f_equal. unfold sol. symmetry.
    assert (Inj : forall i j, i < N -> j < N -> vdm_nodes n degs val i = vdm_nodes n degs val j -> i = j).
    { intros a b Ha Hb E. rewrite !W in E by assumption. apply (proj1 (NoDup_nth degs []) Hd a b Ha Hb). apply Hinj; [apply nth_In; exact Ha|apply nth_In; exact Hb|exact E]. }
    apply (vdm_unique HK N (vdm_nodes n degs val) nums ltac:(lia) Inj) with (c := fun i => coef_at Q (nth i degs [])); [| |lia].
    - intros j Hj. rewrite W by exact Hj. apply (mv_nz HK). exact Hnz.
    - intros k Hk. rewrite (Hv (k - 1)) by (fold N; lia). replace (S (k - 1)) with k by lia.
      rewrite (pv_over (S n) Q degs _ NQ Hd (fun k I => Permutation_in k PQ I)). rewrite (lsum_fsum HK []). fold N. apply fsum_ext. intros j Hj. rewrite W by exact Hj. f_equal.
      rewrite Forall_forall in Hx. destruct (Hx _ (nth_In degs [] Hj)) as [L _]. destruct (nth j degs []) as [|z e]; [discriminate|]. rewrite (mv_cons HK). cbn [tl]. unfold diag, x1. rewrite (pw_1 HK), <- (pw_mv HK). ring.
  Qed.
End Coef.

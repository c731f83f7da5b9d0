(** Proofs for the shifted systems of RatReconst over a further prime, part 5: the state at the beginning of the prime. *)
From Coq Require Import Permutation.
From Verif Require Import Machine FField FSum LinAlg FPoly PolyFF PolySpec PolyFFProofs PolyFFProofs2 PolyFFProofs3 Vandermonde ThieleProofs RatUni Newton PolyRec PolyRecSpec PolyRecMath RatMulti RatMultiSpec RatMultiMath RatMultiShift RatMultiSub RatMultiClean RatMultiSide RatMultiQ RatMultiQCoef RatMultiQSide RatMultiQMaps RatMultiQFirst RatSing RatSingSub RatSingSide RatSingSpec.
Open Scope nat_scope.

Section Start.
  Context {K K0 : fops} (HK : flaws K) (HK0 : flaws K0).
  Add Field KST : (fl_field K HK).
  Variable ord : forall A : Type, list A -> list A.
  Hypothesis Ho : forall A (l : list A), Permutation (ord A l) l.
  Variable c : mcfg.
  Local Notation n := (mc_n c).

  (** ---- the degree of most monomials ---- *)
  Lemma most_ok (l : list (nat * list mon)) : l <> [] -> (forall d ks, In (d, ks) l -> ks <> []) ->
    (exists ks, In (fst (most ord l), ks) l /\ length ks = snd (most ord l)) /\ forall d ks, In (d, ks) l -> length ks <= snd (most ord l).
  Proof.
    intros Ne Hl.
    assert (X : forall r m, (forall e, In e r -> In e l) -> (m = (0, 0) \/ exists ks, In (fst m, ks) l /\ length ks = snd m) ->
      let m' := fold_left (fun m (e : nat * list mon) => let size := length (snd e) in if (snd m <? size) || ((size =? snd m) && (fst m <? fst e)) then (fst e, size) else m) r m in
      (m' = (0, 0) \/ exists ks, In (fst m', ks) l /\ length ks = snd m') /\ snd m <= snd m' /\ forall d ks, In (d, ks) r -> length ks <= snd m').
    { induction r as [|[d ks] r IH]; intros m Hr Hm; cbn zeta; [cbn [fold_left]; split; [exact Hm|]; split; [lia|intros d ks []]|]. cbn [fold_left fst snd].
      destruct ((snd m <? length ks) || ((length ks =? snd m) && (fst m <? d))) eqn:E.
      - destruct (IH (d, length ks)) as [A [B C]]; [intros e I; apply Hr; right; exact I|right; exists ks; split; [apply Hr; left; reflexivity|reflexivity]|]. cbn zeta in A, B, C. cbn [snd] in B. split; [exact A|].
        assert (L : snd m <= length ks). { apply Bool.orb_true_iff in E as [E|E]; [apply Nat.ltb_lt in E; clear - E; lia|]. apply andb_true_iff in E as [E _]. apply Nat.eqb_eq in E. clear - E. lia. }
        split; [clear - B L; lia|]. intros d' ks' [I|I]; [injection I as <- <-; exact B|apply (C d' ks' I)].
      - destruct (IH m) as [A [B C]]; [intros e I; apply Hr; right; exact I|exact Hm|]. cbn zeta in A, B, C. split; [exact A|]. split; [exact B|].
        intros d' ks' [I|I]; [|apply (C d' ks' I)]. injection I as <- <-. apply Bool.orb_false_iff in E as [E _]. apply Nat.ltb_ge in E. clear - E B. lia. }
    assert (Y : (most ord l = (0, 0) \/ exists ks, In (fst (most ord l), ks) l /\ length ks = snd (most ord l)) /\ 0 <= snd (most ord l) /\ forall d ks, In (d, ks) (ord _ l) -> length ks <= snd (most ord l)).
    { apply (X (ord _ l) (0, 0)); [intros e I; apply (Permutation_in _ (Ho _ l)); exact I|left; reflexivity]. }
    destruct Y as [A [_ C]]. assert (C' : forall d ks, In (d, ks) l -> length ks <= snd (most ord l)) by (intros d ks I; apply (C d ks); apply (Permutation_in _ (Permutation_sym (Ho _ l))); exact I).
    split; [|exact C']. destruct A as [A|A]; [|exact A]. exfalso. destruct l as [|[d ks] r]; [contradiction|]. pose proof (C' d ks (or_introl eq_refl)) as L. rewrite A in L. cbn [snd] in L.
    pose proof (Hl d ks (or_introl eq_refl)) as Nk. destruct ks; [contradiction|cbn in L; lia].
  Qed.

  (** ---- the monomials of a subtraction term ---- *)
  Definition skeys (q : polyff K0) : list mon := map fst (ord _ (pf_coefs (remove_zero_coefs (ord _) q))).
  Lemma erase_fold ks : forall (m : pmap K0) e a, In (e, a) (fold_left perase ks m) <-> In (e, a) m /\ ~ In e ks.
  Proof.
    induction ks as [|k ks IH]; intros m e a; [cbn; tauto|]. cbn [fold_left]. rewrite IH. unfold perase. rewrite filter_In. cbn [fst In]. destruct (mon_eqb_spec k e) as [->|Ne]; cbn [negb]; intuition (try discriminate; try congruence).
  Qed.
  Lemma erase_fold_nodup ks : forall (m : pmap K0), NoDup (map fst m) -> NoDup (map fst (fold_left perase ks m)).
  Proof. induction ks as [|k ks IH]; intros m H; [exact H|]. cbn [fold_left]. apply IH. unfold perase. apply NoDup_keys_filter. exact H. Qed.
  Lemma skeys_ok (q : polyff K0) : NoDup (map fst (pf_coefs q)) -> NoDup (skeys q) /\ forall k, In k (skeys q) <-> exists a, In (k, a) (pf_coefs q) /\ a <> f0.
  Proof.
    intros N. unfold skeys, remove_zero_coefs. cbn [pf_coefs]. set (ks := map fst (filter _ _)). split.
    - apply (Permutation_NoDup (Permutation_map fst (Permutation_sym (Ho _ _)))). apply erase_fold_nodup. exact N.
    - intros k. assert (Hk : forall a, In (k, a) (pf_coefs q) -> (In k ks <-> a = f0)).
      { intros a I. unfold ks. rewrite in_map_iff. split.
        - intros [[k' a'] [E J]]. cbn [fst] in E. subst k'. apply filter_In in J as [J Z]. cbn [snd] in Z. apply (fl_eqb K0 HK0) in Z. subst a'. rewrite (in_ord_any ord Ho) in J. rewrite <- (coef_in _ _ _ N I). apply coef_in; assumption.
        - intros ->. exists (k, f0). split; [reflexivity|]. apply filter_In. split; [rewrite (in_ord_any ord Ho); exact I|cbn [snd]; apply (feqb_refl HK0)]. }
      split.
      + intros I. apply in_map_iff in I as [[k' a] [E I]]. cbn [fst] in E. subst k'. rewrite (in_ord_any ord Ho) in I. apply erase_fold in I as [I J]. exists a. split; [exact I|]. intros ->. apply J. apply (Hk f0 I). reflexivity.
      + intros [a [I Na]]. apply in_map_iff. exists (k, a). split; [reflexivity|]. rewrite (in_ord_any ord Ho). apply erase_fold. split; [exact I|]. intros J. apply Na. apply (Hk a I). exact J.
  Qed.
  Lemma pzero_skeys (q : polyff K0) : NoDup (map fst (pf_coefs q)) -> (forall k a, In (k, a) (pf_coefs q) -> a = f0 -> k = zero_mon c) -> (pzero q = true <-> forall k, ~ In k (skeys q)).
  Proof.
    intros N C. destruct (skeys_ok q N) as [_ Hs]. unfold pzero. split.
    - intros Z k I. apply Hs in I as [a [I Na]]. destruct (pf_coefs q) as [|[e b] [|? ?]]; [destruct I| |discriminate]. destruct I as [I|[]]. injection I as -> ->. apply Na. apply (fl_eqb K0 HK0). exact Z.
    - intros H. assert (Z : forall e b, In (e, b) (pf_coefs q) -> b = f0).
      { intros e b I. destruct (feqb b f0) eqn:E; [apply (fl_eqb K0 HK0); exact E|]. exfalso. apply (H e). apply Hs. exists b. split; [exact I|]. apply (feqb_neq HK0). exact E. }
      destruct (pf_coefs q) as [|[e b] [|[e' b'] r]] eqn:Eq; [reflexivity| |].
      + rewrite (Z e b (or_introl eq_refl)). apply (feqb_refl HK0).
      + exfalso. cbn [map fst] in N. inversion N as [|? ? N1 _]; subst. apply N1. left. rewrite (C e b) by (try (left; reflexivity); apply (Z e b); left; reflexivity).
        rewrite (C e' b') by (try (right; left; reflexivity); apply (Z e' b'); right; left; reflexivity). reflexivity.
  Qed.

  (** ---- the loop over the degrees, degree by degree ---- *)
  Variable norm : bool.
  Variables (ns1 : list (nat * list mon)) (mx : nat * nat).
  Definition extra (l : list mon) (q : polyff K0) : list mon := filter (fun k => negb (existsb (mon_eqb k) l) && negb (mon_eqb k (zero_mon c))) (skeys q).
  Definition out (d : nat) (q : polyff K0) : option (list mon) * bool :=
    if d =? fst mx then (nfind ns1 d, false)
    else match nfind ns1 d with
    | Some l => if (0 <? length (l ++ extra l q)) && (length (l ++ extra l q) <? snd mx) then (Some (l ++ extra l q), true) else (Some l, false)
    | None =>
        if negb (norm && (d =? 0)) && negb (pzero q) then
          if length (skeys q) <? snd mx then (Some (if d =? 0 then skeys q else filter (fun k => negb (mon_eqb k (zero_mon c))) (skeys q)), true)
          else (Some [zero_mon c], false)
        else (None, false)
    end.
  Lemma degree_step st d q : nfind (fst st) d = nfind ns1 d -> nmem d (snd st) = false -> NoDup (map fst (fst st)) ->
    let st1 := sing_degree ord c norm mx st (d, q) in
    NoDup (map fst (fst st1)) /\ (forall e, nfind (fst st1) e = if e =? d then fst (out d q) else nfind (fst st) e) /\ (forall e, nmem e (snd st1) = if e =? d then snd (out d q) else nmem e (snd st)).
  Proof.
    intros E1 E2 N. cbn zeta.
    assert (Keep : fst (out d q) = nfind ns1 d -> snd (out d q) = false -> NoDup (map fst (fst st)) /\ (forall e, nfind (fst st) e = if e =? d then fst (out d q) else nfind (fst st) e) /\ (forall e, nmem e (snd st) = if e =? d then snd (out d q) else nmem e (snd st))).
    { intros H1 H2. split; [exact N|]. rewrite H1, H2. split; intros e; destruct (Nat.eqb_spec e d) as [->|]; auto. }
    assert (Put : forall l b, fst (out d q) = Some l -> snd (out d q) = b -> NoDup (map fst (nset (fst st) d l)) /\ (forall e, nfind (nset (fst st) d l) e = if e =? d then fst (out d q) else nfind (fst st) e) /\ (forall e, nmem e (if b then d :: snd st else snd st) = if e =? d then snd (out d q) else nmem e (snd st))).
    { intros l b H1 H2. split; [apply nset_nodup; exact N|]. rewrite H1, H2. split; intros e; [rewrite nfind_set; reflexivity|]. destruct b; [unfold nmem; cbn [existsb]; destruct (e =? d); reflexivity|]. destruct (Nat.eqb_spec e d) as [->|]; [exact E2|reflexivity]. }
    revert Keep Put. unfold sing_degree, out. destruct (d =? fst mx); [intros Keep _; apply Keep; reflexivity|]. rewrite E1. destruct (nfind ns1 d) as [l|].
    - fold (skeys q). fold (extra l q). destruct ((0 <? length (l ++ extra l q)) && (length (l ++ extra l q) <? snd mx)); intros Keep Put; [apply (Put (l ++ extra l q) true); reflexivity|apply Keep; reflexivity].
    - destruct (negb (norm && (d =? 0)) && negb (pzero q)); [|intros Keep _; apply Keep; reflexivity]. fold (skeys q). destruct (length (skeys q) <? snd mx); intros _ Put; cbn [fst snd].
      + apply (Put _ true); reflexivity.
      + apply (Put _ false); reflexivity.
  Qed.
  Lemma degree_fold l : forall st, NoDup (map fst l) -> NoDup (map fst (fst st)) -> (forall d, In d (map fst l) -> nfind (fst st) d = nfind ns1 d /\ nmem d (snd st) = false) ->
    let st1 := fold_left (sing_degree ord c norm mx) l st in
    NoDup (map fst (fst st1)) /\ forall d, match nfind l d with Some q => nfind (fst st1) d = fst (out d q) /\ nmem d (snd st1) = snd (out d q) | None => nfind (fst st1) d = nfind (fst st) d /\ nmem d (snd st1) = nmem d (snd st) end.
  Proof.
    induction l as [|[d q] l IH]; intros st Nl Ns H; cbn zeta.
    - cbn [fold_left nfind]. auto.
    - cbn [fold_left]. cbn [map fst] in Nl. inversion Nl as [|? ? N1 N2]; subst. destruct (H d (or_introl eq_refl)) as [H1 H2]. destruct (degree_step st d q H1 H2 Ns) as [A [B C]]. cbn zeta in A, B, C.
      destruct (IH (sing_degree ord c norm mx st (d, q)) N2 A) as [X Y]; [intros e I; rewrite B, C; destruct (Nat.eqb_spec e d) as [->|]; [contradiction|apply H; right; exact I]|]. cbn zeta in X, Y. split; [exact X|]. intros e. specialize (Y e). cbn [nfind].
      destruct (Nat.eqb_spec e d) as [->|Ne].
      + rewrite (proj2 (nfind_None l d) N1) in Y. rewrite B, C, Nat.eqb_refl in Y. exact Y.
      + destruct (nfind l e); [exact Y|]. rewrite B, C in Y. destruct (Nat.eqb_spec e d); [contradiction|exact Y].
  Qed.
End Start.

Section Plan.
  Context {K K0 : fops} (HK : flaws K) (HK0 : flaws K0).
  Add Field KPL : (fl_field K HK).
  Variable ord : forall A : Type, list A -> list A.
  Hypothesis Ho : forall A (l : list A), Permutation (ord A l) l.
  Variable c : mcfg.
  Local Notation n := (mc_n c).
  Variable y : nat -> K.
  Variables (G : nat) (P Ps : list (list Z * K)).
  Hypothesis Hn : 2 <= n.
  Hypothesis HP : wf n G P.
  Hypothesis HPs : wf n G Ps.
  Hypothesis NP : NoDup (map fst P).
  Hypothesis NPs : NoDup (map fst Ps).
  Hypothesis HG : (Z.of_nat G < 2 ^ 31)%Z.
  Variables (norm is_den : bool) (g W : list mon) (ns : list (nat * list mon)) (sub : list (nat * polyff K0)) (zero : list nat).
  Hypothesis KB : known_side n G norm P Ps y g W ns sub zero.

  Hypothesis Htop : 0 < G /\ exists k, In k (map fst P) /\ total k = Z.of_nat G.

  Local Notation st := (sing_start (K:=K) ord c is_den norm g ns sub zero G).
  Definition ns1 : list (nat * list mon) := fold_left (fun m k => if norm && mon_eqb k (zero_mon c) then m else add_non_solved m k) (ord _ g) ns.
  Definition mx : nat * nat := most ord ns1.
  Definition sub1 : list (nat * polyff K0) := fold_left (fun m i => match nfind m i with Some _ => m | None => nset m i (@zero_poly K0 c) end) (seq 0 (S G)) sub.

  Lemma key_P k : In k (map fst P) -> key_ok n k /\ (total k <= Z.of_nat G)%Z.
  Proof.
    intros I. apply in_map_iff in I as [[e a] [<- I]]. destruct (HP e a I) as [A [B C]]. cbn [fst]. split; [split; [exact A|]; split; [exact B|lia]|exact C].
  Qed.
  Lemma groups_ns1 : groups ns1 (map fst P).
  Proof.
    pose proof (kb_split _ _ _ _ _ _ _ _ _ _ _ KB) as Pm.
    assert (E : ns1 = fold_left add_non_solved (ord _ g) ns).
    { unfold ns1. assert (H : forall k, In k (ord _ g) -> k <> zero_mon c). { intros k I ->. apply (kb_noconst _ _ _ _ _ _ _ _ _ _ _ KB). apply (Permutation_in _ Pm). apply in_or_app. right. rewrite <- (in_ord_any ord Ho). exact I. }
      revert H. generalize ns. induction (ord _ g) as [|k l IH]; intros m H; [reflexivity|]. cbn [fold_left]. assert (Ek : mon_eqb k (zero_mon c) = false). { destruct (mon_eqb_spec k (zero_mon c)) as [X|X]; [exfalso; apply (H k); [left; reflexivity|exact X]|reflexivity]. }
      rewrite Ek, Bool.andb_false_r. apply IH. intros k' I. apply H. right. exact I. }
    rewrite E. eapply groups_keys; [|apply (groups_fold n (ord _ g)); [|apply (kb_groups _ _ _ _ _ _ _ _ _ _ _ KB)]].
    - transitivity (W ++ g); [apply Permutation_app_head; apply Ho|exact Pm].
    - intros k I. apply (key_P k). apply (Permutation_in _ Pm). apply in_or_app. right. rewrite <- (in_ord_any ord Ho). exact I.
  Qed.
  Lemma dg_P k d : In k (map fst P) -> (dg k = d <-> total k = Z.of_nat d).
  Proof. intros I. destruct (key_P k I) as [O _]. pose proof (dg_total n k O). lia. Qed.
  Lemma ns1_some d l : nfind ns1 d = Some l -> l <> [] /\ NoDup l /\ d <= G /\ forall k, In k l <-> In k (map fst P) /\ total k = Z.of_nat d.
  Proof.
    intros E. apply nfind_In in E. pose proof groups_ns1 as GR. destruct (group_in _ _ _ _ GR E) as [_ H]. destruct GR as [_ [X _]]. destruct (X d l E) as [Ne Pm].
    assert (H' : forall k, In k l <-> In k (map fst P) /\ total k = Z.of_nat d). { intros k. rewrite H. split; intros [I J]; (split; [exact I|apply (dg_P k d I); exact J]). }
    split; [exact Ne|]. split; [apply (Permutation_NoDup (Permutation_sym Pm)); unfold of_degree; apply NoDup_filter; exact NP|]. split; [|exact H'].
    destruct l as [|k l]; [contradiction|]. destruct (proj1 (H' k) (or_introl eq_refl)) as [I T]. destruct (key_P k I). lia.
  Qed.
  Lemma ns1_none d : nfind ns1 d = None <-> forall k, In k (map fst P) -> total k <> Z.of_nat d.
  Proof.
    split.
    - intros E k I T. apply nfind_None in E. apply E. apply (dg_P k d I) in T. rewrite <- T. apply groups_ns1. exact I.
    - intros H. destruct (nfind ns1 d) as [l|] eqn:E; [exfalso|reflexivity]. destruct (ns1_some d l E) as [Ne [_ [_ X]]]. destruct l as [|k l]; [contradiction|]. destruct (proj1 (X k) (or_introl eq_refl)) as [I T]. apply (H k I T).
  Qed.
  Lemma hom_none d : (forall k, In k (map fst P) -> total k <> Z.of_nat d) <-> hom d P = [].
  Proof.
    split.
    - intros H. destruct (hom d P) as [|[e a] l] eqn:E; [reflexivity|]. exfalso. assert (I : In (e, a) (hom d P)) by (rewrite E; left; reflexivity). apply in_hom in I as [I T]. apply (H e); [apply in_map_iff; exists (e, a); auto|exact T].
    - intros E k I T. apply in_map_iff in I as [[e a] [<- I]]. assert (J : In (e, a) (hom d P)) by (apply in_hom; auto). rewrite E in J. exact J.
  Qed.
  Lemma ns1_nd : NoDup (map fst ns1). Proof. apply groups_ns1. Qed.
  Lemma mx_ok : (exists l, nfind ns1 (fst mx) = Some l /\ length l = snd mx) /\ (forall d l, nfind ns1 d = Some l -> length l <= snd mx) /\ 0 < snd mx.
  Proof.
    destruct (most_ok ord Ho ns1) as [[l [I L]] M].
    - intros E. destruct Htop as [_ [k [I _]]]. destruct groups_ns1 as [_ [_ X]]. specialize (X k I). rewrite E in X. exact X.
    - intros d ks I. apply (nfind_iff _ _ _ ns1_nd) in I. apply (ns1_some d ks I).
    - fold mx in I, L, M. apply (nfind_iff _ _ _ ns1_nd) in I. split; [exists l; auto|]. split.
      + intros d l' E. apply (M d). apply nfind_In. exact E.
      + destruct (ns1_some _ _ I) as [Ne _]. destruct l; [contradiction|cbn in L; lia].
  Qed.

  (** ---- the subtraction terms ---- *)
  Lemma sub1_ok : NoDup (map fst sub1) /\ (forall d, In d (map fst sub1) <-> d <= G) /\ forall d, d <= G -> nfind sub1 d = match nfind sub d with Some q => Some q | None => Some (zero_poly c) end.
  Proof.
    destruct (kb_sub_keys _ _ _ _ _ _ _ _ _ _ _ KB) as [N L].
    assert (X : forall r m, NoDup (map fst m) -> let m' := fold_left (fun m i => match nfind m i with Some _ => m | None => nset m i (@zero_poly K0 c) end) r m in
      NoDup (map fst m') /\ forall d, nfind m' d = match nfind m d with Some q => Some q | None => if nmem d r then Some (zero_poly c) else None end).
    { induction r as [|i r IH]; intros m Nm; cbn zeta; [cbn [fold_left]; split; [exact Nm|]; intros d; destruct (nfind m d); reflexivity|]. cbn [fold_left]. destruct (nfind m i) as [q|] eqn:E.
      - destruct (IH m Nm) as [A B]. cbn zeta in A, B. split; [exact A|]. intros d. rewrite B. unfold nmem. cbn [existsb]. destruct (nfind m d) eqn:Ed; [reflexivity|]. destruct (Nat.eqb_spec d i) as [->|Ne]; [congruence|reflexivity].
      - destruct (IH (nset m i (zero_poly c))) as [A B]; [apply nset_nodup; exact Nm|]. cbn zeta in A, B. split; [exact A|]. intros d. rewrite B, nfind_set. unfold nmem. cbn [existsb]. destruct (Nat.eqb_spec d i) as [->|Ne]; [rewrite E; reflexivity|reflexivity]. }
    destruct (X (seq 0 (S G)) sub N) as [A B]. cbn zeta in A, B. fold sub1 in A, B. split; [exact A|].
    assert (B' : forall d, d <= G -> nfind sub1 d = match nfind sub d with Some q => Some q | None => Some (zero_poly c) end). { intros d Ld. rewrite B. destruct (nfind sub d); [reflexivity|]. rewrite (proj2 (nmem_In d (seq 0 (S G)))) by (apply in_seq; lia). reflexivity. }
    split; [|exact B']. intros d. rewrite nfind_in_iff. split.
    - intros [q E]. rewrite B in E. destruct (nfind sub d) as [q'|] eqn:E'; [apply L; apply nfind_in_iff; exists q'; exact E'|]. destruct (nmem d (seq 0 (S G))) eqn:M; [|discriminate]. apply nmem_In, in_seq in M. lia.
    - intros Ld. rewrite (B' d Ld). destruct (nfind sub d) as [q|]; eexists; reflexivity.
  Qed.
  Definition q1 (d : nat) : polyff K0 := match nfind sub d with Some q => q | None => zero_poly c end.
  Lemma skeys_q1 d : NoDup (skeys ord (q1 d)) /\ (forall k, In k (skeys ord (q1 d)) <-> exists a, In (k, a) (sub_at sub d) /\ a <> f0) /\ (pzero (q1 d) = true <-> forall k, ~ In k (skeys ord (q1 d))).
  Proof.
    destruct (kb_sub _ _ _ _ _ _ _ _ _ _ _ KB d) as [N F]. unfold q1, sub_at in *. destruct (nfind sub d) as [q|].
    - destruct (skeys_ok HK0 ord Ho q N) as [A B]. split; [exact A|]. split; [exact B|]. apply (pzero_skeys HK0 ord Ho c q N). intros k a I Z. specialize (F k a I). rewrite Z in F. rewrite (feqb_refl HK0) in F. exact F.
    - assert (Nz : NoDup (map fst (pf_coefs (@zero_poly K0 c)))) by (cbn; constructor; [intros []|constructor]). destruct (skeys_ok HK0 ord Ho (zero_poly c) Nz) as [A B]. split; [exact A|]. split.
      + intros k. rewrite B. split; [intros [a [[I|[]] Na]]; injection I as <- <-; contradiction|intros [a [[] _]]].
      + apply (pzero_skeys HK0 ord Ho c _ Nz). intros k a [I|[]] _. injection I as <- _. reflexivity.
  Qed.
  Lemma skeys_deg d k : In k (skeys ord (q1 d)) -> length k = n /\ (forall i, (0 <= nth i k 0)%Z) /\ total k = Z.of_nat d /\ In k (map fst (sub_at sub d)).
  Proof.
    intros I. apply skeys_q1 in I as [a [I Na]]. destruct (kb_sub _ _ _ _ _ _ _ _ _ _ _ KB d) as [_ F]. specialize (F k a I). rewrite (proj2 (feqb_neq HK0 a f0) Na) in F. destruct F as [A [B C]]. split; [exact A|]. split; [exact B|]. split; [exact C|]. apply in_map_iff. exists (k, a). auto.
  Qed.
  Lemma total_zero : total (zero_mon c) = 0%Z.
  Proof. unfold zero_mon. generalize n. intros m. induction m as [|m IH]; [reflexivity|]. cbn [repeat]. rewrite total_cons, IH. reflexivity. Qed.

  (** ---- the state at the beginning ---- *)
  Definition res : list (nat * list mon) * list nat := fold_left (sing_degree ord c norm mx) (ord _ sub1) (ns1, []).
  Lemma start_eq : st = (mk_scfg (fst mx) (snd res) zero G is_den, mk_sside (fst res) (map (fun e => (fst e, [])) (fst res)) [] (map (fun i => (i, @zero_poly K c)) (seq 0 (S G))) 0).
  Proof. reflexivity. Qed.
  Lemma res_ok : NoDup (map fst (fst res)) /\ (forall d, d <= G -> nfind (fst res) d = fst (out ord c norm ns1 mx d (q1 d)) /\ nmem d (snd res) = snd (out ord c norm ns1 mx d (q1 d))) /\ (forall d, G < d -> nfind (fst res) d = None).
  Proof.
    destruct sub1_ok as [N1 [L1 V1]]. assert (No : NoDup (map fst (ord _ sub1))) by (apply (Permutation_NoDup (Permutation_map fst (Permutation_sym (Ho _ sub1)))); exact N1).
    destruct (degree_fold ord c norm ns1 mx (ord _ sub1) (ns1, [])) as [A B]; [exact No|exact ns1_nd|intros d _; split; reflexivity|]. cbn zeta in A, B. fold res in A, B. split; [exact A|].
    assert (Fo : forall d, nfind (ord _ sub1) d = nfind sub1 d).
    { intros d. destruct (nfind sub1 d) as [q|] eqn:E; [|apply nfind_None; apply nfind_None in E; intros I; apply E; apply (Permutation_in _ (Permutation_map fst (Ho _ sub1))); exact I].
      apply (nfind_iff _ _ _ No). rewrite (in_ord_any ord Ho). apply nfind_In. exact E. }
    split.
    - intros d Ld. specialize (B d). rewrite Fo, (V1 d Ld) in B. unfold q1. destruct (nfind sub d); exact B.
    - intros d Ld. specialize (B d). rewrite Fo in B. rewrite (proj2 (nfind_None sub1 d)) in B by (rewrite L1; lia). destruct B as [-> _]. cbn [fst]. destruct (nfind ns1 d) as [l|] eqn:E; [|reflexivity]. destruct (ns1_some d l E) as [_ [_ [X _]]]. lia.
  Qed.
  Lemma norm_no_const : norm = true -> nfind ns1 0 = None.
  Proof.
    intros _. apply ns1_none. intros k I T. apply (kb_noconst _ _ _ _ _ _ _ _ _ _ _ KB). destruct (key_P k I) as [[A [B _]] _]. replace (repeat 0%Z n) with k; [exact I|]. apply (nth_ext _ _ 0%Z 0%Z); [rewrite repeat_length; exact A|].
    intros i _. rewrite nth_repeat. pose proof (nth_total k i B). specialize (B i). lia.
  Qed.
  Lemma no_const : nfind ns1 0 = None.
  Proof.
    apply ns1_none. intros k I T. apply (kb_noconst _ _ _ _ _ _ _ _ _ _ _ KB). destruct (key_P k I) as [[A [B _]] _]. replace (repeat 0%Z n) with k; [exact I|]. apply (nth_ext _ _ 0%Z 0%Z); [rewrite repeat_length; exact A|].
    intros i _. rewrite nth_repeat. pose proof (nth_total k i B). specialize (B i). lia.
  Qed.
  Lemma extra_in d l k : nfind ns1 d = Some l -> (In k (extra ord c l (q1 d)) <-> In k (skeys ord (q1 d)) /\ ~ In k l).
  Proof.
    intros E. unfold extra. rewrite filter_In, andb_true_iff, !Bool.negb_true_iff. split.
    - intros [I [X _]]. split; [exact I|]. intros J. assert (Y : existsb (mon_eqb k) l = true) by (apply existsb_exists; exists k; split; [exact J|apply mon_eqb_refl]). congruence.
    - intros [I X]. split; [exact I|]. split.
      + destruct (existsb (mon_eqb k) l) eqn:Y; [|reflexivity]. exfalso. apply X. apply existsb_exists in Y as [k' [J Y]]. destruct (mon_eqb_spec k k') as [->|]; [exact J|discriminate].
      + destruct (mon_eqb_spec k (zero_mon c)) as [->|]; [exfalso|reflexivity]. destruct (skeys_deg d _ I) as [_ [_ [T _]]]. rewrite total_zero in T. destruct d; [|lia]. rewrite no_const in E. discriminate.
  Qed.
  (** what is found for a degree *)
  Lemma out_dense d l : d <= G -> nfind (fst res) d = Some l -> nmem d (snd res) = true ->
    d <> fst mx /\ l <> [] /\ NoDup l /\ length l < snd mx /\ (norm = true -> d <> 0) /\ (forall k, In k l <-> (In k (map fst P) /\ total k = Z.of_nat d) \/ In k (skeys ord (q1 d))).
  Proof.
    intros Ld E M. destruct res_ok as [_ [R _]]. destruct (R d Ld) as [R1 R2]. rewrite E in R1. rewrite M in R2. clear E M. unfold out in R1, R2. destruct (Nat.eqb_spec d (fst mx)) as [|Ne]; [discriminate|]. destruct (skeys_q1 d) as [NS [IS ZS]].
    destruct (nfind ns1 d) as [l0|] eqn:E0.
    - destruct (ns1_some d l0 E0) as [Ne0 [Nd0 [_ X]]]. destruct ((0 <? length (l0 ++ extra ord c l0 (q1 d))) && (length (l0 ++ extra ord c l0 (q1 d)) <? snd mx)) eqn:B; [|discriminate]. cbn [fst] in R1. injection R1 as ->. apply andb_true_iff in B as [_ B]. apply Nat.ltb_lt in B.
      split; [exact Ne|]. split; [destruct l0; [contradiction|discriminate]|]. split; [|split; [exact B|split]].
      + apply NoDup_app_intro; [exact Nd0|unfold extra; apply NoDup_filter; exact NS|]. intros k I J. apply (extra_in d l0 k E0) in J. tauto.
      + intros _ ->. rewrite no_const in E0. discriminate.
      + intros k. rewrite in_app_iff, (extra_in d l0 k E0), X. destruct (in_dec (list_eq_dec Z.eq_dec) k l0) as [J|J]; [apply X in J; tauto|]. rewrite X in J. tauto.
    - destruct (negb (norm && (d =? 0)) && negb (pzero (q1 d))) eqn:B; [|discriminate]. apply andb_true_iff in B as [B1 B2]. apply Bool.negb_true_iff in B1, B2. destruct (Nat.ltb_spec (length (skeys ord (q1 d))) (snd mx)) as [L|L]; [|discriminate]. cbn [fst] in R1. injection R1 as R1.
      assert (Fl : filter (fun k => negb (mon_eqb k (zero_mon c))) (skeys ord (q1 d)) = skeys ord (q1 d) \/ d = 0).
      { destruct d as [|d]; [right; reflexivity|left]. clear - K0 HK0 KB Ho. assert (X : forall k, In k (skeys ord (q1 (S d))) -> mon_eqb k (zero_mon c) = false).
        { intros k I. destruct (mon_eqb_spec k (zero_mon c)) as [->|]; [exfalso|reflexivity]. destruct (skeys_deg (S d) _ I) as [_ [_ [T _]]]. rewrite total_zero in T. lia. }
        induction (skeys ord (q1 (S d))) as [|k r IH]; [reflexivity|]. cbn [filter]. rewrite (X k (or_introl eq_refl)). cbn [negb]. f_equal. apply IH. intros k' I. apply X. right. exact I. }
      assert (El : l = skeys ord (q1 d)). { destruct Fl as [Fl| ->]; [rewrite Fl in R1; destruct (d =? 0); auto|cbn [Nat.eqb] in R1; auto]. } clear R1 Fl. subst l.
      split; [exact Ne|]. split; [intros X; assert (T : pzero (q1 d) = true) by (apply ZS; rewrite X; intros k []); congruence|]. split; [exact NS|]. split; [exact L|]. split.
      + intros -> ->. cbn in B1. discriminate.
      + intros k. split; [auto|]. intros [[I T]|I]; [exfalso; apply ((proj1 (ns1_none d) E0) k I T)|exact I].
  Qed.
  Lemma out_sparse d l : d <= G -> nfind (fst res) d = Some l -> nmem d (snd res) = false -> nfind ns1 d = Some l \/ (nfind ns1 d = None /\ l = [zero_mon c] /\ In d zero).
  Proof.
    intros Ld E M. destruct res_ok as [_ [R _]]. destruct (R d Ld) as [R1 R2]. rewrite E in R1. rewrite M in R2. clear E M. unfold out in R1, R2. destruct (Nat.eqb_spec d (fst mx)) as [|Ne]; [left; symmetry; exact R1|]. destruct (skeys_q1 d) as [NS [IS ZS]].
    destruct (nfind ns1 d) as [l0|] eqn:E0.
    - destruct ((0 <? length (l0 ++ extra ord c l0 (q1 d))) && (length (l0 ++ extra ord c l0 (q1 d)) <? snd mx)) eqn:B; [discriminate|]. left. symmetry. exact R1.
    - right. destruct (negb (norm && (d =? 0)) && negb (pzero (q1 d))) eqn:B; [|discriminate]. apply andb_true_iff in B as [_ B2]. apply Bool.negb_true_iff in B2. destruct (Nat.ltb_spec (length (skeys ord (q1 d))) (snd mx)) as [L|L]; [discriminate|]. cbn [fst] in R1. injection R1 as ->.
      split; [reflexivity|]. split; [reflexivity|]. apply (kb_zero_all _ _ _ _ _ _ _ _ _ _ _ KB d Ld); [apply ns1_none; exact E0|]. destruct (skeys ord (q1 d)) as [|k r] eqn:Ek; [exfalso; cbn in L; pose proof (proj2 (proj2 mx_ok)); lia|]. destruct (proj1 (IS k) (or_introl eq_refl)) as [a X]. exists k, a. exact X.
  Qed.
  Lemma out_none d : d <= G -> nfind (fst res) d = None -> nfind ns1 d = None /\ ((norm = true /\ d = 0) \/ forall k a, In (k, a) (sub_at sub d) -> a = f0).
  Proof.
    intros Ld E. destruct res_ok as [_ [R _]]. destruct (R d Ld) as [R1 _]. rewrite E in R1. clear E. unfold out in R1. destruct (skeys_q1 d) as [NS [IS ZS]]. destruct (Nat.eqb_spec d (fst mx)) as [->|Ne].
    - exfalso. destruct mx_ok as [[l [X _]] _]. cbn [fst] in R1. congruence.
    - destruct (nfind ns1 d) as [l0|] eqn:E0; [destruct (_ && _); discriminate|]. split; [reflexivity|]. destruct (negb (norm && (d =? 0)) && negb (pzero (q1 d))) eqn:B; [destruct (_ <? _); discriminate|].
      apply Bool.andb_false_iff in B as [B|B]; apply Bool.negb_false_iff in B.
      + left. apply andb_true_iff in B as [B1 B2]. apply Nat.eqb_eq in B2. auto.
      + right. intros k a I. destruct (feqb a f0) eqn:Z; [apply (fl_eqb K0 HK0); exact Z|]. exfalso. apply (feqb_neq HK0) in Z. apply (proj1 ZS B k). apply IS. exists a. auto.
  Qed.
  (** the shifted part of a degree *)
  Lemma hom_Ps_in d k : In k (map fst (hom d Ps)) <-> In k (map fst Ps) /\ total k = Z.of_nat d.
  Proof.
    split.
    - intros I. apply in_map_iff in I as [[e a] [<- I]]. apply in_hom in I as [I T]. split; [apply in_map_iff; exists (e, a); auto|exact T].
    - intros [I T]. apply in_map_iff in I as [[e a] [<- I]]. apply in_map_iff. exists (e, a). split; [reflexivity|]. apply in_hom. auto.
  Qed.
  Lemma hom_P_in d k : In k (map fst (hom d P)) <-> In k (map fst P) /\ total k = Z.of_nat d.
  Proof.
    split.
    - intros I. apply in_map_iff in I as [[e a] [<- I]]. apply in_hom in I as [I T]. split; [apply in_map_iff; exists (e, a); auto|exact T].
    - intros [I T]. apply in_map_iff in I as [[e a] [<- I]]. apply in_map_iff. exists (e, a). split; [reflexivity|]. apply in_hom. auto.
  Qed.
  Lemma shift_in_sub d k : In k (map fst (hom d Ps)) -> ~ In k (map fst P) -> (norm = true -> d <> 0) -> In k (skeys ord (q1 d)).
  Proof.
    intros I J Hd. apply hom_Ps_in in I as [I T]. apply skeys_q1. destruct (kb_shift _ _ _ _ _ _ _ _ _ _ _ KB k I J) as [a [X Na]]; [intros E; specialize (Hd E); lia|]. rewrite T, Nat2Z.id in X. exists a. auto.
  Qed.
  Lemma sub_none_value d : (forall k, In k (map fst P) -> total k <> Z.of_nat d) -> (norm = true -> d <> 0) -> (forall k a, In (k, a) (sub_at sub d) -> a = f0) -> hom d Ps = [].
  Proof.
    intros H1 H2 H3. destruct (hom d Ps) as [|[e b] l] eqn:E; [reflexivity|]. exfalso. assert (I : In e (map fst (hom d Ps))) by (rewrite E; left; reflexivity). pose proof (proj1 (hom_Ps_in d e) I) as [_ T].
    assert (X : In e (skeys ord (q1 d))) by (apply (shift_in_sub d e I); [intros J; apply (H1 e J T)|exact H2]). apply skeys_q1 in X as [a [X Na]]. apply Na. apply (H3 e a X).
  Qed.
  Theorem start_plan : plan n G P Ps y (fst st) (fst res).
  Proof.
    rewrite start_eq. cbn [fst]. destruct res_ok as [NR [R RO]]. destruct mx_ok as [[lm [Em Lm]] [Mle Mpos]]. destruct (ns1_some _ _ Em) as [_ [_ [Gm _]]].
    assert (Rm : nfind (fst res) (fst mx) = Some lm /\ nmem (fst mx) (snd res) = false). { destruct (R _ Gm) as [A B]. unfold out in A, B. rewrite Nat.eqb_refl in A, B. cbn [fst snd] in A, B. rewrite A, B. split; [exact Em|reflexivity]. }
    assert (Le : forall d l, nfind (fst res) d = Some l -> d <= G). { intros d l E. destruct (Nat.le_gt_cases d G) as [L|L]; [exact L|]. rewrite (RO d L) in E. discriminate. }
    assert (Lmx : length (nget [] (fst res) (fst mx)) = snd mx) by (unfold nget; rewrite (proj1 Rm); exact Lm).
    constructor; cbn [sc_max sc_dense sc_zero sc_deg sc_den].
    - exact NR.
    - reflexivity.
    - apply nfind_in_iff. exists lm. apply Rm.
    - apply Rm.
    - intros d I. apply nfind_in_iff in I as [l E]. apply (Le d l E).
    - intros d l E. rewrite Lmx. pose proof (Le d l E) as Ld. destruct (nmem d (snd res)) eqn:M.
      + destruct (out_dense d l Ld E M) as [_ [A [B [C _]]]]. split; [exact A|]. split; [exact B|lia].
      + destruct (out_sparse d l Ld E M) as [E1|[_ [-> _]]]; [destruct (ns1_some d l E1) as [A [B _]]; split; [exact A|]; split; [exact B|apply (Mle d l E1)]|]. split; [discriminate|]. split; [constructor; [intros []|constructor]|cbn; lia].
    - intros d l E k k' I I' V. pose proof (Le d l E) as Ld. destruct (nmem d (snd res)) eqn:M.
      + destruct (out_dense d l Ld E M) as [_ [_ [_ [_ [_ X]]]]]. assert (Y : forall k, In k l -> (In k (map fst P) \/ In k (map fst (sub_at sub d))) /\ total k = Z.of_nat d).
        { intros k0 J. apply X in J as [[J T]|J]; [auto|]. destruct (skeys_deg d k0 J) as [_ [_ [T S]]]. auto. }
        destruct (Y k I), (Y k' I'). apply (kb_apart _ _ _ _ _ _ _ _ _ _ _ KB d); assumption.
      + destruct (out_sparse d l Ld E M) as [E1|[_ [-> _]]]; [|destruct I as [<-|[]], I' as [<-|[]]; reflexivity]. destruct (ns1_some d l E1) as [_ [_ [_ X]]]. apply X in I as [I T], I' as [I' T']. apply (kb_apart _ _ _ _ _ _ _ _ _ _ _ KB d); auto.
    - intros d l E M. pose proof (Le d l E) as Ld. destruct (out_dense d l Ld E M) as [_ [_ [_ [L [N0 X]]]]]. split; [rewrite Lmx; exact L|]. split.
      + apply Forall_forall. intros k I. apply X in I as [[I T]|I]; [split; [apply key_exp; apply (key_P k I)|exact T]|]. destruct (skeys_deg d k I) as [A [B [T _]]]. split; [|exact T]. apply key_exp. split; [exact A|]. split; [exact B|lia].
      + intros k I. apply X. destruct (in_dec (list_eq_dec Z.eq_dec) k (map fst P)) as [J|J]; [left; split; [exact J|apply hom_Ps_in in I; apply I]|right; apply (shift_in_sub d k I J N0)].
    - intros d l E M Zd. pose proof (Le d l E) as Ld. destruct (out_sparse d l Ld E M) as [E1|[_ [_ J]]]; [|exfalso; apply nmem_false in Zd; contradiction]. destruct (ns1_some d l E1) as [_ [_ [_ X]]]. split.
      + apply Forall_forall. intros k I. apply X in I as [I T]. split; [apply key_exp; apply (key_P k I)|exact T].
      + intros k I. apply X. apply hom_P_in. exact I.
    - intros d Zd. apply nmem_In in Zd. apply hom_none. intros k I T. apply (kb_zero _ _ _ _ _ _ _ _ _ _ _ KB d Zd k I T).
    - intros I. apply nfind_in_iff in I as [l E]. destruct (nmem 0 (snd res)) eqn:M; [left; reflexivity|right]. destruct (out_sparse 0 l ltac:(lia) E M) as [E1|[_ [_ J]]]; [rewrite no_const in E1; discriminate|apply nmem_In; exact J].
    - destruct Htop as [A [k [I T]]]. split; [exact A|]. intros X. apply (proj2 (hom_none G) X k I T).
    - intros d Ld Nd. assert (E : nfind (fst res) d = None) by (apply nfind_None; exact Nd). destruct (out_none d Ld E) as [E1 X]. pose proof (proj1 (ns1_none d) E1) as HN. split; [apply hom_none; exact HN|]. intros Pd x. destruct X as [[_ ->]|X]; [lia|].
      rewrite (sub_none_value d HN); [reflexivity|lia|exact X].
  Qed.
  (** the constant *)
  Lemma start_const : (norm = true -> ~ In 0 (map fst (fst res))) /\ (norm = false -> In 0 (map fst (fst res)) \/ hom 0 Ps = []).
  Proof.
    split.
    - intros En I. apply nfind_in_iff in I as [l E]. destruct res_ok as [_ [R _]]. destruct (R 0 ltac:(lia)) as [R1 _]. rewrite E in R1. unfold out in R1. rewrite no_const, En in R1. destruct (0 =? fst mx); cbn in R1; discriminate.
    - intros En. destruct (nfind (fst res) 0) as [l|] eqn:E; [left; apply nfind_in_iff; exists l; exact E|right]. destruct (out_none 0 ltac:(lia) E) as [E1 X].
      destruct X as [[? _]|X]; [congruence|]. apply sub_none_value; [apply ns1_none; exact E1|congruence|exact X].
  Qed.
  Lemma start_keys d : In d (map fst (fst res)) <-> d <= G /\ ((exists k, In k (map fst P) /\ total k = Z.of_nat d) \/ ((norm = true -> d <> 0) /\ exists k a, In (k, a) (sub_at sub d) /\ a <> f0)).
  Proof.
    destruct res_ok as [_ [R RO]]. destruct (Nat.le_gt_cases d G) as [Ld|Ld]; [|split; [intros I; apply nfind_in_iff in I as [l E]; rewrite (RO d Ld) in E; discriminate|intros [X _]; lia]].
    rewrite nfind_in_iff. destruct (nfind (fst res) d) as [l|] eqn:E.
    - split; [intros _; split; [exact Ld|]|intros _; exists l; reflexivity]. destruct (R d Ld) as [R1 _]. rewrite E in R1. destruct (nfind ns1 d) as [l0|] eqn:E0.
      + left. destruct (ns1_some d l0 E0) as [Ne [_ [_ X]]]. destruct l0 as [|k r]; [contradiction|]. exists k. apply X. left. reflexivity.
      + right. unfold out in R1. rewrite E0 in R1. destruct (d =? fst mx); [discriminate|]. destruct (negb (norm && (d =? 0)) && negb (pzero (q1 d))) eqn:B; [|discriminate]. apply andb_true_iff in B as [B1 B2]. apply Bool.negb_true_iff in B1, B2.
        split; [intros X ->; rewrite X in B1; discriminate|]. destruct (skeys_q1 d) as [_ [IS ZS]]. destruct (skeys ord (q1 d)) as [|k r] eqn:Ek; [exfalso; assert (T : pzero (q1 d) = true) by (apply ZS; intros k []); congruence|].
        destruct (proj1 (IS k) (or_introl eq_refl)) as [a X]. exists k, a. exact X.
    - split; [intros [? ?]; discriminate|]. intros [_ X]. exfalso. destruct (out_none d Ld E) as [E1 Y]. destruct X as [[k [I T]]|[X1 [k [a [I Na]]]]]; [apply (proj1 (ns1_none d) E1 k I T)|].
      destruct Y as [[Y1 Y2]|Y]; [apply (X1 Y1 Y2)|apply Na; apply (Y k a I)].
  Qed.
  Lemma start_max R : (forall d, length (hom d P) <= R) -> length (nget [] (fst res) (fst mx)) <= R.
  Proof.
    intros HR. destruct mx_ok as [[lm [Em Lm]] _]. destruct (ns1_some _ _ Em) as [_ [Nd [Gm X]]]. destruct res_ok as [_ [Ro _]]. destruct (Ro _ Gm) as [A _]. unfold out in A. rewrite Nat.eqb_refl in A. cbn [fst] in A. unfold nget. rewrite A, Em.
    etransitivity; [|apply (HR (fst mx))]. rewrite <- (map_length fst (hom _ P)). apply (NoDup_incl_length Nd). intros k I. apply hom_P_in. apply X. exact I.
  Qed.
End Plan.

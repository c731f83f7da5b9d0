(** Proofs for RatReconst in several variables over several primes, part 2: the unknown coefficients of one side over a further prime. *)
From Coq Require Import Permutation.
From Verif Require Import Machine FField FSum LinAlg FPoly PolyFF PolySpec PolyFFProofs PolyFFProofs2 PolyFFProofs3 Vandermonde VandermondeProofs RatNum PField RatUni RatUniSpec RatUniProofs Newton PolyRec PolyRecSpec PolyRecMath RatMulti RatMultiSpec RatMultiMath RatMultiShift RatMultiSub Props_PolyFF RatMultiQ RatMultiQCoef.
Open Scope nat_scope.

(** the total degree of a monomial as the code computes it *)
Definition dg (k : list Z) : nat := Z.to_nat (total k).
Definition key_ok (n : nat) (k : list Z) : Prop := length k = n /\ (forall i, (0 <= nth i k 0)%Z) /\ (total k < 2 ^ 31)%Z.
Definition of_degree (d : nat) (ks : list (list Z)) : list (list Z) := filter (fun k => dg k =? d) ks.
(** ns lists the keys ks degree by degree *)
Definition groups (ns : list (nat * list (list Z))) (ks : list (list Z)) : Prop :=
  NoDup (map fst ns) /\ (forall d l, In (d, l) ns -> l <> [] /\ Permutation l (of_degree d ks)) /\ (forall k, In k ks -> In (dg k) (map fst ns)).

Lemma key_range n k : key_ok n k -> (0 <= total k < 2 ^ 31)%Z.
Proof. intros [_ [A B]]. split; [apply total_range; exact A|exact B]. Qed.
Lemma key_exp n k : key_ok n k -> exponents_ok n k.
Proof.
  intros H. pose proof (key_range n k H) as R. destruct H as [A [B C]]. split; [exact A|]. apply Forall_forall. intros z I. destruct (In_nth _ _ 0%Z I) as [i [_ <-]].
  split; [apply B|]. pose proof (nth_total k i B). lia.
Qed.
Lemma degree_dg n k : key_ok n k -> Z.to_nat (degree32 k) = dg k.
Proof.
  intros H. pose proof (key_range n k H) as R. destruct H as [A [B C]]. unfold dg. f_equal. rewrite degree32_spec; [reflexivity| |].
  - apply Forall_forall. intros z I. destruct (In_nth _ _ 0%Z I) as [i [_ <-]]. apply B.
  - change (total_degree k) with (total k). unfold two32. lia.
Qed.
Lemma dg_total n k : key_ok n k -> total k = Z.of_nat (dg k).
Proof. intros H. pose proof (key_range n k H). unfold dg. lia. Qed.
Lemma zero_key n : key_ok n (repeat 0%Z n).
Proof.
  assert (E : forall i, nth i (repeat 0%Z n) 0%Z = 0%Z) by (intros i; destruct (Nat.lt_ge_cases i n) as [L|L]; [rewrite nth_repeat; reflexivity|rewrite nth_overflow; [reflexivity|rewrite repeat_length; exact L]]).
  split; [apply repeat_length|]. split; [intros i; rewrite E; lia|]. assert (T : total (repeat 0%Z n) = 0%Z) by (clear; induction n as [|m IH]; [reflexivity|]; cbn [repeat]; rewrite total_cons, IH; reflexivity). rewrite T. lia.
Qed.

Lemma group_in ns ks d l : groups ns ks -> In (d, l) ns -> length l = length (of_degree d ks) /\ (forall k, In k l <-> In k ks /\ dg k = d).
Proof.
  intros [_ [H _]] I. destruct (H d l I) as [_ P]. split; [apply Permutation_length; exact P|]. intros k. split.
  - intros J. apply (Permutation_in _ P) in J. apply filter_In in J as [J E]. apply Nat.eqb_eq in E. auto.
  - intros [J E]. apply (Permutation_in _ (Permutation_sym P)). apply filter_In. split; [exact J|]. apply Nat.eqb_eq. exact E.
Qed.
Lemma group_len ns ks d l : groups ns ks -> In (d, l) ns -> length l = length (of_degree d ks) /\ 0 < length l.
Proof. intros G I. split; [apply (group_in ns ks d l G I)|]. destruct G as [_ [H _]]. destruct (H d l I) as [X _]. destruct l; [contradiction|cbn; lia]. Qed.
Lemma of_degree_le d ks : length (of_degree d ks) <= length ks.
Proof. unfold of_degree. induction ks as [|k ks IH]; [reflexivity|]. cbn [filter]. destruct (dg k =? d); cbn [length]; lia. Qed.

Lemma nfind_erase {A} (m : list (nat * A)) k j : nfind (nerase m k) j = if j =? k then None else nfind m j.
Proof.
  induction m as [|[k' a] m IH]; [destruct (j =? k); reflexivity|]. unfold nerase in *. cbn [filter fst]. destruct (Nat.eqb_spec k k') as [E|E]; cbn [negb].
  - rewrite IH. subst k'. cbn [nfind]. destruct (j =? k); reflexivity.
  - cbn [nfind]. rewrite IH. destruct (Nat.eqb_spec j k') as [X|X]; [|reflexivity]. subst k'. destruct (Nat.eqb_spec j k); [congruence|reflexivity].
Qed.
Lemma nerase_keys {A} (m : list (nat * A)) k : map fst (nerase m k) = filter (fun j => negb (k =? j)) (map fst m).
Proof. unfold nerase. induction m as [|[k' a] m IH]; [reflexivity|]. cbn [filter map fst]. destruct (k =? k'); cbn [negb map fst]; rewrite IH; reflexivity. Qed.
Lemma nget_in {A} (m : list (nat * A)) d k a : NoDup (map fst m) -> In (k, a) m -> nget d m k = a.
Proof. intros ND I. unfold nget. rewrite (proj2 (nfind_iff m k a ND) I). reflexivity. Qed.
Lemma nget_out {A} (m : list (nat * A)) d k : ~ In k (map fst m) -> nget d m k = d.
Proof. intros H. unfold nget. rewrite (proj2 (nfind_None m k) H). reflexivity. Qed.
Lemma nget_entry {A} (m : list (nat * A)) d k : NoDup (map fst m) -> In k (map fst m) -> In (k, nget d m k) m.
Proof. intros ND I. apply in_map_iff in I as [[k' a] [<- I]]. cbn [fst]. rewrite (nget_in m d k' a ND I). exact I. Qed.

Section Side.
  Variable ord : forall A : Type, list A -> list A.
  Hypothesis Ho : forall A (l : list A), Permutation (ord A l) l.
  Variable c : mcfg.
  Local Notation n := (mc_n c).
  Hypothesis Hn : 2 <= n.
  Variable F : pfield.
  Local Notation K := (fld F).
  Local Notation HF := (HK F).
  Add Field KSD : (fl_field K (HK F)).
  Local Notation pv := (@poly_value K).
  Variable y : nat -> K.
  Hypothesis anchors : forall i, i < n - 1 -> y i <> f0.

  (** the known part and the part to be found *)
  Variables (P1 P2 : list (list Z * K)) (ns0 : list (nat * list (list Z))).
  Hypothesis keys_nodup : NoDup (map fst (P1 ++ P2)).
  Hypothesis keys_ok : forall k, In k (map fst (P1 ++ P2)) -> key_ok n k.
  Hypothesis Hgroups : groups ns0 (map fst P2).
  Hypothesis apart : forall k k', In k (map fst P2) -> In k' (map fst P2) -> total k = total k' -> monomial_value (n - 1) (tl k) y = monomial_value (n - 1) (tl k') y -> k = k'.

  Lemma nd1 : NoDup (map fst P1).
  Proof.
    rewrite map_app in keys_nodup. clear - keys_nodup. induction (map fst P1) as [|a l IH]; [constructor|]. cbn [app] in keys_nodup. inversion keys_nodup as [|? ? N1 N2]; subst.
    constructor; [intros X; apply N1; apply in_or_app; left; exact X|apply IH; exact N2].
  Qed.
  Lemma nd2 : NoDup (map fst P2).
  Proof.
    rewrite map_app in keys_nodup. clear - keys_nodup. induction (map fst P1) as [|a l IH]; [exact keys_nodup|]. cbn [app] in keys_nodup. inversion keys_nodup as [|? ? N1 N2]; subst. apply IH; exact N2.
  Qed.
  Lemma ok1 k : In k (map fst P1) -> key_ok n k. Proof. intros I. apply keys_ok. rewrite map_app. apply in_or_app. left. exact I. Qed.
  Lemma ok2 k : In k (map fst P2) -> key_ok n k. Proof. intros I. apply keys_ok. rewrite map_app. apply in_or_app. right. exact I. Qed.
  Lemma disj k : In k (map fst P1) -> ~ In k (map fst P2).
  Proof.
    intros I J. rewrite map_app in keys_nodup. clear - keys_nodup I J. induction (map fst P1) as [|a l IH]; [contradiction|]. cbn [app] in keys_nodup. inversion keys_nodup as [|? ? N1 N2]; subst.
    destruct I as [->|I]; [apply N1; apply in_or_app; right; exact J|apply IH; assumption].
  Qed.

  Definition lenof (d : nat) : nat := length (of_degree d (map fst P2)).
  Definition ready (lev : nat -> nat) (k : list Z) : bool := lenof (dg k) <=? lev (dg k).
  Definition known (lev : nat -> nat) : list (list Z * K) := P1 ++ filter (fun t => ready lev (fst t)) P2.
  Definition unknown (lev : nat -> nat) : list (list Z * K) := filter (fun t => negb (ready lev (fst t))) P2.
  (** the value of the homogeneous part to be found on the j-th ray *)
  Definition G (d j : nat) : K := pv n (hom d P2) (diag y j).

  Lemma coef_filter (f : list Z -> bool) (P : list (list Z * K)) k : coef_at (filter (fun t => f (fst t)) P) k = if f k then coef_at P k else f0.
  Proof.
    clear. induction P as [|[k' a] P IH]; [destruct (f k); reflexivity|]. cbn [filter fst]. destruct (f k') eqn:E; rewrite ?coef_cons, IH; destruct (mon_eqb_spec k k') as [X|X]; try reflexivity; subst k'; rewrite E; reflexivity.
  Qed.
  Lemma filter_keys (f : list Z -> bool) (P : list (list Z * K)) k : In k (map fst (filter (fun t => f (fst t)) P)) -> In k (map fst P) /\ f k = true.
  Proof. clear. intros I. apply in_map_iff in I as [[k' a] [<- I]]. apply filter_In in I as [I E]. split; [apply in_map_iff; exists (k', a); auto|exact E]. Qed.
  Lemma known_coef lev k : coef_at (known lev) k = (coef_at P1 k + if ready lev k then coef_at P2 k else f0)%K.
  Proof.
    unfold known. rewrite (coef_app HF), coef_filter; [reflexivity|]. intros I J. apply filter_keys in J as [J _]. exact (disj k I J).
  Qed.
  Lemma known_nodup lev : NoDup (map fst (known lev)).
  Proof.
    unfold known. rewrite map_app. apply NoDup_app_intro; [exact nd1|apply NoDup_keys_filter; exact nd2|]. intros k I J. apply filter_keys in J as [J _]. exact (disj k I J).
  Qed.
  Lemma hom_keys d : map fst (hom d P2) = of_degree d (map fst P2).
  Proof.
    unfold hom, of_degree. assert (O : forall k, In k (map fst P2) -> key_ok n k) by exact ok2. clear - O. induction P2 as [|[k a] P IH]; [reflexivity|]. cbn [filter map fst] in *.
    assert (E : (total k =? Z.of_nat d)%Z = (dg k =? d)). { pose proof (dg_total n k (O k (or_introl eq_refl))). destruct (Z.eqb_spec (total k) (Z.of_nat d)); destruct (Nat.eqb_spec (dg k) d); try reflexivity; lia. }
    rewrite E. destruct (dg k =? d); cbn [map fst]; rewrite IH by (intros k' I; apply O; right; exact I); reflexivity.
  Qed.
  Lemma hom_coef d k : dg k = d -> coef_at (hom d P2) k = coef_at P2 k.
  Proof.
    intros E. unfold hom. rewrite (coef_filter (fun k => (total k =? Z.of_nat d)%Z)). destruct (Z.eqb_spec (total k) (Z.of_nat d)) as [X|X]; [reflexivity|]. symmetry. apply coef_out. intros I.
    apply X. rewrite (dg_total n k (ok2 k I)), E. reflexivity.
  Qed.

  Definition homogeneous (d : nat) (q : polyff K) : Prop :=
    pf_n q = n /\ poly_ok n (pf_coefs q) /\ forall k, In k (map fst (pf_coefs q)) -> total k = Z.of_nat d.
  Record sinv (lev : nat -> nat) (s : qside F) : Prop := mk_sinv {
    si_ns : qs_ns F s = filter (fun e => lev (fst e) <? length (snd e)) ns0;
    si_keys : map fst (qs_mat F s) = map fst (qs_ns F s);
    si_mat : forall d, In d (map fst (qs_ns F s)) -> nget [] (qs_mat F s) d = map (fun j => G d (S j)) (seq 0 (lev d));
    si_nd : NoDup (map fst (qs_solved F s));
    si_poly : forall d q, In (d, q) (qs_solved F s) -> homogeneous d q;
    si_coef : forall k, coef_at (pf_coefs (nget no_poly (qs_solved F s) (dg k))) k = coef_at (known lev) k
  }.
  Lemma ns_nodup lev s : sinv lev s -> NoDup (map fst (qs_ns F s)).
  Proof.
    intros I. rewrite (si_ns _ _ I). destruct Hgroups as [ND _]. clear - ND. induction ns0 as [|e l IH]; [constructor|]. cbn [map filter] in *. inversion ND as [|? ? N1 N2]; subst.
    destruct (_ <? _); [|apply IH; exact N2]. cbn [map]. constructor; [|apply IH; exact N2]. intros X. apply N1. apply in_map_iff in X as [e' [E X]]. apply filter_In in X as [X _]. rewrite <- E. apply in_map. exact X.
  Qed.
  Lemma in_ns lev s d : sinv lev s -> (In d (map fst (qs_ns F s)) <-> In d (map fst ns0) /\ lev d < lenof d).
  Proof.
    intros I. rewrite (si_ns _ _ I). split.
    - intros X. apply in_map_iff in X as [[d' l] [<- X]]. apply filter_In in X as [X E]. cbn [fst snd] in *. apply Nat.ltb_lt in E. destruct (group_len _ _ _ _ Hgroups X) as [L _]. split; [apply in_map_iff; exists (d', l); auto|]. unfold lenof. lia.
    - intros [X L]. apply in_map_iff in X as [[d' l] [<- X]]. cbn [fst] in *. destruct (group_len _ _ _ _ Hgroups X) as [E _]. apply in_map_iff. exists (d', l). split; [reflexivity|]. apply filter_In. split; [exact X|]. cbn [fst snd]. apply Nat.ltb_lt. unfold lenof in L. lia.
  Qed.
  Lemma sinv_ext lev lev' s : (forall d, In d (map fst ns0) -> lev d = lev' d \/ (lenof d <= lev d /\ lenof d <= lev' d)) -> sinv lev s -> sinv lev' s.
  Proof.
    intros E I. destruct I as [A B C D H J]. constructor; try assumption.
    - rewrite A. apply filter_ext_in. intros [d l] X. cbn [fst snd]. destruct (group_len _ _ _ _ Hgroups X) as [L _]. fold (lenof d) in L.
      destruct (E d) as [->|[L1 L2]]; [apply in_map_iff; exists (d, l); auto|reflexivity|]. destruct (Nat.ltb_spec (lev d) (length l)); destruct (Nat.ltb_spec (lev' d) (length l)); try reflexivity; lia.
    - intros d X. rewrite (C d X). assert (X' : In d (map fst ns0) /\ lev d < lenof d) by (apply (in_ns lev s d (mk_sinv lev s A B C D H J)); exact X). destruct (E d (proj1 X')) as [->|[L1 L2]]; [reflexivity|lia].
    - intros k. rewrite J, !known_coef. f_equal. unfold ready. destruct (in_dec (list_eq_dec Z.eq_dec) k (map fst P2)) as [I|I].
      + destruct Hgroups as [_ [_ G3]]. destruct (E (dg k) (G3 k I)) as [->|[L1 L2]]; [reflexivity|]. destruct (Nat.leb_spec (lenof (dg k)) (lev (dg k))); destruct (Nat.leb_spec (lenof (dg k)) (lev' (dg k))); try reflexivity; lia.
      + rewrite (coef_out P2 k I). destruct (_ <=? _); destruct (_ <=? _); reflexivity.
  Qed.

  (** ---- filing a value ---- *)
  Lemma pzero_coef (q : polyff K) k : pzero q = true -> coef_at (pf_coefs q) k = f0.
  Proof.
    unfold pzero, coef_at. destruct (pf_coefs q) as [|[k' a] [|? ?]]; [reflexivity| |discriminate]. intros H. apply (fl_eqb K HF) in H. cbn [pfind]. destruct (mon_eqb k k'); [exact H|reflexivity].
  Qed.
  Lemma nget_poly lev s d : sinv lev s -> In d (map fst (qs_solved F s)) -> homogeneous d (nget no_poly (qs_solved F s) d).
  Proof. intros I X. apply (si_poly _ _ I). apply nget_entry; [apply (si_nd _ _ I)|exact X]. Qed.
  Lemma padd_homogeneous d a b : homogeneous d a -> homogeneous d b -> homogeneous d (padd_assign (ord _) a b).
  Proof.
    intros [A1 [A2 A3]] [B1 [B2 B3]]. assert (Oa : any_order (ord (list Z * K)%type)) by (intros m; apply Ho). split; [exact A1|].
    pose proof (padd_assign_ok HF (ord _) Oa a b) as X. rewrite A1 in X. destruct (X A2 B2) as [X1 _]. split; [exact X1|].
    intros k I. apply in_map_iff in I as [[k' w] [<- I]]. cbn [fst]. unfold padd_assign in I. cbn [pf_coefs] in I. apply (add_entry HF) in I as [I|[w' [_ I]]].
    - apply A3. apply in_map_iff. exists (k', w). auto.
    - apply B3. apply (Permutation_in _ (Ho _ (pf_coefs b))) in I. apply in_map_iff. exists (k', w'). auto.
  Qed.
  Definition bump (lev : nat -> nat) (d : nat) : nat -> nat := fun e => if e =? d then S (lev d) else lev e.
  Lemma file_value_ok lev s d : sinv lev s -> In d (map fst (qs_ns F s)) ->
    exists s', file_value ord c F y s (d, G d (S (lev d))) = Ret s' /\ sinv (bump lev d) s'.
  Proof.
    intros I X. pose proof (ns_nodup lev s I) as NDn. destruct (proj1 (in_ns lev s d I) X) as [X0 Lt].
    pose proof (nget_entry (qs_ns F s) [] d NDn X) as Xe. set (degs := nget [] (qs_ns F s) d) in *.
    assert (Xe0 : In (d, degs) ns0) by (rewrite (si_ns _ _ I) in Xe; apply filter_In in Xe; apply Xe).
    destruct (group_len _ _ _ _ Hgroups Xe0) as [Len Pos]. fold (lenof d) in Len.
    unfold file_value. cbn [fst snd]. fold degs. rewrite (si_mat _ _ I d X). rewrite map_length, seq_length.
    destruct (Nat.ltb_spec (lev d) (length degs)) as [L1|L1]; [|lia].
    assert (Ev : map (fun j => G d (S j)) (seq 0 (lev d)) ++ [G d (S (lev d))] = map (fun j => G d (S j)) (seq 0 (S (lev d)))) by (rewrite seq_S, map_app; reflexivity).
    rewrite Ev, map_length, seq_length.
    assert (NSeq : (if S (lev d) =? length degs then nerase (qs_ns F s) d else qs_ns F s) = filter (fun e => bump lev d (fst e) <? length (snd e)) ns0).
    { assert (Z : forall e, In e ns0 -> fst e = d -> e = (d, degs)).
      { intros [d' l] J E. cbn [fst] in E. subst d'. destruct Hgroups as [ND0 _]. pose proof (nget_in ns0 [] d l ND0 J) as E1. rewrite (nget_in ns0 [] d degs ND0 Xe0) in E1. congruence. }
      rewrite (si_ns _ _ I). destruct (Nat.eqb_spec (S (lev d)) (length degs)) as [E|E].
      - unfold nerase. clear - Z E. induction ns0 as [|e l IH]; [reflexivity|]. cbn [filter]. assert (Z' : forall e, In e l -> fst e = d -> e = (d, degs)) by (intros e' J; apply Z; right; exact J).
        unfold bump at 1. destruct (Nat.eqb_spec (fst e) d) as [X|X].
        + rewrite (Z e (or_introl eq_refl) X). cbn [fst snd]. destruct (Nat.ltb_spec (S (lev d)) (length degs)); [lia|]. destruct (lev d <? length degs); cbn [filter fst]; [rewrite Nat.eqb_refl; cbn [negb]|]; apply IH; exact Z'.
        + destruct (lev (fst e) <? length (snd e)); cbn [filter]; [|apply IH; exact Z']. destruct (Nat.eqb_spec d (fst e)); [congruence|]. cbn [negb]. f_equal. apply IH; exact Z'.
      - apply filter_ext_in. intros e J. unfold bump. destruct (Nat.eqb_spec (fst e) d) as [X1|X1]; [|reflexivity]. rewrite (Z e J X1). cbn [fst snd]. destruct (Nat.ltb_spec (lev d) (length degs)); destruct (Nat.ltb_spec (S (lev d)) (length degs)); try reflexivity; lia. }
    assert (KC : forall k, dg k <> d -> coef_at (known (bump lev d)) k = coef_at (known lev) k).
    { intros k N. rewrite !known_coef. unfold ready, bump. destruct (Nat.eqb_spec (dg k) d); [contradiction|reflexivity]. }
    destruct (Nat.eqb_spec (S (lev d)) (length degs)) as [E|E].
    - rewrite (vandermonde_exact HF (n - 1) degs (hom d P2)).
      2: destruct degs; [cbn in Pos; lia|discriminate].
      2: { apply (Permutation_NoDup (l := of_degree d (map fst P2))); [apply Permutation_sym; apply (proj1 (proj2 Hgroups) d degs Xe0)|]. apply NoDup_filter. exact nd2. }
      2: { apply Forall_forall. intros k J. replace (S (n - 1)) with n by lia. apply key_exp. apply ok2. apply (group_in _ _ _ _ Hgroups Xe0). exact J. }
      2: rewrite hom_keys; apply NoDup_filter; exact nd2.
      2: rewrite hom_keys; apply Permutation_sym; apply (proj1 (proj2 Hgroups) d degs Xe0).
      2: exact anchors.
      2: { intros k k' J J' M. apply (group_in _ _ _ _ Hgroups Xe0) in J as [J Jd]. apply (group_in _ _ _ _ Hgroups Xe0) in J' as [J' Jd']. apply apart; try assumption. rewrite (dg_total n k (ok2 k J)), (dg_total n k' (ok2 k' J')). congruence. }
      2: { intros i Hi. rewrite (nth_indep _ f0 (G d (S 0))) by (rewrite map_length, seq_length; lia). rewrite (map_nth (fun j => G d (S j))), seq_nth by lia. replace (S (n - 1)) with n by lia. reflexivity. }
      cbn [obind]. replace (S (n - 1)) with n by lia. set (q := mk_polyff n _). set (old := nget no_poly (qs_solved F s) d). set (q' := if pzero old then q else padd_assign (ord _) old q).
      assert (Hq : homogeneous d q).
      { unfold q. split; [reflexivity|]. cbn [pf_coefs]. unfold poly_ok. rewrite map_map. cbn [fst]. rewrite map_id. split; [split|].
        - apply (Permutation_NoDup (l := of_degree d (map fst P2))); [apply Permutation_sym; apply (proj1 (proj2 Hgroups) d degs Xe0)|]. apply NoDup_filter. exact nd2.
        - apply Forall_forall. intros kc J. apply in_map_iff in J as [k [<- J]]. cbn [fst]. apply key_exp. apply ok2. apply (group_in _ _ _ _ Hgroups Xe0). exact J.
        - intros k J. apply (group_in _ _ _ _ Hgroups Xe0) in J as [J Jd]. rewrite (dg_total n k (ok2 k J)), Jd. reflexivity. }
      assert (Hold : pzero old = false -> homogeneous d old).
      { intros Z. apply (nget_poly lev s d I). destruct (in_dec Nat.eq_dec d (map fst (qs_solved F s))) as [J|J]; [exact J|]. unfold old in Z. rewrite (nget_out _ _ _ J) in Z. discriminate. }
      assert (Hq' : homogeneous d q') by (unfold q'; destruct (pzero old) eqn:Z; [exact Hq|apply padd_homogeneous; [apply Hold; reflexivity|exact Hq]]).
      assert (Cq' : forall k, coef_at (pf_coefs q') k = (coef_at (pf_coefs old) k + coef_at (pf_coefs q) k)%K).
      { intros k. unfold q'. destruct (pzero old) eqn:Z; [rewrite (pzero_coef old k Z); ring|]. apply (coef_padd HF); [intros m; apply Ho| |]; [apply (proj1 (proj1 (proj2 (Hold eq_refl))))|apply (proj1 (proj1 (proj2 Hq)))]. }
      eexists. split; [reflexivity|]. constructor; cbn [qs_ns qs_mat qs_solved].
      + exact NSeq.
      + rewrite !nerase_keys, (si_keys _ _ I). reflexivity.
      + intros e J. rewrite nerase_keys in J. apply filter_In in J as [J Je]. apply negb_true_iff in Je. apply Nat.eqb_neq in Je. unfold nget. rewrite nfind_erase. unfold bump.
        destruct (Nat.eqb_spec e d) as [Y|Y]; [congruence|]. exact (si_mat _ _ I e J).
      + apply nset_nodup. apply (si_nd _ _ I).
      + intros e r J. assert (NS : NoDup (map fst (nset (qs_solved F s) d q'))) by (apply nset_nodup; apply (si_nd _ _ I)). apply (nfind_iff _ e r NS) in J. rewrite nfind_set in J.
        destruct (Nat.eqb_spec e d) as [Y|Y]; [injection J as <-; subst e; exact Hq'|]. apply (si_poly _ _ I). apply nfind_In. exact J.
      + intros k. unfold nget. rewrite nfind_set. destruct (Nat.eqb_spec (dg k) d) as [Y|Y].
        * rewrite Cq'. unfold old. rewrite <- Y at 1. rewrite (si_coef _ _ I k), !known_coef. unfold ready, bump. rewrite Y, Nat.eqb_refl.
          destruct (Nat.leb_spec (lenof d) (lev d)); [lia|]. destruct (Nat.leb_spec (lenof d) (S (lev d))); [|lia].
          unfold q. cbn [pf_coefs]. rewrite coef_map_seq. destruct (in_dec _ k degs) as [J|J]; [rewrite (hom_coef d k Y); ring|]. rewrite (coef_out P2 k); [ring|]. intros J2. apply J. apply (group_in _ _ _ _ Hgroups Xe0). auto.
        * rewrite (KC k Y). exact (si_coef _ _ I k).
    - eexists. split; [reflexivity|]. constructor; cbn [qs_ns qs_mat qs_solved].
      + exact NSeq.
      + rewrite nset_keys_in; [apply (si_keys _ _ I)|]. rewrite (si_keys _ _ I). exact X.
      + intros e J. unfold nget. rewrite nfind_set. unfold bump. destruct (Nat.eqb_spec e d) as [Y|Y]; [subst e; reflexivity|]. exact (si_mat _ _ I e J).
      + apply (si_nd _ _ I).
      + apply (si_poly _ _ I).
      + intros k. rewrite (si_coef _ _ I k), !known_coef. f_equal. unfold ready, bump. destruct (Nat.eqb_spec (dg k) d) as [Y|Y]; [|reflexivity]. rewrite Y.
        destruct (Nat.leb_spec (lenof d) (lev d)); destruct (Nat.leb_spec (lenof d) (S (lev d))); try reflexivity; lia.
  Qed.
  Lemma file_values_ok l : forall lev s, sinv lev s -> NoDup (map fst l) -> (forall d w, In (d, w) l -> In d (map fst (qs_ns F s)) /\ w = G d (S (lev d))) ->
    exists s', file_values ord c F y l s = Ret s' /\ sinv (fun e => if nmem e (map fst l) then S (lev e) else lev e) s'.
  Proof.
    induction l as [|[d w] l IH]; intros lev s I ND H; [exists s; split; [reflexivity|exact I]|]. cbn [map fst] in ND. inversion ND as [|? ? N1 N2]; subst.
    destruct (H d w (or_introl eq_refl)) as [X ->]. destruct (file_value_ok lev s d I X) as [s1 [E1 I1]]. cbn [file_values]. rewrite E1. cbn [obind].
    destruct (IH _ s1 I1 N2) as [s2 [E2 I2]].
    - intros e w J. assert (Ne : e <> d) by (intros ->; apply N1; apply in_map_iff; exists (d, w); auto). destruct (H e w (or_intror J)) as [X1 ->]. unfold bump. destruct (Nat.eqb_spec e d) as [Y|Y]; [contradiction|]. split; [|reflexivity].
      apply (in_ns _ s1 e I1). apply (in_ns _ s e I) in X1. unfold bump. destruct (Nat.eqb_spec e d) as [Z|Z]; [contradiction|]. exact X1.
    - exists s2. split; [exact E2|]. apply (sinv_ext _ _ s2) with (2 := I2). intros e _. left. unfold bump. cbn [map fst nmem existsb]. unfold nmem.
      destruct (Nat.eqb_spec e d) as [Y|Y]; cbn [orb].
      + subst e. assert (M : existsb (Nat.eqb d) (map fst l) = false) by (apply Bool.not_true_is_false; intros M; apply existsb_exists in M as [z [Iz Ez]]; apply Nat.eqb_eq in Ez; subst z; contradiction). rewrite M. reflexivity.
      + reflexivity.
  Qed.
  (** a whole ray *)
  Lemma file_ray_ok j s (l : list (nat * K)) : sinv (fun _ => j) s -> Permutation (map fst l) (map fst (qs_ns F s)) -> (forall d w, In (d, w) l -> w = G d (S j)) ->
    exists s', file_values ord c F y l s = Ret s' /\ sinv (fun _ => S j) s'.
  Proof.
    intros I P H. pose proof (ns_nodup _ s I) as ND. destruct (file_values_ok l (fun _ => j) s I) as [s' [E I']].
    - apply (Permutation_NoDup (Permutation_sym P)). exact ND.
    - intros d w J. split; [apply (Permutation_in _ P); apply in_map_iff; exists (d, w); auto|apply H; exact J].
    - exists s'. split; [exact E|]. apply (sinv_ext _ _ s') with (2 := I'). intros d J. destruct (nmem d (map fst l)) eqn:M; [left; reflexivity|right].
      assert (X : ~ In d (map fst (qs_ns F s))). { intros X. apply (Permutation_in _ (Permutation_sym P)) in X. unfold nmem in M. assert (T : existsb (Nat.eqb d) (map fst l) = true) by (apply existsb_exists; exists d; split; [exact X|apply Nat.eqb_refl]). congruence. }
      destruct (Nat.lt_ge_cases j (lenof d)) as [L|L]; [|lia]. exfalso. apply X. apply (in_ns _ s d I). auto.
  Qed.

  (** ---- values ---- *)
  Definition solved_terms (s : qside F) : list (list Z * K) := flat_map (fun e => pf_coefs (snd e)) (qs_solved F s).
  Lemma flat_facts (l : list (nat * polyff K)) : NoDup (map fst l) -> (forall d q, In (d, q) l -> homogeneous d q) ->
    NoDup (map fst (flat_map (fun e => pf_coefs (snd e)) l)) /\
    (forall k, In k (map fst (flat_map (fun e => pf_coefs (snd e)) l)) -> exists d q, In (d, q) l /\ In k (map fst (pf_coefs q))) /\
    (forall k, coef_at (flat_map (fun e => pf_coefs (snd e)) l) k = coef_at (pf_coefs (nget no_poly l (dg k))) k).
  Proof.
    clear - Ho. induction l as [|[d q] l IH]; intros ND H; [split; [constructor|split; [intros k []|reflexivity]]|]. cbn [map fst] in ND. inversion ND as [|? ? N1 N2]; subst.
    destruct (IH N2 (fun d' q' J => H d' q' (or_intror J))) as [A [B C]]. cbn [flat_map snd]. destruct (H d q (or_introl eq_refl)) as [Q1 [[Q2 Q2'] Q3]].
    assert (Dj : forall k, In k (map fst (pf_coefs q)) -> ~ In k (map fst (flat_map (fun e => pf_coefs (snd e)) l))).
    { intros k I J. destruct (B k J) as [d' [q' [J1 J2]]]. destruct (H d' q' (or_intror J1)) as [_ [_ Q3']]. specialize (Q3 k I). specialize (Q3' k J2). assert (d = d') by lia. subst d'. apply N1. apply in_map_iff. exists (d, q'). auto. }
    split; [|split].
    - rewrite map_app. apply NoDup_app_intro; [exact Q2|exact A|]. intros k I J. exact (Dj k I J).
    - intros k I. rewrite map_app in I. apply in_app_or in I as [I|I]; [exists d, q; split; [left; reflexivity|exact I]|]. destruct (B k I) as [d' [q' [J1 J2]]]. exists d', q'. split; [right; exact J1|exact J2].
    - intros k. rewrite (coef_app HF) by (apply Dj). rewrite C. unfold nget. cbn [nfind]. destruct (Nat.eqb_spec (dg k) d) as [E|E].
      + assert (X : nfind l (dg k) = None) by (apply nfind_None; rewrite E; exact N1). rewrite X. cbn [no_poly pf_coefs]. rewrite (coef_out (K := K) [] k) by (intros []). ring.
      + rewrite (coef_out (pf_coefs q) k); [ring|]. intros I. apply E. unfold dg. rewrite (Q3 k I). lia.
  Qed.
  Lemma solved_coef lev s k : sinv lev s -> NoDup (map fst (solved_terms s)) /\ coef_at (solved_terms s) k = coef_at (known lev) k.
  Proof.
    intros I. destruct (flat_facts (qs_solved F s) (si_nd _ _ I) (si_poly _ _ I)) as [A [_ C]]. split; [exact A|]. unfold solved_terms. rewrite C. apply (si_coef _ _ I).
  Qed.
  Lemma homogeneous_value d q (t : K) x : homogeneous d q -> pv n (pf_coefs q) (fun i => t * x i)%K = (pw t d * pv n (pf_coefs q) x)%K.
  Proof.
    intros [_ [[_ A] B]]. rewrite !pv_lsum, <- (lsum_mul HF). apply lsum_ext. intros [k a] I. cbn [fst snd]. rewrite Forall_forall in A. specialize (A (k, a) I). cbn [fst] in A. destruct A as [A1 A2].
    rewrite (mv_scale HF n k t x A1) by (apply Forall_forall; intros z J; rewrite Forall_forall in A2; apply A2 in J; lia). change (total_degree k) with (total k). rewrite (B k) by (apply in_map_iff; exists (k, a); auto). rewrite Nat2Z.id. ring.
  Qed.
  Lemma rand_diag order i : (Z.of_nat order < 2 ^ 31)%Z -> i < n -> x1 (rand_vec y (repeat order (n - 1))) i = diag y order i.
  Proof.
    intros L Hi. unfold x1, diag. destruct i as [|i]; [reflexivity|]. cbn [x1]. unfold rand_vec, rand_zi. assert (E : nth i (repeat order (n - 1)) 0 = order) by (rewrite (nth_indep _ 0 order) by (rewrite repeat_length; lia); apply nth_repeat). rewrite E.
    rewrite (fl_pow K HF) by (unfold two64; lia). rewrite Nat2Z.id. reflexivity.
  Qed.
  Lemma qknown_sum lev s order (t : K) : (Z.of_nat order < 2 ^ 31)%Z -> sinv lev s ->
    (forall d, In d (map fst (qs_solved F s)) -> (Z.of_nat d < 2 ^ 31)%Z) ->
    lsum (fun e : nat * K => snd e * fpow t (Z.of_nat (fst e)))%K (ord _ (qknown ord c F y order s)) = pv n (known lev) (fun i => t * diag y order i)%K.
  Proof.
    intros L I Sm. rewrite (lsum_perm HF _ _ _ (Ho _ _)). unfold qknown. rewrite lsum_map, (lsum_perm HF _ _ _ (Ho _ _)). cbn [fst snd].
    assert (A : any_order (ord (list Z * K)%type)) by (intros m; apply Ho).
    transitivity (pv n (solved_terms s) (fun i => t * diag y order i)%K).
    - unfold solved_terms. pose proof (si_poly _ _ I) as HP. clear - HP Sm A Hn L. induction (qs_solved F s) as [|[d q] l IH]; [reflexivity|]. rewrite lsum_cons. cbn [flat_map fst snd]. rewrite (pv_app HF), IH.
      + f_equal. rewrite (homogeneous_value d q) by (apply HP; left; reflexivity). destruct (HP d q (or_introl eq_refl)) as [Q1 [Q2 _]].
        rewrite (C16_calc_n_m_1 K HF (ord _) A); [|unfold well_formed; rewrite Q1; exact Q2|rewrite Q1; lia]. rewrite (calc_value HF) by (try exact A; rewrite Q1; exact Q2). rewrite Q1.
        change (fun i : nat => match i with O => f1 | S j => rand_vec y (repeat order (n - 1)) j end) with (x1 (rand_vec y (repeat order (n - 1)))).
        rewrite (pv_ext_x n _ (x1 (rand_vec y (repeat order (n - 1)))) (diag y order)) by (intros i Hi; apply rand_diag; assumption).
        rewrite (fl_pow K HF) by (specialize (Sm d (or_introl eq_refl)); unfold two64; lia). rewrite Nat2Z.id. ring.
      + intros d' J. apply Sm. right. exact J.
      + intros d' q' J. apply HP. right. exact J.
    - apply (pv_coef HF); [apply (solved_coef lev s [] I)|apply known_nodup|]. intros k. apply (solved_coef lev s k I).
  Qed.
  Lemma lsum_group_nat {A} (h : A -> nat) (g : A -> K) ks l : NoDup ks -> (forall x, In x l -> In (h x) ks) -> lsum g l = lsum (fun d => lsum g (filter (fun x => h x =? d) l)) ks.
  Proof.
    intros N H. rewrite (lsum_group HF (fun x => [Z.of_nat (h x)]) g (map (fun d => [Z.of_nat d]) ks) l).
    - rewrite lsum_map. apply lsum_ext. intros d _. f_equal. apply filter_ext. intros x. cbn [mon_eqb]. destruct (mon_eqb_spec [Z.of_nat (h x)] [Z.of_nat d]) as [E|E]; destruct (Nat.eqb_spec (h x) d) as [E'|E']; try reflexivity; [injection E as E; lia|congruence].
    - apply FinFun.Injective_map_NoDup; [|exact N]. intros a b E. injection E as E. lia.
    - intros x I. apply in_map_iff. exists (h x). split; [reflexivity|apply H; exact I].
  Qed.
  Lemma unknown_sum j s (t : K) : sinv (fun _ => j) s ->
    pv n (unknown (fun _ => j)) (fun i => t * diag y (S j) i)%K = lsum (fun d => G d (S j) * pw t d)%K (map fst (qs_ns F s)).
  Proof.
    intros I. rewrite pv_lsum. rewrite (lsum_group_nat (fun kc => dg (fst kc)) _ (map fst (qs_ns F s))).
    - apply lsum_ext. intros d X. apply (in_ns _ s d I) in X as [X L]. unfold G.
      assert (E : filter (fun x : list Z * K => dg (fst x) =? d) (unknown (fun _ => j)) = hom d P2).
      { unfold unknown, hom. pose proof ok2 as O. assert (R : forall k, dg k = d -> ready (fun _ => j) k = false) by (intros k Ek; unfold ready; rewrite Ek; apply Nat.leb_gt; exact L). revert O R. generalize (ready (fun _ => j)) as r. clear. intros r O R. revert O. induction P2 as [|[k a] P IH]; intros O; [reflexivity|]. cbn [filter fst map] in *.
        assert (E : (total k =? Z.of_nat d)%Z = (dg k =? d)). { pose proof (dg_total n k (O k (or_introl eq_refl))). destruct (Z.eqb_spec (total k) (Z.of_nat d)); destruct (Nat.eqb_spec (dg k) d); try reflexivity; lia. }
        rewrite E. assert (IH' := IH (fun k' J => O k' (or_intror J))). destruct (Nat.eqb_spec (dg k) d) as [Ed|Ed].
        - rewrite (R k Ed). cbn [negb filter fst]. rewrite (proj2 (Nat.eqb_eq _ _) Ed). f_equal. exact IH'.
        - destruct (r k); cbn [negb filter fst]; [exact IH'|]. rewrite (proj2 (Nat.eqb_neq _ _) Ed). exact IH'. }
      rewrite E. rewrite <- pv_lsum. change (hom d P2) with (pf_coefs (mk_polyff n (hom d P2))). rewrite (homogeneous_value d); [cbn [pf_coefs]; ring|].
      split; [reflexivity|]. cbn [pf_coefs]. split; [split|].
      + rewrite hom_keys. apply NoDup_filter. exact nd2.
      + apply Forall_forall. intros [k a] J. cbn [fst]. apply in_hom in J as [J _]. apply key_exp. apply ok2. apply in_map_iff. exists (k, a). auto.
      + intros k J. apply in_map_iff in J as [[k' a] [<- J]]. apply in_hom in J as [_ J]. exact J.
    - apply (ns_nodup _ s I).
    - intros [k a] J. cbn [fst]. apply filter_In in J as [J R]. cbn [fst] in R. apply negb_true_iff in R. unfold ready in R. apply Nat.leb_gt in R. apply (in_ns _ s _ I). split; [|exact R]. apply (proj2 (proj2 Hgroups)). apply in_map_iff. exists (k, a). auto.
  Qed.
  Lemma split_value lev x : pv n (P1 ++ P2) x = (pv n (known lev) x + pv n (unknown lev) x)%K.
  Proof.
    unfold known, unknown. rewrite !(pv_app HF). rewrite (pv_lsum n P2), (lsum_filter HF (fun t => ready lev (fst t)) _ P2), <- !pv_lsum. ring.
  Qed.

  (** ---- the start: what is known ---- *)
  Lemma coef_passign (m : list (list Z * K)) k' v k : NoDup (map fst m) -> NoDup (map fst (passign m k' v)) /\ coef_at (passign m k' v) k = (if mon_eqb k' k then v else coef_at m k) /\
    (forall k1, In k1 (map fst (passign m k' v)) -> k1 = k' \/ In k1 (map fst m)).
  Proof.
    clear - Ho. intros ND. unfold passign. destruct (pfind m k') as [b|] eqn:E.
    - rewrite pupdate_keys. split; [exact ND|]. split; [|auto]. rewrite (coef_update m k' _ k ND). destruct (mon_eqb_spec k' k) as [X|X]; [|reflexivity]. subst k'. destruct (in_dec _ k (map fst m)) as [_|J]; [reflexivity|]. apply pfind_None in J. congruence.
    - apply pfind_None in E. split; [apply nodup_app_one; assumption|]. split.
      + rewrite (coef_app HF); [|cbn [map fst]; intros I [X|[]]; subst k; contradiction]. rewrite coef_cons. unfold coef_at at 2. cbn [pfind]. destruct (mon_eqb_spec k k') as [X|X]; destruct (mon_eqb_spec k' k) as [Y|Y]; try congruence.
        * subst k'. rewrite (coef_out m k E). ring.
        * ring.
      + intros k1 I. rewrite map_app in I. apply in_app_or in I as [I|[I|[]]]; [right; exact I|left; symmetry; exact I].
  Qed.
  Lemma passign_fold (l : list (list Z * K)) : forall m, NoDup (map fst m) -> NoDup (map fst l) ->
    let r := fold_left (fun m e => passign m (fst e) (snd e)) l m in
    NoDup (map fst r) /\ (forall k, coef_at r k = if in_dec (list_eq_dec Z.eq_dec) k (map fst l) then coef_at l k else coef_at m k) /\ (forall k, In k (map fst r) -> In k (map fst l) \/ In k (map fst m)).
  Proof.
    clear - Ho. induction l as [|[k' v] l IH]; intros m ND NL; cbn [fold_left map fst snd] in *; [split; [exact ND|]; split; [reflexivity|auto]|]. inversion NL as [|? ? N1 N2]; subst.
    destruct (coef_passign m k' v [] ND) as [A [_ C]]. destruct (IH _ A N2) as [A' [B' C']]. split; [exact A'|]. split.
    - intros k. rewrite B', coef_cons. destruct (in_dec _ k (map fst l)) as [J|J]; destruct (in_dec _ k (k' :: map fst l)) as [J'|J']; try (destruct J'; right; exact J).
      + destruct (mon_eqb_spec k k') as [X|X]; [subst; contradiction|reflexivity].
      + destruct J' as [J'|J']; [|contradiction]. subst k'. rewrite mon_eqb_refl. destruct (coef_passign m k v k ND) as [_ [Bk _]]. rewrite Bk, mon_eqb_refl. reflexivity.
      + destruct (coef_passign m k' v k ND) as [_ [Bk _]]. rewrite Bk. destruct (mon_eqb_spec k' k) as [X|X]; [subst k'; destruct J'; left; reflexivity|reflexivity].
    - intros k I. destruct (C' k I) as [J|J]; [left; right; exact J|]. destruct (C k J) as [X|X]; [left; left; symmetry; exact X|right; exact X].
  Qed.
  Definition add_poly (s : list (nat * polyff K)) (kc : list Z * K) : list (nat * polyff K) :=
    let d := Z.to_nat (degree32 (fst kc)) in
    let q := nget no_poly s d in
    nset s d (if pzero q then mk_polyff n [kc] else mk_polyff (pf_n q) (pemplace (pf_coefs q) (fst kc) (snd kc))).
  Lemma add_polys_ok (l : list (list Z * K)) : (forall k, In k (map fst l) -> key_ok n k) -> NoDup (map fst l) -> forall (A : list (list Z * K)) s,
    (forall k, In k (map fst A) -> ~ In k (map fst l)) -> NoDup (map fst A) ->
    NoDup (map fst s) -> (forall d q, In (d, q) s -> homogeneous d q /\ forall k, In k (map fst (pf_coefs q)) -> In k (map fst A)) -> (forall k, coef_at (pf_coefs (nget no_poly s (dg k))) k = coef_at A k) ->
    let r := fold_left add_poly l s in
    NoDup (map fst r) /\ (forall d q, In (d, q) r -> homogeneous d q) /\ (forall k, coef_at (pf_coefs (nget no_poly r (dg k))) k = coef_at (A ++ l) k) /\ (forall d, In d (map fst r) -> In d (map fst s) \/ In d (map dg (map fst l))).
  Proof.
    clear - Ho. induction l as [|[k' a] l IH]; intros OK NL A s Dj NA NS HP HC; cbn [fold_left].
    { split; [exact NS|]. split; [intros d q I; apply HP; exact I|]. split; [intros k; rewrite app_nil_r; apply HC|auto]. }
    cbn [map fst] in *. inversion NL as [|? ? N1 N2]; subst. assert (Ok' := OK k' (or_introl eq_refl)). assert (NkA : ~ In k' (map fst A)) by (intros I; apply (Dj k' I); left; reflexivity).
    set (d := dg k'). set (q := nget no_poly s d). set (q' := if pzero q then mk_polyff n [(k', a)] else mk_polyff (pf_n q) (pemplace (pf_coefs q) k' a)).
    assert (Es : add_poly s (k', a) = nset s d q') by (unfold add_poly; cbn [fst snd]; rewrite (degree_dg n k' Ok'); reflexivity). rewrite Es.
    assert (Hq : pzero q = false -> homogeneous d q /\ forall k, In k (map fst (pf_coefs q)) -> In k (map fst A)).
    { intros Z. apply HP. apply nget_entry; [exact NS|]. destruct (in_dec Nat.eq_dec d (map fst s)) as [J|J]; [exact J|]. unfold q in Z. rewrite (nget_out _ _ _ J) in Z. discriminate. }
    assert (Nq : ~ In k' (map fst (pf_coefs q))).
    { intros I. destruct (in_dec Nat.eq_dec d (map fst s)) as [J|J]; [|unfold q in I; rewrite (nget_out _ _ _ J) in I; exact I]. apply NkA. destruct (HP d q (nget_entry s no_poly d NS J)) as [_ X]. apply X. exact I. }
    assert (Hq' : homogeneous d q' /\ (forall k, In k (map fst (pf_coefs q')) -> In k (map fst (A ++ [(k', a)]))) /\ forall k, dg k = d -> coef_at (pf_coefs q') k = (coef_at (pf_coefs q) k + if mon_eqb k k' then a else f0)%K).
    { unfold q'. destruct (pzero q) eqn:Z.
      - split; [split; [reflexivity|]; cbn [pf_coefs]; split; [split; [constructor; [intros []|constructor]|constructor; [apply key_exp; exact Ok'|constructor]]|intros k [<-|[]]; apply (dg_total n); exact Ok']|]. cbn [pf_coefs]. split.
        + intros k [<-|[]]. rewrite map_app. apply in_or_app. right. left. reflexivity.
        + intros k _. rewrite (pzero_coef q k Z), coef_cons. unfold coef_at. cbn [pfind]. destruct (mon_eqb k k'); ring.
      - destruct (Hq eq_refl) as [[Q1 [Q2 Q3]] Q4]. unfold pemplace. rewrite (proj2 (pfind_None _ _) Nq). cbn [pf_coefs pf_n]. split; [|split].
        + split; [exact Q1|]. cbn [pf_coefs]. split; [apply poly_ok_app_one; [exact Q2|apply key_exp; exact Ok'|exact Nq]|]. intros k I. rewrite map_app in I. apply in_app_or in I as [I|[<-|[]]]; [apply Q3; exact I|apply (dg_total n); exact Ok'].
        + intros k I. rewrite map_app in *. apply in_app_or in I as [I|I]; apply in_or_app; [left; apply Q4; exact I|right; exact I].
        + intros k _. rewrite (coef_app HF) by (intros I [X|[]]; cbn in X; subst k; contradiction). rewrite coef_cons. unfold coef_at at 2. cbn [pfind]. reflexivity. }
    destruct Hq' as [Hq1 [Hq2 Hq3]]. destruct (IH (fun k I => OK k (or_intror I)) N2 (A ++ [(k', a)]) (nset s d q')) as [R1 [R2 [R3 R4]]].
    - intros k I. rewrite map_app in I. apply in_app_or in I as [I|[<-|[]]]; [intros J; apply (Dj k I); right; exact J|exact N1].
    - apply nodup_app_one; assumption.
    - apply nset_nodup. exact NS.
    - intros e r J. apply (nfind_iff _ e r (nset_nodup s d q' NS)) in J. rewrite nfind_set in J. destruct (Nat.eqb_spec e d) as [Y|Y].
      + injection J as <-. subst e. split; [exact Hq1|exact Hq2].
      + apply nfind_In in J. destruct (HP e r J) as [X1 X2]. split; [exact X1|]. intros k I. rewrite map_app. apply in_or_app. left. apply X2. exact I.
    - intros k. rewrite (coef_app HF) by (intros I [X|[]]; cbn in X; subst k; contradiction). rewrite coef_cons. unfold coef_at at 3. cbn [pfind]. unfold nget. rewrite nfind_set. destruct (Nat.eqb_spec (dg k) d) as [Y|Y].
      + rewrite (Hq3 k Y). f_equal. rewrite <- (HC k). rewrite Y. reflexivity.
      + destruct (mon_eqb_spec k k') as [X|X]; [subst k'; contradiction|]. rewrite <- (HC k). unfold nget. ring.
    - split; [exact R1|]. split; [exact R2|]. split; [intros k; rewrite R3, <- app_assoc; reflexivity|]. intros e I. apply R4 in I as [I|I]; [|right; right; exact I]. apply nset_keys in I as [->|I]; [right; left; reflexivity|left; exact I].
  Qed.
  Lemma qsolved_ok (g : list (mon * rn)) : Permutation (map (fun e => (fst e, to_ff F (snd e))) g) P1 ->
    let l := qsolved_polys ord c F g in
    NoDup (map fst l) /\ (forall d q, In (d, q) l -> homogeneous d q) /\ (forall k, coef_at (pf_coefs (nget no_poly l (dg k))) k = coef_at P1 k) /\ (forall d, In d (map fst l) -> (Z.of_nat d < 2 ^ 31)%Z).
  Proof.
    intros P l. unfold l, qsolved_polys. set (tmp := fold_left _ (ord _ g) _).
    assert (Pl : Permutation (map (fun e : mon * rn => (fst e, to_ff F (snd e))) (ord _ g)) P1) by (eapply Permutation_trans; [apply Permutation_map; apply Ho|exact P]).
    set (lg := map (fun e : mon * rn => (fst e, to_ff F (snd e))) (ord _ g)) in *.
    assert (Et : tmp = fold_left (fun m e => passign m (fst e) (snd e)) lg [(zero_mon c, f0)]) by (unfold tmp, lg; rewrite (fold_map (fun m e => passign m (fst e) (snd e)) (fun e : mon * rn => (fst e, to_ff F (snd e)))); reflexivity).
    assert (Nl : NoDup (map fst lg)) by (apply (Permutation_NoDup (Permutation_sym (Permutation_map fst Pl))); exact nd1).
    assert (N0 : NoDup (map fst [(zero_mon c, @f0 K)])) by (constructor; [intros []|constructor]).
    destruct (passign_fold lg _ N0 Nl) as [T1 [T2 T3]]. rewrite <- Et in T1, T2, T3.
    assert (Ct : forall k, coef_at tmp k = coef_at P1 k).
    { intros k. rewrite T2, <- (coef_perm lg P1 k Pl Nl). destruct (in_dec _ k (map fst lg)) as [J|J]; [reflexivity|]. rewrite (coef_out lg k J). unfold coef_at. cbn [pfind]. destruct (mon_eqb k (zero_mon c)); reflexivity. }
    assert (OKt : forall k, In k (map fst (ord _ tmp)) -> key_ok n k).
    { intros k I. apply (Permutation_in _ (Permutation_map fst (Ho _ tmp))) in I. apply T3 in I as [I|[<-|[]]]; [|apply zero_key]. apply ok1. apply (Permutation_in _ (Permutation_map fst Pl)). exact I. }
    assert (NDt : NoDup (map fst (ord _ tmp))) by (apply (Permutation_NoDup (Permutation_sym (Permutation_map fst (Ho _ tmp)))); exact T1).
    destruct (add_polys_ok (ord _ tmp) OKt NDt [] []) as [R1 [R2 [R3 R4]]].
    - intros k [].
    - constructor.
    - constructor.
    - intros d q [].
    - reflexivity.
    - change (fold_left add_poly (ord _ tmp) []) with (fold_left (fun s kc => let d := Z.to_nat (degree32 (fst kc)) in let q := nget no_poly s d in
        nset s d (if pzero q then mk_polyff n [kc] else mk_polyff (pf_n q) (pemplace (pf_coefs q) (fst kc) (snd kc)))) (ord _ tmp) []) in *.
      split; [exact R1|]. split; [exact R2|]. split.
      + intros k. rewrite R3. cbn [app]. rewrite (coef_perm (ord _ tmp) tmp k (Ho _ tmp) NDt). apply Ct.
      + intros d I. apply R4 in I as [[]|I]. apply in_map_iff in I as [k [<- I]]. pose proof (key_range n k (OKt k I)). unfold dg. lia.
  Qed.
  Lemma start_ok g : Permutation (map (fun e => (fst e, to_ff F (snd e))) g) P1 ->
    sinv (fun _ => 0) (set_solved F (side_start F ns0) (qsolved_polys ord c F g)).
  Proof.
    intros P. destruct (qsolved_ok g P) as [A [B [C _]]]. unfold set_solved, side_start. cbn [qs_ns qs_mat].
    assert (E : ns0 = filter (fun e => 0 <? length (snd e)) ns0).
    { assert (X : forall e, In e ns0 -> 0 < length (snd e)) by (intros [d l] I; apply (group_len _ _ _ _ Hgroups I)). clear - X. induction ns0 as [|e l IH]; [reflexivity|]. cbn [filter]. rewrite (proj2 (Nat.ltb_lt _ _) (X e (or_introl eq_refl))). f_equal. apply IH. intros e' I. apply X. right. exact I. }
    constructor; cbn [qs_ns qs_mat qs_solved].
    - exact E.
    - rewrite map_map. reflexivity.
    - intros d I. cbn [seq map]. apply in_map_iff in I as [[d' l] [<- I]]. apply nget_in; [rewrite map_map; apply Hgroups|]. apply in_map_iff. exists (d', l). auto.
    - exact A.
    - exact B.
    - intros k. rewrite C, known_coef. unfold ready. destruct (Nat.leb_spec (lenof (dg k)) 0) as [L|L]; [|ring]. rewrite (coef_out P2 k); [ring|]. intros I.
      assert (J : In k (of_degree (dg k) (map fst P2))) by (apply filter_In; split; [exact I|apply Nat.eqb_refl]). unfold lenof in L. destruct (of_degree (dg k) (map fst P2)); [contradiction|cbn in L; lia].
  Qed.

  (** ---- the end: all coefficients ---- *)
  Lemma qsum_ok lev s : sinv lev s -> qs_mat F s = [] -> forall k, coef_at (qsum ord c F s) k = coef_at (P1 ++ P2) k.
  Proof.
    intros I E k. assert (R : forall k, In k (map fst P2) -> ready lev k = true).
    { intros k' J. unfold ready. apply Nat.leb_le. destruct (Nat.lt_ge_cases (lev (dg k')) (lenof (dg k'))) as [L|L]; [|exact L]. exfalso.
      assert (X : In (dg k') (map fst (qs_ns F s))) by (apply (in_ns lev s _ I); split; [apply Hgroups; exact J|exact L]). rewrite <- (si_keys _ _ I), E in X. exact X. }
    assert (EK : coef_at (known lev) k = coef_at (P1 ++ P2) k).
    { rewrite known_coef, (coef_app HF) by (apply disj). f_equal. destruct (in_dec (list_eq_dec Z.eq_dec) k (map fst P2)) as [J|J]; [rewrite (R k J); reflexivity|]. rewrite (coef_out P2 k J). destruct (ready lev k); reflexivity. }
    rewrite <- EK, <- (proj2 (solved_coef lev s k I)). unfold solved_terms. assert (A : any_order (ord (list Z * K)%type)) by (intros m; apply Ho).
    assert (Fo : forall l r, NoDup (map fst (pf_coefs r)) -> (forall d q, In (d, q) l -> homogeneous d q) ->
      NoDup (map fst (pf_coefs (fold_left (fun r e => padd_assign (ord _) r (snd e)) l r))) /\
      coef_at (pf_coefs (fold_left (fun r e => padd_assign (ord _) r (snd e)) l r)) k = (coef_at (pf_coefs r) k + lsum (fun e : nat * polyff K => coef_at (pf_coefs (snd e)) k) l)%K).
    { clear - A. induction l as [|[d q] l IH]; intros r Nr H; cbn [fold_left snd]; [split; [exact Nr|change (lsum (fun e : nat * polyff K => coef_at (pf_coefs (snd e)) k) []) with (@f0 K); ring]|]. destruct (coef_padd HF (ord _) r q k A Nr) as [N1 E1]; [apply (proj1 (proj1 (proj2 (H d q (or_introl eq_refl)))))|].
      destruct (IH _ N1 (fun d' q' J => H d' q' (or_intror J))) as [N2 E2]. split; [exact N2|]. rewrite E2, E1, lsum_cons. cbn [snd]. ring. }
    assert (Er : coef_at (qsum ord c F s) k = coef_at (pf_coefs (fold_left (fun r e => padd_assign (ord _) r (snd e)) (ord _ (qs_solved F s)) (zero_poly c))) k).
    { unfold qsum. set (m := pf_coefs _). destruct (pfind m (zero_mon c)) as [a|] eqn:Ef; [|reflexivity]. destruct (feqb a f0) eqn:Z; [|reflexivity]. apply (fl_eqb K HF) in Z. rewrite coef_erase. destruct (mon_eqb_spec (zero_mon c) k) as [X|X]; [|reflexivity]. subst k. unfold coef_at. rewrite Ef. symmetry. exact Z. }
    rewrite Er. destruct (Fo (ord _ (qs_solved F s)) (zero_poly c)) as [_ E2].
    { cbn. constructor; [intros []|constructor]. }
    { intros d q J. apply (si_poly _ _ I). apply (Permutation_in _ (Ho _ _) J). }
    rewrite E2, (lsum_perm HF _ _ _ (Ho _ _)). assert (E0 : coef_at (pf_coefs (zero_poly (K:=K) c)) k = f0) by (unfold zero_poly, coef_at; cbn [pf_coefs pfind]; destruct (mon_eqb k (zero_mon c)); reflexivity). rewrite E0.
    pose proof (si_poly _ _ I) as HP. pose proof (si_nd _ _ I) as ND. clear - HP ND Ho. induction (qs_solved F s) as [|[d q] l IH]; [change (coef_at (flat_map (fun e : nat * polyff K => pf_coefs (snd e)) []) k) with (@f0 K); change (lsum (fun e : nat * polyff K => coef_at (pf_coefs (snd e)) k) []) with (@f0 K); ring|]. rewrite lsum_cons. cbn [flat_map snd].
    inversion ND as [|? ? N1 N2]; subst. cbn [fst] in N1.
    rewrite (coef_app HF).
    - rewrite <- (IH (fun d' q' J => HP d' q' (or_intror J)) N2). ring.
    - intros J J2. apply in_map_iff in J2 as [[k2 w] [<- J2]]. apply in_flat_map in J2 as [[d' q'] [J3 J4]]. cbn [snd] in J4. destruct (HP d q (or_introl eq_refl)) as [_ [_ H1]]. destruct (HP d' q' (or_intror J3)) as [_ [_ H2]].
      assert (X1 := H1 _ J). assert (X2 := H2 k2 ltac:(apply in_map_iff; exists (k2, w); auto)). cbn [fst] in X1. assert (d = d') by lia. subst d'. apply N1. apply in_map_iff. exists (d, q'). auto.
  Qed.
  Lemma small_solved lev s : sinv lev s -> (forall d, In d (map fst (qs_solved F s)) -> (Z.of_nat d < 2 ^ 31)%Z) -> forall l s', file_values ord c F y l s = Ret s' ->
    (forall d w, In (d, w) l -> (Z.of_nat d < 2 ^ 31)%Z) -> forall d, In d (map fst (qs_solved F s')) -> (Z.of_nat d < 2 ^ 31)%Z.
  Proof.
    intros _ Sm l. revert s Sm. induction l as [|[d w] l IH]; intros s Sm s' E H e I; cbn [file_values] in E; [injection E as <-; apply Sm; exact I|].
    destruct (file_value ord c F y s (d, w)) as [s1| | | |] eqn:E1; try discriminate. cbn [obind] in E. apply (IH s1) with (s' := s') (d := e); [|exact E|intros d' w' J; apply (H d' w'); right; exact J|exact I].
    intros e' I'. unfold file_value in E1. cbn [fst snd] in E1. destruct (_ =? _) in E1.
    - destruct (solve_vandermonde_system _ _ _ _) as [q| | | |] in E1; try discriminate. cbn [obind] in E1. injection E1 as <-. cbn [qs_solved] in I'. apply nset_keys in I' as [->|I']; [apply (H d w); left; reflexivity|apply Sm; exact I'].
    - injection E1 as <-. apply Sm. exact I'.
  Qed.
End Side.

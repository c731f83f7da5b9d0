(** Proofs for RatReconst in several variables, part 2: the contributions of a translation to the lower degrees. *)
From Coq Require Import Permutation.
From Verif Require Import Machine FField FSum LinAlg FPoly PolyFF PolySpec PolyFFProofs PolyFFProofs2 PolyFFProofs3 ThieleProofs RatUni RatUniThiele PolyRec PolyRecSpec PolyRecMath RatMulti RatMultiSpec RatMultiMath Props_PolyRec.
Open Scope nat_scope.

(** ---- maps with keys of type nat ---- *)
Section NMap.
  Context {A : Type}.
  Lemma nfind_app (m m' : list (nat * A)) k : nfind (m ++ m') k = match nfind m k with Some a => Some a | None => nfind m' k end.
  Proof. induction m as [|[j a] m IH]; [reflexivity|]. cbn. destruct (k =? j); [reflexivity|exact IH]. Qed.
  Lemma nfind_None (m : list (nat * A)) k : nfind m k = None <-> ~ In k (map fst m).
  Proof.
    induction m as [|[j a] m IH]; [cbn; tauto|]. cbn. destruct (Nat.eqb_spec k j) as [->|N].
    - split; [discriminate|]. intros H. exfalso. apply H. left. reflexivity.
    - rewrite IH. split; intros H; [intros [E|I]; [apply N; symmetry; exact E|exact (H I)]|intros I; apply H; right; exact I].
  Qed.
  Lemma nfind_In (m : list (nat * A)) k a : nfind m k = Some a -> In (k, a) m.
  Proof. induction m as [|[j b] m IH]; [discriminate|]. cbn. destruct (Nat.eqb_spec k j) as [->|N]; intros H; [injection H as ->; left; reflexivity|right; apply IH; exact H]. Qed.
  Lemma nfind_iff (m : list (nat * A)) k a : NoDup (map fst m) -> (nfind m k = Some a <-> In (k, a) m).
  Proof.
    intros N. split; [apply nfind_In|]. induction m as [|[j b] m IH]; [contradiction|]. cbn [map fst] in N. inversion N as [|? ? N1 N2]; subst. cbn. intros [E|I].
    - injection E as -> ->. rewrite Nat.eqb_refl. reflexivity.
    - destruct (Nat.eqb_spec k j) as [->|_]; [exfalso; apply N1; apply in_map_iff; exists (j, a); split; [reflexivity|exact I]|apply IH; assumption].
  Qed.
  Lemma nfind_set (m : list (nat * A)) k a j : nfind (nset m k a) j = if j =? k then Some a else nfind m j.
  Proof.
    unfold nset. destruct (nfind m k) as [b|] eqn:E.
    - revert E. induction m as [|[i b'] m IH]; [discriminate|]. cbn. destruct (Nat.eqb_spec k i) as [->|N]; intros E; cbn.
      + destruct (Nat.eqb_spec j i) as [->|Nj]; [reflexivity|]. clear IH E. induction m as [|[i' b''] m IH]; [reflexivity|]. cbn.
        destruct (Nat.eqb_spec i i') as [->|N']; cbn; [destruct (Nat.eqb_spec j i'); [contradiction|exact IH]|]. destruct (j =? i'); [reflexivity|exact IH].
      + rewrite (IH E). destruct (Nat.eqb_spec j i) as [->|]; [|reflexivity]. destruct (Nat.eqb_spec i k) as [->|]; [contradiction|reflexivity].
    - rewrite nfind_app. cbn. destruct (Nat.eqb_spec j k) as [->|N]; [rewrite E; reflexivity|]. destruct (nfind m j); reflexivity.
  Qed.
  Lemma nset_keys_in (m : list (nat * A)) k a : In k (map fst m) -> map fst (nset m k a) = map fst m.
  Proof.
    intros I. unfold nset. destruct (nfind m k) eqn:E; [|apply nfind_None in E; contradiction]. rewrite map_map. apply map_ext. intros [j b]. cbn [fst]. destruct (k =? j); reflexivity.
  Qed.
  Lemma nset_keys (m : list (nat * A)) k a j : In j (map fst (nset m k a)) <-> j = k \/ In j (map fst m).
  Proof.
    assert (G : forall m : list (nat * A), In j (map fst m) <-> nfind m j <> None).
    { intros m'. pose proof (nfind_None m' j) as H. destruct (in_dec Nat.eq_dec j (map fst m')) as [I|I]; [tauto|]. pose proof (proj2 H I). tauto. }
    rewrite !G, nfind_set. destruct (Nat.eqb_spec j k) as [->|N].
    - split; [intros _; left; reflexivity|discriminate].
    - split; [intros H; right; exact H|intros [H|H]; [contradiction|exact H]].
  Qed.
  Lemma nset_nodup (m : list (nat * A)) k a : NoDup (map fst m) -> NoDup (map fst (nset m k a)).
  Proof.
    intros N. destruct (in_dec Nat.eq_dec k (map fst m)) as [I|I]; [rewrite nset_keys_in by exact I; exact N|].
    unfold nset. destruct (nfind m k) eqn:E; [exfalso; apply I; apply in_map_iff; exists (k, a0); split; [reflexivity|apply nfind_In; exact E]|].
    rewrite map_app. apply NoDup_app_intro; [exact N|repeat constructor; intros []|]. intros j Ij [<-|[]]. contradiction.
  Qed.
End NMap.

Section Shift.
  Context {K : fops} (HK : flaws K).
  Add Field KSH : (fl_field K HK).
  Local Notation pv := (@poly_value K).
  Local Notation mv := (@monomial_value K).

  (** ---- layers ---- *)
  Definition x1 (r : nat -> K) : nat -> K := fun i => match i with O => f1 | S j => r j end.
  Lemma layer_value m M d P r : wf (S m) M P -> pv m (layer d P) r = pv (S m) (hom d P) (x1 r).
  Proof.
    intros H. unfold layer. assert (H' : forall e a, In (e, a) (hom d P) -> length e = S m) by (intros e a I; apply in_hom in I as [I _]; apply (H e a I)).
    induction (hom d P) as [|[e a] Q IH]; [reflexivity|]. cbn [map fst snd]. rewrite !pv_cons. cbn [fst snd]. rewrite IH by (intros e' a' I; apply (H' e' a'); right; exact I). f_equal. f_equal.
    pose proof (H' e a (or_introl eq_refl)) as L. destruct e as [|z e]; [discriminate L|]. cbn [tl]. rewrite (mv_cons HK). cbn [x1]. rewrite (pw_1 HK). transitivity (f1 * mv m e r)%K; [ring|reflexivity].
  Qed.
  Lemma total_cons z e : total (z :: e) = (z + total e)%Z. Proof. reflexivity. Qed.
  Lemma nth_total e i : (forall i, (0 <= nth i e 0)%Z) -> (nth i e 0 <= total e)%Z.
  Proof.
    revert i. induction e as [|z e IH]; intros i P; [destruct i; cbn; lia|]. rewrite total_cons. pose proof (P 0) as P0. cbn [nth] in P0.
    assert (P' : forall i, (0 <= nth i e 0)%Z) by (intros j; apply (P (S j))). pose proof (total_range e P'). destruct i as [|i]; cbn [nth]; [lia|]. specialize (IH i P'). lia.
  Qed.
  Lemma layer_back d (P : list (list Z * K)) m : (forall e a, In (e, a) (hom d P) -> length e = S m) ->
    map (fun t => ((Z.of_nat d - total (fst t))%Z :: fst t, snd t)) (layer d P) = hom d P.
  Proof.
    intros H. unfold layer. rewrite map_map. rewrite <- (map_id (hom d P)) at 2. apply map_ext_in. intros [e a] I. cbn [fst snd].
    pose proof (H e a I) as L. apply in_hom in I as [_ T]. destruct e as [|z e]; [discriminate L|]. rewrite total_cons in T. cbn [tl]. f_equal. f_equal. lia.
  Qed.
  Lemma layer_total d (P : list (list Z * K)) m e a : (forall e a, In (e, a) P -> length e = S m /\ forall i, (0 <= nth i e 0)%Z) -> In (e, a) (layer d P) -> (0 <= total e <= Z.of_nat d)%Z /\ length e = m /\ (forall i, (0 <= nth i e 0)%Z) /\ In ((Z.of_nat d - total e)%Z :: e, a) (hom d P).
  Proof.
    intros H I. unfold layer in I. apply in_map_iff in I as [[e' a'] [E I]]. cbn [fst snd] in E. injection E as <- <-. pose proof I as I'. apply in_hom in I' as [I' T]. destruct (H e' a' I') as [L P0].
    destruct e' as [|z e]; [discriminate L|]. cbn [tl]. rewrite total_cons in T. assert (P' : forall i, (0 <= nth i e 0)%Z) by (intros j; apply (P0 (S j))). pose proof (total_range e P'). specialize (P0 0). cbn [nth] in P0.
    split; [lia|]. split; [cbn in L; lia|]. split; [exact P'|]. replace (Z.of_nat d - total e)%Z with z by lia. exact I.
  Qed.
  Lemma layer_polynomial m G (P : list (list Z * K)) d : polynomial (S m) G P -> hom d P <> [] -> polynomial m d (layer d P).
  Proof.
    intros [_ [N H]] Hne. assert (H' : forall e a, In (e, a) P -> length e = S m /\ forall i, (0 <= nth i e 0)%Z) by (intros e a I; destruct (H e a I) as [_ [L [B _]]]; split; [exact L|intros i; apply B]).
    split; [|split].
    - intros E. apply Hne. unfold layer in E. apply map_eq_nil in E. exact E.
    - apply (NoDup_map_inv (fun e => (Z.of_nat d - total e)%Z :: e)). rewrite map_map.
      assert (E : map (fun x : list Z * K => (Z.of_nat d - total (fst x))%Z :: fst x) (layer d P) = map fst (hom d P)).
      { transitivity (map fst (map (fun t : list Z * K => ((Z.of_nat d - total (fst t))%Z :: fst t, snd t)) (layer d P))); [rewrite map_map; reflexivity|]. rewrite (layer_back d P m); [reflexivity|]. intros e a I. apply in_hom in I as [I _]. apply (H' e a I). }
      rewrite E. unfold hom. apply NoDup_keys_filter. exact N.
    - intros e a I. destruct (layer_total d P m e a H' I) as [T [L [P0 J]]]. apply in_hom in J as [J T']. destruct (H _ _ J) as [Ha [_ [_ T2]]]. split; [exact Ha|]. split; [exact L|]. split.
      + intros i. split; [apply P0|]. pose proof (nth_total e i P0). lia.
      + lia.
  Qed.

  (** ---- accumulating terms ---- *)
  Lemma assign_entry (add : bool) k (c : K) : forall l m, In (k, c) (fold_left (if add then add_assign_term (K:=K) else sub_assign_term (K:=K)) l m) ->
    In (k, c) m \/ exists c', c' <> f0 /\ In (k, c') l.
  Proof.
    induction l as [|[k' c'] l IH]; intros m I; [left; exact I|]. cbn [fold_left] in I. apply IH in I as [I|[c2 [N I]]]; [|right; exists c2; split; [exact N|right; exact I]].
    assert (G : In (k, c) m \/ c' <> f0 /\ k = k'); [|destruct G as [G|[N ->]]; [left; exact G|right; exists c'; split; [exact N|left; reflexivity]]].
    assert (U : forall f, In (k, c) (pupdate m k' f) -> In (k, c) m \/ k = k').
    { intros f J. apply in_map_iff in J as [[k2 c2] [E J]]. cbn [fst snd] in E. destruct (mon_eqb_spec k' k2) as [->|_]; [right; injection E as <- _; reflexivity|left; rewrite <- E; exact J]. }
    destruct add; cbn [add_assign_term sub_assign_term] in I; unfold add_assign_term, sub_assign_term in I; cbn [fst snd] in I; (destruct (feqb c' f0) eqn:Ec; [left; exact I|]); apply (feqb_neq HK) in Ec;
    (destruct (pfind m k') as [c0|] eqn:Ef;
     [match type of I with In _ (if ?b then _ else _) => destruct b end; [unfold perase in I; apply filter_In in I as [I _]|]; apply U in I as [I|I]; [left; exact I|right; split; assumption|left; exact I|right; split; assumption]
     |unfold passign in I; rewrite Ef in I; apply in_app_or in I as [I|[E|[]]]; [left; exact I|right; split; [exact Ec|congruence]]]).
  Qed.
  Lemma add_entry k (c : K) l m : In (k, c) (fold_left (add_assign_term (K:=K)) l m) -> In (k, c) m \/ exists c', c' <> f0 /\ In (k, c') l.
  Proof. apply (assign_entry true). Qed.
  Lemma sub_entry k (c : K) l m : In (k, c) (fold_left (sub_assign_term (K:=K)) l m) -> In (k, c) m \/ exists c', c' <> f0 /\ In (k, c') l.
  Proof. apply (assign_entry false). Qed.

  Variable ord : forall A : Type, list A -> list A.
  Hypothesis Ho : forall A (l : list A), Permutation (ord A l) l.
  Lemma ord_any : any_order (ord (list Z * K)%type). Proof. intros m. apply Ho. Qed.
  Lemma in_ord_any A (x : A) l : In x (ord A l) <-> In x l.
  Proof. split; intros I; [apply (Permutation_in _ (Ho A l))|apply (Permutation_in _ (Permutation_sym (Ho A l)))]; exact I. Qed.

  (** ---- the keys of add_shift ---- *)
  Lemma shift_pow_keys n j d (s : K) k : (0 <= d)%Z -> In k (map fst (shift_pow n j d s)) -> exists z, (0 <= z <= d)%Z /\ k = unit_mon n j z.
  Proof.
    intros Hd. unfold shift_pow. destruct (fgtb s f0).
    - assert (G : forall (g : nat -> list Z) (h : nat -> K) l m, In k (map fst (fold_left (fun m i => pemplace m (g i) (h i)) l m)) -> In k (map fst m) \/ exists i, In i l /\ k = g i).
      { intros g h. induction l as [|i l IH]; intros m I; [left; exact I|]. cbn [fold_left] in I. apply IH in I as [I|[i' [I E]]]; [|right; exists i'; split; [right; exact I|exact E]].
        unfold pemplace in I. destruct (pfind m (g i)); [left; exact I|]. rewrite map_app in I. apply in_app_or in I as [I|[E|[]]]; [left; exact I|]. right. exists i. split; [left; reflexivity|symmetry; exact E]. }
      intros I. cbv zeta in I. apply (G (fun i => unit_mon n j (d - Z.of_nat i)) (fun i => if (Z.of_nat i =? 0)%Z then f1 else if (Z.of_nat i =? d)%Z then fpow s d else (bin_coef d (Z.of_nat i) * fpow s (Z.of_nat i))%K)) in I.
      destruct I as [[]|[i [I E]]]. apply in_seq in I. exists (d - Z.of_nat i)%Z. split; [lia|exact E].
    - intros [E|[]]. exists d. split; [lia|symmetry; exact E].
  Qed.
  Definition under (n : nat) (e k : list Z) : Prop := length k = n /\ forall i, (nth i k 0 <= nth i e 0)%Z.
  Lemma unit_nth n j z i : nth i (unit_mon n j z) 0%Z = if (i =? j) && (i <? n) then z else 0%Z.
  Proof.
    unfold unit_mon. destruct (Nat.ltb_spec i n) as [H|H].
    - rewrite nth_map_seq by exact H. destruct (i =? j); reflexivity.
    - rewrite nth_overflow by (rewrite map_length, seq_length; exact H). destruct (i =? j); reflexivity.
  Qed.
  Lemma shift_var_under n e (c : K) s J P : length e = n -> (forall i, (0 <= nth i e 0)%Z) -> J < n -> (forall k, In k (map fst P) -> under n e k) ->
    forall k, In k (map fst (shift_var (ord _) n (e, c) s P J)) -> under n e k.
  Proof.
    intros L P0 HJ HP k. unfold shift_var. cbn [fst snd]. unfold expo. destruct (Z.ltb_spec 0 (nth J e 0%Z)) as [Hz|Hz]; [|apply HP].
    assert (T : forall k, In k (map fst (shift_pow n J (nth J e 0%Z) (s J))) -> exists z, (0 <= z <= nth J e 0)%Z /\ k = unit_mon n J z) by (intros k'; apply shift_pow_keys; lia).
    destruct P as [|q P'].
    - cbn [pscale pf_coefs]. rewrite map_map. cbn [fst]. intros I. destruct (T k) as [z [Bz ->]]; [exact I|]. split; [unfold unit_mon; rewrite map_length, seq_length; reflexivity|].
      intros i. rewrite unit_nth. destruct (Nat.eqb_spec i J) as [->|_]; cbn [andb]; [destruct (J <? n); [lia|apply P0]|apply P0].
    - remember (q :: P') as P eqn:EP. clear EP q P'. unfold mul_shift.
      set (T' := shift_pow n J (nth J e 0%Z) (s J)) in *.
      assert (G : forall lb, (forall kc, In kc lb -> In kc T') -> forall la m, (forall kc, In kc la -> In kc P) -> (forall k, In k (map fst m) -> under n e k) ->
        forall k, In k (map fst (fold_left (fun m ka => fold_left (fun m' kb => if feqb (snd ka * snd kb)%K f0 then m' else pemplace m' (set_at (fst ka) J (expo (fst kb) J)) (snd ka * snd kb)%K) lb m) la m)) -> under n e k).
      { intros lb Hlb la. induction la as [|ka la IH]; intros m Hla Hm; [exact Hm|]. cbn [fold_left]. apply IH; [intros kc I; apply Hla; right; exact I|]. clear IH.
        assert (HkA : under n e (fst ka)) by (apply HP, in_map, Hla; left; reflexivity). clear Hla. revert m Hm. induction lb as [|kb lb IHb]; intros m Hm; [exact Hm|]. cbn [fold_left]. apply IHb; [intros kc I; apply Hlb; right; exact I|].
        destruct (feqb _ _); [exact Hm|]. unfold pemplace. destruct (pfind m _); [exact Hm|]. intros k' I. rewrite map_app in I. apply in_app_or in I as [I|[<-|[]]]; [apply Hm; exact I|]. cbn [fst].
        destruct HkA as [LA BA]. destruct (T (fst kb)) as [z [Bz Ez]]; [apply in_map, Hlb; left; reflexivity|]. split; [unfold set_at; rewrite map_length, seq_length; exact LA|].
        intros i. rewrite (set_at_nth n) by exact LA. destruct (Nat.eqb_spec i J) as [->|_]; [|apply BA]. destruct (Nat.ltb_spec J n); [|lia]. unfold expo. rewrite Ez, unit_nth, Nat.eqb_refl. destruct (Nat.ltb_spec J n); [|lia]. cbn [andb]. lia. }
      intros I. cbv zeta in I. refine (G (ord _ T') _ (ord _ P) [] _ _ k I); [| |intros k' []]; intros kc J'; rewrite in_ord_any in J'; exact J'.
  Qed.
  Lemma shift_vars_under n e (c : K) s : length e = n -> (forall i, (0 <= nth i e 0)%Z) -> forall l P, (forall j, In j l -> j < n) -> (forall k, In k (map fst P) -> under n e k) ->
    forall k, In k (map fst (fold_left (shift_var (ord _) n (e, c) s) l P)) -> under n e k.
  Proof.
    intros L P0. induction l as [|j l IH]; intros P Hl HP; [exact HP|]. cbn [fold_left]. apply IH; [intros i I; apply Hl; right; exact I|]. apply shift_var_under; try assumption. apply Hl. left. reflexivity.
  Qed.
  Lemma under_total n e k : length e = n -> under n e k -> (total k <= total e)%Z.
  Proof.
    revert e k. induction n as [|n IH]; intros e k L [Lk B].
    - destruct e; [|discriminate L]. destruct k; [|discriminate Lk]. lia.
    - destruct e as [|z e]; [discriminate L|]. destruct k as [|w k]; [discriminate Lk|]. rewrite !total_cons. pose proof (B 0) as B0. cbn [nth] in B0.
      assert (total k <= total e)%Z; [|lia]. apply IH; [cbn in L; lia|]. split; [cbn in Lk; lia|]. intros i. apply (B (S i)).
  Qed.
  Lemma add_shift_keys n d (a : polyff K) s r : pf_n a = n -> (forall e c, In (e, c) (pf_coefs a) -> length e = n /\ (forall i, (0 <= nth i e 0)%Z) /\ (total e <= Z.of_nat d)%Z) ->
    add_shift (ord _) a n s = Ret r -> forall k c, In (k, c) (pf_coefs r) -> (total k <= Z.of_nat d)%Z.
  Proof.
    intros En H. rewrite add_shift_unfold. rewrite En, Nat.eqb_refl. cbn [negb]. intros E. injection E as <-.
    assert (G : forall l r, (forall kc, In kc l -> In kc (pf_coefs a)) -> (forall k c, In (k, c) (pf_coefs r) -> (total k <= Z.of_nat d)%Z) ->
      forall k c, In (k, c) (pf_coefs (fold_left (add_shift_step (ord _) n s) l r)) -> (total k <= Z.of_nat d)%Z).
    { induction l as [|[e c] l IH]; intros r Hl Hr; [exact Hr|]. cbn [fold_left]. apply IH; [intros kc I; apply Hl; right; exact I|].
      destruct (H e c (Hl _ (or_introl eq_refl))) as [L [P0 T]].
      assert (U : forall k, In k (map fst (fold_left (shift_var (ord _) n (e, c) s) (seq 0 n) [])) -> (total k <= Z.of_nat d)%Z).
      { intros k I. apply (shift_vars_under n e c s L P0) in I; [|intros j J; apply in_seq in J; lia|intros k' []]. pose proof (under_total n e k L I). lia. }
      unfold add_shift_step. cbv zeta. destruct (fold_left (shift_var (ord _) n (e, c) s) (seq 0 n) []) as [|q P]; [exact Hr|].
      destruct (pf_coefs r) as [|q' R] eqn:Er; intros k c' I.
      - cbn [pf_coefs] in I. apply U. apply in_map_iff. exists (k, c'). split; [reflexivity|exact I].
      - unfold padd_assign in I. cbn [pf_coefs] in I. apply add_entry in I as [I|[c2 [_ I]]]; [rewrite Er in I; apply (Hr k c' I)|]. rewrite in_ord_any in I. apply U. apply in_map_iff. exists (k, c2). split; [reflexivity|exact I]. }
    apply (G (ord _ (pf_coefs a)) (mk_polyff n [])); [intros kc I; rewrite in_ord_any in I; exact I|intros k c []].
  Qed.
End Shift.

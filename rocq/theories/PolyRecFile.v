(** Proofs for PolyReconst, part 3: one value for one key of a stage *)
From Coq Require Import Permutation.
From Verif Require Import Machine FField FSum LinAlg LinAlgProofs FPoly Vandermonde VandermondeProofs PolyFF PolySpec PolyFFProofs PolyFFProofs2 Thiele ThieleSpec ThieleProofs Newton NewtonProofs BM BMSpec BMProofs BTProofs RatUni RatUniThiele PolyRec PolyRecSpec PolyRecKey PolyRecMath PolyRecRunSpec.
Open Scope nat_scope.

(** ---- maps ---- *)
Section Maps.
  Context {A : Type}.
  Implicit Types (m : list (list Z * A)).
  Lemma aget_set m k a k' : afind (aset m k a) k' = if mon_eqb k' k then Some a else afind m k'.
  Proof.
    unfold aset. destruct (afind m k) as [b|] eqn:E.
    - induction m as [|[q c] m IH]; [discriminate|]. cbn [afind map fst] in *. destruct (mon_eqb_spec k q) as [->|N].
      + cbn [afind fst]. destruct (mon_eqb_spec k' q) as [->|N']; [reflexivity|]. clear E IH. induction m as [|[r d] m IH]; [reflexivity|]. cbn [map fst].
        destruct (mon_eqb_spec q r) as [->|N2]; cbn [afind fst].
        * destruct (mon_eqb_spec k' r); [contradiction|exact IH].
        * destruct (mon_eqb k' r); [reflexivity|exact IH].
      + cbn [afind fst]. destruct (mon_eqb_spec k' q) as [->|N']; [destruct (mon_eqb_spec q k); [congruence|reflexivity]|apply IH; exact E].
    - induction m as [|[q c] m IH]; cbn [app afind] in *.
      + destruct (mon_eqb_spec k' k) as [->|]; reflexivity.
      + destruct (mon_eqb_spec k q) as [->|N]; [discriminate|]. destruct (mon_eqb_spec k' q) as [->|N']; [destruct (mon_eqb_spec q k); [congruence|reflexivity]|apply IH; exact E].
  Qed.
  Lemma aget_erase m k k' : k' <> k -> afind (aerase m k) k' = afind m k'.
  Proof.
    intros N. induction m as [|[q c] m IH]; [reflexivity|]. cbn [aerase filter fst afind]. destruct (mon_eqb_spec k q) as [->|N1]; cbn [negb].
    - destruct (mon_eqb_spec k' q); [contradiction|exact IH].
    - cbn [afind]. destruct (mon_eqb k' q); [reflexivity|exact IH].
  Qed.
  Lemma aget_map {B} (g : B -> list Z) (h : B -> A) l b : NoDup (map g l) -> In b l -> afind (map (fun x => (g x, h x)) l) (g b) = Some (h b).
  Proof.
    induction l as [|x l IH]; intros N I; [contradiction|]. cbn [map afind]. inversion N as [|? ? N1 N2]; subst. destruct I as [->|I]; [rewrite mon_eqb_refl; reflexivity|].
    destruct (mon_eqb_spec (g b) (g x)) as [E|]; [|apply IH; assumption]. exfalso. apply N1. rewrite <- E. apply in_map. exact I.
  Qed.
End Maps.

Definition inb (q : list Z) (R : list (list Z)) : bool := existsb (mon_eqb q) R.
Lemma inb_spec q R : inb q R = true <-> In q R.
Proof. unfold inb. rewrite existsb_exists. split; [intros [x [I E]]; destruct (mon_eqb_spec q x) as [->|]; [exact I|discriminate]|intros I; exists q; split; [exact I|apply mon_eqb_refl]]. Qed.
Lemma inb_false q R : inb q R = false <-> ~ In q R.
Proof. rewrite <- inb_spec. destruct (inb q R); split; intros H; congruence. Qed.

Lemma erase_first_ok q : forall R, In q R -> exists R', erase_first q R = Ret R' /\ Permutation (q :: R') R.
Proof.
  induction R as [|a R IH]; intros I; [contradiction|]. cbn [erase_first]. destruct (mon_eqb_spec q a) as [->|N].
  - exists R. split; [reflexivity|apply Permutation_refl].
  - destruct I as [I|I]; [congruence|]. destruct (IH I) as [R' [E P]]. rewrite E. exists (a :: R'). split; [reflexivity|].
    apply (Permutation_trans (perm_swap _ _ _)). apply perm_skip. exact P.
Qed.

(** ---- filing the terms of a key ---- *)
Section Fold.
  Context {K : fops}.
  Variable p : list Z * K -> bool.
  Definition fstep (s : pmap K * pmap K) (el : list Z * K) : pmap K * pmap K :=
    if p el && negb (feqb (snd el) f0) then (pemplace (fst s) (fst el) (snd el), snd s)
    else if negb (feqb (snd el) f0) then (fst s, pemplace (snd s) (fst el) (snd el)) else s.
  Lemma pemplace_new (m : pmap K) k v : ~ In k (map fst m) -> pemplace m k v = m ++ [(k, v)].
  Proof. intros H. unfold pemplace. apply pfind_None in H. rewrite H. reflexivity. Qed.
  Lemma fstep_fold l : forall st, NoDup (map fst l) -> (forall k, In k (map fst l) -> ~ In k (map fst (fst st)) /\ ~ In k (map fst (snd st))) ->
    fold_left fstep l st = (fst st ++ filter (fun el => p el && negb (feqb (snd el) f0)) l, snd st ++ filter (fun el => negb (p el) && negb (feqb (snd el) f0)) l).
  Proof.
    induction l as [|el l IH]; intros st N H; [destruct st; cbn; rewrite !app_nil_r; reflexivity|]. cbn [fold_left map filter] in *. inversion N as [|? ? N1 N2]; subst.
    destruct (H (fst el) (or_introl eq_refl)) as [H1 H2]. unfold fstep at 2. destruct (feqb (snd el) f0); cbn [negb]; rewrite ?andb_false_r, ?andb_true_r.
    - apply IH; [exact N2|]. intros k Hk. apply H. right. exact Hk.
    - destruct (p el); cbn [negb].
      + rewrite pemplace_new by exact H1. rewrite IH; [cbn [fst snd]; rewrite <- app_assoc, <- surjective_pairing; reflexivity|exact N2|].
        intros k Hk. cbn [fst snd]. rewrite map_app. destruct (H k (or_intror Hk)) as [A B]. split; [|exact B]. intros X. apply in_app_or in X as [X|[X|[]]]; [exact (A X)|].
        cbn [fst] in X. subst k. exact (N1 Hk).
      + rewrite pemplace_new by exact H2. rewrite IH; [cbn [fst snd]; rewrite <- app_assoc, <- surjective_pairing; reflexivity|exact N2|].
        intros k Hk. cbn [fst snd]. rewrite map_app. destruct (H k (or_intror Hk)) as [A B]. split; [exact A|]. intros X. apply in_app_or in X as [X|[X|[]]]; [exact (B X)|].
        cbn [fst] in X. subst k. exact (N1 Hk).
  Qed.
End Fold.

Lemma filter_perm {A} (p : A -> bool) l l' : Permutation l l' -> Permutation (filter p l) (filter p l').
Proof.
  induction 1 as [|x l l' P IH|x z l|l1 l2 l3 P1 IH1 P2 IH2]; cbn [filter]; [constructor|destruct (p x); [constructor; exact IH|exact IH]| |apply (Permutation_trans IH1 IH2)].
  destruct (p x), (p z); try apply Permutation_refl. apply perm_swap.
Qed.
Lemma filter_map_comm {A B} (p : B -> bool) (g : A -> B) l : filter p (map g l) = map g (filter (fun x => p (g x)) l).
Proof. induction l as [|x l IH]; [reflexivity|]. cbn [map filter]. destruct (p (g x)); cbn [map]; rewrite IH; reflexivity. Qed.
Lemma filter_filter {A} (p q : A -> bool) l : filter p (filter q l) = filter (fun x => q x && p x) l.
Proof. induction l as [|x l IH]; [reflexivity|]. cbn [filter]. destruct (q x); cbn [filter]; [destruct (p x); cbn [andb]; rewrite IH; reflexivity|exact IH]. Qed.
Lemma NoDup_map_inj {A B} (g : A -> B) l : NoDup l -> (forall x z, In x l -> In z l -> g x = g z -> x = z) -> NoDup (map g l).
Proof.
  induction l as [|x l IH]; intros N H; [constructor|]. inversion N as [|? ? N1 N2]; subst. cbn [map]. constructor.
  - intros I. apply in_map_iff in I as [z [E I]]. apply N1. rewrite (H x z); [exact I|left; reflexivity|right; exact I|symmetry; exact E].
  - apply IH; [exact N2|]. intros a b Ia Ib. apply H; right; assumption.
Qed.

Section Stage.
  Context {K : fops} (HK : flaws K).
  Add Field KS : (fl_field K HK).
  Variable ord : forall A : Type, list A -> list A.
  Hypothesis Ho : forall A (l : list A), Permutation (ord A l) l.
  Variable c : pcfg.
  Notation n := (pc_n c).
  Notation deg := (pc_deg c).
  Variables (D : nat) (f : list (list Z * K)) (y : nat -> K).
  Hypothesis Hf : polynomial n D f.
  Hypothesis Hc : config_fits c D f y.
  Hypothesis Hs : suitable (pc_newton c) (pc_bt c) n D f y.
  Notation keys := (keys n f).
  Notation co := (co n f y).
  Notation sl := (sl n f y).
  Notation sterms := (sterms n f y).
  Notation ext := (ext n f).
  Notation trunc := (trunc n).

  Lemma Ho' : any_order (ord (list Z * K)). Proof. intros m. apply Ho. Qed.
  Lemma D32 : (Z.of_nat D + 2 < 2 ^ 32)%Z. Proof. apply Hc. Qed.
  Lemma co_nz j q : j <= n -> In q (keys j) -> co j q <> f0.
  Proof. intros Hj I. apply in_keys in I as [e [I <-]]. rewrite (co_spec n D f y Hf) by assumption. apply Hs; assumption. Qed.
  Lemma y_nz j : j < n -> y j <> f0. Proof. intros H. apply (su_powers _ _ _ _ _ _ Hs j H). Qed.
  Lemma y_d j : j < n -> distinct (D + 2) (pw (y j)). Proof. intros H. apply (su_powers _ _ _ _ _ _ Hs j H). Qed.

  Section Z.
  Variable z : nat.
  Hypothesis Hz : z < n.
  Definition sv (q : list Z) (k : nat) : K := tval (sterms z q) (pw (y z) (S k)).

  Section Q.
  Variable q : list Z.
  Hypothesis Hq : In q (keys z).
  Lemma q_HT : sterms z q <> [].
  Proof.
    destruct (keys_lift n f z (S z) q ltac:(lia) Hq) as [q' [I E]]. assert (X : In q' (ext z q)) by (apply in_ext; split; assumption).
    unfold PolyRecMath.sterms. destruct (ext z q); [contradiction|discriminate].
  Qed.
  Lemma q_Hnd : NoDup (map fst (sterms z q)).
  Proof.
    unfold PolyRecMath.sterms. rewrite map_map. cbn [fst]. apply NoDup_map_inj; [apply NoDup_filter, keys_nodup|]. intros a b Ia Ib E.
    apply in_ext in Ia as [Ia Ea]. apply in_ext in Ib as [Ib Eb]. apply (keys_split n f z); [exact Ia|exact Ib|congruence|].
    pose proof (keys_range n D f Hf _ _ z Ia). pose proof (keys_range n D f Hf _ _ z Ib). unfold expo in E. lia.
  Qed.
  Lemma q_Hnz t : In t (sterms z q) -> snd t <> f0.
  Proof. intros I. apply in_map_iff in I as [q' [<- I]]. apply in_ext in I as [I _]. cbn [snd]. apply co_nz; [lia|exact I]. Qed.
  Lemma q_HM t : In t (sterms z q) -> fst t <= D.
  Proof. intros I. apply in_map_iff in I as [q' [<- I]]. apply in_ext in I as [I _]. cbn [fst]. pose proof (keys_range n D f Hf _ _ z I). unfold expo. lia. Qed.
  Lemma q_len : length (sterms z q) <= length f.
  Proof.
    unfold PolyRecMath.sterms. rewrite map_length. apply Nat.le_trans with (length (keys (S z))); [|apply keys_len].
    apply NoDup_incl_length; [apply NoDup_filter, keys_nodup|]. intros x Hx. apply in_ext in Hx as [Hx _]. exact Hx.
  Qed.
  Lemma q_H64 : (Z.of_nat (length (sterms z q)) + 1 < 2 ^ 64)%Z.
  Proof. pose proof q_len. destruct Hc as [_ [_ [_ [_ [_ [_ [H64 _]]]]]]]. lia. Qed.
  Lemma q_HN : pc_newton c = true -> prediction_is_right D (y z) (tval (sterms z q)).
  Proof.
    intros B. pose proof Hq as I. apply in_keys in I as [e [I E]]. pose proof (su_newton _ _ _ _ _ _ Hs B z e Hz I) as P.
    intros k h Hk Hh Hv x. rewrite <- (sl_terms HK n f y z q x Hz), <- E, (sl_spec n D f y Hf) by (lia || assumption). apply (P k h Hk Hh). intros i Hi.
    rewrite Hv by exact Hi. rewrite <- (sl_terms HK n f y z q _ Hz), <- E. apply (sl_spec n D f y Hf); [lia|exact I].
  Qed.
  Lemma q_HB : pc_bt c = true -> recurrence_is_right (y z) (sv q).
  Proof.
    intros B. pose proof Hq as I. apply in_keys in I as [e [I E]]. pose proof (su_bt _ _ _ _ _ _ Hs B z e Hz I) as P.
    assert (X : forall k, slice n y f z (firstn z e) (pw (y z) (S k)) = sv q k).
    { intros k. unfold sv. rewrite <- (sl_terms HK n f y z q _ Hz), <- E. symmetry. apply (sl_spec n D f y Hf); [lia|exact I]. }
    intros L a es R HL Sp m. apply (rec_ext' a L _ (sv q) m X). apply (P L a es); [|exact HL|exact Sp]. apply (rec_ext' a L (sv q)); [intros k; symmetry; apply X|exact R].
  Qed.
  Lemma sv_0 : sv q 0 = co z q.
  Proof. unfold sv. cbn [pw]. replace (y z * 1)%K with (y z) by ring. rewrite <- (sl_terms HK n f y z q _ Hz). apply sl_at_anchor. Qed.
  Lemma q_tot : exists e, In e (map fst f) /\ trunc z e = q /\ (0 <= tot q <= total e)%Z.
  Proof. rewrite tot_total. apply (keys_total n D f Hf); assumption. Qed.
  Lemma total_lt e : In e (map fst f) -> (total e < 2 ^ 31)%Z.
  Proof. intros I. apply in_map_iff in I as [[e' a] [<- I]]. destruct Hf as [_ [_ H]]. apply (H _ _ I). Qed.
  Lemma exponent_bound t : In t (sterms z q) -> deg <> (-1)%Z -> (Z.of_nat (fst t) <= deg - tot q)%Z.
  Proof.
    intros I Nd. destruct Hc as [_ [_ [[Hd|[_ Hd]] _]]]; [contradiction|]. apply in_map_iff in I as [q' [<- I]]. cbn [fst]. apply in_ext in I as [I E].
    pose proof (total_ext n f z q' Hz I) as T. rewrite E, <- tot_total in T. destruct (keys_total n D f Hf _ _ I) as [e [Ie [_ Te]]]. specialize (Hd e Ie).
    rewrite Z2Nat.id by (apply (keys_range n D f Hf _ _ z I)). unfold expo. rewrite tot_total in *. lia.
  Qed.
  Lemma deg_tot : deg <> (-1)%Z -> (0 <= deg - tot q < 2 ^ 31)%Z.
  Proof.
    intros Nd. destruct Hc as [_ [_ [[Hd|[Hd0 Hd]] _]]]; [contradiction|]. destruct q_tot as [e [I [_ T]]]. specialize (Hd e I). lia.
  Qed.

  (** Newton *)
  Lemma newton_ok k : pc_newton c = true -> k <= S D ->
    (exists k', newton_part c y (S z) q k (dlist (y z) (sv q) k) (sv q k) = (true, dlist (y z) (sv q) k') /\ 0 < k' <= D + 2 /\ below (sterms z q) k') \/
    (newton_part c y (S z) q k (dlist (y z) (sv q) k) (sv q k) = (false, dlist (y z) (sv q) (S k)) /\ k <= D /\ (deg <> -1 -> Z.of_nat (S k) <= deg)%Z).
  Proof.
    intros HN Hk. pose proof D32 as D3. unfold newton_part. replace (S z - 1) with z by lia. rewrite (newton_ai_dd HK) by (clear - Hk D3; lia). fold (sv q).
    destruct (feqb (dd (y z) (sv q) k k) f0) eqn:E.
    - left. apply (fl_eqb K HK) in E. assert (B : below (sterms z q) k) by (apply (dd_zero_below HK (y z) (sterms z q) D q_Hnd q_Hnz q_HM (y_nz z Hz) (y_d z Hz) (q_HN HN) k Hk E)).
      exists k. split; [reflexivity|]. split; [|exact B]. destruct k; [exfalso; exact (not_below_0 _ q_HT B)|lia].
    - assert (Hk' : k <= D).
      { destruct (Nat.le_gt_cases k D) as [G|G]; [exact G|]. exfalso. apply (feqb_neq HK) in E. apply E.
        apply (below_dd_zero HK (y z) (sterms z q) D q_HT (y_nz z Hz) (y_d z Hz)); [exact Hk|]. intros t It. pose proof (q_HM t It). lia. }
      assert (S1 : dlist (y z) (sv q) k ++ [dd (y z) (sv q) k k] = dlist (y z) (sv q) (S k)) by (unfold dlist; rewrite seq_S, map_app; reflexivity).
      rewrite S1. destruct (negb (deg =? -1)%Z && (Z.of_nat k =? wrap32 (deg - tot q))%Z || bound_hit c (S z) k) eqn:F; [left|right; split; [reflexivity|split; [exact Hk'|]]].
      2: { intros Nd. apply Bool.orb_false_iff in F as [F _]. pose proof (deg_tot Nd) as DT. destruct q_tot as [e0 [_ [_ T0]]]. destruct (Z.eqb_spec deg (-1)) as [X|_]; [contradiction|]. cbn [negb andb] in F. apply Z.eqb_neq in F.
           rewrite wrap32_small in F by (unfold two32; lia). assert (L : (Z.of_nat k <= deg - tot q)%Z); [|lia]. destruct (Z.le_gt_cases (Z.of_nat k) (deg - tot q)) as [G|G]; [exact G|]. exfalso. apply (feqb_neq HK) in E. apply E.
           apply (below_dd_zero HK (y z) (sterms z q) D q_HT (y_nz z Hz) (y_d z Hz)); [exact Hk|]. intros t It. pose proof (exponent_bound t It Nd). lia. }
      exists (S k). split; [reflexivity|]. split; [lia|]. intros t It. apply Bool.orb_true_iff in F as [F|F].
      + apply andb_prop in F as [F1 F2]. apply Bool.negb_true_iff, Z.eqb_neq in F1. apply Z.eqb_eq in F2. pose proof (exponent_bound t It F1) as B. pose proof (deg_tot F1) as DT.
        rewrite wrap32_small in F2 by (unfold two32; lia). lia.
      + unfold bound_hit in F. destruct (pc_bounds c) as [b|] eqn:Eb; [|discriminate]. apply Z.eqb_eq in F. replace (S z - 1) with z in F by lia.
        destruct Hc as [_ [_ [_ [Hb _]]]]. apply in_map_iff in It as [q' [<- It]]. cbn [fst]. apply in_ext in It as [It _]. apply in_keys in It as [e [Ie Ee]].
        specialize (Hb b Eb e z Ie Hz). unfold expo. rewrite <- Ee, trunc_nth by exact Hz. destruct (Nat.ltb_spec z (S z)); [lia|lia].
  Qed.

  (** Ben-Or/Tiwari *)
  Lemma rand_zi_1 : rand_zi (y z) 1 = y z.
  Proof. unfold rand_zi. rewrite (fl_pow K HK) by (unfold two64; lia). change (Z.to_nat (Z.of_nat 1)) with 1. cbn [pw]. ring. Qed.
  Definition bts (k : nat) (x : bm K * list K) : Prop := snd x = map (sv q) (seq 0 k) /\ bt_at (y z) (sterms z q) k (fst x).
  Lemma bt_ok k x : pc_bt c = true -> bts k x ->
    (exists x', bt_part c y (S z) q (Some x) (sv q k) = Ret (None, x') /\ bts (S k) x' /\ S k < 2 * length f + Nat.max 1 (pc_thr c)) \/
    (exists x' p, bt_part c y (S z) q (Some x) (sv q k) = Ret (Some p, x') /\ Permutation p (sterms z q)).
  Proof.
    intros HB [En A]. destruct x as [st nums]. cbn [fst snd] in *. subst nums. unfold bt_part. replace (S z - 1) with z by lia. rewrite rand_zi_1.
    assert (Mc : forall t, In t (sterms z q) -> (Z.of_nat (fst t) <= wrap64 (deg - tot q))%Z).
    { intros t It. pose proof (q_HM t It) as M. pose proof D32 as D3. destruct (Z.eq_dec deg (-1)) as [Ed|Nd].
      - rewrite Ed. destruct q_tot as [e [Ie [_ T]]]. pose proof (total_lt e Ie). unfold wrap64. replace (-1 - tot q)%Z with ((two64 - 1 - tot q) + (-1) * two64)%Z by ring.
        rewrite Z.mod_add by (unfold two64; lia). rewrite Z.mod_small by (unfold two64; lia). unfold two64. lia.
      - pose proof (exponent_bound t It Nd). pose proof (deg_tot Nd). rewrite wrap64_small by (unfold two64; lia). assumption. }
    assert (Fu : S D < pc_fuel c) by apply Hc.
    assert (Ends : exists r, 0 < r < pc_fuel c /\ (pw (y z) r = f1 \/ (wrap64 (deg - tot q) < Z.of_nat r)%Z)).
    { assert (X : exists r, 0 < r < pc_fuel c /\ (pw (y z) r = f1 \/ deg <> -1 /\ deg < Z.of_nat r)%Z) by (apply Hc; assumption). destruct X as [r [Hr [X|[X1 X2]]]]; exists r; (split; [exact Hr|]); [left; exact X|]. right.
      pose proof (deg_tot X1) as DT. rewrite wrap64_small by (unfold two64; lia). destruct q_tot as [e [_ [_ T]]]. lia. }
    destruct (bt_next HK (y z) (sterms z q) D q_HT q_Hnd q_Hnz q_HM (y_nz z Hz) (y_d z Hz) q_H64 (q_HB HB) (pc_thr c) (pc_fuel c) (wrap64 (deg - tot q)) Fu Mc Ends k st A)
      as [[st' [E [A' B]]]|[[st' [roots [exps [E [RE [NL [A' B]]]]]]]|[st' [p [roots [exps [E [RE [EL [EC P]]]]]]]]]].
    - left. exists (st', map (sv q) (seq 0 k) ++ [sv q k]). unfold sv in *. rewrite E. cbn [obind]. split; [reflexivity|]. split; [split|].
      + cbn [snd]. rewrite seq_S, map_app. reflexivity.
      + exact A'.
      + pose proof q_len. lia.
    - left. eexists. unfold sv in *. rewrite E. cbn [obind]. rewrite RE. destruct (Nat.eqb_spec (length roots) (length (bm_lambda st') - 1)); [contradiction|]. split; [reflexivity|]. split; [split|].
      + cbn [snd]. rewrite seq_S, map_app. reflexivity.
      + exact A'.
      + pose proof q_len. lia.
    - right. exists (st', map (sv q) (seq 0 k) ++ [sv q k]), p. unfold sv in *. rewrite E. cbn [obind]. rewrite RE.
      destruct (Nat.eqb_spec (length roots) (length (bm_lambda st') - 1)); [|contradiction]. rewrite EC. split; [reflexivity|exact P].
  Qed.
  Lemma bt_seed : exists x, bm_step (pc_thr c) bm_init [sv q 0] = Ret (false, fst x) /\ bts 1 x /\ snd x = [sv q 0].
  Proof.
    assert (H0 : sv q 0 <> f0) by (rewrite sv_0; apply co_nz; [lia|exact Hq]).
    destruct (bt_first HK (y z) (sterms z q) q_HT (pc_thr c) H0) as [st [E A]]. exists (st, [sv q 0]).
    split; [exact E|]. split; [split; [reflexivity|exact A]|reflexivity].
  Qed.

  (** the terms of the key *)
  Definition kterms : pmap K := map (fun q' => (q', co (S z) q')) (ext z q).
  Lemma kterms_keys : map fst kterms = ext z q. Proof. unfold kterms. rewrite map_map. cbn [fst]. apply map_id. Qed.
  Lemma kterms_nz el : In el kterms -> snd el <> f0.
  Proof. intros I. apply in_map_iff in I as [q' [<- I]]. apply in_ext in I as [I _]. cbn [snd]. apply co_nz; [lia|exact I]. Qed.
  Lemma new_deg_ext q' : In q' (ext z q) -> new_deg c (S z) q (nth z q' 0%Z) = q'.
  Proof.
    intros I. apply in_ext in I as [I E]. unfold new_deg. apply list_ext_nth; rewrite map_length, seq_length; [symmetry; apply (keys_length_n _ _ _ _ I)|].
    intros i Hi. rewrite nth_map_seq by exact Hi. replace (S z - 1) with z by lia. destruct (Nat.eqb_spec i z) as [->|N]; [reflexivity|]. destruct (Nat.ltb_spec i z).
    - rewrite <- E. unfold expo. rewrite trunc_nth by exact Hi. destruct (Nat.ltb_spec i z); [reflexivity|lia].
    - symmetry. apply (keys_high _ _ _ _ i I). lia.
  Qed.
  Lemma set_at_ext q' : In q' (ext z q) -> set_at q z (nth z q' 0%Z) = q'.
  Proof.
    intros I. rewrite <- (new_deg_ext q' I) at 2. unfold set_at, new_deg. rewrite (keys_length_n _ _ _ _ Hq). apply map_ext_in. intros i Hi. replace (S z - 1) with z by lia.
    destruct (Nat.eqb_spec i z); [reflexivity|]. destruct (Nat.ltb_spec i z); [reflexivity|]. apply (keys_high _ _ _ _ i Hq). lia.
  Qed.
  Lemma key_new_deg_0 : new_deg c (S z) q 0 = q.
  Proof.
    unfold new_deg. apply list_ext_nth; rewrite map_length, seq_length; [symmetry; apply (keys_length_n _ _ _ _ Hq)|].
    intros i Hi. rewrite nth_map_seq by exact Hi. replace (S z - 1) with z by lia. destruct (Nat.eqb_spec i z) as [->|N]; [symmetry; apply (keys_high _ _ _ _ z Hq); lia|].
    destruct (Nat.ltb_spec i z); [reflexivity|symmetry; apply (keys_high _ _ _ _ i Hq); lia].
  Qed.
  Lemma as_map_terms : map (fun el : list Z * K => (new_deg c (S z) q (expo (fst el) 0), snd el)) (as_map (sterms z q)) = kterms.
  Proof.
    unfold as_map, PolyRecMath.sterms, kterms. rewrite !map_map. apply map_ext_in. intros q' I. cbn [fst snd]. unfold expo at 1. cbn [nth].
    pose proof I as I'. apply in_ext in I' as [I' _]. rewrite Z2Nat.id by (apply (keys_range n D f Hf _ _ z I')). unfold expo. rewrite new_deg_ext by exact I. reflexivity.
  Qed.
  Lemma new_deg_inj (m : pmap K) : poly_ok 1 m -> NoDup (map (fun el => new_deg c (S z) q (expo (fst el) 0)) m).
  Proof.
    intros [N F]. apply (NoDup_map_inv fst) in N as N'. apply NoDup_map_inj; [exact N'|]. intros a b Ia Ib E.
    rewrite Forall_forall in F. destruct (F a Ia) as [La _]. destruct (F b Ib) as [Lb _].
    apply (f_equal (fun l => nth z l 0%Z)) in E. unfold new_deg in E. rewrite !nth_map_seq in E by exact Hz. replace (S z - 1) with z in E by lia.
    rewrite Nat.eqb_refl in E. unfold expo in E.
    assert (Ek : fst a = fst b) by (apply list_ext_nth; [congruence|]; intros i Hi; rewrite La in Hi; replace i with 0 by lia; exact E).
    clear - N Ia Ib Ek. induction m as [|x m IH]; [contradiction|]. inversion N as [|? ? N1 N2]; subst. destruct Ia as [->|Ia]; destruct Ib as [->|Ib]; [reflexivity| | |apply IH; assumption].
    - exfalso. apply N1. rewrite Ek. apply in_map. exact Ib.
    - exfalso. apply N1. rewrite <- Ek. apply in_map. exact Ia.
  Qed.
  Lemma filter_nz_id (m : pmap K) : (forall el, In el m -> snd el <> f0) -> filter (fun el => negb (feqb (snd el) f0)) m = m.
  Proof.
    induction m as [|x m IH]; intros H; [reflexivity|]. cbn [filter]. pose proof (H x (or_introl eq_refl)) as N. apply (feqb_neq HK) in N. rewrite N. cbn [negb]. f_equal. apply IH.
    intros el I. apply H. right. exact I.
  Qed.
  Lemma fold_emp_if (g : list Z * K -> list Z) (l : pmap K) : forall m,
    fold_left (fun m el => if feqb (snd el) f0 then m else pemplace m (g el) (snd el)) l m =
    fold_left (fun m el => pemplace m (g el) (snd el)) (filter (fun el => negb (feqb (snd el) f0)) l) m.
  Proof. induction l as [|x l IH]; intros m; [reflexivity|]. cbn [fold_left filter]. destruct (feqb (snd x) f0); cbn [negb fold_left]; apply IH. Qed.
  Lemma canonical_ok k : 0 < k -> k <= D + 2 -> below (sterms z q) k -> Permutation (tmp_canonical ord c y (S z) q (dlist (y z) (sv q) k)) kterms.
  Proof.
    intros H1 H2 B. destruct (canonical_terms HK (y z) (sterms z q) D q_Hnd q_Hnz (y_nz z Hz) (y_d z Hz) D32 (ord _) Ho' k n H1 H2 B) as [P Ok].
    fold (sv q) in *. unfold sv in P, Ok. fold (sv q) in P, Ok. rewrite <- as_map_terms. unfold tmp_canonical. replace (S z - 1) with z by lia.
    destruct ((length (dlist (y z) (sv q) k) =? 1) && (S z =? n)) eqn:C.
    - apply andb_prop in C as [C _]. apply Nat.eqb_eq in C. unfold dlist in C. rewrite map_length, seq_length in C. subst k.
      unfold newton_canonical in P. cbn [dlist seq map length Nat.eqb nth filter] in P. cbn [dlist seq map nth snd] in *.
      assert (S0 : dd (y z) (sv q) 0 0 <> f0). { change (sv q 0 <> f0). rewrite sv_0. apply co_nz; [lia|exact Hq]. }
      apply (feqb_neq HK) in S0. rewrite S0 in P. cbn [negb] in P. rewrite <- (Permutation_map (fun el : list Z * K => (new_deg c (S z) q (expo (fst el) 0), snd el)) P).
      cbn [map fst snd expo nth]. unfold expo. cbn [nth]. rewrite key_new_deg_0. apply Permutation_refl.
    - rewrite (fold_emp_if (fun el => new_deg c (S z) q (expo (fst el) 0))). set (m := newton_canonical _ _ _ _) in *.
      rewrite (fold_pemplace (fun el => new_deg c (S z) q (expo (fst el) 0)) (fun el => snd el)).
      + cbn [app]. apply Permutation_map. rewrite <- P. apply filter_perm. apply Ho.
      + cbn [map app]. apply (Permutation_NoDup (l := map (fun el => new_deg c (S z) q (expo (fst el) 0)) (filter (fun el => negb (feqb (snd el) f0)) m))).
        * apply Permutation_map. apply filter_perm. apply Permutation_sym, Ho.
        * apply new_deg_inj. destruct Ok as [O1 O2]. split; [apply NoDup_keys_filter; exact O1|]. rewrite Forall_forall in *. intros x Hx. apply filter_In in Hx as [Hx _]. apply O2. exact Hx.
  Qed.
  Lemma bt_map_ok p : Permutation p (sterms z q) -> Permutation (bt_map (S z) q p) kterms.
  Proof.
    intros P. assert (E : map (fun el : nat * K => (set_at q z (Z.of_nat (fst el)), snd el)) (sterms z q) = kterms).
    { unfold PolyRecMath.sterms, kterms. rewrite map_map. apply map_ext_in. intros q' I. cbn [fst snd].
      pose proof I as I'. apply in_ext in I' as [I' _]. unfold expo. rewrite Z2Nat.id by (apply (keys_range n D f Hf _ _ z I')). rewrite set_at_ext by exact I. reflexivity. }
    unfold bt_map. destruct p as [|t0 p0] eqn:Ep; [apply Permutation_nil in P; exfalso; exact (q_HT P)|]. rewrite <- Ep in *. replace (S z - 1) with z by lia.
    rewrite (fold_pemplace (fun el : nat * K => set_at q z (Z.of_nat (fst el))) (fun el => snd el)).
    - cbn [app]. rewrite <- E. apply Permutation_map. exact P.
    - cbn [map app]. apply (Permutation_NoDup (l := map fst kterms)); [|rewrite kterms_keys; apply NoDup_filter, keys_nodup].
      rewrite <- E, map_map. cbn [fst]. apply Permutation_map. apply Permutation_sym. exact P.
  Qed.
  End Q.

  (** ---- filing ---- *)
  Definition fkeys (R : list (list Z)) (b : bool) : list (list Z) :=
    filter (fun q => Bool.eqb (tot q =? deg)%Z b && negb (inb (trunc z q) R)) (keys (S z)).
  Definition filed (R : list (list Z)) (b : bool) : pmap K := map (fun q => (q, co (S z) q)) (fkeys R b).
  Lemma in_fkeys R b q : In q (fkeys R b) <-> In q (keys (S z)) /\ (tot q =? deg)%Z = b /\ ~ In (trunc z q) R.
  Proof.
    unfold fkeys. rewrite filter_In, andb_true_iff, Bool.negb_true_iff, inb_false. split; intros [A [B C]]; (split; [exact A|split; [|exact C]]).
    - apply Bool.eqb_prop. exact B.
    - rewrite B. apply Bool.eqb_reflx.
  Qed.
  Lemma filed_keys R b : map fst (filed R b) = fkeys R b. Proof. unfold filed. rewrite map_map. cbn [fst]. apply map_id. Qed.
  Lemma fkeys_nodup R b : NoDup (fkeys R b). Proof. apply NoDup_filter, keys_nodup. Qed.
  Lemma fkeys_split q R R' b : NoDup R -> Permutation (q :: R') R -> Permutation (fkeys R b ++ filter (fun q' => Bool.eqb (tot q' =? deg)%Z b) (ext z q)) (fkeys R' b).
  Proof.
    intros N P. apply (Permutation_NoDup (Permutation_sym P)) in N. inversion N as [|? ? N1 N2]; subst. assert (X : forall x, In x R <-> x = q \/ In x R').
    { intros x. split; intros H; [apply (Permutation_in x (Permutation_sym P)) in H; destruct H as [->|H]; [left; reflexivity|right; exact H]|apply (Permutation_in x P); destruct H as [->|H]; [left; reflexivity|right; exact H]]. }
    apply NoDup_Permutation.
    - apply NoDup_app_intro; [apply fkeys_nodup|apply NoDup_filter, NoDup_filter, keys_nodup|]. intros a Ia Ib. apply in_fkeys in Ia as [_ [_ Na]]. apply filter_In in Ib as [Ib _].
      apply in_ext in Ib as [_ Ib]. apply Na. apply X. left. exact Ib.
    - apply fkeys_nodup.
    - intros x. rewrite in_app_iff, !in_fkeys, filter_In, in_ext. split.
      + intros [[A [B C]]|[[A B] C]].
        * split; [exact A|]. split; [exact B|]. intros H. apply C. apply X. right. exact H.
        * split; [exact A|]. split; [apply Bool.eqb_prop; exact C|]. rewrite B. exact N1.
      + intros [A [B C]]. destruct (list_eq_dec Z.eq_dec (trunc z x) q) as [E|E].
        * right. split; [split; [exact A|exact E]|]. rewrite B. apply Bool.eqb_reflx.
        * left. split; [exact A|]. split; [exact B|]. intros H. apply X in H as [H|H]; [exact (E H)|exact (C H)].
  Qed.
  Definition st_ok (R : list (list Z)) (st : pmap K * pmap K) : Prop := Permutation (fst st) (filed R true) /\ Permutation (snd st) (filed R false).
  Lemma file_ok (m : pmap K) q R R' st : Permutation m (kterms q) -> In q (keys z) -> NoDup R -> Permutation (q :: R') R -> st_ok R st ->
    st_ok R' (fold_left (fstep (fun el => (tot (fst el) =? deg)%Z)) (ord _ m) st).
  Proof.
    intros Pm Hq N P [S1 S2]. pose proof (Permutation_trans (Ho _ m) Pm) as Pl. set (l := ord _ m) in *.
    rewrite fstep_fold.
    - assert (G : forall b A, Permutation A (filed R b) -> Permutation (A ++ filter (fun el => Bool.eqb (tot (fst el) =? deg)%Z b && negb (feqb (snd el) f0)) l) (filed R' b)).
      { intros b A PA. unfold filed at 1. rewrite <- (Permutation_map (fun q => (q, co (S z) q)) (fkeys_split q R R' b N P)). rewrite map_app. apply Permutation_app; [exact PA|].
        rewrite (Permutation_map (fun x => x) (filter_perm _ _ _ Pl)) || rewrite (filter_perm (fun el => Bool.eqb (tot (fst el) =? deg)%Z b && negb (feqb (snd el) f0)) _ _ Pl).
        unfold kterms. rewrite filter_map_comm. cbn [fst snd]. apply Permutation_map. rewrite (filter_ext_in _ (fun q' => Bool.eqb (tot q' =? deg)%Z b)); [apply Permutation_refl|].
        intros q' I. apply in_ext in I as [I _]. pose proof (co_nz (S z) q' ltac:(lia) I) as Nz. apply (feqb_neq HK) in Nz. rewrite Nz. apply andb_true_r. }
      split; cbn [fst snd].
      + rewrite <- (G true (fst st) S1). apply Permutation_app_head. rewrite (filter_ext _ (fun el => Bool.eqb (tot (fst el) =? deg)%Z true && negb (feqb (snd el) f0))); [apply Permutation_refl|].
        intros el. destruct (tot (fst el) =? deg)%Z; reflexivity.
      + rewrite <- (G false (snd st) S2). apply Permutation_app_head. rewrite (filter_ext _ (fun el => Bool.eqb (tot (fst el) =? deg)%Z false && negb (feqb (snd el) f0))); [apply Permutation_refl|].
        intros el. destruct (tot (fst el) =? deg)%Z; reflexivity.
    - apply (Permutation_NoDup (Permutation_map fst (Permutation_sym Pl))). rewrite kterms_keys. apply NoDup_filter, keys_nodup.
    - intros k Hk. assert (Ik : In k (ext z q)) by (rewrite <- kterms_keys; apply (Permutation_in _ (Permutation_map fst Pl)); exact Hk).
      apply in_ext in Ik as [_ Ik]. assert (X : In q R) by (apply (Permutation_in q P); left; reflexivity).
      assert (G : forall b, ~ In k (map fst (filed R b))) by (intros b H; rewrite filed_keys in H; apply in_fkeys in H as [_ [_ H]]; apply H; rewrite Ik; exact X).
      split; intros H; [apply (G true); apply (Permutation_in _ (Permutation_map fst S1)); exact H|apply (G false); apply (Permutation_in _ (Permutation_map fst S2)); exact H].
  Qed.
  Lemma file_newton_fold (m : pmap K) (st : pmap K * pmap K) : file_newton ord c m st = fold_left (fstep (fun el => (tot (fst el) =? deg)%Z)) (ord _ m) st. Proof. reflexivity. Qed.
  Lemma file_bt_fold (m : pmap K) (st : pmap K * pmap K) : n <> 1 -> file_bt ord c m st = fold_left (fstep (fun el => (tot (fst el) =? deg)%Z)) (ord _ m) st.
  Proof.
    intros N. unfold file_bt. generalize st. induction (ord _ m) as [|el l IH]; intros s; [reflexivity|]. cbn [fold_left]. destruct (Nat.eqb_spec n 1); [contradiction|]. apply IH.
  Qed.

  (** ---- one key of a row ---- *)
  Definition kstate (k : nat) (q : list Z) (ais : list (list Z * list K)) (bt : list (list Z * (bm K * list K))) : Prop :=
    (pc_newton c = true -> afind ais q = Some (dlist (y z) (sv q) k)) /\
    (pc_bt c = true -> exists x, afind bt q = Some x /\ bts q k x).
  (** k values are not too many *)
  Definition within (k : nat) : Prop := (pc_newton c = true -> k <= S D /\ (deg <> -1 -> Z.of_nat k <= deg)%Z) /\ (pc_bt c = true -> k < 2 * length f + Nat.max 1 (pc_thr c)).
  Lemma kstate_other k q q' ais bt ais' bt' : q' <> q -> (forall r, r <> q -> afind ais' r = afind ais r) -> (forall r, r <> q -> afind bt' r = afind bt r) ->
    kstate k q' ais bt -> kstate k q' ais' bt'.
  Proof. intros N A B [H1 H2]. split; [rewrite A by exact N; exact H1|rewrite B by exact N; exact H2]. Qed.

  Record key_done (q : list Z) (w w' : prow (K := K)) : Prop := mk_kd {
    kd_rec : Permutation (q :: w_rec w') (w_rec w);
    kd_st : st_ok (w_rec w') (w_st w');
    kd_ais : forall r, r <> q -> afind (w_ais w') r = afind (w_ais w) r;
    kd_bt : forall r, r <> q -> afind (w_bt w') r = afind (w_bt w) r;
    kd_cb : w_cb w' = w_cb w;
    kd_cn : w_cn w <= w_cn w' /\ (pc_bt c = false -> w_cn w' = w_cn w) }.
  Record key_open (k : nat) (q : list Z) (w w' : prow (K := K)) : Prop := mk_ko {
    ko_rec : w_rec w' = w_rec w;
    ko_st : w_st w' = w_st w;
    ko_state : kstate (S k) q (w_ais w') (w_bt w');
    ko_ais : forall r, r <> q -> afind (w_ais w') r = afind (w_ais w) r;
    ko_bt : forall r, r <> q -> afind (w_bt w') r = afind (w_bt w) r;
    ko_cb : pc_bt c = true -> w_cb w' = S (w_cb w);
    ko_cn : pc_newton c = true -> w_cn w' = S (w_cn w);
    ko_in : within (S k) }.
  Lemma process_key_ok k q w : 0 < z -> n <> 1 -> In q (keys z) -> NoDup (w_rec w) -> In q (w_rec w) -> st_ok (w_rec w) (w_st w) -> kstate k q (w_ais w) (w_bt w) -> within k ->
    exists w', process_key ord c y (S z) k w (q, sv q k) = Ret w' /\ (key_done q w w' \/ key_open k q w w').
  Proof.
    intros Hz0 N1 Hq Nd Iq St [KN KB] [W1 W2]. unfold process_key. pose proof (proj1 Hc) as On.
    destruct (erase_first_ok q (w_rec w) Iq) as [R' [ER PR]].
    assert (EE : erase_rec (S z) q (w_rec w) = Ret R') by (unfold erase_rec; destruct (Nat.ltb_spec 1 (S z)); [exact ER|lia]).
    destruct (Bool.bool_dec (pc_newton c) true) as [BN|BN].
    - rewrite BN, (KN BN). destruct (newton_ok q Hq k BN (proj1 (W1 BN))) as [[k' [E [Hk' B]]]|[E Hk']]; rewrite E.
      + rewrite EE. cbn [obind]. eexists. split; [reflexivity|]. left. constructor; cbn [w_rec w_st w_ais w_bt w_cb w_cn].
        * exact PR.
        * rewrite file_newton_fold. apply (file_ok _ q (w_rec w) R'); [apply canonical_ok; [exact Hq|lia|lia|exact B]|exact Hq|exact Nd|exact PR|exact St].
        * intros r Nr. apply aget_erase. exact Nr.
        * intros r Nr. destruct (pc_bt c); [apply aget_erase; exact Nr|reflexivity].
        * reflexivity.
        * split; [lia|reflexivity].
      + destruct (Bool.bool_dec (pc_bt c) true) as [BB|BB].
        * rewrite BB. destruct (KB BB) as [x [Ex Bx]]. rewrite Ex. destruct (bt_ok q Hq k x BB Bx) as [[x' [E' [Bx' Kx]]]|[x' [p [E' P]]]]; rewrite E'; cbn [obind fst snd].
          -- eexists. split; [reflexivity|]. right. constructor; cbn [w_rec w_st w_ais w_bt w_cb w_cn]; try reflexivity.
             ++ split; intros _; [rewrite aget_set, mon_eqb_refl; reflexivity|]. exists x'. split; [rewrite aget_set, mon_eqb_refl; reflexivity|exact Bx'].
             ++ intros r Nr. rewrite aget_set. destruct (mon_eqb_spec r q); [contradiction|reflexivity].
             ++ intros r Nr. rewrite aget_set. destruct (mon_eqb_spec r q); [contradiction|reflexivity].
             ++ split; intros _; [lia|exact Kx].
          -- rewrite EE. cbn [obind]. eexists. split; [reflexivity|]. left. constructor; cbn [w_rec w_st w_ais w_bt w_cb w_cn].
             ++ exact PR.
             ++ rewrite file_bt_fold by exact N1. apply (file_ok _ q (w_rec w) R'); [apply bt_map_ok; [exact Hq|exact P]|exact Hq|exact Nd|exact PR|exact St].
             ++ intros r Nr. rewrite aget_erase by exact Nr. rewrite aget_set. destruct (mon_eqb_spec r q); [contradiction|reflexivity].
             ++ intros r Nr. apply aget_erase. exact Nr.
             ++ reflexivity.
             ++ split; [lia|]. intros X. rewrite BB in X. discriminate X.
        * apply Bool.not_true_is_false in BB. rewrite BB. eexists. split; [reflexivity|]. right. constructor; cbn [w_rec w_st w_ais w_bt w_cb w_cn]; try reflexivity.
          -- split; intros X; [rewrite aget_set, mon_eqb_refl; reflexivity|rewrite BB in X; discriminate X].
          -- intros r Nr. rewrite aget_set. destruct (mon_eqb_spec r q); [contradiction|reflexivity].
          -- intros X. rewrite BB in X; discriminate X.
          -- split; intros X; [lia|rewrite BB in X; discriminate X].
    - apply Bool.not_true_is_false in BN. rewrite BN in On. cbn [orb] in On. rewrite BN, On. destruct (KB On) as [x [Ex Bx]]. rewrite Ex. destruct (bt_ok q Hq k x On Bx) as [[x' [E' [Bx' Kx]]]|[x' [p [E' P]]]]; rewrite E'; cbn [obind fst snd].
      + eexists. split; [reflexivity|]. right. constructor; cbn [w_rec w_st w_ais w_bt w_cb w_cn]; try reflexivity.
        * split; intros X; [rewrite BN in X; discriminate X|]. exists x'. split; [rewrite aget_set, mon_eqb_refl; reflexivity|exact Bx'].
        * intros r Nr. rewrite aget_set. destruct (mon_eqb_spec r q); [contradiction|reflexivity].
        * intros X. rewrite BN in X. discriminate X.
        * split; intros X; [rewrite BN in X; discriminate X|exact Kx].
      + rewrite EE. cbn [obind]. eexists. split; [reflexivity|]. left. constructor; cbn [w_rec w_st w_ais w_bt w_cb w_cn].
        * exact PR.
        * rewrite file_bt_fold by exact N1. apply (file_ok _ q (w_rec w) R'); [apply bt_map_ok; [exact Hq|exact P]|exact Hq|exact Nd|exact PR|exact St].
        * intros r Nr. apply aget_erase. exact Nr.
        * intros r Nr. apply aget_erase. exact Nr.
        * reflexivity.
        * split; [lia|]. intros X. rewrite On in X. discriminate X.
  Qed.

  (** ---- a whole row ---- *)
  Lemma process_keys_ok k : 0 < z -> n <> 1 -> within k -> forall todo w X, NoDup todo -> NoDup (w_rec w) -> (forall q, In q (w_rec w) -> In q (keys z)) ->
    (forall q, In q todo -> In q (w_rec w)) -> st_ok (w_rec w) (w_st w) ->
    (forall q, In q todo -> kstate k q (w_ais w) (w_bt w)) -> (forall q, In q (w_rec w) -> ~ In q todo -> kstate (S k) q (w_ais w) (w_bt w) /\ within (S k)) ->
    length (w_rec w) = length todo + X -> (pc_bt c = true -> w_cb w = X) -> (pc_newton c = true -> X <= w_cn w) -> (pc_newton c = true -> pc_bt c = false -> w_cn w = X) ->
    exists w', process_keys ord c y (S z) k w (map (fun q => (q, sv q k)) todo) = Ret w' /\ NoDup (w_rec w') /\ (forall q, In q (w_rec w') -> In q (w_rec w)) /\
      st_ok (w_rec w') (w_st w') /\ (forall q, In q (w_rec w') -> kstate (S k) q (w_ais w') (w_bt w') /\ within (S k)) /\
      (pc_bt c = true -> w_cb w' = length (w_rec w')) /\ (pc_newton c = true -> length (w_rec w') <= w_cn w') /\
      (pc_newton c = true -> pc_bt c = false -> w_cn w' = length (w_rec w')).
  Proof.
    intros Hz0 N1 Wk. induction todo as [|q todo IH]; intros w X Nt Nw Sub Td St Kt Ko Len Cb Cn Cn'.
    - cbn [map process_keys length Nat.add] in *. exists w. split; [reflexivity|]. split; [exact Nw|]. split; [intros q Hq; exact Hq|]. split; [exact St|].
      split; [intros q Hq; apply Ko; [exact Hq|intros []]|]. rewrite Len. split; [exact Cb|]. split; [exact Cn|exact Cn'].
    - cbn [map process_keys]. inversion Nt as [|? ? Nq Nt']; subst. pose proof (Td q (or_introl eq_refl)) as Iq.
      destruct (process_key_ok k q w Hz0 N1 (Sub q Iq) Nw Iq St (Kt q (or_introl eq_refl)) Wk) as [w1 [E [Dn|Op]]]; rewrite E; cbn [obind].
      + destruct Dn as [P S1 A1 B1 C1 C2]. assert (Nw1 : NoDup (q :: w_rec w1)) by (apply (Permutation_NoDup (Permutation_sym P)); exact Nw). inversion Nw1 as [|? ? Nq1 Nw2]; subst.
        assert (In1 : forall r, In r (w_rec w1) -> In r (w_rec w)) by (intros r Hr; apply (Permutation_in r P); right; exact Hr).
        destruct (IH w1 X Nt' Nw2) as [w' [E' [Q1 [Q2 [Q3 [Q4 Q5]]]]]].
        * intros r Hr. apply Sub, In1, Hr.
        * intros r Hr. pose proof (Td r (or_intror Hr)) as Ir. apply (Permutation_in r (Permutation_sym P)) in Ir. destruct Ir as [<-|Ir]; [contradiction|exact Ir].
        * exact S1.
        * intros r Hr. assert (r <> q) by (intros ->; contradiction). apply (kstate_other k q r (w_ais w) (w_bt w)); [assumption|exact A1|exact B1|apply Kt; right; exact Hr].
        * intros r Hr Nr. assert (r <> q) by (intros ->; contradiction). destruct (Ko r (In1 r Hr)) as [K1 K2]; [intros [->|Hr']; contradiction|].
          split; [|exact K2]. apply (kstate_other (S k) q r (w_ais w) (w_bt w)); [assumption|exact A1|exact B1|exact K1].
        * apply Permutation_length in P. cbn [length] in P, Len. lia.
        * intros HB. rewrite C1. apply Cb, HB.
        * intros HN. specialize (Cn HN). lia.
        * intros HN HB. rewrite (proj2 C2 HB). apply Cn'; assumption.
        * exists w'. split; [exact E'|]. split; [exact Q1|]. split; [intros r Hr; apply In1, Q2, Hr|]. split; [exact Q3|]. split; [exact Q4|exact Q5].
      + destruct Op as [R1 S1 K1 A1 B1 C1 C2 W1]. destruct (IH w1 (S X) Nt') as [w' [E' [Q1 [Q2 [Q3 [Q4 Q5]]]]]]; rewrite ?R1, ?S1.
        * exact Nw.
        * exact Sub.
        * intros r Hr. apply Td. right. exact Hr.
        * exact St.
        * intros r Hr. assert (r <> q) by (intros ->; contradiction). apply (kstate_other k q r (w_ais w) (w_bt w)); [assumption|exact A1|exact B1|apply Kt; right; exact Hr].
        * intros r Hr Nr. destruct (list_eq_dec Z.eq_dec r q) as [->|Nrq]; [split; assumption|]. destruct (Ko r Hr) as [K2 K3]; [intros [->|Hr']; contradiction|].
          split; [|exact K3]. apply (kstate_other (S k) q r (w_ais w) (w_bt w)); [exact Nrq|exact A1|exact B1|exact K2].
        * cbn [length] in Len. lia.
        * intros HB. rewrite (C1 HB), (Cb HB). reflexivity.
        * intros HN. rewrite (C2 HN). specialize (Cn HN). lia.
        * intros HN HB. rewrite (C2 HN). rewrite Cn' by assumption. reflexivity.
        * exists w'. rewrite R1 in Q2. split; [exact E'|]. split; [exact Q1|]. split; [exact Q2|]. split; [exact Q3|]. split; [exact Q4|exact Q5].
  Qed.
  End Z.
End Stage.

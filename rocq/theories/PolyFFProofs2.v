(** Products, shifts, homogenisation and the Vandermonde system for PolynomialFF *)
From Coq Require Import Permutation.
From Verif Require Import Machine FField FSum LinAlg LinAlgProofs FPoly Vandermonde VandermondeProofs PolyFF PolySpec Binom PolyFFProofs.
Open Scope nat_scope.

Lemma fold_map {S B C} (f : S -> C -> S) (g : B -> C) (lb : list B) : forall s,
  fold_left (fun s' b => f s' (g b)) lb s = fold_left f (map g lb) s.
Proof. induction lb as [|b lb IH]; intros s; [reflexivity|]. cbn [fold_left map]. apply IH. Qed.

Lemma fold_flat {S A B C} (f : S -> C -> S) (G : A -> B -> C) (lb : list B) (la : list A) : forall s : S,
  fold_left (fun s a => fold_left (fun s' b => f s' (G a b)) lb s) la s = fold_left f (flat_map (fun a => map (G a) lb) la) s.
Proof.
  induction la as [|a la IH]; intros s; [reflexivity|]. cbn [fold_left flat_map]. rewrite fold_left_app, IH.
  rewrite (fold_map f (G a) lb s). reflexivity.
Qed.

Lemma NoDup_app_intro {A} (l1 l2 : list A) : NoDup l1 -> NoDup l2 -> (forall a, In a l1 -> In a l2 -> False) -> NoDup (l1 ++ l2).
Proof.
  induction l1 as [|a l1 IH]; intros H1 H2 H; [exact H2|]. inversion_clear H1 as [|? ? N1 N2]. cbn [app]. constructor.
  - intros Hin. apply in_app_or in Hin as [Hin|Hin]; [contradiction|]. apply (H a); [left; reflexivity|exact Hin].
  - apply IH; [exact N2|exact H2|]. intros b B1 B2. apply (H b); [right; exact B1|exact B2].
Qed.

Lemma NoDup_flat {A B C} (G : A -> B -> C) la lb : NoDup la -> NoDup lb ->
  (forall a b a' b', In a la -> In b lb -> In a' la -> In b' lb -> G a b = G a' b' -> a = a' /\ b = b') ->
  NoDup (flat_map (fun a => map (G a) lb) la).
Proof.
  intros Ha Hb HG. induction la as [|a la IH]; [constructor|]. cbn [flat_map]. inversion_clear Ha as [|? ? Na Nla].
  apply NoDup_app_intro.
  - assert (I : forall b b', In b lb -> In b' lb -> G a b = G a b' -> b = b').
    { intros b b' H1 H2 E. eapply HG in E; [apply E|left; reflexivity|exact H1|left; reflexivity|exact H2]. }
    clear -Hb I. induction lb as [|b lb IH]; [constructor|]. inversion_clear Hb as [|? ? N1 N2]. cbn [map]. constructor.
    + intros Hin. apply in_map_iff in Hin as [b' [E Hin]]. apply I in E; [|right; exact Hin|left; reflexivity]. subst. contradiction.
    + apply IH; [exact N2|]. intros; apply I; try right; assumption.
  - apply IH; [exact Nla|]. intros; eapply HG; try right; eassumption.
  - intros c H1 H2. apply in_map_iff in H1 as [b [E1 H1]]. apply in_flat_map in H2 as [a' [Ha' H2]]. apply in_map_iff in H2 as [b' [E2 H2]].
    assert (E : G a b = G a' b') by congruence. apply HG in E; [|left; reflexivity|exact H1|right; exact Ha'|exact H2].
    destruct E as [-> _]. contradiction.
Qed.

Lemma list_ext_nth (a b : list Z) : length a = length b -> (forall i, i < length a -> nth i a 0%Z = nth i b 0%Z) -> a = b.
Proof.
  revert b. induction a as [|x a IH]; intros [|y b] Hl H; try discriminate; [reflexivity|]. f_equal.
  - apply (H 0). cbn; lia.
  - apply IH; [cbn in Hl; lia|]. intros i Hi. apply (H (S i)). cbn; lia.
Qed.

Section Proofs.
  Context {K : fops} (HK : flaws K).
  Add Field KF : (fl_field K HK).
  Notation pmap := (pmap K). Notation polyff := (polyff K).
  Notation mv := monomial_value. Notation pv := poly_value.
  Implicit Types (m : pmap) (k e : list Z) (x : nat -> K).

  Definition nzf (kc : list Z * K) : bool := negb (feqb (snd kc) f0).
  Definition emp_nz (m : pmap) (kc : list Z * K) : pmap := if feqb (snd kc) f0 then m else pemplace m (fst kc) (snd kc).

  Lemma fold_pemplace {A} (f : A -> list Z) (g : A -> K) l : forall m, NoDup (map fst m ++ map f l) ->
    fold_left (fun m a => pemplace m (f a) (g a)) l m = m ++ map (fun a => (f a, g a)) l.
  Proof.
    induction l as [|a l IH]; intros m H; cbn [fold_left map]; [rewrite app_nil_r; reflexivity|].
    cbn [map] in H. assert (N : ~ In (f a) (map fst m)) by (apply NoDup_remove_2 in H; intros X; apply H; apply in_or_app; left; exact X).
    unfold pemplace at 2. apply pfind_None in N. rewrite N. rewrite IH.
    - rewrite <- app_assoc. reflexivity.
    - rewrite map_app. cbn [map fst]. rewrite <- app_assoc. exact H.
  Qed.

  Lemma fold_emp_nz l : forall m, NoDup (map fst m ++ map fst (filter nzf l)) ->
    fold_left emp_nz l m = m ++ filter nzf l.
  Proof.
    induction l as [|[k c] l IH]; intros m H; cbn [fold_left filter]; [rewrite app_nil_r; reflexivity|].
    cbn [filter] in H. unfold nzf at 1. unfold nzf at 1 in H. unfold emp_nz at 2. cbn [fst snd] in *.
    destruct (feqb c f0); cbn [negb] in *; [apply IH; exact H|].
    cbn [map fst] in H. assert (N : ~ In k (map fst m)) by (apply NoDup_remove_2 in H; intros X; apply H; apply in_or_app; left; exact X).
    unfold pemplace. apply pfind_None in N. rewrite N. rewrite IH.
    - rewrite <- app_assoc. reflexivity.
    - rewrite map_app. cbn [map fst]. rewrite <- app_assoc. exact H.
  Qed.

  Lemma NoDup_keys_filter (f : list Z * K -> bool) m : NoDup (map fst m) -> NoDup (map fst (filter f m)).
  Proof.
    induction m as [|kc m IH]; [auto|]. cbn [map filter]. intros H. inversion_clear H as [|? ? H1 H2].
    destruct (f kc); [|auto]. cbn [map]. constructor; [|auto]. intros Hin. apply H1.
    apply in_map_iff in Hin as [kc' [<- Hin]]. apply filter_In in Hin as [Hin _]. apply in_map. exact Hin.
  Qed.

  Lemma pv_flat n (G : list Z -> list Z -> list Z) m1 m2 x :
    (forall k1 k2, In k1 (map fst m1) -> In k2 (map fst m2) -> mv n (G k1 k2) x = (mv n k1 x * mv n k2 x)%K) ->
    pv n (flat_map (fun ka => map (fun kb => (G (fst ka) (fst kb), (snd ka * snd kb)%K)) m2) m1) x = (pv n m1 x * pv n m2 x)%K.
  Proof.
    induction m1 as [|[k c] m1 IH]; intros H; cbn [flat_map]; [rewrite pv_nil; cbn; ring|].
    rewrite (pv_app HK), IH by (intros; apply H; [right; assumption|assumption]). rewrite pv_cons. cbn [fst snd].
    assert (E : pv n (map (fun kb => (G k (fst kb), (c * snd kb)%K)) m2) x = (c * mv n k x * pv n m2 x)%K).
    { assert (H' : forall k2, In k2 (map fst m2) -> mv n (G k k2) x = (mv n k x * mv n k2 x)%K) by (intros; apply H; [left; reflexivity|assumption]).
      clear -HK H'. induction m2 as [|[k2 c2] m2 IH]; cbn [map]; [rewrite !pv_nil; ring|]. rewrite !pv_cons, IH by (intros; apply H'; right; assumption).
      cbn [fst snd]. rewrite H' by (left; reflexivity). ring. }
    rewrite E. ring.
  Qed.

  (** ---- product ---- *)
  Lemma mv_add n N a b x : n <= N -> (forall i, i < n -> (0 <= nth i a 0 /\ 0 <= nth i b 0 /\ nth i a 0 + nth i b 0 < two32)%Z) ->
    mv n (add_expo N a b) x = (mv n a x * mv n b x)%K.
  Proof.
    induction n as [|n IH]; intros HN H; cbn [monomial_value]; [ring|]. rewrite IH by (try lia; intros; apply H; lia).
    unfold add_expo at 1. rewrite nth_map_seq by lia. unfold expo. destruct (H n ltac:(lia)) as [H1 [H2 H3]].
    rewrite wrap32_small by lia. rewrite Z2Nat.inj_add by lia. rewrite pw_add by exact HK. ring.
  Qed.

  Section Ord.
    Variable ord : pmap -> pmap.
    Hypothesis Ho : any_order ord.

    Lemma in_ord kc m : In kc (ord m) <-> In kc m.
    Proof. split; apply Permutation_in; [apply Ho|apply Permutation_sym, Ho]. Qed.
    Lemma in_ord_key k m : In k (map fst (ord m)) <-> In k (map fst m).
    Proof. split; apply Permutation_in; apply Permutation_map; [apply Ho|apply Permutation_sym, Ho]. Qed.
    Lemma nodup_ord m : NoDup (map fst m) -> NoDup (map fst (ord m)).
    Proof. apply Permutation_NoDup. apply Permutation_map, Permutation_sym, Ho. Qed.

    Lemma NoDup_keys_NoDup m : NoDup (map fst m) -> NoDup m.
    Proof. apply NoDup_map_inv. Qed.

    (** shape of the double emplace loops *)
    Lemma double_loop (G : list Z -> list Z -> list Z) m1 m2 :
      NoDup (map fst m1) -> NoDup (map fst m2) ->
      (forall k1 k2 k1' k2', In k1 (map fst m1) -> In k2 (map fst m2) -> In k1' (map fst m1) -> In k2' (map fst m2) ->
         G k1 k2 = G k1' k2' -> k1 = k1' /\ k2 = k2') ->
      fold_left (fun m ka => fold_left (fun m' kb => let c := fmul (snd ka) (snd kb) in
          if feqb c f0 then m' else pemplace m' (G (fst ka) (fst kb)) c) (ord m2) m) (ord m1) [] =
      filter nzf (flat_map (fun ka => map (fun kb => (G (fst ka) (fst kb), (snd ka * snd kb)%K)) (ord m2)) (ord m1)).
    Proof.
      intros H1 H2 HG.
      rewrite (fold_flat emp_nz (fun ka kb => (G (fst ka) (fst kb), (snd ka * snd kb)%K))).
      rewrite fold_emp_nz; [reflexivity|]. cbn [map app]. apply NoDup_keys_filter.
      assert (E : forall l, map fst (flat_map (fun ka => map (fun kb => (G (fst ka) (fst kb), (snd ka * snd kb)%K)) (ord m2)) l) =
        flat_map (fun k1 => map (G k1) (map fst (ord m2))) (map fst l)).
      { induction l as [|ka l IH]; [reflexivity|]. cbn [flat_map map]. rewrite map_app, IH. f_equal. rewrite !map_map. reflexivity. }
      rewrite E. apply NoDup_flat; [apply nodup_ord; exact H1|apply nodup_ord; exact H2|].
      intros a b a' b' A1 A2 A3 A4. rewrite in_ord_key in A1, A2, A3, A4. apply HG; assumption.
    Qed.

    Theorem pmul_value (a b : polyff) : pf_n b = pf_n a -> poly_ok (pf_n a) (pf_coefs a) -> poly_ok (pf_n a) (pf_coefs b) ->
      (forall k1 k2, In k1 (map fst (pf_coefs a)) -> In k2 (map fst (pf_coefs b)) -> forall i, (nth i k1 0 + nth i k2 0 < two32)%Z) ->
      (forall k1 k2 k1' k2', In k1 (map fst (pf_coefs a)) -> In k2 (map fst (pf_coefs b)) -> In k1' (map fst (pf_coefs a)) -> In k2' (map fst (pf_coefs b)) ->
        (forall i, i < pf_n a -> (nth i k1 0 + nth i k2 0 = nth i k1' 0 + nth i k2' 0)%Z) -> k1 = k1' /\ k2 = k2') ->
      poly_ok (pf_n a) (pf_coefs (pmul ord a b)) /\
      forall x, pv (pf_n a) (pf_coefs (pmul ord a b)) x = (pv (pf_n a) (pf_coefs a) x * pv (pf_n a) (pf_coefs b) x)%K.
    Proof.
      intros En [Ha1 Ha2] [Hb1 Hb2] Hw Hc. set (n := pf_n a) in *.
      assert (R : forall m k i, Forall (fun kc => exponents_ok n (fst kc)) m -> In k (map fst m) -> (0 <= nth i k 0 < 2 ^ 32)%Z).
      { intros m k i Hf Hin. apply in_map_iff in Hin as [kc [<- Hin]]. rewrite Forall_forall in Hf. apply (expo_range n). apply Hf; exact Hin. }
      assert (HG : forall k1 k2 k1' k2', In k1 (map fst (pf_coefs a)) -> In k2 (map fst (pf_coefs b)) -> In k1' (map fst (pf_coefs a)) -> In k2' (map fst (pf_coefs b)) ->
         add_expo n k1 k2 = add_expo n k1' k2' -> k1 = k1' /\ k2 = k2').
      { intros k1 k2 k1' k2' I1 I2 I3 I4 E. apply Hc; try assumption. intros i Hi.
        apply (f_equal (fun l => nth i l 0%Z)) in E. unfold add_expo in E. rewrite !nth_map_seq in E by exact Hi. unfold expo in E.
        pose proof (R _ _ i Ha2 I1). pose proof (R _ _ i Hb2 I2). pose proof (R _ _ i Ha2 I3). pose proof (R _ _ i Hb2 I4).
        pose proof (Hw _ _ I1 I2 i). pose proof (Hw _ _ I3 I4 i). rewrite !wrap32_small in E by lia. exact E. }
      pose proof (double_loop (add_expo n) (pf_coefs a) (pf_coefs b) Ha1 Hb1 HG) as D.
      assert (E : pf_coefs (pmul ord a b) = filter nzf (flat_map (fun ka => map (fun kb => (add_expo n (fst ka) (fst kb), (snd ka * snd kb)%K)) (ord (pf_coefs b))) (ord (pf_coefs a)))) by exact D.
      rewrite E. split.
      - split.
        + rewrite <- E. unfold pmul. cbn [pf_coefs]. fold n.
          assert (G : forall (l : pmap) m, NoDup (map fst m) -> NoDup (map fst (fold_left emp_nz l m))).
          { clear. induction l as [|[k c] l IH]; intros m H; [exact H|]. cbn [fold_left]. apply IH. unfold emp_nz. cbn [fst snd].
            destruct (feqb c f0); [exact H|]. unfold pemplace. destruct (pfind m k) eqn:P; [exact H|]. apply nodup_app_one; [exact H|]. apply pfind_None; exact P. }
          pose proof (fold_flat emp_nz (fun ka kb => (add_expo n (fst ka) (fst kb), (snd ka * snd kb)%K)) (ord (pf_coefs b)) (ord (pf_coefs a)) []) as F.
          unfold emp_nz in F at 1. cbn [fst snd] in F. rewrite F. apply G. constructor.
        + apply Forall_forall. intros kc Hin. apply filter_In in Hin as [Hin _]. apply in_flat_map in Hin as [ka [I1 Hin]].
          apply in_map_iff in Hin as [kb [<- I2]]. cbn [fst]. rewrite in_ord in I1. rewrite in_ord in I2.
          assert (I1' := in_map fst _ _ I1). assert (I2' := in_map fst _ _ I2). split.
          * unfold add_expo. rewrite map_length, seq_length. reflexivity.
          * apply Forall_forall. intros z Hz. unfold add_expo in Hz. apply in_map_iff in Hz as [i [<- _]]. unfold expo.
            pose proof (R _ _ i Ha2 I1'). pose proof (R _ _ i Hb2 I2'). pose proof (Hw _ _ I1' I2' i). unfold two32 in *. rewrite wrap32_small by (unfold two32; lia). lia.
      - intros x. unfold nzf. rewrite pv_filter_nz by exact HK. rewrite pv_flat.
        + rewrite (pv_perm HK n _ _ x (Ho (pf_coefs a))), (pv_perm HK n _ _ x (Ho (pf_coefs b))). reflexivity.
        + intros k1 k2 I1 I2. rewrite in_ord_key in I1, I2. apply mv_add; [lia|]. intros i Hi.
          pose proof (R _ _ i Ha2 I1). pose proof (R _ _ i Hb2 I2). pose proof (Hw _ _ I1 I2 i). lia.
    Qed.

    (** ---- one variable times, homogenise ---- *)
    Lemma mv_incr n e i x : i < n -> length e = n -> (forall j, (0 <= nth j e 0)%Z) -> (nth i e 0 + 1 < two32)%Z ->
      mv n (incr_at e i) x = (x i * mv n e x)%K.
    Proof.
      intros Hi Hl H0 Hw.
      assert (G : forall N, N <= n -> mv N (incr_at e i) x = ((if i <? N then x i else f1) * mv N e x)%K).
      { induction N as [|N IH]; intros HN; cbn [monomial_value]; [nb; ring|]. rewrite IH by lia.
        unfold incr_at at 1. rewrite Hl, nth_map_seq by lia. unfold expo. pose proof (H0 N). destruct (Nat.eqb_spec N i) as [->|Ne].
        - rewrite wrap32_small by (specialize (H0 i); lia). rewrite Z2Nat.inj_add by lia. change (Z.to_nat 1) with 1.
          rewrite Nat.add_1_r. cbn [pw]. nb. ring.
        - nb; ring. }
      rewrite G by lia. nb.
    Qed.

    Theorem pmul_var_value (a : polyff) zi : poly_ok (pf_n a) (pf_coefs a) -> 1 <= zi <= pf_n a ->
      (forall k, In k (map fst (pf_coefs a)) -> (nth (zi - 1) k 0 + 1 < two32)%Z) ->
      poly_ok (pf_n a) (pf_coefs (pmul_var ord a zi)) /\
      forall x, pv (pf_n a) (pf_coefs (pmul_var ord a zi)) x = (x (zi - 1)%nat * pv (pf_n a) (pf_coefs a) x)%K.
    Proof.
      intros [H1 H2] Hz Hw. set (n := pf_n a) in *. assert (Hi : zi - 1 < n) by lia. remember (zi - 1) as i eqn:Ei. symmetry in Ei.
      assert (X : forall k, In k (map fst (pf_coefs a)) -> exponents_ok n k).
      { intros k Hin. apply in_map_iff in Hin as [kc [<- Hin]]. rewrite Forall_forall in H2. apply H2; exact Hin. }
      assert (I : forall k k', In k (map fst (pf_coefs a)) -> In k' (map fst (pf_coefs a)) -> incr_at k i = incr_at k' i -> k = k').
      { intros k k' I1 I2 E. destruct (X k I1) as [L1 _], (X k' I2) as [L2 _]. apply list_ext_nth; [congruence|]. intros j Hj.
        apply (f_equal (fun l => nth j l 0%Z)) in E. unfold incr_at in E. rewrite L1, L2, !nth_map_seq in E by lia. unfold expo in E.
        destruct (Nat.eqb_spec j i) as [Ej|]; [rewrite Ej in *|exact E].
        pose proof (expo_range n k i (X k I1)). pose proof (expo_range n k' i (X k' I2)).
        pose proof (Hw k I1). pose proof (Hw k' I2). rewrite !wrap32_small in E by lia. lia. }
      assert (E : pf_coefs (pmul_var ord a zi) = map (fun kc => (incr_at (fst kc) i, snd kc)) (ord (pf_coefs a))).
      { unfold pmul_var. cbn [pf_coefs]. rewrite Ei. rewrite (fold_pemplace (fun kc => incr_at (fst kc) i) snd); [reflexivity|].
        cbn [map app]. rewrite <- (map_map fst (fun k => incr_at k i)). pose proof (nodup_ord _ H1) as N.
        assert (I' : forall k k', In k (map fst (ord (pf_coefs a))) -> In k' (map fst (ord (pf_coefs a))) -> incr_at k i = incr_at k' i -> k = k').
        { intros k k' A B. rewrite in_ord_key in A, B. apply I; assumption. }
        revert N I'. generalize (map fst (ord (pf_coefs a))). induction l as [|k l IH]; intros N I'; [constructor|].
        inversion_clear N as [|? ? N1 N2]. cbn [map]. constructor.
        - intros Hin. apply in_map_iff in Hin as [k' [E Hin]]. apply I' in E; [|right; exact Hin|left; reflexivity]. subst. contradiction.
        - apply IH; [exact N2|]. intros; apply I'; try right; assumption. }
      rewrite E. split.
      - split.
        + rewrite <- E. unfold pmul_var. cbn [pf_coefs].
          assert (G : forall (l : pmap) m, NoDup (map fst m) -> NoDup (map fst (fold_left (fun m kc => pemplace m (incr_at (fst kc) (zi - 1)) (snd kc)) l m))).
          { clear. induction l as [|[k c] l IH]; intros m H; [exact H|]. cbn [fold_left]. apply IH. cbn [fst snd].
            unfold pemplace. destruct (pfind m _) eqn:P; [exact H|]. apply nodup_app_one; [exact H|]. apply pfind_None; exact P. }
          apply G. constructor.
        + apply Forall_forall. intros kc Hin. apply in_map_iff in Hin as [kc' [<- Hin]]. cbn [fst]. rewrite in_ord in Hin. apply (in_map fst) in Hin.
          destruct (X _ Hin) as [L F]. split; [unfold incr_at; rewrite map_length, seq_length; exact L|].
          apply Forall_forall. intros z Hz'. unfold incr_at in Hz'. apply in_map_iff in Hz' as [j [<- _]].
          pose proof (expo_range n _ j (X _ Hin)). unfold expo. destruct (Nat.eqb_spec j i) as [Ej|]; [rewrite Ej in *|assumption].
          pose proof (Hw _ Hin). unfold two32 in *. rewrite wrap32_small by (unfold two32; lia). lia.
      - intros x. rewrite <- (pv_perm HK n _ _ x (Ho (pf_coefs a))).
        assert (X' : forall k, In k (map fst (ord (pf_coefs a))) -> exponents_ok n k /\ (nth i k 0 + 1 < two32)%Z).
        { intros k Hin. rewrite in_ord_key in Hin. split; [apply X; exact Hin|apply Hw; exact Hin]. }
        revert X'. generalize (ord (pf_coefs a)); intros l; induction l as [|[k c] l IH]; intros X'; cbn [map]; [rewrite !pv_nil; ring|].
        rewrite !pv_cons, IH by (intros; apply X'; right; assumption). cbn [fst snd].
        destruct (X' k) as [Hk1 Hk2]; [left; reflexivity|].
        rewrite mv_incr; [ring|lia|apply Hk1|intros j; pose proof (expo_range n k j Hk1); lia|exact Hk2].
    Qed.

    Definition total_degree (e : list Z) : Z := fold_right Z.add 0%Z e.
    Lemma degree32_spec e : Forall (fun z => (0 <= z)%Z) e -> (total_degree e < two32)%Z -> degree32 e = total_degree e.
    Proof.
      unfold degree32, total_degree.
      assert (G : forall e a, (0 <= a)%Z -> Forall (fun z => (0 <= z)%Z) e -> (a + fold_right Z.add 0 e < two32)%Z -> fold_left (fun d p => wrap32 (d + p)) e a = (a + fold_right Z.add 0 e)%Z).
      { clear. induction e as [|z e IH]; intros a Ha Hf H; cbn [fold_left fold_right] in *; [lia|]. inversion_clear Hf as [|? ? F1 F2].
        assert (0 <= fold_right Z.add 0 e)%Z by (clear -F2; induction F2; cbn; lia).
        rewrite wrap32_small by lia. rewrite IH by (try assumption; lia). lia. }
      intros Hf H. rewrite G; [lia|lia|exact Hf|lia].
    Qed.

    Lemma fold_passign {A} (f : A -> list Z) (g : A -> K) l : forall m, NoDup (map fst m ++ map f l) ->
      fold_left (fun m a => passign m (f a) (g a)) l m = m ++ map (fun a => (f a, g a)) l.
    Proof.
      induction l as [|a l IH]; intros m H; cbn [fold_left map]; [rewrite app_nil_r; reflexivity|].
      cbn [map] in H. assert (N : ~ In (f a) (map fst m)) by (apply NoDup_remove_2 in H; intros X; apply H; apply in_or_app; left; exact X).
      unfold passign at 2. apply pfind_None in N. rewrite N. rewrite IH.
      - rewrite <- app_assoc. reflexivity.
      - rewrite map_app. cbn [map fst]. rewrite <- app_assoc. exact H.
    Qed.

    Lemma homogenize_terms (a : polyff) d : NoDup (map fst (pf_coefs a)) ->
      pf_coefs (phomogenize ord a d) = map (fun kc => (wrap32 (d - degree32 (fst kc)) :: fst kc, snd kc)) (ord (pf_coefs a)).
    Proof.
      intros H. unfold phomogenize. cbn [pf_coefs]. rewrite (fold_passign (fun kc => wrap32 (d - degree32 (fst kc)) :: fst kc) snd); [reflexivity|].
      cbn [map app]. rewrite <- (map_map fst (fun k => wrap32 (d - degree32 k) :: k)). pose proof (nodup_ord _ H) as N.
      revert N. generalize (map fst (ord (pf_coefs a))). induction l as [|k l IH]; intros N; [constructor|].
      inversion_clear N as [|? ? N1 N2]. cbn [map]. constructor; [|apply IH; exact N2].
      intros Hin. apply in_map_iff in Hin as [k' [E Hin]]. injection E as _ ->. contradiction.
    Qed.

    Lemma mv_cons n z e x : mv (S n) (z :: e) x = (pw (x 0%nat) (Z.to_nat z) * mv n e (fun i => x (S i)))%K.
    Proof.
      induction n as [|n IH]; [cbn; ring|].
      change (mv (S (S n)) (z :: e) x) with (mv (S n) (z :: e) x * pw (x (S n)) (Z.to_nat (nth n e 0%Z)))%K. rewrite IH. cbn [monomial_value]. ring.
    Qed.

    Lemma mv_scale n e (t : K) x : length e = n -> Forall (fun z => (0 <= z)%Z) e ->
      mv n e (fun i => t * x i)%K = (pw t (Z.to_nat (total_degree e)) * mv n e x)%K.
    Proof.
      revert n x. induction e as [|z e IH]; intros n x Hl Hf; cbn [length] in Hl; subst n.
      - cbn. ring.
      - inversion_clear Hf as [|? ? F1 F2]. assert (0 <= total_degree e)%Z by (clear -F2; induction F2; cbn; unfold total_degree in *; lia).
        rewrite !mv_cons, (IH (length e) (fun i => x (S i)) eq_refl F2). cbn [total_degree fold_right]. fold (total_degree e).
        rewrite Z2Nat.inj_add by lia. rewrite (pw_add HK), (pw_mul HK). ring.
    Qed.

    Theorem homogenize_value (a : polyff) d : poly_ok (pf_n a) (pf_coefs a) -> (0 <= d < two32)%Z ->
      (forall k, In k (map fst (pf_coefs a)) -> (total_degree k <= d)%Z) ->
      (forall kc, In kc (pf_coefs (phomogenize ord a d)) -> length (fst kc) = S (pf_n a) /\ total_degree (fst kc) = d) /\
      NoDup (map fst (pf_coefs (phomogenize ord a d))) /\
      forall (t : K) x, t <> f0 ->
        pv (S (pf_n a)) (pf_coefs (phomogenize ord a d)) (fun i => match i with O => t | S j => x j end) =
        (pw t (Z.to_nat d) * pv (pf_n a) (pf_coefs a) (fun i => x i / t))%K.
    Proof.
      intros [H1 H2] Hd Hdeg. set (n := pf_n a) in *. rewrite homogenize_terms by exact H1.
      assert (X : forall k, In k (map fst (ord (pf_coefs a))) -> length k = n /\ Forall (fun z => (0 <= z)%Z) k /\ (0 <= total_degree k <= d)%Z /\ wrap32 (d - degree32 k) = (d - total_degree k)%Z).
      { intros k Hin. rewrite in_ord_key in Hin. pose proof (Hdeg k Hin) as D. apply in_map_iff in Hin as [kc [<- Hin]].
        rewrite Forall_forall in H2. destruct (H2 kc Hin) as [L F].
        assert (F' : Forall (fun z => (0 <= z)%Z) (fst kc)) by (eapply Forall_impl; [|exact F]; cbn; intros; lia).
        assert (0 <= total_degree (fst kc))%Z by (clear -F'; induction F'; cbn; unfold total_degree in *; lia).
        split; [exact L|]. split; [exact F'|]. split; [lia|]. rewrite degree32_spec by (try assumption; lia). apply wrap32_small. lia. }
      split; [|split].
      - intros kc Hin. apply in_map_iff in Hin as [kc' [<- Hin]]. apply (in_map fst) in Hin. destruct (X _ Hin) as [L [F [D W]]].
        cbn [fst]. split; [cbn [length]; lia|]. rewrite W. cbn [total_degree fold_right]. fold (total_degree (fst kc')). lia.
      - rewrite map_map. cbn [fst]. rewrite <- (map_map fst (fun k => wrap32 (d - degree32 k) :: k)). pose proof (nodup_ord _ H1) as N.
        revert N. generalize (map fst (ord (pf_coefs a))). induction l as [|k l IH]; intros N; [constructor|].
        inversion_clear N as [|? ? N1 N2]. cbn [map]. constructor; [|apply IH; exact N2].
        intros Hin. apply in_map_iff in Hin as [k' [E Hin]]. injection E as _ ->. contradiction.
      - intros t x Ht. rewrite <- (pv_perm HK n _ _ _ (Ho (pf_coefs a))). revert X. generalize (ord (pf_coefs a)); intros l.
        induction l as [|[k c] l IH]; intros X; cbn [map]; [rewrite !pv_nil; ring|].
        rewrite !pv_cons, IH by (intros; apply X; right; assumption). cbn [fst snd].
        destruct (X k) as [L [F [D W]]]; [left; reflexivity|]. rewrite W, mv_cons.
        assert (E : mv n k x = (pw t (Z.to_nat (total_degree k)) * mv n k (fun i => x i / t))%K).
        { rewrite <- mv_scale by assumption. apply mv_ext_x. intros i Hi. field. exact Ht. }
        change (mv n k (fun i => x i)) with (mv n k x). rewrite E.
        replace (Z.to_nat d) with (Z.to_nat (d - total_degree k) + Z.to_nat (total_degree k)) by lia. rewrite pw_add by exact HK. ring.
    Qed.
  End Ord.
End Proofs.

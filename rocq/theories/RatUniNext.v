(** Proofs for the univariate reconstruction, part 4: testing the guess at the start of a further prime *)
From Coq Require Import Znumtheory Permutation.
From Verif Require Import Machine NumTheory FFInt FFIntProofs FField FSum LinAlg LinAlgProofs FPoly PolyFF PolySpec PolyFFProofs Thiele ThieleSpec RatNum RatNumProofs Modular ModularProofs MqrrProofs Primes PField RatUni RatUniSpec RatUniProofs RatUniThiele RatUniFirst.
Open Scope Z_scope.

Lemma nodup_app_r {A} (l l' : list A) : NoDup (l ++ l') -> NoDup l'.
Proof. induction l as [|a l IH]; intros H; [exact H|]. cbn [app] in H. inversion H; subst. apply IH; assumption. Qed.
Lemma nodup_app_disjoint {A} (l l' : list A) x : NoDup (l ++ l') -> In x l -> In x l' -> False.
Proof.
  induction l as [|a l IH]; intros H H1 H2; [contradiction|]. cbn [app] in H. inversion H as [|? ? N1 N2]; subst.
  destruct H1 as [E|H1]; [subst a; apply N1; apply in_or_app; right; exact H2|exact (IH N2 H1 H2)].
Qed.
Lemma erase_all_absent ks : forall (g : list (list Z * rn)), (forall k, In k ks -> ~ In k (map fst g)) -> erase_all g ks = g.
Proof.
  induction ks as [|k ks IH]; intros g H; [reflexivity|]. unfold erase_all in *. cbn [fold_left]. rewrite aerase_absent by (apply H; left; reflexivity).
  apply IH. intros k' Hk. apply H. right. exact Hk.
Qed.
Lemma erase_all_all ks : forall (h : list (list Z * rn)), incl (map fst h) ks -> erase_all h ks = [].
Proof.
  induction ks as [|k ks IH]; intros h H.
  - destruct h as [|e h]; [reflexivity|]. destruct (H (fst e)). left. reflexivity.
  - unfold erase_all in *. cbn [fold_left]. apply IH. intros k' Hk. unfold aerase in Hk. apply in_map_iff in Hk as [e [<- He]]. apply filter_In in He as [He Hn].
    destruct (H (fst e) (in_map fst _ _ He)) as [E|E]; [|exact E]. rewrite E, mon_eqb_refl in Hn. discriminate.
Qed.
Lemma erase_all_app ks : forall (g h : list (list Z * rn)), erase_all (g ++ h) ks = erase_all g ks ++ erase_all h ks.
Proof.
  induction ks as [|k ks IH]; intros g h; [reflexivity|]. unfold erase_all in *. cbn [fold_left]. rewrite aerase_app. apply IH.
Qed.
Lemma erase_restores ks (g h : list (list Z * rn)) : (forall k, In k ks -> ~ In k (map fst g)) -> incl (map fst h) ks -> erase_all (g ++ h) ks = g.
Proof. intros H1 H2. rewrite erase_all_app, erase_all_absent, erase_all_all by assumption. apply app_nil_r. Qed.

Lemma entry_keys T : map fst (map entry T) = map key T. Proof. rewrite map_map. reflexivity. Qed.
Definition guess_of (M : Z) (a b : rterm) : Prop := fst a = fst b /\ guessable M (snd b) /\ agrees M (snd a) (snd b).
Lemma guess_keys M T L : Forall2 (guess_of M) T L -> map key L = map key T.
Proof. induction 1 as [|a b T L [E _] _ IH]; [reflexivity|]. cbn [map]. rewrite IH. unfold key. rewrite E. reflexivity. Qed.

(** RatReconst.cpp:1951-2000: numbers are only guessed from their residues *)
Lemma promote_ok M T : forall l g dk, Forall2 (matches M) T l -> NoDup (map key T) -> (forall k, In k (map key T) -> ~ In k (map fst g)) ->
  exists ok L, promote M l g dk = Ret (ok, g ++ map entry L, rev (map key L) ++ dk) /\ incl (map key L) (map key T) /\
    (ok = true -> Forall2 (guess_of M) T L).
Proof.
  induction T as [|t T IH]; intros l g dk H ND HD; inversion H as [|? e ? l' [Ek HRes] H']; subst.
  - exists true, []. cbn. rewrite app_nil_r. split; [reflexivity|]. split; [intros x []|]. constructor.
  - destruct e as [k a]. cbn [fst snd] in *. subst k. cbn [promote map] in *. inversion ND as [|? ? N1 N2]; subst.
    destruct (get_rational_coef_total a M (proj1 HRes)) as [b1 [r1 E1]]. rewrite E1. cbn [oget obind fst snd].
    assert (G : forall r, guessable M (num r, den r) /\ agrees M (snd t) (num r, den r) ->
       exists ok L, promote M l' (aset g (key t) r) (key t :: dk) = Ret (ok, g ++ map entry L, rev (map key L) ++ dk) /\ incl (map key L) (key t :: map key T) /\
         (ok = true -> Forall2 (guess_of M) (t :: T) L)).
    { intros r [G A]. rewrite aset_new by (apply HD; left; reflexivity).
      destruct (IH l' (g ++ [(key t, r)]) (key t :: dk) H' N2) as [ok [L [E [I V]]]].
      - intros k Hk X. rewrite map_app in X. apply in_app_or in X as [X|[X|[]]]; [exact (HD k (or_intror Hk) X)|]. cbn [fst] in X. subst k. contradiction.
      - exists ok, ((fst t, (num r, den r)) :: L). rewrite E. split; [|split].
        + rewrite <- !app_assoc. cbn [app map entry fst snd key rev]. rewrite <- app_assoc. unfold key. cbn [fst app]. destruct r; reflexivity.
        + intros k [X|X]; [left; exact X|right; exact (I k X)].
        + intros Ho. constructor; [split; [reflexivity|split; assumption]|]. apply V. exact Ho. }
    destruct b1; [apply G; exact (wang_guess M _ a r1 HRes E1)|].
    destruct (mqrr_total a M (proj1 HRes)) as [b2 [r2 E2]]. rewrite E2. cbn [oget obind fst snd]. destruct b2; [apply G; exact (mqrr_guess M _ a r2 HRes E2)|].
    exists false, []. cbn. rewrite app_nil_r. split; [reflexivity|]. split; [intros x []|discriminate].
Qed.
(** numbers within the bounds are guessed correctly *)
Lemma promote_small M T : 2 < M -> forall l g dk, Forall2 (matches M) T l -> NoDup (map key T) -> (forall k, In k (map key T) -> ~ In k (map fst g)) ->
  (forall t, In t T -> lowest (snd t) /\ 2 * (fst (snd t) * fst (snd t)) <= M /\ 2 * (snd (snd t) * snd (snd t)) <= M) ->
  promote M l g dk = Ret (true, g ++ map entry T, rev (map key T) ++ dk).
Proof.
  intros HM. induction T as [|t T IH]; intros l g dk H ND HD HS; inversion H as [|? e ? l' [Ek HRes] H']; subst.
  - cbn. rewrite app_nil_r. reflexivity.
  - destruct e as [k a]. cbn [fst snd] in *. subst k. cbn [promote map] in *. inversion ND as [|? ? N1 N2]; subst.
    destruct (HS t (or_introl eq_refl)) as [[L1 L2] [S1 S2]]. destruct HRes as [HRes HQ].
    assert (E : get_rational_coef a M = Some (true, mk_rn (fst (snd t)) (snd (snd t)))).
    { apply get_rational_coef_complete; try assumption. apply Z.mod_divide; [lia|]. apply Z.mod_divide in HQ; [|lia]. destruct HQ as [q Hq]. exists (- q). lia. }
    rewrite E. cbn [oget obind fst snd]. rewrite aset_new by (apply HD; left; reflexivity). rewrite (IH l'); try assumption.
    + rewrite <- !app_assoc. cbn [app rev]. rewrite <- app_assoc. reflexivity.
    + intros k Hk X. rewrite map_app in X. apply in_app_or in X as [X|[X|[]]]; [exact (HD k (or_intror Hk) X)|]. cbn [fst] in X. subst k. contradiction.
    + intros u Hu. apply HS. right. exact Hu.
Qed.

Section Next.
  Variable ord : forall A : Type, list A -> list A.
  Hypothesis Hord : forall A (l : list A), Permutation (ord A l) l.
  Variable F : pfield.
  Local Notation K := (fld F).
  Local Notation p := (pf_mod F).
  Local Notation KL := (HK F).
  Add Field KF : (fl_field K (HK F)).

  (** ---- the test of the guess ---- *)
  Definition small_terms (T : list rterm) : Prop := forall t, In t T -> Z.of_nat (fst t) < 2 ^ 31.
  Lemma imgs_value T (x : K) : poly_value 1 (imgs F T) (fun _ => x) = fvalue T x.
  Proof.
    induction T as [|[e c] T IH]; [reflexivity|]. unfold poly_value in *. cbn [imgs map fold_right fvalue fst snd monomial_value key nth]. cbn [monomial_value] in IH.
    fold (imgs F T). rewrite IH. rewrite Nat2Z.id. f_equal. f_equal. ring.
  Qed.
  Lemma imgs_keys T : map fst (imgs F T) = map key T. Proof. unfold imgs. rewrite map_map. reflexivity. Qed.
  Lemma imgs_ok T : NoDup (map fst T) -> small_terms T -> poly_ok 1 (imgs F T).
  Proof.
    intros ND HT. split; [rewrite imgs_keys; apply (nodup_keys); exact ND|]. unfold imgs. apply Forall_forall. intros kc Hin. apply in_map_iff in Hin as [t [<- Ht]].
    cbn [fst]. split; [reflexivity|]. constructor; [|constructor]. specialize (HT t Ht). lia.
  Qed.
  Lemma convert_perm g T : Permutation g (map entry T) -> Permutation (convert_to_ffint ord F g) (imgs F T).
  Proof.
    intros HP. unfold convert_to_ffint.
    assert (E : imgs F T = map (fun e => (fst e, to_ff F (snd e))) (map entry T)).
    { unfold imgs. rewrite map_map. apply map_ext. intros [e [a b]]. cbn [entry fst snd]. rewrite to_ff_krat. reflexivity. }
    rewrite E. apply Permutation_map. exact (Permutation_trans (Hord _ g) HP).
  Qed.
  Lemma guess_value g T (x : K) : Permutation g (map entry T) -> NoDup (map fst T) -> small_terms T ->
    calc (ord _) (mk_polyff 1 (convert_to_ffint ord F g)) (fun _ => x) = fvalue T x.
  Proof.
    intros HP ND HT. pose proof (convert_perm g T HP) as Q. rewrite (calc_value KL); [|exact (Hord _)|].
    - cbn [pf_n pf_coefs]. rewrite (pv_perm KL 1 _ _ _ Q). apply imgs_value.
    - cbn [pf_n pf_coefs]. apply (poly_ok_perm _ _ _ (Permutation_sym Q)). apply imgs_ok; assumption.
  Qed.
  Lemma test_guess_ok gn gd TN TD (v t : K) : v <> f0 -> Permutation gn (map entry TN) -> Permutation gd (map entry TD) ->
    NoDup (map fst TN) -> NoDup (map fst TD) -> small_terms TN -> small_terms TD ->
    (test_guess ord F gn gd v t = true <-> fvalue TD t <> f0 /\ fvalue TN t = fmul v (fvalue TD t)).
  Proof.
    intros Hv PN PD N1 N2 S1 S2. unfold test_guess. assert (E : fadd t f0 = t) by ring. rewrite E. cbn zeta.
    rewrite (guess_value gn TN t PN N1 S1), (guess_value gd TD t PD N2 S2), (fl_eqb K KL). split.
    - intros H. assert (Z : fvalue TD t <> f0) by (intros Z; rewrite Z, (fl_div0 K KL) in H; congruence). split; [exact Z|]. rewrite <- H. field. exact Z.
    - intros [Z H]. rewrite H. field. exact Z.
  Qed.

  (** ---- check_if_done ---- *)
  Section Check.
  Variables (N D : list rterm) (d0 : nat).
  Hypothesis HR : rational_function N D d0.
  Variables (M : Z) (g : rr) (T1 T2 S1 S2 : list rterm).
  Hypothesis HM : 2 < M.
  Hypothesis Hcp : rr_combined_prime g = M.
  Hypothesis Hpn : 1 <= rr_prime_number g.
  Hypothesis SN : side M N (rr_gni g) (rr_cni g) (rr_nsn g) T1 T2.
  Hypothesis SD : side M D (rr_gdi g) (rr_cdi g) (rr_nsd g) S1 S2.
  Hypothesis I0 : In (d0, (1, 1)) S1.
  Variables (t v : K).
  Hypothesis Hv : v <> f0.
  Hypothesis Hprobe : probe_of N D t v.

  Definition untested (w : work F) : rr * work F :=
    (mk_rr (rr_prime_number g) false (rr_check_interpolation g) (rr_first_feed g) (rr_zero_counter g) false
        true (rr_combined_prime g) (rr_cni g) (rr_cdi g) (rr_gni g) (rr_gdi g) (rr_nsn g) (rr_nsd g) (rr_deg g) (rr_norm g) (rr_eqn g),
     mk_work F (w_th F w) (solved_polys ord F (rr_gni g)) (solved_polys ord F (rr_gdi g)) (w_subn F w) (w_subd F w) (w_mat F w)).

  Lemma side_keys T gm c ns A B : NoDup (map fst T) -> side M T gm c ns A B -> NoDup (map fst (A ++ B)) /\ NoDup (map key B) /\ (forall k, In k (map key B) -> ~ In k (map fst gm)).
  Proof.
    intros ND [P1 [P2 _]]. assert (NA : NoDup (map fst (A ++ B))) by (apply (Permutation_NoDup (Permutation_map fst P1)); exact ND).
    split; [exact NA|]. rewrite map_app in NA. split.
    - apply nodup_keys. exact (nodup_app_r _ _ NA).
    - intros k Hk X. apply (Permutation_in _ (Permutation_map fst P2)) in X. rewrite entry_keys in X.
      apply in_map_iff in Hk as [b [<- Hb]]. apply in_map_iff in X as [a [E Ha]]. apply key_inj in E.
      apply (in_map fst) in Ha, Hb. rewrite E in Ha. exact (nodup_app_disjoint _ _ _ NA Ha Hb).
  Qed.
  Lemma small_of T gm c ns A B B' : (forall u, In u T -> Z.of_nat (fst u) < 2 ^ 31) -> side M T gm c ns A B -> Permutation B B' -> forall L, map key L = map key B' -> small_terms (A ++ L).
  Proof.
    intros HT [P1 _] PB L E u Hu. apply in_app_or in Hu as [Hu|Hu].
    - apply HT. apply (Permutation_in _ (Permutation_sym P1)). apply in_or_app. left. exact Hu.
    - apply (in_map key) in Hu. rewrite E in Hu. apply in_map_iff in Hu as [b [Ek Hb]]. apply key_inj in Ek. rewrite <- Ek. apply HT.
      apply (Permutation_in _ (Permutation_sym P1)). apply in_or_app. right. apply (Permutation_in _ (Permutation_sym PB)). exact Hb.
  Qed.
  Lemma keys_fst A B : map key A = map key B -> map fst A = map fst B.
  Proof.
    revert B. induction A as [|a A IH]; intros [|b B] E; try discriminate; [reflexivity|]. cbn [map] in *. injection E as E1 E2.
    rewrite (IH B E2). f_equal. lia.
  Qed.
  Lemma nodup_guess A B B' L : NoDup (map fst (A ++ B)) -> Permutation B B' -> map key L = map key B' -> NoDup (map fst (A ++ L)).
  Proof.
    intros H PB E. rewrite map_app, (keys_fst L B' E), <- map_app. apply (Permutation_NoDup (l := map fst (A ++ B))); [|exact H].
    apply Permutation_map. apply Permutation_app_head. exact PB.
  Qed.
  Lemma agrees_refl c : agrees M c c.
  Proof. unfold agrees. rewrite Z.sub_diag. apply Z.mod_0_l. lia. Qed.
  (** the guess is a variant of the function *)
  Lemma variant_of T gm c ns A B B' L : side M T gm c ns A B -> Permutation B B' -> Forall2 (guess_of M) B' L -> exists T', Permutation (A ++ L) T' /\ variant M T T'.
  Proof.
    intros [P1 [_ [_ [_ G]]]] PB V. assert (V' : Forall2 (guess_of M) (A ++ B') (A ++ L)).
    { apply Forall2_app; [|exact V]. clear - G HM. induction A as [|a A IH]; constructor; [|apply IH; intros u Hu; apply G; right; exact Hu].
      split; [reflexivity|]. split; [apply G; left; reflexivity|apply agrees_refl]. }
    assert (Q : Permutation (A ++ B') T) by (apply Permutation_sym; apply (Permutation_trans P1); apply Permutation_app_head; exact PB).
    destruct (Permutation_Forall2 Q V') as [T' [Q1 Q2]]. exists T'. split; [exact Q1|exact Q2].
  Qed.

  Lemma check_ok w :
    (forall N' D', variant M N N' -> variant M D D' -> In (d0, (1, 1)) D' -> fvalue D' t <> f0 -> fvalue N' t = fmul v (fvalue D' t) -> N' = N /\ D' = D) ->
    exists b g' w', check_if_done ord F g w v t = Ret (b, g', w') /\
      if b then is_result (rr_gni g') N /\ is_result (rr_gdi g') D /\ rr_done g' = true else (g', w') = untested w.
  Proof.
    intros Hmis. pose proof HR as [_ [NDN [NDD [HB _]]]].
    assert (BN : forall u, In u N -> Z.of_nat (fst u) < 2 ^ 31) by (intros u Hu; apply HB; apply in_or_app; left; exact Hu).
    assert (BD : forall u, In u D -> Z.of_nat (fst u) < 2 ^ 31) by (intros u Hu; apply HB; apply in_or_app; right; exact Hu).
    destruct (side_keys _ _ _ _ _ _ NDN SN) as [KN1 [KN2 KN3]]. destruct (side_keys _ _ _ _ _ _ NDD SD) as [KD1 [KD2 KD3]].
    pose proof SN as [_ [PN2 [MN _]]]. pose proof SD as [_ [PD2 [MD _]]].
    destruct (matches_reorder _ _ _ _ MN (Hord _ (rr_cni g))) as [T2' [QN MN']]. destruct (matches_reorder _ _ _ _ MD (Hord _ (rr_cdi g))) as [S2' [QD MD']].
    pose proof (Permutation_map key QN) as QKN. pose proof (Permutation_map key QD) as QKD.
    destruct (promote_ok M T2' (ord _ (rr_cni g)) (rr_gni g) [] MN') as [okn [LN [En [IN VN]]]].
    { apply (Permutation_NoDup QKN); exact KN2. }
    { intros k Hk. apply KN3. apply (Permutation_in _ (Permutation_sym QKN)). exact Hk. }
    destruct (promote_ok M S2' (ord _ (rr_cdi g)) (rr_gdi g) [] MD') as [okd [LD [Ed [ID VD]]]].
    { apply (Permutation_NoDup QKD); exact KD2. }
    { intros k Hk. apply KD3. apply (Permutation_in _ (Permutation_sym QKD)). exact Hk. }
    rewrite app_nil_r in En, Ed.
    assert (DN : forall k, In k (map key T2') -> ~ In k (map fst (rr_gni g))) by (intros k Hk; apply KN3; apply (Permutation_in _ (Permutation_sym QKN)); exact Hk).
    assert (DD : forall k, In k (map key S2') -> ~ In k (map fst (rr_gdi g))) by (intros k Hk; apply KD3; apply (Permutation_in _ (Permutation_sym QKD)); exact Hk).
    assert (RN : erase_all (rr_gni g ++ map entry LN) (rev (map key LN)) = rr_gni g).
    { apply erase_restores; [intros k Hk; apply DN; apply IN; apply in_rev; exact Hk|]. rewrite entry_keys. intros k Hk. apply in_rev in Hk. exact Hk. }
    assert (RD : erase_all (rr_gdi g ++ map entry LD) (rev (map key LD)) = rr_gdi g).
    { apply erase_restores; [intros k Hk; apply DD; apply ID; apply in_rev; exact Hk|]. rewrite entry_keys. intros k Hk. apply in_rev in Hk. exact Hk. }
    assert (RN' : erase_all (rr_gni g ++ map entry LN) (map fst (ord _ (rr_cni g))) = rr_gni g).
    { rewrite (matches_keys _ _ _ MN'). apply erase_restores; [exact DN|]. rewrite entry_keys. exact IN. }
    assert (RD' : erase_all (rr_gdi g ++ map entry LD) (map fst (ord _ (rr_cdi g))) = rr_gdi g).
    { rewrite (matches_keys _ _ _ MD'). apply erase_restores; [exact DD|]. rewrite entry_keys. exact ID. }
    unfold check_if_done, rec_rat_coef. rewrite Hcp, En. cbn [obind]. assert (Hp1 : (1 <=? rr_prime_number g) = true) by (apply Z.leb_le; exact Hpn).
    destruct okn.
    2: { cbn [obind andb]. rewrite RN, Hp1. exists false. eexists _, _. split; [reflexivity|]. unfold untested. rewrite Hcp. reflexivity. }
    rewrite Ed. cbn [obind]. destruct okd.
    2: { cbn [obind andb]. rewrite RN, RD, Hp1. exists false. eexists _, _. split; [reflexivity|]. unfold untested. rewrite Hcp. reflexivity. }
    cbn [obind andb]. specialize (VN eq_refl). specialize (VD eq_refl).
    destruct (test_guess ord F (rr_gni g ++ map entry LN) (rr_gdi g ++ map entry LD) v t) eqn:ET.
    2: { rewrite RN', RD', Hp1. exists false. eexists _, _. split; [reflexivity|]. unfold untested. rewrite Hcp. reflexivity. }
    exists true. eexists _, _. split; [reflexivity|]. cbn [rr_gni rr_gdi rr_done].
    assert (EN : Permutation (rr_gni g ++ map entry LN) (map entry (T1 ++ LN))) by (rewrite map_app; apply Permutation_app_tail; exact PN2).
    assert (ED : Permutation (rr_gdi g ++ map entry LD) (map entry (S1 ++ LD))) by (rewrite map_app; apply Permutation_app_tail; exact PD2).
    destruct (variant_of _ _ _ _ _ _ _ _ SN QN VN) as [N' [HN' VN']]. destruct (variant_of _ _ _ _ _ _ _ _ SD QD VD) as [D' [HD' VD']].
    assert (KL1 : map key LN = map key T2') by exact (guess_keys _ _ _ VN). assert (KL2 : map key LD = map key S2') by exact (guess_keys _ _ _ VD).
    apply (test_guess_ok _ _ (T1 ++ LN) (S1 ++ LD) v t Hv EN ED) in ET.
    - destruct ET as [Z E]. rewrite (fvalue_perm F _ _ t HD') in Z, E. rewrite (fvalue_perm F _ _ t HN') in E.
      destruct (Hmis N' D' VN' VD') as [-> ->]; [|exact Z|exact E|].
      + apply (Permutation_in _ HD'). apply in_or_app. left. exact I0.
      + split; [|split; [|reflexivity]].
        * apply (Permutation_trans EN). apply (Permutation_map entry HN').
        * apply (Permutation_trans ED). apply (Permutation_map entry HD').
    - exact (nodup_guess _ _ _ _ KN1 QN KL1).
    - exact (nodup_guess _ _ _ _ KD1 QD KL2).
    - exact (small_of _ _ _ _ _ _ _ BN SN QN _ KL1).
    - exact (small_of _ _ _ _ _ _ _ BD SD QD _ KL2).
  Qed.

  (** every coefficient that is not yet fixed is small enough: the function is recognised *)
  Lemma check_complete w : (forall u, In u (T2 ++ S2) -> 2 * (fst (snd u) * fst (snd u)) <= M /\ 2 * (snd (snd u) * snd (snd u)) <= M) ->
    exists g' w', check_if_done ord F g w v t = Ret (true, g', w') /\ is_result (rr_gni g') N /\ is_result (rr_gdi g') D /\ rr_done g' = true.
  Proof.
    intros HS. pose proof HR as [_ [NDN [NDD [HB _]]]].
    assert (BN : forall u, In u N -> Z.of_nat (fst u) < 2 ^ 31) by (intros u Hu; apply HB; apply in_or_app; left; exact Hu).
    assert (BD : forall u, In u D -> Z.of_nat (fst u) < 2 ^ 31) by (intros u Hu; apply HB; apply in_or_app; right; exact Hu).
    destruct (side_keys _ _ _ _ _ _ NDN SN) as [KN1 [KN2 KN3]]. destruct (side_keys _ _ _ _ _ _ NDD SD) as [KD1 [KD2 KD3]].
    pose proof SN as [PN1 [PN2 [MN _]]]. pose proof SD as [PD1 [PD2 [MD _]]].
    destruct (matches_reorder _ _ _ _ MN (Hord _ (rr_cni g))) as [T2' [QN MN']]. destruct (matches_reorder _ _ _ _ MD (Hord _ (rr_cdi g))) as [S2' [QD MD']].
    pose proof (Permutation_map key QN) as QKN. pose proof (Permutation_map key QD) as QKD.
    assert (En : promote M (ord _ (rr_cni g)) (rr_gni g) [] = Ret (true, rr_gni g ++ map entry T2', rev (map key T2') ++ [])).
    { apply (promote_small M T2' HM); [exact MN'|apply (Permutation_NoDup QKN); exact KN2| |].
      - intros k Hk. apply KN3. apply (Permutation_in _ (Permutation_sym QKN)). exact Hk.
      - intros u Hu. apply (Permutation_in _ (Permutation_sym QN)) in Hu. split; [|apply HS; apply in_or_app; left; exact Hu].
        apply HB. apply in_or_app. left. apply (Permutation_in _ (Permutation_sym PN1)). apply in_or_app. right. exact Hu. }
    assert (Ed : promote M (ord _ (rr_cdi g)) (rr_gdi g) [] = Ret (true, rr_gdi g ++ map entry S2', rev (map key S2') ++ [])).
    { apply (promote_small M S2' HM); [exact MD'|apply (Permutation_NoDup QKD); exact KD2| |].
      - intros k Hk. apply KD3. apply (Permutation_in _ (Permutation_sym QKD)). exact Hk.
      - intros u Hu. apply (Permutation_in _ (Permutation_sym QD)) in Hu. split; [|apply HS; apply in_or_app; right; exact Hu].
        apply HB. apply in_or_app. right. apply (Permutation_in _ (Permutation_sym PD1)). apply in_or_app. right. exact Hu. }
    assert (EN : Permutation (rr_gni g ++ map entry T2') (map entry N)).
    { apply Permutation_sym. apply (Permutation_trans (Permutation_map entry PN1)). rewrite map_app. apply Permutation_app; [apply Permutation_sym; exact PN2|apply Permutation_map; exact QN]. }
    assert (ED : Permutation (rr_gdi g ++ map entry S2') (map entry D)).
    { apply Permutation_sym. apply (Permutation_trans (Permutation_map entry PD1)). rewrite map_app. apply Permutation_app; [apply Permutation_sym; exact PD2|apply Permutation_map; exact QD]. }
    assert (ET : test_guess ord F (rr_gni g ++ map entry T2') (rr_gdi g ++ map entry S2') v t = true).
    { apply (test_guess_ok _ _ N D v t Hv EN ED NDN NDD BN BD). destruct Hprobe as [Z E]. split; [exact Z|symmetry; exact E]. }
    unfold check_if_done, rec_rat_coef. rewrite Hcp, En. cbn [obind]. rewrite Ed. cbn [obind andb]. rewrite ET. eexists _, _. split; [reflexivity|].
    cbn [rr_gni rr_gdi rr_done]. split; [exact EN|]. split; [exact ED|reflexivity].
  Qed.
  End Check.
End Next.

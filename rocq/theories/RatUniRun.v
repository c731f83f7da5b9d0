(** Proofs for the univariate reconstruction, part 6: a further prime and the whole run *)
From Coq Require Import Znumtheory Permutation.
From Verif Require Import Machine NumTheory FFInt FFIntProofs FField FSum LinAlg LinSpec LinAlgProofs FPoly PolyFF PolySpec PolyFFProofs Thiele ThieleSpec RatNum RatNumProofs Modular ModularProofs MqrrProofs Primes PField RatUni RatUniSpec RatUniProofs RatUniThiele RatUniFirst RatUniNext RatUniRows.
Open Scope Z_scope.

Lemma guessable_mono M M' c : M <= M' -> guessable M c -> guessable M' c.
Proof. intros H [A B]. split; [exact A|lia]. Qed.
Definition zdegs (T : list rterm) : list Z := map (fun u => Z.of_nat (fst u)) T.

(** RatReconst.cpp:1463-1505 *)
Lemma crt_map_ok F M img T : 2 < M -> ~ (pf_mod F | M) -> forall l last, Forall2 (matches M) T l ->
  (forall t, In t T -> afind img (key t) = Some (@krat (fld F) (snd t)) /\ ~ (pf_mod F | snd (snd t))) ->
  exists l', crt_map F M img l last = Ret (l', match T with [] => last | _ => M * pf_mod F end) /\ Forall2 (matches (M * pf_mod F)) T l'.
Proof.
  intros HM HG. assert (G : Z.gcd M (pf_mod F) = 1).
  { apply Zgcd_1_rel_prime. apply rel_prime_sym. apply prime_rel_prime; [exact (pf_prime F)|exact HG]. }
  pose proof (p_gt1 F) as Hp. induction T as [|t T IH]; intros l last H HI; inversion H as [|? e ? l' [Ek HRes] H']; subst.
  - exists []. split; [reflexivity|constructor].
  - destruct e as [k a]. cbn [fst snd] in *. subst k. cbn [crt_map]. destruct (HI t (or_introl eq_refl)) as [-> Hd]. cbn zeta iota.
    assert (RP : residue (pf_mod F) (snd t) (kv (@krat (fld F) (snd t)))) by (split; [apply kv_range|apply krat_residue; exact Hd]).
    destruct (crt_residue M (pf_mod F) (snd t) a _ ltac:(lia) ltac:(lia) G HRes RP) as [a' [-> HR']]. cbn [oget obind snd].
    destruct (IH l' (M * pf_mod F) H' (fun u Hu => HI u (or_intror Hu))) as [l1 [-> H1]]. cbn [obind fst snd].
    exists ((key t, a') :: l1). split; [destruct T; reflexivity|]. constructor; [split; [reflexivity|exact HR']|exact H1].
Qed.

(** RatReconst.cpp:1512-1661 *)
Lemma fix_map_ok M M' T : forall l c U g ns, Forall2 (matches M) T l -> Forall2 (matches M') T c -> NoDup (map fst T) ->
  (forall k, In k (map key T) -> ~ In k (map fst U) /\ ~ In k (map fst g)) -> (forall t, In t T -> ~ In (Z.of_nat (fst t)) ns) ->
  (forall t, In t T -> lowest (snd t) /\ no_impostor M M' (snd t)) ->
  exists Ta Tb c', fix_map M M' l (U ++ c) g ns = Ret (U ++ c', g ++ map entry Ta, ns ++ zdegs Tb) /\ Permutation T (Ta ++ Tb) /\
    Forall2 (matches M') Tb c' /\ (forall t, In t Ta -> guessable M (snd t)).
Proof.
  induction T as [|t T IH]; intros l c U g ns H Hc ND HK Hns HI; inversion H as [|? e ? l' [Ek HRes] H']; subst; inversion Hc as [|? e' ? c1 [Ek' HRes'] Hc']; subst.
  - exists [], [], []. cbn. rewrite !app_nil_r. split; [reflexivity|]. split; [constructor|]. split; [constructor|intros u []].
  - destruct e as [k a]. destruct e' as [k' a']. cbn [fst snd] in *. subst k k'. cbn [fix_map]. inversion ND as [|? ? N1 N2]; subst.
    destruct (HK (key t) (or_introl eq_refl)) as [KU Kg]. apply afind_None in Kg as Kg'. rewrite Kg'.
    assert (KT : ~ In (key t) (map key T)).
    { intros X. apply in_map_iff in X as [u [E Hu]]. apply key_inj in E. apply N1. rewrite <- E. apply in_map. exact Hu. }
    assert (EF : afind (U ++ (key t, a') :: c1) (key t) = Some a').
    { clear - KU. induction U as [|[k b] U IH]; cbn [app afind]; [rewrite mon_eqb_refl; reflexivity|]. cbn [map fst] in KU.
      rewrite mon_eqb_neq by (intros X; apply KU; left; symmetry; exact X). apply IH. intros X. apply KU. right. exact X. }
    rewrite EF. destruct (HI t (or_introl eq_refl)) as [HL HN]. destruct (decide_ok M M' (snd t) a a' HRes HRes' HL HN) as [o [-> HO]]. cbn [obind].
    destruct o as [q|].
    + destruct (HO q eq_refl) as [-> HG].
      assert (EE : aerase (U ++ (key t, a') :: c1) (key t) = U ++ c1).
      { change ((key t, a') :: c1) with ([(key t, a')] ++ c1). rewrite !aerase_app, aerase_one, (aerase_absent U) by exact KU. cbn [app]. rewrite aerase_absent; [reflexivity|].
        rewrite (matches_keys _ _ _ Hc'). exact KT. }
      rewrite EE, aset_new by exact Kg.
      destruct (IH l' c1 U (g ++ [(key t, mk_rn (fst (snd t)) (snd (snd t)))]) ns H' Hc' N2) as [Ta [Tb [c' [E [P [Q R]]]]]].
      * intros k Hk. destruct (HK k (or_intror Hk)) as [A B]. split; [exact A|]. intros X. rewrite map_app in X. apply in_app_or in X as [X|[X|[]]]; [contradiction|].
        cbn [fst] in X. subst k. contradiction.
      * intros u Hu. apply Hns. right. exact Hu.
      * intros u Hu. apply HI. right. exact Hu.
      * exists (t :: Ta), Tb, c'. rewrite E. split; [rewrite <- app_assoc; reflexivity|]. split; [cbn [app]; constructor; exact P|]. split; [exact Q|].
        intros u [<-|Hu]; [exact HG|apply R; exact Hu].
    + assert (ED : add_degree ns (key t) = ns ++ [Z.of_nat (fst t)]).
      { unfold add_degree. rewrite deg_sum_key. destruct (existsb (Z.eqb (Z.of_nat (fst t))) ns) eqn:X; [|reflexivity].
        apply existsb_exists in X as [z [I Z0]]. apply Z.eqb_eq in Z0. subst z. exfalso. exact (Hns t (or_introl eq_refl) I). }
      rewrite ED. change ((key t, a') :: c1) with ([(key t, a')] ++ c1). rewrite app_assoc.
      destruct (IH l' c1 (U ++ [(key t, a')]) g (ns ++ [Z.of_nat (fst t)]) H' Hc' N2) as [Ta [Tb [c' [E [P [Q R]]]]]].
      * intros k Hk. destruct (HK k (or_intror Hk)) as [A B]. split; [|exact B]. intros X. rewrite map_app in X. apply in_app_or in X as [X|[X|[]]]; [contradiction|].
        cbn [fst] in X. subst k. contradiction.
      * intros u Hu X. apply in_app_or in X as [X|[X|[]]]; [exact (Hns u (or_intror Hu) X)|]. apply N1. assert (X2 : fst t = fst u) by lia. rewrite X2. apply in_map. exact Hu.
      * intros u Hu. apply HI. right. exact Hu.
      * exists Ta, (t :: Tb), ((key t, a') :: c'). rewrite E. split; [rewrite <- !app_assoc; reflexivity|]. split; [apply Permutation_cons_app; exact P|].
        split; [|exact R]. constructor; [split; [reflexivity|exact HRes']|exact Q].
Qed.

Section Run.
  Variable ord : forall A : Type, list A -> list A.
  Hypothesis Hord : forall A (l : list A), Permutation (ord A l) l.
  Variables (N D : list rterm) (d0 : nat).
  Hypothesis HR : rational_function N D d0.

  Section Later.
  Variable F : pfield.
  Local Notation K := (fld F).
  Local Notation p := (pf_mod F).
  Local Notation KL := (HK F).
  Add Field KF : (fl_field K (HK F)).
  Variables (M : Z) (pr : list (Z * Z)).
  Hypothesis HM : 2 < M.
  Hypothesis HL : later_prime N D d0 M F pr.

  Lemma img_find T img t : Permutation img (imgs F T) -> NoDup (map fst T) -> In t T -> afind img (key t) = Some (@krat K (snd t)).
  Proof.
    intros HP ND Ht. assert (NI : NoDup (map fst (imgs F T))) by (rewrite imgs_keys; apply nodup_keys; exact ND).
    rewrite (afind_perm img (imgs F T)); [|exact HP|apply (Permutation_NoDup (Permutation_map fst (Permutation_sym HP))); exact NI].
    apply afind_In; [exact NI|]. unfold imgs. apply (in_map (fun t => (key t, @krat K (snd t)))) in Ht. exact Ht.
  Qed.

  (** one map through Chinese remaindering and the recognition of coefficients *)
  Lemma side_next T g c ns T1 T2 img last : NoDup (map fst T) -> incl T (N ++ D) -> side M T g c ns T1 T2 -> Permutation img (imgs F T2) ->
    exists c1, crt_map F M img (ord _ c) last = Ret (c1, match c with [] => last | _ => M * p end) /\
      exists c2 g2 ns2 Ta Tb, fix_map M (M * p) (ord _ c) c1 g [] = Ret (c2, g2, ns2) /\ side (M * p) T g2 c2 (ord _ ns2) (T1 ++ Ta) Tb.
  Proof.
    intros ND HI HS HP. destruct HL as [Hden [HpM [_ [_ [_ [_ [Himp _]]]]]]]. pose proof (p_gt1 F) as Hp.
    destruct (side_keys M T g c ns T1 T2 ND HS) as [KN1 [KN2 KN3]]. pose proof HS as [P1 [P2 [P3 [P4 P5]]]].
    assert (ND2 : NoDup (map fst T2)) by (rewrite map_app in KN1; exact (nodup_app_r _ _ KN1)).
    destruct (matches_reorder _ _ _ _ P3 (Hord _ c)) as [T2' [Q MT]].
    assert (I2 : forall t, In t T2' -> In t T2 /\ In t (N ++ D)).
    { intros t Ht. apply (Permutation_in _ (Permutation_sym Q)) in Ht. split; [exact Ht|]. apply HI. apply (Permutation_in _ (Permutation_sym P1)). apply in_or_app. right. exact Ht. }
    destruct (crt_map_ok F M img T2' HM HpM (ord _ c) last MT) as [c1 [E1 M1]].
    { intros t Ht. destruct (I2 t Ht) as [A B]. split; [apply (img_find T2); assumption|apply Hden; exact B]. }
    exists c1. split.
    { rewrite E1. f_equal. f_equal. destruct T2' as [|t T2']; destruct c as [|e c]; try reflexivity.
      - apply Permutation_sym, Permutation_nil in Q. subst T2. inversion P3.
      - inversion P3; subst. apply Permutation_nil in Q. discriminate. }
    assert (ND2' : NoDup (map fst T2')) by (apply (Permutation_NoDup (Permutation_map fst Q)); exact ND2).
    destruct (fix_map_ok M (M * p) T2' (ord _ c) c1 [] g [] MT M1 ND2') as [Ta [Tb [c' [E2 [PT [MB GA]]]]]].
    - intros k Hk. split; [intros []|]. apply KN3. apply (Permutation_in _ (Permutation_sym (Permutation_map key Q))). exact Hk.
    - intros t _ [].
    - intros t Ht. destruct (I2 t Ht) as [A B]. split; [|apply Himp; exact B]. destruct HR as [_ [_ [_ [HB _]]]]. apply HB. exact B.
    - cbn [app] in E2. exists c', (g ++ map entry Ta), (zdegs Tb), Ta, Tb. split; [exact E2|]. split; [|split; [|split; [exact MB|split]]].
      + apply (Permutation_trans P1). rewrite <- app_assoc. apply Permutation_app_head. exact (Permutation_trans Q PT).
      + rewrite map_app. apply Permutation_app_tail. exact P2.
      + apply Hord.
      + intros t Ht. apply (guessable_mono M); [clear - HM Hp; nia|]. apply in_app_or in Ht as [Ht|Ht]; [apply P5|apply GA]; exact Ht.
  Qed.

  Section State.
  Variables (g : rr) (T1 T2 S1 S2 : list rterm).
  Hypothesis Hcp : rr_combined_prime g = M.
  Hypothesis SN : side M N (rr_gni g) (rr_cni g) (rr_nsn g) T1 T2.
  Hypothesis SD : side M D (rr_gdi g) (rr_cdi g) (rr_nsd g) S1 S2.
  Hypothesis I0 : In (d0, (1, 1)) S1.
  Hypothesis Heqn : rr_eqn g = (length (rr_nsn g) + length (rr_nsd g))%nat.
  Hypothesis Hpos : (0 < rr_eqn g)%nat.

  Lemma NDN : NoDup (map fst N). Proof. apply HR. Qed.
  Lemma NDD : NoDup (map fst D). Proof. apply HR. Qed.

  Lemma combine_ok numer denom : rr_use_crt g = true -> rr_done g = false -> rr_deg g <> None -> 0 <= rr_zero_counter g < rr_prime_number g + 1 -> rr_prime_number g + 1 < 300 ->
    Permutation numer (imgs F T2) -> Permutation denom (imgs F S2) ->
    exists g', combine_primes ord F g numer denom = Ret g' /\ inv_some N D d0 (M * p) g' /\ rr_prime_number g' = rr_prime_number g + 1.
  Proof.
    intros Hu Hdone Hdeg Hz H300 PN PD. pose proof (p_gt1 F) as Hp.
    destruct (side_next N _ _ _ T1 T2 numer 0 NDN ltac:(intros x Hx; apply in_or_app; left; exact Hx) SN PN) as [cn [En [cn2 [gn2 [nn2 [Ta [Tb [Fn Sn]]]]]]]].
    destruct (side_next D _ _ _ S1 S2 denom (match rr_cni g with [] => 0 | _ => M * p end) NDD ltac:(intros x Hx; apply in_or_app; right; exact Hx) SD PD) as [cd [Ed [cd2 [gd2 [nd2 [Sa [Sb [Fd Sd]]]]]]]].
    unfold combine_primes, combine_next. rewrite Hu, Hcp, En. cbn [obind fst snd]. rewrite Ed. cbn [obind fst snd].
    assert (EL : match rr_cdi g with [] => match rr_cni g with [] => 0 | _ => M * p end | _ => M * p end = M * p).
    { destruct (rr_cdi g) eqn:E1; [|reflexivity]. destruct (rr_cni g) eqn:E2; [|reflexivity]. exfalso.
      destruct SN as [_ [_ [A1 [A2 _]]]]. destruct SD as [_ [_ [B1 [B2 _]]]]. rewrite ?E2 in A1. rewrite ?E1 in B1. inversion A1; inversion B1; subst.
      apply Permutation_length in A2, B2. cbn in A2, B2. lia. }
    rewrite EL, Fn. cbn [obind]. rewrite Fd. cbn [obind]. unfold next_prime_rr.
    cbn [rr_prime_number rr_new_prime rr_check_interpolation rr_first_feed rr_zero_counter rr_done rr_use_crt rr_combined_prime rr_cni rr_cdi rr_gni rr_gdi rr_nsn rr_nsd rr_deg rr_norm rr_eqn].
    destruct (Z.eqb_spec (rr_prime_number g + 1) 300) as [X|_]; [lia|]. eexists. split; [reflexivity|]. split; [|reflexivity].
    unfold inv_some. cbn [rr_prime_number rr_new_prime rr_check_interpolation rr_first_feed rr_zero_counter rr_done rr_use_crt rr_combined_prime rr_cni rr_cdi rr_gni rr_gdi rr_nsn rr_nsd rr_deg rr_norm rr_eqn].
    do 3 (split; [reflexivity|]). split; [exact Hdone|]. split; [reflexivity|]. split; [exact Hdeg|]. split; [exact Hz|]. split; [reflexivity|]. split; [clear - HM Hp; nia|].
    exists (T1 ++ Ta), Tb, (S1 ++ Sa), Sb. split; [exact Sn|]. split; [exact Sd|]. apply in_or_app. left. exact I0.
  Qed.

  (** ---- collecting the equations ---- *)
  Let ti := arg F pr.
  Let vi := value F pr.
  Lemma small_part T gm c ns A B : (forall u, In u T -> Z.of_nat (fst u) < 2 ^ 31) -> side M T gm c ns A B -> small_terms A /\ small_terms B.
  Proof.
    intros HT [P1 _]. split; intros u Hu; apply HT; apply (Permutation_in _ (Permutation_sym P1)); apply in_or_app; [left|right]; exact Hu.
  Qed.
  Lemma smallN : forall u, In u N -> Z.of_nat (fst u) < 2 ^ 31.
  Proof. intros u Hu. destruct HR as [_ [_ [_ [HB _]]]]. apply HB. apply in_or_app. left. exact Hu. Qed.
  Lemma smallD : forall u, In u D -> Z.of_nat (fst u) < 2 ^ 31.
  Proof. intros u Hu. destruct HR as [_ [_ [_ [HB _]]]]. apply HB. apply in_or_app. right. exact Hu. Qed.
  Lemma nodup_parts T gm c ns A B : NoDup (map fst T) -> side M T gm c ns A B -> NoDup (map fst A) /\ NoDup (map fst B).
  Proof.
    intros ND HS. destruct (side_keys M T gm c ns A B ND HS) as [X _]. rewrite map_app in X. split; [|exact (nodup_app_r _ _ X)].
    apply (Permutation_NoDup (Permutation_app_comm _ _)) in X. exact (nodup_app_r _ _ X).
  Qed.

  Definition rowk (i : nat) : list K := row F (rr_nsn g) (rr_nsd g) T1 S1 ti vi i.
  Definition rows_work (k : nat) (w : work F) : Prop :=
    w_subn F w = subs ord F (solved_polys ord F (rr_gni g)) /\ w_subd F w = subs ord F (solved_polys ord F (rr_gdi g)) /\ w_mat F w = map rowk (seq 0 k).

  Lemma new_row t v subn subd : subn = subs ord F (solved_polys ord F (rr_gni g)) -> subd = subs ord F (solved_polys ord F (rr_gdi g)) ->
    fold_left (fun r e => fadd r (fmul (fmul (snd e) (fpow t (fst e))) v)) (ord _ subd) (fold_left (fun r e => fsub r (fmul (snd e) (fpow t (fst e)))) (ord _ subn) (@f0 K)) =
    fadd (fsub f0 (fvalue T1 t)) (fmul (fvalue S1 t) v).
  Proof.
    intros -> ->. pose proof SN as [_ [PN2 _]]. pose proof SD as [_ [PD2 _]].
    rewrite (fold_add F (fun e => fmul (fmul (snd e) (fpow t (fst e))) v)), (fold_sub F (fun e => fmul (snd e) (fpow t (fst e)))).
    rewrite (gsum_scale F (fun e => fmul (snd e) (fpow t (fst e)))).
    rewrite (subs_sum ord Hord F _ T1 t PN2), (subs_sum ord Hord F _ S1 t PD2); try reflexivity.
    - exact (proj1 (nodup_parts _ _ _ _ _ _ NDD SD)).
    - exact (proj1 (small_part _ _ _ _ _ _ smallD SD)).
    - exact (proj1 (nodup_parts _ _ _ _ _ _ NDN SN)).
    - exact (proj1 (small_part _ _ _ _ _ _ smallN SN)).
  Qed.
  Lemma build_next k w : rows_work (S k) w -> rows_work (S (S k)) (build_row ord F g w (ti (S k)) (vi (S k))).
  Proof.
    intros [E1 [E2 E3]]. unfold build_row. assert (X : exists r rs, w_mat F w = r :: rs) by (rewrite E3; cbn [seq map]; eauto). destruct X as [r [rs X]]. rewrite X, <- X.
    rewrite (new_row _ _ _ _ E1 E2). split; [exact E1|]. split; [exact E2|]. cbn [w_mat]. rewrite E3, (seq_S (S k) 0), map_app. reflexivity.
  Qed.
  Lemma build_first w : w_mat F w = [] -> w_sn F w = solved_polys ord F (rr_gni g) -> w_sd F w = solved_polys ord F (rr_gdi g) -> rows_work 1 (build_row ord F g w (ti 0%nat) (vi 0%nat)).
  Proof.
    intros E1 E2 E3. unfold build_row. rewrite E1, E2, E3. rewrite (new_row _ _ _ _ eq_refl eq_refl). split; [reflexivity|]. split; [reflexivity|]. reflexivity.
  Qed.

  Lemma degs_nth l c : nth c (degs l) 0%nat = Z.to_nat (nth c l 0).
  Proof. unfold degs. change 0%nat with (Z.to_nat 0) at 1. apply map_nth. Qed.
  Lemma eqn_le : (rr_eqn g <= length pr)%nat.
  Proof.
    rewrite Heqn. destruct SN as [P1 [_ [_ [P4 _]]]]. destruct SD as [Q1 [_ [_ [Q4 _]]]]. apply Permutation_length in P1, P4, Q1, Q4. rewrite app_length in P1, Q1. rewrite map_length in P4, Q4.
    assert (1 <= length S1)%nat by (destruct S1; [contradiction|cbn; lia]). destruct HL as [_ [_ [_ [_ [X _]]]]]. unfold rterm in *. lia.
  Qed.
  Lemma probes i : (i < rr_eqn g)%nat -> probe_of N D (ti i) (vi i).
  Proof. intros Hi. destruct HL as [_ [_ [HP _]]]. apply HP. pose proof eqn_le. lia. Qed.
  Lemma degs_incl T gm c ns A B : side M T gm c ns A B -> incl (degs ns) (map fst T).
  Proof.
    intros [P1 [_ [_ [P4 _]]]] e He. apply (Permutation_in _ (degs_perm _ _ P4)) in He. apply (Permutation_in _ (Permutation_sym (Permutation_map fst P1))).
    rewrite map_app. apply in_or_app. right. exact He.
  Qed.
  Lemma determined_sets : determined (K := K) (degs (rr_nsn g)) (degs (rr_nsd g)) ti vi (length (rr_nsn g) + length (rr_nsd g)).
  Proof.
    destruct HL as [_ [_ [_ [_ [_ [_ [_ [_ HD]]]]]]]].
    pose proof (HD (degs (rr_nsn g)) (degs (rr_nsd g))) as X. rewrite !degs_len in X. pose proof SN as [_ [_ [_ [P4 _]]]]. pose proof SD as [_ [_ [_ [Q4 _]]]].
    destruct (nodup_parts _ _ _ _ _ _ NDN SN) as [_ N2]. destruct (nodup_parts _ _ _ _ _ _ NDD SD) as [_ N4]. apply X.
    - apply (Permutation_NoDup (Permutation_sym (degs_perm _ _ P4))). exact N2.
    - apply (Permutation_NoDup (Permutation_sym (degs_perm _ _ Q4))). exact N4.
    - exact (degs_incl _ _ _ _ _ _ SN).
    - exact (degs_incl _ _ _ _ _ _ SD).
    - intros Y. apply (Permutation_in _ (degs_perm _ _ Q4)) in Y. destruct (side_keys M D _ _ _ S1 S2 NDD SD) as [Z _]. rewrite map_app in Z.
      apply (in_map fst) in I0. exact (nodup_app_disjoint _ _ _ Z I0 Y).
  Qed.
  Lemma rows_solved w : rows_work (rr_eqn g) w ->
    exists numer denom, solve_rows F g w = Ret (numer, denom) /\ Permutation numer (imgs F T2) /\ Permutation denom (imgs F S2).
  Proof.
    intros [_ [_ EM]]. pose proof SN as [P1 [_ [_ [P4 _]]]]. pose proof SD as [Q1 [_ [_ [Q4 _]]]].
    destruct (nodup_parts _ _ _ _ _ _ NDN SN) as [_ N2]. destruct (nodup_parts _ _ _ _ _ _ NDD SD) as [_ N4].
    destruct (solve_ok F (rr_nsn g) (rr_nsd g) T1 T2 S1 S2 P4 Q4 N2 N4 (proj2 (small_part _ _ _ _ _ _ smallN SN)) (proj2 (small_part _ _ _ _ _ _ smallD SD)) ti vi (w_mat F w) N D P1 Q1) as [x [Ex [X1 X2]]].
    - rewrite <- Heqn. exact Hpos.
    - intros i Hi. rewrite EM. rewrite (nth_indep _ [] (rowk 0)) by (rewrite map_length, seq_length, Heqn; exact Hi). rewrite map_nth, seq_nth by (rewrite Heqn; exact Hi). reflexivity.
    - intros i Hi. apply probes. rewrite Heqn. exact Hi.
    - exact determined_sets.
    - unfold solve_rows. rewrite Heqn. unfold mat_of in Ex. rewrite Ex. cbn [obind]. eexists _, _. split; [reflexivity|]. split.
      + rewrite (combine_map (rr_nsn g) x (fun d => tcoef (terms F T2) (Z.to_nat d)) 0).
        * exact (solution_map F _ _ P4 N2).
        * intros c Hc. cbn [Nat.add]. rewrite X1 by exact Hc. rewrite degs_nth. reflexivity.
      + rewrite (combine_map (rr_nsd g) x (fun d => tcoef (terms F S2) (Z.to_nat d)) (length (rr_nsn g))).
        * exact (solution_map F _ _ Q4 N4).
        * intros c Hc. rewrite X2 by exact Hc. rewrite degs_nth. reflexivity.
  Qed.

  Hypothesis Hdone : rr_done g = false.
  Hypothesis Hff : rr_first_feed g = false.
  Hypothesis Hnp : rr_new_prime g = false.
  Hypothesis Hdeg : rr_deg g <> None.
  Hypothesis Hcrt : rr_use_crt g = true.
  Hypothesis Hz : 0 <= rr_zero_counter g < rr_prime_number g + 1.
  Hypothesis H300 : rr_prime_number g + 1 < 300.

  (** after k + 1 equations: enough, or more probes *)
  Lemma after_row : forall j k w, (S k + j = rr_eqn g)%nat -> rows_work (S k) w ->
    exists g', (do s <- (if Nat.eqb (rr_eqn g) (length (w_mat F w)) then do nd <- solve_rows F g w; do g2 <- combine_primes ord F g (fst nd) (snd nd); Ret (NextPrime F g2) else Ret (More F g w));
                match s with More _ g' w' => feed_all ord F g' w' (skipn (S k) pr) | _ => Ret s end) = Ret (NextPrime F g') /\ inv_some N D d0 (M * p) g' /\ rr_prime_number g' = rr_prime_number g + 1.
  Proof.
    induction j as [|j IH]; intros k w Ej HW.
    - assert (EL : length (w_mat F w) = rr_eqn g) by (destruct HW as [_ [_ ->]]; rewrite map_length, seq_length; lia).
      rewrite EL, Nat.eqb_refl. replace (S k) with (rr_eqn g) in HW by lia. destruct (rows_solved w HW) as [numer [denom [-> [PN PD]]]]. cbn [obind fst snd].
      destruct (combine_ok numer denom Hcrt Hdone Hdeg Hz H300 PN PD) as [g' [-> G]]. cbn [obind]. exists g'. split; [reflexivity|exact G].
    - assert (EL : length (w_mat F w) = S k) by (destruct HW as [_ [_ ->]]; rewrite map_length, seq_length; reflexivity).
      rewrite EL. destruct (Nat.eqb_spec (rr_eqn g) (S k)) as [X|_]; [lia|]. cbn [obind].
      pose proof eqn_le as HLe. rewrite (skipn_nth (0, 0) pr (S k)) by lia. destruct (nth (S k) pr (0, 0)) as [t v] eqn:En. cbn [feed_all].
      assert (Et : fofZ t = ti (S k)) by (unfold ti, arg; rewrite En; reflexivity). assert (Ev : fofZ v = vi (S k)) by (unfold vi, value; rewrite En; reflexivity). rewrite Et, Ev.
      unfold feed. rewrite Hdone, Hff. unfold interpolate. rewrite Hnp. cbn [obind]. destruct (rr_deg g) as [dg|] eqn:Eg; [|congruence]. cbv zeta.
      apply (IH (S k)); [lia|]. apply build_next. exact HW.
  Qed.
  End State.

  (** ---- a further prime ---- *)
  Definition fed_state (g : rr) : rr :=
    mk_rr (rr_prime_number g) true true false (rr_zero_counter g) false (rr_use_crt g) (rr_combined_prime g) (rr_cni g) (rr_cdi g) (rr_gni g) (rr_gdi g)
      (rr_nsn g) (rr_nsd g) (rr_deg g) (rr_norm g) (rr_eqn g).
  Lemma later_prime_ok g : inv_some N D d0 M g -> rr_prime_number g + 1 < 300 ->
    exists s, feed_all ord F g (work_start F) pr = Ret s /\
      match s with
      | More _ _ _ => False
      | NextPrime _ g' => inv_some N D d0 (M * p) g' /\ rr_prime_number g' = rr_prime_number g + 1 /\
          ~ (forall u, In u (N ++ D) -> 2 * (fst (snd u) * fst (snd u)) <= M /\ 2 * (snd (snd u) * snd (snd u)) <= M)
      | Finished _ g' => is_result (rr_gni g') N /\ is_result (rr_gdi g') D
      end.
  Proof.
    intros [H1 [H2 [H3 [H4 [H5 [H6 [H7 [H8 [_ [T1 [T2 [S1 [S2 [SN [SD I0]]]]]]]]]]]]]]] H300.
    pose proof HL as [_ [_ [HP [Hne [_ [Hv [_ [Hmis _]]]]]]]].
    assert (Lp : (0 < length pr)%nat) by (destruct pr; [congruence|cbn; lia]).
    change pr with (skipn 0 pr) at 1. rewrite (skipn_nth (0, 0) pr 0 Lp). destruct (nth 0 pr (0, 0)) as [t v] eqn:En. cbn [feed_all].
    assert (Et : fofZ t = arg F pr 0) by (unfold arg; rewrite En; reflexivity). assert (Ev : fofZ v = value F pr 0) by (unfold value; rewrite En; reflexivity). rewrite Et, Ev.
    unfold feed. rewrite H4, H3. assert (Z : feqb (value F pr 0) f0 = false) by (apply (feqb_neq KL); exact Hv). rewrite Z, H2, H1.
    change (mk_rr _ _ _ _ _ _ _ _ _ _ _ _ _ _ _ _ _) with (fed_state g).
    assert (Hprobe : probe_of N D (arg F pr 0) (value F pr 0)) by (apply HP; exact Lp).
    destruct (check_ok ord Hord F N D d0 HR M (fed_state g) T1 T2 S1 S2 HM H5 ltac:(cbn; lia) SN SD I0 _ _ Hv (work_start F) Hmis) as [b [g1 [w1 [E HB]]]].
    assert (EC : forall A (x : outcome A), x = x) by reflexivity.
    unfold interpolate. change (rr_new_prime (fed_state g)) with true. cbn iota. rewrite E. cbn [obind]. destruct b.
    { eexists. split; [reflexivity|]. cbn iota. split; apply HB. }
    assert (NS : ~ (forall u, In u (T2 ++ S2) -> 2 * (fst (snd u) * fst (snd u)) <= M /\ 2 * (snd (snd u) * snd (snd u)) <= M)).
    { intros X. destruct (check_complete ord Hord F N D d0 HR M (fed_state g) T1 T2 S1 S2 HM H5 SN SD _ _ Hv Hprobe (work_start F) X) as [g2 [w2 [E2 _]]]. congruence. }
    unfold untested in HB. injection HB as -> ->.
    set (g1 := mk_rr _ _ _ _ _ _ _ _ _ _ _ _ _ _ _ _ _). set (w1 := mk_work _ _ _ _ _ _ _).
    assert (Hpos : (0 < rr_eqn g1)%nat).
    { change (rr_eqn g1) with (rr_eqn g). rewrite H8. destruct SN as [_ [_ [_ [P4 _]]]]. destruct SD as [_ [_ [_ [Q4 _]]]].
      destruct (rr_nsn g) as [|? ?]; [|cbn; lia]. destruct (rr_nsd g) as [|? ?]; [|cbn; lia]. exfalso. apply NS.
      apply Permutation_nil in P4, Q4. destruct T2; [|discriminate]. destruct S2; [|discriminate]. intros u []. }
    assert (Hd1 : rr_deg g1 <> None) by exact H6.
    destruct (rr_deg g1) as [dg|] eqn:Eg; [|congruence]. cbv zeta.
    pose proof (build_first g1 T1 T2 S1 S2 SN SD w1 eq_refl eq_refl eq_refl) as HW.
    destruct (after_row g1 T1 T2 S1 S2 H5 SN SD I0 H8 Hpos eq_refl eq_refl eq_refl ltac:(rewrite Eg; discriminate) eq_refl) with (j := (rr_eqn g1 - 1)%nat) (k := 0%nat) (w := build_row ord F g1 w1 (arg F pr 0) (value F pr 0))
      as [g' [E' [G1 G2]]].
    - change (0 <= rr_zero_counter g < rr_prime_number g + 1). lia.
    - exact H300.
    - lia.
    - exact HW.
    - rewrite E'. eexists. split; [reflexivity|]. cbn iota. split; [exact G1|]. split; [exact G2|]. intros X. apply NS. intros u Hu. apply X.
      apply in_app_or in Hu. destruct SN as [P1 _]. destruct SD as [Q1 _]. apply in_or_app. destruct Hu as [Hu|Hu]; [left; apply (Permutation_in _ (Permutation_sym P1))|right; apply (Permutation_in _ (Permutation_sym Q1))]; apply in_or_app; right; exact Hu.
  Qed.
  End Later.

  (** ---- zero as first value of a prime ---- *)
  Lemma zero_none F t pr g : inv_none g -> rr_prime_number g + 1 < 300 -> rr_prime_number g + 1 <> 3 ->
    exists g', feed_all ord F g (work_start F) ((t, 0) :: pr) = Ret (NextPrime F g') /\ inv_none g' /\ rr_prime_number g' = rr_prime_number g + 1.
  Proof.
    intros [H1 [H2 [H3 [H4 [H5 [H6 [H7 [H8 H9]]]]]]]] H300 Hne. cbn [feed_all]. unfold feed. rewrite H5, H4.
    assert (Z : feqb (@fofZ (fld F) 0) f0 = true) by (apply (fl_eqb _ (HK F)); apply kv_inj; transitivity 0; [apply kv_fofZ_small; pose proof (p_gt1 F); lia|symmetry; apply kv_0]). rewrite Z. unfold feed_zero.
    destruct (Z.eqb_spec (rr_prime_number g + 1) 300) as [X|_]; [lia|]. destruct (Z.eqb_spec (rr_prime_number g + 1) 3) as [X|_]; [lia|].
    rewrite andb_false_r. cbn [obind]. eexists. split; [reflexivity|]. split; [|reflexivity]. unfold inv_none. cbn [rr_prime_number rr_check_interpolation rr_first_feed rr_zero_counter rr_done rr_use_crt rr_gni rr_gdi rr_deg].
    do 7 (split; [assumption|]). lia.
  Qed.
  Lemma zero_some F t pr m g : inv_some N D d0 m g -> rr_prime_number g + 1 < 300 ->
    exists g', feed_all ord F g (work_start F) ((t, 0) :: pr) = Ret (NextPrime F g') /\ inv_some N D d0 m g' /\ rr_prime_number g' = rr_prime_number g + 1.
  Proof.
    intros [H1 [H2 [H3 [H4 [H5 [H6 [H7 H8]]]]]]] H300. cbn [feed_all]. unfold feed. rewrite H4, H3.
    assert (Z : feqb (@fofZ (fld F) 0) f0 = true) by (apply (fl_eqb _ (HK F)); apply kv_inj; transitivity 0; [apply kv_fofZ_small; pose proof (p_gt1 F); lia|symmetry; apply kv_0]). rewrite Z. unfold feed_zero.
    destruct (Z.eqb_spec (rr_prime_number g + 1) 300) as [X|_]; [lia|]. destruct (Z.eqb_spec (rr_zero_counter g + 1) (rr_prime_number g + 1)) as [X|_]; [lia|].
    assert (Q : (rr_zero_counter g + 1 =? 3) && (rr_prime_number g + 1 =? 3) = false).
    { destruct (Z.eqb_spec (rr_zero_counter g + 1) 3); destruct (Z.eqb_spec (rr_prime_number g + 1) 3); try reflexivity. lia. }
    rewrite Q. cbn [obind]. eexists. split; [reflexivity|]. split; [|reflexivity].
    unfold inv_some. cbn [rr_prime_number rr_new_prime rr_check_interpolation rr_first_feed rr_zero_counter rr_done rr_use_crt rr_combined_prime rr_cni rr_cdi rr_gni rr_gdi rr_nsn rr_nsd rr_deg rr_norm rr_eqn].
    split; [reflexivity|]. do 5 (split; [assumption|]). split; [lia|exact H8].
  Qed.

  (** the first k primes begin with a zero value *)
  Fixpoint lead (k : nat) (l : list (pfield * list (Z * Z))) : Prop :=
    match k with O => True | S k' => match l with (_, (_, 0) :: _) :: r => lead k' r | _ => False end end.
  Lemma lead_three l : lead 3 l -> three_zeros l.
  Proof.
    intros H. cbn [lead] in H. destruct l as [|[F0 [|[t0 v0] r0]] l]; try contradiction. destruct v0; try contradiction.
    destruct l as [|[F1 [|[t1 v1] r1]] l]; try contradiction. destruct v1; try contradiction.
    destruct l as [|[F2 [|[t2 v2] r2]] l]; try contradiction. destruct v2; try contradiction. unfold three_zeros. repeat eexists.
  Qed.

  Definition outcome_ok (M : option Z) (pn : Z) (r : outcome run_result) : Prop :=
    (exists g', r = Ret (Running g') /\ rr_prime_number g' = pn /\ rr_done g' = false /\ match M with None => inv_none g' | Some m => inv_some N D d0 m g' end) \/
    (exists g', r = Ret (Complete g') /\ is_result (rr_gni g') N /\ is_result (rr_gdi g') D).
  Lemma run_ok M l M' : good_run N D d0 M l M' -> forall g, match M with None => inv_none g /\ ~ lead (3 - Z.to_nat (rr_prime_number g)) l | Some m => inv_some N D d0 m g end ->
    rr_prime_number g + Z.of_nat (length l) < 300 -> outcome_ok M' (rr_prime_number g + Z.of_nat (length l)) (run ord g l).
  Proof.
    induction 1 as [M|M F t pr l M' HG IH|F pr l M' HF HG IH|M F pr l M' HF HG IH]; intros g HI HN; cbn [run length] in *.
    - left. exists g. split; [reflexivity|]. split; [lia|]. destruct M as [m|]; [split; [apply HI|exact HI]|destruct HI as [HI _]; split; [apply HI|exact HI]].
    - destruct M as [m|].
      + destruct (zero_some F t pr m g HI ltac:(lia)) as [g' [-> [G E]]]. cbn [obind]. specialize (IH g' G ltac:(lia)). rewrite E in IH.
        replace (rr_prime_number g + Z.of_nat (S (length l))) with (rr_prime_number g + 1 + Z.of_nat (length l)) by lia. exact IH.
      + destruct HI as [HI HLd]. assert (Hnn : 0 <= rr_prime_number g) by apply HI.
        destruct (Z.eq_dec (rr_prime_number g + 1) 3) as [E3|E3].
        { exfalso. apply HLd. replace (3 - Z.to_nat (rr_prime_number g))%nat with 1%nat by lia. cbn. exact I. }
        destruct (zero_none F t pr g HI ltac:(lia) E3) as [g' [-> [G E]]]. cbn [obind].
        replace (rr_prime_number g + Z.of_nat (S (length l))) with (rr_prime_number g' + Z.of_nat (length l)) by lia. apply IH; [|lia]. split; [exact G|].
        intros X. apply HLd. destruct (3 - Z.to_nat (rr_prime_number g))%nat as [|k] eqn:Ek; [cbn; exact I|]. cbn [lead]. replace k with (3 - Z.to_nat (rr_prime_number g'))%nat by lia. exact X.
    - destruct HI as [HI _]. destruct (first_prime_ok ord Hord N D d0 HR F pr HF g HI ltac:(lia)) as [g' [-> [G E]]]. cbn [obind].
      replace (rr_prime_number g + Z.of_nat (S (length l))) with (rr_prime_number g' + Z.of_nat (length l)) by lia. apply IH; [exact G|lia].
    - assert (HM : 2 < M) by apply HI. destruct (later_prime_ok F M pr HM HF g HI ltac:(lia)) as [s [-> HS]]. cbn [obind]. destruct s as [g' w'|g'|g'].
      + contradiction.
      + destruct HS as [G [E _]]. replace (rr_prime_number g + Z.of_nat (S (length l))) with (rr_prime_number g' + Z.of_nat (length l)) by lia. apply IH; [exact G|lia].
      + right. exists g'. split; [reflexivity|exact HS].
  Qed.
  Lemma run_app l1 : forall g l2, run ord g (l1 ++ l2) = obind (run ord g l1) (fun s => match s with Running g' => run ord g' l2 | _ => Ret s end).
  Proof.
    induction l1 as [|[F pr] l1 IH]; intros g l2; [reflexivity|]. cbn [app run]. destruct (feed_all ord F g (work_start F) pr) as [s| | | |]; try reflexivity. cbn [obind].
    destruct s; try reflexivity. apply IH.
  Qed.
  (** the coefficients are within the bounds: the next probe finishes the reconstruction *)
  Lemma last_probe m F t v pr g : inv_some N D d0 m g -> (forall u, In u (N ++ D) -> 2 * (fst (snd u) * fst (snd u)) <= m /\ 2 * (snd (snd u) * snd (snd u)) <= m) ->
    @fofZ (fld F) v <> f0 -> probe_of N D (@fofZ (fld F) t) (fofZ v) ->
    exists g', run ord g [(F, (t, v) :: pr)] = Ret (Complete g') /\ is_result (rr_gni g') N /\ is_result (rr_gdi g') D.
  Proof.
    intros [H1 [H2 [H3 [H4 [H5 [H6 [H7 [H8 [HM [T1 [T2 [S1 [S2 [SN [SD I0]]]]]]]]]]]]]]] HS Hv Hprobe.
    cbn [run feed_all]. unfold feed. rewrite H4, H3. assert (Z : feqb (@fofZ (fld F) v) f0 = false) by (apply (feqb_neq (HK F)); exact Hv). rewrite Z, H2, H1.
    change (mk_rr _ _ _ _ _ _ _ _ _ _ _ _ _ _ _ _ _) with (fed_state g). unfold interpolate. change (rr_new_prime (fed_state g)) with true. cbn iota.
    destruct (check_complete ord Hord F N D d0 HR m (fed_state g) T1 T2 S1 S2 HM H5 SN SD _ _ Hv Hprobe (work_start F)) as [g2 [w2 [-> [R1 [R2 _]]]]].
    - intros u Hu. apply HS. destruct SN as [P1 _]. destruct SD as [Q1 _]. apply in_or_app. apply in_app_or in Hu as [Hu|Hu]; [left; apply (Permutation_in _ (Permutation_sym P1))|right; apply (Permutation_in _ (Permutation_sym Q1))]; apply in_or_app; right; exact Hu.
    - cbn [obind]. exists g2. split; [reflexivity|]. split; assumption.
  Qed.
  Lemma start_ok p0 : inv_none (rr_start p0).
  Proof. unfold inv_none. cbn. repeat split; reflexivity. Qed.
End Run.

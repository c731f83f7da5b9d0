(** Proofs for RatReconst in several variables, part 5: the polynomials of one side (numerator or denominator). *)
From Coq Require Import Permutation Sorted.
From Verif Require Import Machine FField FSum LinAlg FPoly PolyFF PolySpec PolyFFProofs PolyFFProofs2 RatUni BM Newton PolyRec PolyRecSpec PolyRecRunSpec PolyRecMath PolyRecFile PolyRecStage RatMulti RatMultiSpec RatMultiMath RatMultiShift RatMultiSub RatMultiClean RatMultiTraj.
Open Scope nat_scope.

Lemma nmem_In k l : nmem k l = true <-> In k l.
Proof. unfold nmem. rewrite existsb_exists. split; [intros [z [I E]]; apply Nat.eqb_eq in E; subst z; exact I|intros I; exists k; split; [exact I|apply Nat.eqb_refl]]. Qed.
Lemma nmem_false k l : nmem k l = false <-> ~ In k l.
Proof. rewrite <- nmem_In. destruct (nmem k l); split; intros H; try reflexivity; try discriminate; try (exfalso; apply H; reflexivity). Qed.
Lemma nremove_mem j k l : nmem j (nremove k l) = nmem j l && negb (j =? k).
Proof.
  apply Bool.eq_iff_eq_true. rewrite Bool.andb_true_iff, !nmem_In. unfold nremove. rewrite filter_In. rewrite (Nat.eqb_sym k j). reflexivity.
Qed.

Section Side.
  Context {K : fops} (HK : flaws K).
  Add Field KSD : (fl_field K HK).
  Local Notation pv := (@poly_value K).
  Variable ord : forall A : Type, list A -> list A.
  Hypothesis Ho : forall A (l : list A), Permutation (ord A l) l.
  Variable c : mcfg.
  Local Notation n := (mc_n c).
  Variables (y s : nat -> K) (is_num : bool).
  Variables (G : nat) (P Ps : list (list Z * K)) (v : nat -> K).

  (** what the theorem assumes for this side *)
  Record side_hyp : Prop := mk_side_hyp {
    sh_n : 2 <= n;
    sh_P : polynomial n G P;
    sh_Ps : polynomial n G Ps;
    sh_wP : wf n G P;
    sh_wPs : wf n G Ps;
    sh_V : forall x, pv n Ps x = pv n P (fun i => x i + s i)%K;
    sh_v : distinct (S G) v;
    sh_char : characteristic_above K G;
    sh_G : (Z.of_nat G < 2 ^ 31)%Z;
    sh_top : hom G Ps <> [];
    sh_layers : forall d, hom d P <> [] -> hom d Ps <> [];
    sh_su : forall Q d, In Q [P; Ps] -> 0 < d -> hom d Q <> [] -> suitable true (mc_bt c) (n - 1) d (layer d Q) y;
    sh_fuel : S G < mc_fuel c;
    sh_thr : (Z.of_nat (mc_thr c) < 2 ^ 62)%Z;
    sh_len : forall Q, In Q [P; Ps] -> (Z.of_nat (length Q) + 1 < 2 ^ 62)%Z;
    sh_bounds : forall Q b, In Q [P; Ps] -> (if is_num then mc_bn c else mc_bd c) = Some b -> forall e i, In e (map fst Q) -> S i < n -> (nth (S i) e 0 <= nth i b 0)%Z;
    sh_steps : forall d dense, 0 < d <= G -> steps c P Ps d dense < mc_steps c
  }.
  Hypothesis SH : side_hyp.
  Local Notation Hp := (Hp c P).
  Local Notation Hs := (Hs c Ps).
  Local Notation contrib := (contrib ord c s P).
  Local Notation repr := (repr c).
  Local Notation subrepr := (subrepr c).
  Local Notation traj := (traj ord c y is_num P Ps).
  Local Notation steps := (steps c P Ps).
  Local Notation target := (target P Ps).

  Lemma Sn1 : S (n - 1) = n. Proof. pose proof (sh_n SH). lia. Qed.
  Lemma NP : NoDup (map fst P). Proof. apply (sh_P SH). Qed.
  Definition present (d : nat) : Prop := d <= G /\ hom d Ps <> [].
  Lemma present_dec d : {present d} + {~ present d}.
  Proof. unfold present. destruct (le_dec d G) as [L|L]; [|right; tauto]. destruct (hom d Ps) eqn:E; [right; intros [_ H]; apply H; reflexivity|left; split; [exact L|discriminate]]. Defined.

  Lemma tpart d x : d <= G -> Hs d x = (Hp d x + fsum (S G) (fun k => if d <? k then contrib k d x else f0))%K.
  Proof. destruct SH. intros L. apply (translated_part HK ord Ho c s G P Ps v); try assumption. apply NP. Qed.
  Lemma absent_contrib k d x : ~ present k -> d < k <= G -> contrib k d x = f0.
  Proof.
    intros A L. destruct SH. apply (contrib_absent HK ord Ho c s G P v); try assumption; [apply NP|lia|lia|]. destruct (hom k P) eqn:E; [reflexivity|]. exfalso. apply A. split; [lia|]. apply sh_layers0. rewrite E. discriminate.
  Qed.
  (** without a shift nothing changes *)
  Lemma unshifted_s : shifted c s = false -> forall i, i < n -> s i = f0.
  Proof.
    intros E i Hi. unfold shifted in E. destruct (feqb (s i) f0) eqn:Ei; [apply (fl_eqb K HK); exact Ei|]. exfalso. rewrite <- Bool.not_true_iff_false in E. apply E. apply existsb_exists. exists i. split; [apply in_seq; lia|rewrite Ei; reflexivity].
  Qed.
  Lemma unshifted_same d x : shifted c s = false -> d <= G -> Hs d x = Hp d x.
  Proof.
    intros E L. unfold RatMultiSub.Hs, RatMultiSub.Hp. destruct SH. apply (hom_determined HK n G Ps v x (fun d => pv n (hom d P) x)); try assumption.
    intros t. rewrite sh_V0, <- (hom_value HK n G P) by assumption. apply pv_ext_x. intros i Hi. rewrite (unshifted_s E i Hi). ring.
  Qed.

  (** ---- the invariant ---- *)
  Local Notation pends := (list (nat * pst K)).
  Definition proc (solved : list (nat * polyff K)) (dense : list nat) (k : nat) : bool := nmem k (map fst solved) && negb (nmem k dense).
  Definition subsum (solved : list (nat * polyff K)) (dense : list nat) (d : nat) (x : nat -> K) : K :=
    fsum (S G) (fun k => if (d <? k) && proc solved dense k then contrib k d x else f0).
  Record core (pend : pends) (solved sub : list (nat * polyff K)) (dense : list nat) : Prop := mk_core {
    co_sorted : StronglySorted gt (map fst pend);
    co_pend : forall d, In d (map fst pend) -> 0 < d /\ present d;
    co_keys : NoDup (map fst solved);
    co_iff : forall d, In d (map fst solved) <-> present d /\ ~ In d (map fst pend);
    co_solved : forall d q, nfind solved d = Some q -> repr d (if nmem d dense then Hs d else Hp d) q;
    co_subk : shifted c s = true -> map fst sub = seq 0 (S G);
    co_sub : shifted c s = true -> forall d, d <= G -> subrepr d (subsum solved dense d) (nget no_poly sub d);
    co_dense : forall d, nmem d dense = true -> present d;
    co_all : shifted c s = false -> forall d, present d -> nmem d dense = true;
    co_clean : shifted c s = true -> forall d, clean c (nget no_poly sub d)
  }.
  (** every degree above a non-dense one is processed; the highest pending degree is not dense unless it is the maximum *)
  Definition upward (pend : pends) (solved : list (nat * polyff K)) (dense : list nat) : Prop :=
    (forall d k, present d -> nmem d dense = false -> d < k -> present k -> proc solved dense k = true) /\
    (shifted c s = true -> forall d st r, pend = (d, st) :: r -> nmem d dense = true -> d = G).
  Definition saved_ok (saved : list ((list nat * (nat * nat)) * K)) : Prop :=
    forall o d z w, vfind saved o d z = Some w -> w = black_box (n - 1) (layer d Ps) y o.

  Definition cost (d : nat) (dense : bool) (j : nat) : nat := if dense then (steps d true - j) + steps d false else steps d false - j.
  Inductive budget (dense : list nat) : pends -> nat -> Prop :=
  | bu_nil : budget dense [] 0
  | bu_cons : forall d st r j b, traj d (nmem d dense) j st -> budget dense r b -> budget dense ((d, st) :: r) (cost d (nmem d dense) j + b).

  Lemma budget_ext dense dense' pend b : (forall d, In d (map fst pend) -> nmem d dense = nmem d dense') -> budget dense pend b -> budget dense' pend b.
  Proof.
    intros H B. induction B as [|d st r j b T B IH]; [constructor|]. pose proof (H d (or_introl eq_refl)) as E. rewrite E in *. constructor; [exact T|]. apply IH. intros e I. apply H. right. exact I.
  Qed.
  Lemma budget_app dense l l' : forall b, budget dense (l ++ l') b <-> exists b1 b2, budget dense l b1 /\ budget dense l' b2 /\ b = b1 + b2.
  Proof.
    induction l as [|[d st] l IH]; intros b; cbn [app].
    - split; [intros B; exists 0, b; split; [constructor|split; [exact B|reflexivity]]|intros [b1 [b2 [B1 [B2 ->]]]]; inversion B1; exact B2].
    - split.
      + intros B. inversion B as [|? ? ? j b' T B']; subst. apply IH in B' as [b1 [b2 [B1 [B2 ->]]]]. exists (cost d (nmem d dense) j + b1), b2. split; [constructor; assumption|]. split; [exact B2|lia].
      + intros [b1 [b2 [B1 [B2 ->]]]]. inversion B1 as [|? ? ? j b' T B']; subst. rewrite <- Nat.add_assoc. constructor; [exact T|]. apply IH. exists b', b2. auto.
  Qed.

  (** all higher degrees are processed: the subtraction term is complete *)
  Lemma subsum_full solved dense d x : d <= G -> (forall k, d < k -> present k -> proc solved dense k = true) -> Hs d x = (Hp d x + subsum solved dense d x)%K.
  Proof.
    intros L H. rewrite tpart by exact L. f_equal. apply fsum_ext. intros k Hk. destruct (Nat.ltb_spec d k) as [Lk|Lk]; [|reflexivity]. cbn [andb].
    destruct (present_dec k) as [Pk|Nk]; [rewrite (H k Lk Pk); reflexivity|]. rewrite absent_contrib by (try exact Nk; lia). destruct (proc solved dense k); reflexivity.
  Qed.
  Lemma subsum_ext solved dense solved' dense' d x : (forall k, d < k -> proc solved dense k = proc solved' dense' k) -> subsum solved dense d x = subsum solved' dense' d x.
  Proof. intros H. apply fsum_ext. intros k Hk. destruct (Nat.ltb_spec d k) as [L|L]; [cbn [andb]; rewrite H by exact L; reflexivity|reflexivity]. Qed.
  Lemma subsum_add solved dense solved' dense' d e x : d <= G -> (forall k, proc solved' dense' k = proc solved dense k || (k =? d)) -> proc solved dense d = false ->
    (subsum solved dense e x + (if (e <? d)%nat then contrib d e x else f0))%K = subsum solved' dense' e x.
  Proof.
    intros L H E. unfold subsum. destruct (Nat.ltb_spec e d) as [Le|Le].
    - transitivity (fsum (S G) (fun k => (if (e <? k)%nat && proc solved dense k then contrib k e x else f0) + (if (k =? d)%nat then contrib d e x else f0)))%K.
      + rewrite (fsum_add HK). f_equal. rewrite (fsum_single HK (S G) d); [rewrite Nat.eqb_refl; reflexivity|lia|]. intros j _ Nj. destruct (Nat.eqb_spec j d); [contradiction|reflexivity].
      + apply fsum_ext. intros k Hk. rewrite H. destruct (Nat.eqb_spec k d) as [->|Nk].
        * rewrite E. cbn [orb]. destruct (Nat.ltb_spec e d); [|lia]. cbn [andb]. ring.
        * rewrite Bool.orb_false_r. ring.
    - transitivity (fsum (S G) (fun k => if (e <? k)%nat && proc solved dense k then contrib k e x else f0)); [ring|]. apply fsum_ext. intros k Hk. rewrite H. destruct (Nat.eqb_spec k d) as [->|Nk].
      + destruct (Nat.ltb_spec e d); [lia|]. reflexivity.
      + rewrite Bool.orb_false_r. reflexivity.
  Qed.

  (** ---- one polynomial ---- *)
  Lemma rand_pw o i : (Z.of_nat (nth i o 0%nat) < 2 ^ 64)%Z -> rand_vec y o i = pw (y i) (nth i o 0).
  Proof. intros H. unfold rand_vec, rand_zi. rewrite (fl_pow K HK) by (unfold two64; lia). rewrite Nat2Z.id. reflexivity. Qed.
  Definition ray_x (o : list nat) : nat -> K := x1 (fun j => pw (y j) (nth j o 0)).
  Definition small_order (o : list nat) : Prop := forall i, (Z.of_nat (nth i o 0%nat) < 2 ^ 64)%Z.
  Lemma calc_ray d F q o : small_order o -> subrepr d F q -> calc_n_m_1 (ord _) q (rand_vec y o) = F (ray_x o).
  Proof.
    intros So R. assert (R' : subrepr d (fun x => pv n (pf_coefs q) x) q) by (destruct R as [A [B [C D]]]; repeat (split; [assumption|]); reflexivity).
    rewrite (calc_sub HK ord Ho c G (sh_n SH) d _ q (rand_vec y o) R'). destruct R as [_ [_ [_ D]]]. rewrite <- D. apply pv_ext_x. intros i _. unfold ray_x, x1. destruct i as [|i]; [reflexivity|]. apply rand_pw. apply So.
  Qed.
  Lemma bb_value d Q o : wf n G Q -> black_box (n - 1) (layer d Q) y o = pv n (hom d Q) (ray_x o).
  Proof. intros W. unfold black_box. rewrite (layer_value HK (n - 1) G); [rewrite Sn1; reflexivity|]. rewrite Sn1. exact W. Qed.
  Lemma traj_small d dense j st : 0 < d <= G -> traj d dense j st -> small_order (ps_order st).
  Proof.
    intros L T. destruct SH. destruct (traj_shape HK ord Ho c y is_num G P Ps) with (d := d) (dense := dense) (j := j) (st := st) as [z [i [k [Hz [_ [Eo [Hi Hk]]]]]]]; try assumption.
    intros q. rewrite Eo. destruct (Nat.lt_ge_cases q (n - 1)) as [Lq|Lq].
    - rewrite (order_nth (poly_cfg c is_num d)) by exact Lq. pose proof (sh_len0 (source P Ps dense) (source_in P Ps dense)). destruct (q <? z); [lia|]. destruct (q =? z); lia.
    - rewrite nth_overflow; [lia|]. unfold order_at. rewrite map_length, seq_length. exact Lq.
  Qed.

  Lemma feed_loop_ok d dense sd : present d -> 0 < d -> nmem d (sd_dense sd) = dense -> saved_ok (sd_saved sd) ->
    (dense = false -> shifted c s = true /\ exists F, subrepr d F (nget no_poly (sd_sub sd) d) /\ forall x, Hs d x = (Hp d x + F x)%K) ->
    forall fuel j st, traj d dense j st -> steps d dense - j < fuel ->
    exists out, feed_loop ord c y s fuel (poly_cfg c is_num d) d (negb dense) sd st = Ret out /\
      match out with
      | inl st' => exists j', j <= j' /\ traj d dense j' st' /\ (vfind (sd_saved sd) (ps_order st) d (S (ps_zi st)) <> None -> j < j')
      | inr m => Permutation m (target d dense)
      end.
  Proof.
    intros [Ld Pd] D0 Ed Sv Sp. assert (L : 0 < d <= G) by lia. induction fuel as [|fuel IH]; intros j st T Lf; [lia|]. cbn [feed_loop].
    destruct (vfind (sd_saved sd) (ps_order st) d (S (ps_zi st))) as [food|] eqn:Ev.
    2:{ exists (inl st). split; [reflexivity|]. exists j. split; [lia|]. split; [exact T|]. intros X. exfalso. apply X. reflexivity. }
    apply Sv in Ev.
    assert (EV : (if negb dense && shifted c s then fsub food (calc_n_m_1 (ord _) (nget no_poly (sd_sub sd) d) (rand_vec y (ps_order st))) else food) = black_box (n - 1) (target d dense) y (ps_order st)).
    { unfold RatMultiTraj.target, source. destruct dense; [exact Ev|]. destruct (Sp eq_refl) as [Es [F [RF EF]]]. rewrite Es. cbn [negb andb]. rewrite (calc_ray d F _ _ (traj_small d false j st L T) RF), Ev.
      rewrite (bb_value d Ps _ (sh_wPs SH)), (bb_value d P _ (sh_wP SH)). fold (Hs d (ray_x (ps_order st))). fold (Hp d (ray_x (ps_order st))). rewrite EF. ring. }
    rewrite EV. destruct SH. destruct (traj_step HK ord Ho c y is_num G P Ps) with (d := d) (dense := dense) (j := j) (st := st) as [out [E O]]; try assumption.
    rewrite E. cbn [obind]. destruct out as [st'|m].
    - pose proof (traj_bound HK ord Ho c y is_num G P Ps) as B. specialize (B ltac:(assumption) ltac:(assumption) ltac:(assumption) ltac:(assumption) ltac:(assumption) ltac:(assumption) ltac:(assumption) ltac:(assumption) ltac:(assumption) d dense (S j) st' L O).
      destruct (IH (S j) st' O) as [out [E' O']]; [lia|]. exists out. split; [exact E'|]. destruct out as [st2|m]; [|exact O']. destruct O' as [j' [Lj [T' _]]]. exists j'. split; [lia|]. split; [exact T'|]. intros _. lia.
    - exists (inr m). split; [reflexivity|exact O].
  Qed.

  (** the homogenized result *)
  Lemma hom_repr d Q q : In Q [P; Ps] -> d <= G -> pf_n q = n -> Permutation (pf_coefs q) (hom d Q) -> repr d (fun x => pv n (hom d Q) x) q.
  Proof.
    intros IQ Ld En Pm. destruct SH. assert (WQ : wf n G Q) by (destruct IQ as [<-|[<-|[]]]; assumption). assert (PQ : polynomial n G Q) by (destruct IQ as [<-|[<-|[]]]; assumption).
    split; [exact En|]. split; [|split; [|split]].
    - apply (poly_ok_perm n (hom d Q)); [apply Permutation_sym; exact Pm|]. split; [unfold hom; apply NoDup_keys_filter; apply PQ|]. apply (wf_exp c G sh_n0 sh_G0 d); [exact Ld|]. apply (wf_hom n d Q G WQ).
    - apply Forall_forall. intros [e a] I. cbn [snd]. apply (Permutation_in _ Pm) in I. apply in_hom in I as [I _]. destruct PQ as [_ [_ X]]. apply (X e a I).
    - intros e a I. apply (Permutation_in _ Pm) in I. apply in_hom in I. apply I.
    - intros x. apply (pv_perm HK). exact Pm.
  Qed.
  Lemma result_repr d dense m : 0 < d <= G -> Permutation m (target d dense) -> repr d (if dense then Hs d else Hp d) (rat_result ord (poly_cfg c is_num d) m).
  Proof.
    intros L Pm. pose proof (traj_result HK ord Ho c y is_num G P Ps) as TR. destruct SH. edestruct TR as [En X]; try eassumption.
    pose proof (hom_repr d (source P Ps dense) _ (source_in P Ps dense) (proj2 L) En X) as R. destruct dense; exact R.
  Qed.

  (** ---- removing the shift ---- *)
  Lemma nmem_seq d k : nmem d (seq 0 k) = (d <? k).
  Proof. apply Bool.eq_iff_eq_true. rewrite nmem_In, in_seq, Nat.ltb_lt. lia. Qed.
  Lemma nmem_ext (l l' : list nat) d : (In d l <-> In d l') -> nmem d l = nmem d l'.
  Proof. intros H. apply Bool.eq_iff_eq_true. rewrite !nmem_In. exact H. Qed.
  Lemma proc_set solved dense k (q : polyff K) j : proc (nset solved k q) (nremove k dense) j = (proc solved dense j && negb (j =? k)) || (j =? k).
  Proof.
    unfold proc. rewrite nremove_mem. rewrite (nmem_ext _ (k :: map fst solved) j) by (rewrite nset_keys; cbn [In]; split; intros [->|I]; auto).
    unfold nmem at 1. cbn [existsb]. fold (nmem j (map fst solved)). destruct (j =? k); [cbn; rewrite !Bool.andb_false_r; reflexivity|]. cbn [orb negb]. rewrite !Bool.andb_true_r, Bool.orb_false_r. reflexivity.
  Qed.
  Lemma present_le d : present d -> d <= G. Proof. intros H. apply H. Qed.
  Lemma top_part x : Hs G x = Hp G x.
  Proof.
    rewrite tpart by lia. rewrite (fsum_0 HK); [ring|]. intros k Hk. destruct (Nat.ltb_spec G k); [lia|reflexivity].
  Qed.
  Lemma process k q l (pend pend' : pends) solved sub dense : shifted c s = true -> core pend solved sub dense -> present k -> repr k (Hp k) q -> proc solved dense k = false ->
    (if k =? 0 then Ret [] else shift_polys ord c s q k) = Ret l ->
    StronglySorted gt (map fst pend') -> (forall d, In d (map fst pend') <-> In d (map fst pend) /\ d <> k) ->
    core pend' (nset solved k q) (add_subs ord sub l) (nremove k dense).
  Proof.
    intros Es C Pk Rq Np El So Pe. pose proof (present_le k Pk) as Lk. destruct C as [C1 C2 C3 C4 C5 C6 C7 C8 C9 C10].
    assert (AS : (map fst (add_subs ord sub l) = map fst sub /\ forall d, In d (map fst sub) -> subrepr d (fun x => subsum solved dense d x + (if d <? k then contrib k d x else f0))%K (nget no_poly (add_subs ord sub l) d)) /\ forall d, clean c (nget no_poly (add_subs ord sub l) d)).
    { assert (KL : map fst l = seq 0 k /\ forall e, e < k -> subrepr e (contrib k e) (nget no_poly l e)).
      { destruct (Nat.eqb_spec k 0) as [->|N0]; [injection El as <-; split; [reflexivity|intros e He; lia]|].
        destruct SH. destruct (shift_polys_ok HK ord Ho c s G P v) with (q := q) (d := k) as [l' [E' R']]; try assumption; [apply NP|lia|]. rewrite E' in El. injection El as <-. exact R'. }
      destruct KL as [KL RL]. destruct (add_subs_ok HK ord Ho c l sub (fun d => subsum solved dense d) (fun d => contrib k d)) as [A1 A2].
      - rewrite KL. apply seq_NoDup.
      - rewrite KL, (C6 Es). intros d I. apply in_seq in I. apply in_seq. lia.
      - rewrite (C6 Es). intros d I. apply in_seq in I. apply (C7 Es). lia.
      - rewrite KL. intros d I. apply in_seq in I. apply RL. lia.
      - split; [split; [exact A1|]|].
        + intros d I. eapply subrepr_ext; [|apply A2; exact I]. intros x. cbn beta. rewrite KL, nmem_seq. reflexivity.
        + apply (clean_add_subs HK ord Ho c).
          * intros d q0 I. assert (Id : In d (map fst l)) by (apply in_map_iff; exists (d, q0); auto). assert (F0 : nfind l d = Some q0) by (apply nfind_iff; [rewrite KL; apply seq_NoDup|exact I]).
            rewrite KL in Id. apply in_seq in Id. destruct (RL d ltac:(lia)) as [_ [X _]]. unfold nget in X. rewrite F0 in X. exact X.
          * intros d. split; [|apply (C10 Es)]. destruct (Nat.le_gt_cases d G) as [L|L]; [apply (C7 Es d L)|]. unfold nget. destruct (nfind sub d) as [q0|] eqn:F0; [|split; constructor].
            exfalso. apply nfind_In in F0. apply (in_map fst) in F0. cbn [fst] in F0. rewrite (C6 Es) in F0. apply in_seq in F0. lia. }
    destruct AS as [[AK AV] AC]. constructor.
    - exact So.
    - intros d I. apply Pe in I. apply C2. apply I.
    - apply nset_nodup. exact C3.
    - intros d. rewrite nset_keys, C4, Pe. destruct (Nat.eq_dec d k) as [->|N]; [split; [intros _; split; [exact Pk|tauto]|auto]|]. tauto.
    - intros d q' F. rewrite nfind_set in F. rewrite nremove_mem. destruct (Nat.eqb_spec d k) as [->|N]; [injection F as <-; rewrite Bool.andb_false_r; exact Rq|]. cbn [negb]. rewrite Bool.andb_true_r. apply C5. exact F.
    - intros _. rewrite AK. apply C6. exact Es.
    - intros _ d Ld. eapply subrepr_ext; [|apply AV; rewrite (C6 Es); apply in_seq; lia]. intros x. cbn beta. apply subsum_add; [exact Lk| |exact Np].
      intros j. rewrite proc_set. destruct (Nat.eqb_spec j k) as [->|N]; [rewrite !Bool.orb_true_r; reflexivity|]. cbn [negb]. rewrite Bool.andb_true_r. reflexivity.
    - intros d I. rewrite nremove_mem in I. apply Bool.andb_true_iff in I as [I _]. apply C8. exact I.
    - intros X. rewrite Es in X. discriminate X.
    - intros _. exact AC.
  Qed.
  Lemma core_undense k pend solved sub dense : shifted c s = true -> ~ In k (map fst solved) -> core pend solved sub dense -> core pend solved sub (nremove k dense).
  Proof.
    intros Es Nk [C1 C2 C3 C4 C5 C6 C7 C8 C9 C10]. constructor; try assumption.
    - intros d q F. rewrite nremove_mem. destruct (Nat.eqb_spec d k) as [->|N]; [exfalso; apply Nk; apply in_map_iff; exists (k, q); split; [reflexivity|apply nfind_In; exact F]|]. cbn [negb]. rewrite Bool.andb_true_r. apply C5. exact F.
    - intros _ d Ld. eapply subrepr_ext; [|apply (C7 Es d Ld)]. intros x. apply subsum_ext. intros j _. unfold proc. rewrite nremove_mem. destruct (Nat.eqb_spec j k) as [->|N]; [|cbn [negb]; rewrite Bool.andb_true_r; reflexivity].
      rewrite (proj2 (nmem_false k (map fst solved)) Nk). reflexivity.
    - intros d I. rewrite nremove_mem in I. apply Bool.andb_true_iff in I as [I _]. apply C8. exact I.
    - intros X. rewrite Es in X. discriminate X.
  Qed.
  Definition with_solved (sd : side K) (solved sub : list (nat * polyff K)) : side K :=
    mk_side (sd_coef sd) (sd_saved sd) solved sub (sd_dense sd) (sd_restart sd) (sd_count sd) (sd_max sd).
  Lemma unshift_ok k sd pend dense : shifted c s = true -> core pend (sd_solved sd) (sd_sub sd) dense -> In k (map fst (sd_solved sd)) -> nmem k dense = true ->
    (forall j, k < j -> present j -> proc (sd_solved sd) dense j = true) ->
    exists solved' sub', unshift ord c s k sd = Ret (with_solved sd solved' sub') /\ core pend solved' sub' (nremove k dense) /\ map fst solved' = map fst (sd_solved sd).
  Proof.
    intros Es C Ik Dk Hj. assert (Pk : present k) by (apply (co_iff _ _ _ _ C) in Ik; apply Ik). pose proof (present_le k Pk) as Lk.
    destruct (nfind (sd_solved sd) k) as [q0|] eqn:Eq; [|apply nfind_None in Eq; contradiction].
    pose proof (co_solved _ _ _ _ C k q0 Eq) as R0. rewrite Dk in R0. pose proof (co_sub _ _ _ _ C Es k Lk) as Rs.
    assert (Rq : repr k (Hp k) (psub_assign (ord _) q0 (nget no_poly (sd_sub sd) k))).
    { eapply repr_ext; [|apply (psub_repr HK ord Ho c k (Hs k) _ q0 _ R0 Rs)]. intros x. cbn beta. rewrite (subsum_full _ _ k x Lk Hj). ring. }
    assert (El : exists l, (if k =? 0 then Ret [] else shift_polys ord c s (psub_assign (ord _) q0 (nget no_poly (sd_sub sd) k)) k) = Ret l).
    { destruct (Nat.eqb_spec k 0) as [->|N0]; [exists []; reflexivity|]. destruct SH. destruct (shift_polys_ok HK ord Ho c s G P v) with (q := psub_assign (ord _) q0 (nget no_poly (sd_sub sd) k)) (d := k) as [l [E _]]; try assumption; [apply NP|lia|]. exists l. exact E. }
    destruct El as [l El]. exists (nset (sd_solved sd) k (psub_assign (ord _) q0 (nget no_poly (sd_sub sd) k))), (add_subs ord (sd_sub sd) l). split; [|split].
    - unfold unshift. replace (nget no_poly (sd_solved sd) k) with q0 by (unfold nget; rewrite Eq; reflexivity). rewrite El. cbn [obind]. reflexivity.
    - refine (process k _ l pend pend (sd_solved sd) (sd_sub sd) dense Es C Pk Rq _ El (co_sorted _ _ _ _ C) _).
      + unfold proc. rewrite Dk. apply Bool.andb_false_r.
      + intros d. split; [intros I; split; [exact I|]|tauto]. intros ->. apply (co_iff _ _ _ _ C) in Ik. tauto.
    - apply nset_keys_in. exact Ik.
  Qed.

  (** every present degree from b on is processed, the lower ones except [next] are dense *)
  Lemma between_ok pend next m : forall sd, shifted c s = true -> core pend (sd_solved sd) (sd_sub sd) (sd_dense sd) ->
    (forall j, S next + m <= j -> present j -> proc (sd_solved sd) (sd_dense sd) j = true) ->
    (forall j, j < S next + m -> j <> next -> present j -> nmem j (sd_dense sd) = true) ->
    (forall j, next < j < S next + m -> ~ In j (map fst pend)) ->
    exists sd', unshift_between ord c s (rev (seq (S next) m)) sd = Ret sd' /\ core pend (sd_solved sd') (sd_sub sd') (sd_dense sd') /\
      (forall j, next < j -> present j -> proc (sd_solved sd') (sd_dense sd') j = true) /\
      (forall j, j < next -> present j -> nmem j (sd_dense sd') = true) /\ (nmem next (sd_dense sd') = nmem next (sd_dense sd)) /\
      (forall j, j <= next -> nmem j (sd_dense sd') = nmem j (sd_dense sd)) /\
      sd_saved sd' = sd_saved sd /\ sd_restart sd' = sd_restart sd /\ sd_count sd' = sd_count sd /\ sd_max sd' = sd_max sd.
  Proof.
    induction m as [|m IH]; intros sd Es C Hu Hl Hp'.
    - exists sd. split; [reflexivity|]. split; [exact C|]. split; [intros j Lj; apply Hu; lia|]. split; [intros j Lj; apply Hl; lia|]. auto 10.
    - rewrite seq_S, rev_app_distr. cbn [rev app unshift_between]. set (k := S next + m) in *.
      assert (Step : exists sd', (match nfind (sd_solved sd) k with Some _ => unshift ord c s k (undense k sd) | None => Ret sd end) = Ret sd' /\ core pend (sd_solved sd') (sd_sub sd') (sd_dense sd') /\
        (forall j, k <= j -> present j -> proc (sd_solved sd') (sd_dense sd') j = true) /\ (forall j, j <> k -> nmem j (sd_dense sd') = nmem j (sd_dense sd)) /\
        sd_saved sd' = sd_saved sd /\ sd_restart sd' = sd_restart sd /\ sd_count sd' = sd_count sd /\ sd_max sd' = sd_max sd).
      { destruct (nfind (sd_solved sd) k) as [q|] eqn:Ek.
        - assert (Ik : In k (map fst (sd_solved sd))) by (apply in_map_iff; exists (k, q); split; [reflexivity|apply nfind_In; exact Ek]).
          assert (Pk : present k) by (apply (co_iff _ _ _ _ C) in Ik; apply Ik).
          destruct (unshift_ok k (undense k sd) pend (sd_dense sd)) as [so [su [E [C' Ke]]]]; try assumption; [apply Hl; [lia|lia|exact Pk]|intros j Lj Pj; apply Hu; [lia|exact Pj]|].
          eexists. split; [exact E|]. unfold with_solved, undense. cbn [sd_solved sd_sub sd_dense sd_saved sd_restart sd_count sd_max]. split; [exact C'|]. split; [|split; [intros j Nj; rewrite nremove_mem; destruct (Nat.eqb_spec j k); [contradiction|]; apply Bool.andb_true_r|auto]].
          intros j Lj Pj. unfold proc. rewrite Ke, nremove_mem. cbn [undense sd_solved]. destruct (Nat.eqb_spec j k) as [->|Nk].
          + rewrite Bool.andb_false_r. rewrite (proj2 (nmem_In k _) Ik). reflexivity.
          + cbn [negb]. rewrite Bool.andb_true_r. apply Hu; [lia|exact Pj].
        - exists sd. split; [reflexivity|]. split; [exact C|]. split; [|auto 10]. intros j Lj Pj. destruct (Nat.eq_dec j k) as [->|Nk]; [|apply Hu; [lia|exact Pj]]. exfalso.
          apply nfind_None in Ek. apply Ek. apply (co_iff _ _ _ _ C). split; [exact Pj|]. apply Hp'. lia. }
      destruct Step as [sd1 [E1 [C1 [U1 [D1 [X1 [X2 [X3 X4]]]]]]]]. rewrite E1. cbn [obind].
      destruct (IH sd1 Es C1) as [sd' [E' [C' [U' [D' [N' [M' [Y1 [Y2 [Y3 Y4]]]]]]]]]].
      + exact U1.
      + intros j Lj Nj Pj. rewrite D1 by lia. apply Hl; [lia|exact Nj|exact Pj].
      + intros j Lj. apply Hp'. lia.
      + exists sd'. split; [exact E'|]. split; [exact C'|]. split; [exact U'|]. split; [exact D'|]. rewrite N', D1 by lia. split; [reflexivity|]. split; [intros j Lj; rewrite M' by exact Lj; apply D1; lia|]. rewrite Y1, Y2, Y3, Y4. auto.
  Qed.

  (** ---- feeding ---- *)
  Definition inv (pend : pends) (sd : side K) (b : nat) : Prop :=
    core pend (sd_solved sd) (sd_sub sd) (sd_dense sd) /\ upward pend (sd_solved sd) (sd_dense sd) /\ budget (sd_dense sd) pend b /\
    saved_ok (sd_saved sd) /\ sd_count sd + length pend = S G /\ sd_max sd = G.
  Lemma sorted_mid d l2 : forall l1, StronglySorted gt (l1 ++ d :: l2) -> StronglySorted gt (l1 ++ l2) /\ (forall x, In x l1 -> d < x) /\ (forall x, In x l2 -> x < d).
  Proof.
    clear. induction l1 as [|z l1 IH]; cbn [app]; intros H; inversion H as [|? ? S F]; subst.
    - split; [exact S|]. split; [intros x []|]. intros x I. rewrite Forall_forall in F. apply F. exact I.
    - apply IH in S as [S [A B]]. rewrite Forall_forall in F. split; [constructor; [exact S|]|split; [|exact B]].
      + apply Forall_forall. intros x I. apply F. apply in_or_app. apply in_app_or in I as [I|I]; [left; exact I|right; right; exact I].
      + intros x [->|I]; [|apply A; exact I]. apply F. apply in_or_app. right. left. reflexivity.
  Qed.
  (** the degrees below the highest pending one are dense, the higher ones are processed *)
  Lemma below_front pend solved sub dense front st r : shifted c s = true -> core pend solved sub dense -> upward pend solved dense -> pend = (front, st) :: r ->
    (forall j, j < front -> present j -> nmem j dense = true) /\ (forall j, front < j -> present j -> proc solved dense j = true).
  Proof.
    intros Es C [U1 U2] Ep. subst pend. destruct (co_pend _ _ _ _ C front (or_introl eq_refl)) as [F0 Pf].
    assert (NF : proc solved dense front = false). { unfold proc. rewrite (proj2 (nmem_false front (map fst solved))); [reflexivity|]. intros I. apply (co_iff _ _ _ _ C) in I as [_ I]. apply I. left. reflexivity. }
    split.
    - intros j Lj Pj. destruct (nmem j dense) eqn:E; [reflexivity|]. rewrite (U1 j front Pj E Lj Pf) in NF. discriminate NF.
    - intros j Lj Pj. destruct (nmem front dense) eqn:E; [|apply (U1 front j Pf E Lj Pj)]. pose proof (U2 Es front st r eq_refl E) as EG. pose proof (present_le j Pj). lia.
  Qed.
  Lemma budget_at dense kept d st r b : budget dense (kept ++ (d, st) :: r) b -> exists j b1 b2, traj d (nmem d dense) j st /\ budget dense kept b1 /\ budget dense r b2 /\ b = b1 + (cost d (nmem d dense) j + b2).
  Proof.
    intros B. apply budget_app in B as [b1 [b2 [B1 [B2 ->]]]]. inversion B2 as [|? ? ? j b3 T B3]; subst. exists j, b1, b3. auto.
  Qed.
  Lemma traj_lt d dense j st : present d -> 0 < d -> traj d dense j st -> j < steps d dense.
  Proof.
    intros [Ld _] L0 T. pose proof (traj_bound HK ord Ho c y is_num G P Ps) as B. destruct SH. eapply B; try eassumption. lia.
  Qed.
  Lemma cost_pos d dense j st : present d -> 0 < d -> traj d dense j st -> 0 < cost d dense j.
  Proof. intros Pd L0 T. pose proof (traj_lt d dense j st Pd L0 T). unfold cost. destruct dense; lia. Qed.

  Lemma poly_solved_ok kept d st st0 r m sd b : inv (kept ++ (d, st0) :: r) sd b -> sd_restart sd = false -> Permutation m (target d (nmem d (sd_dense sd))) ->
    exists sd', poly_solved ord c s is_num (kept ++ (d, st) :: r) d m sd = Ret sd' /\ sd_saved sd' = sd_saved sd /\
      exists b', b' < b /\ (if sd_restart sd' then kept = [] /\ exists d' st' r', r = (d', st') :: r' /\ inv ((d', ps_start (poly_cfg c is_num d')) :: r') sd' b' else inv (kept ++ r) sd' b').
  Proof.
    intros [C [U [B [Sv [Ct Mx]]]]] Er Pm. set (pend := kept ++ (d, st0) :: r) in *. set (dense := sd_dense sd) in *.
    assert (Id : In d (map fst pend)) by (unfold pend; rewrite map_app; apply in_or_app; right; left; reflexivity).
    destruct (co_pend _ _ _ _ C d Id) as [D0 Pd]. pose proof (present_le d Pd) as Ld.
    pose proof (result_repr d (nmem d dense) m (conj D0 Ld) Pm) as Rq. set (q := rat_result ord (poly_cfg c is_num d) m) in *.
    pose proof (co_sorted _ _ _ _ C) as So. unfold pend in So. rewrite map_app in So. cbn [map fst] in So. apply sorted_mid in So as [So [Hk Hr]]. rewrite <- map_app in So.
    destruct (budget_at _ _ _ _ _ _ B) as [j [b1 [b2 [T [B1 [B2 Eb]]]]]]. pose proof (cost_pos _ _ _ _ Pd D0 T) as Pos.
    assert (Nd : ~ In d (map fst (sd_solved sd))) by (intros I; apply (co_iff _ _ _ _ C) in I as [_ I]; exact (I Id)).
    assert (Pe : forall e, In e (map fst (kept ++ r)) <-> In e (map fst pend) /\ e <> d).
    { intros e. unfold pend. rewrite !map_app, !in_app_iff. cbn [map fst In]. split.
      - intros [I|I]; [split; [tauto|pose proof (Hk e I); lia]|split; [tauto|pose proof (Hr e I); lia]].
      - intros [[I|[I|I]] Ne]; [tauto|exfalso; apply Ne; symmetry; exact I|tauto]. }
    assert (Lp : length pend = S (length (kept ++ r))) by (unfold pend; rewrite !app_length; cbn [length]; lia).
    assert (CaseB : nmem d dense = true -> (shifted c s = true -> kept <> []) -> inv (kept ++ r) (mk_side (sd_coef sd) (sd_saved sd) (nset (sd_solved sd) d q) (sd_sub sd) dense false (S (sd_count sd)) (sd_max sd)) (b1 + b2)).
    { intros Ed Hne. rewrite Ed in Rq. unfold inv. cbn [sd_solved sd_sub sd_dense sd_saved sd_count sd_max].
      assert (Pr : forall k, proc (nset (sd_solved sd) d q) dense k = proc (sd_solved sd) dense k).
      { intros k. unfold proc. destruct (Nat.eq_dec k d) as [->|Nk]; [rewrite Ed, !Bool.andb_false_r; reflexivity|]. f_equal. apply nmem_ext. rewrite nset_keys. tauto. }
      split; [|split; [|split; [|split; [exact Sv|split; [lia|exact Mx]]]]].
      - destruct C as [C1 C2 C3 C4 C5 C6 C7 C8 C9 C10]. constructor; try assumption.
        + intros e I. apply C2. apply Pe. exact I.
        + apply nset_nodup. exact C3.
        + intros e. rewrite nset_keys, C4, Pe. destruct (Nat.eq_dec e d) as [->|N]; tauto.
        + intros e q' F. rewrite nfind_set in F. destruct (Nat.eqb_spec e d) as [->|N]; [injection F as <-; rewrite Ed; exact Rq|apply C5; exact F].
        + intros Es e Le. eapply subrepr_ext; [|apply (C7 Es e Le)]. intros x. apply subsum_ext. intros k _. symmetry. apply Pr.
      - destruct U as [U1 U2]. split; [intros e k Pe' Ne Lk Pk; rewrite Pr; apply (U1 e k Pe' Ne Lk Pk)|]. intros Es e st' r' Ee. destruct kept as [|[k sk] kept']; [exfalso; apply (Hne Es); reflexivity|]. cbn [app] in Ee. injection Ee as Ea Eb' Ec'. subst e. apply (U2 Es k sk (kept' ++ (d, st0) :: r)). reflexivity.
      - apply budget_app. exists b1, b2. auto. }
    unfold poly_solved. fold q. fold dense. cbn [sd_coef sd_saved sd_solved sd_sub sd_dense sd_restart sd_count sd_max]. rewrite Er.
    assert (Eall : exists front sf rest, kept ++ (d, st) :: r = (front, sf) :: rest /\ (kept = [] -> front = d /\ rest = r) /\ (kept <> [] -> d < front)).
    { destruct kept as [|[k sk] kept']; [exists d, st, r; split; [reflexivity|]; split; [auto|intros X; exfalso; apply X; reflexivity]|]. exists k, sk, (kept' ++ (d, st) :: r). split; [reflexivity|]. split; [discriminate|]. intros _. apply Hk. left. reflexivity. }
    destruct Eall as [front [sf [rest [Ea [Ha Hb]]]]]. rewrite Ea.
    assert (Ede : shifted c s = true -> kept <> [] -> nmem d dense = true).
    { intros Es Ne. destruct kept as [|[k sk] kept']; [contradiction|]. destruct (below_front pend _ _ _ k sk (kept' ++ (d, st0) :: r) Es C U eq_refl) as [X _]. apply X; [apply Hk; left; reflexivity|exact Pd]. }
    destruct (shifted c s) eqn:Es; cbn [andb].
    2:{ eexists. split; [reflexivity|]. split; [reflexivity|]. exists (b1 + b2). split; [lia|]. cbn [sd_restart]. apply CaseB; [|discriminate]. apply (co_all _ _ _ _ C Es d Pd). }
    destruct (Nat.eqb_spec d front) as [Ef|Nf].
    2:{ assert (Nk : kept <> []) by (intros X; apply Nf; symmetry; apply (proj1 (Ha X))). eexists. split; [reflexivity|]. split; [reflexivity|]. exists (b1 + b2). split; [lia|]. cbn [sd_restart]. apply CaseB; [apply Ede; auto|auto]. }
    assert (Ek : kept = []) by (destruct kept as [|z kept']; [reflexivity|exfalso; pose proof (Hb ltac:(discriminate)); lia]).
    destruct (Ha Ek) as [_ Erest]. subst kept front rest. cbn [app] in *.
    destruct (below_front pend _ _ _ d st0 r Es C U eq_refl) as [Lo Hi].
    assert (Rp : repr d (Hp d) q).
    { destruct (nmem d dense) eqn:Ed; [|exact Rq]. eapply repr_ext; [|exact Rq]. intros x. assert (d = G) by (apply (proj2 U Es d st0 r eq_refl); exact Ed). subst d. apply top_part. }
    assert (El : exists l, shift_polys ord c s q d = Ret l). { destruct SH. destruct (shift_polys_ok HK ord Ho c s G P v) with (q := q) (d := d) as [l [E _]]; try assumption; [apply NP|lia|]. exists l. exact E. }
    destruct El as [l El]. rewrite El. cbn [obind].
    assert (C2 : core r (nset (sd_solved sd) d q) (add_subs ord (sd_sub sd) l) (nremove d dense)).
    { apply (process d q l pend r); try assumption. - unfold proc. rewrite (proj2 (nmem_false d _) Nd). reflexivity. - destruct (Nat.eqb_spec d 0); [lia|exact El]. }
    assert (Pr : forall k, d <= k -> present k -> proc (nset (sd_solved sd) d q) (nremove d dense) k = true).
    { intros k Lk Pk. rewrite proc_set. destruct (Nat.eqb_spec k d) as [->|Nk]; [rewrite Bool.orb_true_r; reflexivity|]. rewrite (Hi k) by (try exact Pk; lia). reflexivity. }
    inversion B1; subst b1.
    destruct r as [|[next sn] r'].
    - eexists. split; [reflexivity|]. split; [reflexivity|]. exists b2. split; [lia|]. cbn [sd_restart]. unfold inv. cbn [sd_solved sd_sub sd_dense sd_saved sd_count sd_max]. split; [exact C2|]. split; [|split; [inversion B2; constructor|split; [exact Sv|split; [cbn [length] in *; lia|exact Mx]]]].
      split; [|discriminate]. intros e k Pe' Ne Lk Pk. apply Pr; [|exact Pk]. destruct (Nat.lt_ge_cases e d) as [Le|Le]; [|lia]. exfalso. rewrite nremove_mem, (Lo e Le Pe') in Ne. destruct (Nat.eqb_spec e d); [lia|discriminate Ne].
    - assert (Ln : next < d) by (apply Hr; left; reflexivity).
      assert (Nn : ~ In next (map fst (nset (sd_solved sd) d q))). { intros I. apply (co_iff _ _ _ _ C2) in I as [_ I]. apply I. left. reflexivity. }
      destruct (co_pend _ _ _ _ C2 next (or_introl eq_refl)) as [N0 Pn]. pose proof (core_undense next _ _ _ _ Es Nn C2) as C3.
      match goal with |- context [unshift_between _ _ _ _ ?sd0] => destruct (between_ok ((next, sn) :: r') next (d - S next) sd0 Es) as [sd' [E' [C' [U' [D' [N' [M' [Y1 [Y2 [Y3 Y4]]]]]]]]]] end; cbn [sd_solved sd_sub sd_dense sd_saved sd_restart sd_count sd_max] in *.
      + exact C3.
      + intros k Lk Pk. unfold proc. rewrite nremove_mem. destruct (Nat.eqb_spec k next); [lia|]. cbn [negb]. rewrite Bool.andb_true_r. apply Pr; [lia|exact Pk].
      + intros k Lk Nk Pk. rewrite !nremove_mem, (Lo k) by (try exact Pk; lia). destruct (Nat.eqb_spec k d); [lia|]. destruct (Nat.eqb_spec k next); [lia|]. reflexivity.
      + intros k Lk I. cbn [map fst In] in I. destruct I as [I|I]; [lia|]. pose proof (co_sorted _ _ _ _ C3) as S3. cbn [map fst] in S3. inversion S3 as [|? ? _ F]; subst. rewrite Forall_forall in F. specialize (F k I). lia.
      + exists sd'. split; [exact E'|]. split; [exact Y1|]. rewrite Y2.
        inversion B2 as [|? ? ? jn bn Tn Bn]; subst. rewrite (Lo next Ln Pn) in *.
        assert (Dn : nmem next (sd_dense sd') = false) by (rewrite N', nremove_mem, Nat.eqb_refl; apply Bool.andb_false_r).
        exists (cost next false 0 + bn). split.
        * pose proof (traj_lt next true jn sn Pn N0 Tn). unfold cost. lia.
        * split; [reflexivity|]. exists next, sn, r'. split; [reflexivity|]. unfold inv. rewrite Y1, Y3, Y4. split; [|split; [|split; [|split; [exact Sv|split; [cbn [length] in *; lia|exact Mx]]]]].
          -- destruct C' as [X1 X2 X3 X4 X5 X6 X7 X8 X9]. constructor; assumption.
          -- split; [intros e k Pe' Ne Lk Pk; apply U'; [|exact Pk]; destruct (Nat.lt_ge_cases e next) as [Le|Le]; [rewrite (D' e Le Pe') in Ne; discriminate Ne|lia]|].
             intros _ e st' r2 Ee De. injection Ee as <- _ _. rewrite Dn in De. discriminate De.
          -- assert (Tn' : traj next (nmem next (sd_dense sd')) 0 (ps_start (poly_cfg c is_num next))) by reflexivity.
             pose proof (bu_cons (sd_dense sd') next _ r' 0 bn Tn') as BC. rewrite Dn in BC. apply BC. apply (budget_ext dense); [|exact Bn]. intros e I.
             assert (Le : e < next). { pose proof (co_sorted _ _ _ _ C3) as S3. cbn [map fst] in S3. inversion S3 as [|? ? _ F]; subst. rewrite Forall_forall in F. specialize (F e I). lia. }
             rewrite M' by lia. rewrite !nremove_mem. destruct (Nat.eqb_spec e d); [lia|]. destruct (Nat.eqb_spec e next); [lia|]. cbn [negb]. rewrite !Bool.andb_true_r. reflexivity.
  Qed.

  Lemma feed_side_ok order : forall todo kept sd b,
    (if sd_restart sd then kept = [] /\ exists d st r, todo = (d, st) :: r /\ inv ((d, ps_start (poly_cfg c is_num d)) :: r) sd b else inv (kept ++ todo) sd b) ->
    exists sd' b', feed_side ord c y s is_num order kept todo sd = Ret sd' /\ inv (sd_coef sd') sd' b' /\ sd_saved sd' = sd_saved sd /\ sd_restart sd' = false /\ b' <= b /\
      (sd_restart sd = false -> (exists d st, In (d, st) todo /\ ps_order st = order /\ vfind (sd_saved sd) order d (S (ps_zi st)) <> None) -> b' < b).
  Proof.
    induction todo as [|[d st] r IH]; intros kept sd b H.
    - destruct (sd_restart sd) eqn:Er; [destruct H as [_ [d [st [r [X _]]]]]; discriminate X|]. rewrite app_nil_r in H. exists (set_coef kept sd), b. cbn [feed_side]. split; [reflexivity|]. split; [exact H|]. split; [reflexivity|]. split; [exact Er|]. split; [lia|]. intros _ [d [st [[] _]]].
    - cbn [feed_side]. set (cond := (if list_eq_dec Nat.eq_dec (ps_order st) order then true else false) || sd_restart sd).
      set (st0 := if sd_restart sd then ps_start (poly_cfg c is_num d) else st).
      assert (I0 : inv (kept ++ (d, st0) :: r) sd b).
      { unfold st0. destruct (sd_restart sd); [|exact H]. destruct H as [-> [d1 [st1 [r1 [E X]]]]]. injection E as <- <- <-. exact X. }
      destruct cond eqn:Ec.
      + destruct I0 as [C [U [B [Sv [Ct Mx]]]]]. destruct (budget_at _ _ _ _ _ _ B) as [j [b1 [b2 [T [B1 [B2 Eb]]]]]].
        assert (Id : In d (map fst (kept ++ (d, st0) :: r))) by (rewrite map_app; apply in_or_app; right; left; reflexivity).
        destruct (co_pend _ _ _ _ C d Id) as [D0 Pd]. pose proof (traj_lt _ _ _ _ Pd D0 T) as Lj. pose proof (present_le d Pd) as Ld.
        destruct (feed_loop_ok d (nmem d (sd_dense sd)) (clear_restart sd) Pd D0 eq_refl Sv) with (fuel := mc_steps c) (j := j) (st := st0) as [x [Ex Hx]].
        { intros En. assert (Es : shifted c s = true). { destruct (shifted c s) eqn:Es; [reflexivity|]. rewrite (co_all _ _ _ _ C Es d Pd) in En. discriminate En. }
          split; [exact Es|]. exists (subsum (sd_solved sd) (sd_dense sd) d). split; [apply (co_sub _ _ _ _ C Es d Ld)|]. intros x. apply subsum_full; [exact Ld|]. intros k Lk Pk. apply (proj1 U d k Pd En Lk Pk). }
        { exact T. }
        { pose proof (sh_steps SH d (nmem d (sd_dense sd)) (conj D0 Ld)). lia. }
        rewrite Ex. cbn [obind]. destruct x as [st'|m].
        * destruct Hx as [j' [Lj' [T' Hs']]].
          assert (I1 : inv ((kept ++ [(d, st')]) ++ r) (clear_restart sd) (b1 + (cost d (nmem d (sd_dense sd)) j' + b2))).
          { rewrite <- app_assoc. cbn [app]. assert (Em : map fst (kept ++ (d, st') :: r) = map fst (kept ++ (d, st0) :: r)) by (rewrite !map_app; reflexivity).
            unfold inv, clear_restart. cbn [sd_solved sd_sub sd_dense sd_saved sd_count sd_max]. split; [|split; [|split; [|split; [exact Sv|split; [|exact Mx]]]]].
            - destruct C as [X1 X2 X3 X4 X5 X6 X7 X8 X9]. constructor; rewrite ?Em; assumption.
            - destruct U as [U1 U2]. split; [exact U1|]. intros Es e se re Ee. destruct kept as [|[k sk] kept']; cbn [app] in *; injection Ee as E1 E2 E3; subst e; eapply (U2 Es); reflexivity.
            - apply budget_app. eexists. eexists. split; [exact B1|]. split; [constructor; [exact T'|exact B2]|reflexivity].
            - rewrite app_length in *. cbn [length] in *. exact Ct. }
          destruct (IH (kept ++ [(d, st')]) (clear_restart sd) _ I1) as [sd' [b' [E' [I' [S' [R' [Lb Hb]]]]]]].
          exists sd', b'. split; [exact E'|]. split; [exact I'|]. split; [exact S'|]. split; [exact R'|].
          assert (Lc : cost d (nmem d (sd_dense sd)) j' <= cost d (nmem d (sd_dense sd)) j) by (unfold cost; destruct (nmem d (sd_dense sd)); lia).
          split; [lia|]. intros Er [e [se [[Ee|Ie] [Oe Ve]]]].
          -- injection Ee as <- <-. assert (Es0 : st0 = st) by (unfold st0; rewrite Er; reflexivity). rewrite Es0 in Hs'. rewrite Oe in Hs'. cbn [clear_restart sd_saved] in Hs'. pose proof (Hs' Ve) as Lt. pose proof (traj_lt _ _ _ _ Pd D0 T') as Lt2. assert (cost d (nmem d (sd_dense sd)) j' < cost d (nmem d (sd_dense sd)) j) by (unfold cost; destruct (nmem d (sd_dense sd)); lia). lia.
          -- assert (b' < b1 + (cost d (nmem d (sd_dense sd)) j' + b2)) by (apply Hb; [reflexivity|exists e, se; auto]). lia.
        * assert (I2 : inv (kept ++ (d, st0) :: r) (clear_restart sd) b) by (unfold inv, clear_restart; cbn [sd_solved sd_sub sd_dense sd_saved sd_count sd_max]; auto 10).
          destruct (poly_solved_ok kept d st st0 r m (clear_restart sd) b I2 eq_refl Hx) as [sd1 [E1 [S1 [b3 [L3 H3]]]]]. rewrite E1. cbn [obind].
          destruct (IH kept sd1 b3) as [sd' [b' [E' [I' [S' [R' [Lb _]]]]]]]; [exact H3|].
          exists sd', b'. split; [exact E'|]. split; [exact I'|]. split; [rewrite S', S1; reflexivity|]. split; [exact R'|]. split; [lia|]. intros _ _. lia.
      + assert (Er : sd_restart sd = false) by (destruct (sd_restart sd); [unfold cond in Ec; rewrite Bool.orb_true_r in Ec; discriminate Ec|reflexivity]).
        assert (Ne : ps_order st <> order) by (intros X; unfold cond in Ec; rewrite X in Ec; destruct (list_eq_dec Nat.eq_dec order order); [discriminate Ec|contradiction]).
        rewrite Er in H. destruct (IH (kept ++ [(d, st)]) sd b) as [sd' [b' [E' [I' [S' [R' [Lb Hb]]]]]]]; [rewrite Er, <- app_assoc; exact H|].
        exists sd', b'. split; [exact E'|]. split; [exact I'|]. split; [exact S'|]. split; [exact R'|]. split; [exact Lb|]. intros _ [e [se [[Ee|Ie] [Oe Ve]]]]; [injection Ee as <- <-; contradiction|]. apply Hb; [exact Er|]. exists e, se. auto.
  Qed.

  (** ---- the values on a ray ---- *)
  Lemma known_ok order pend sd b : small_order order -> inv pend sd b ->
    Permutation (map fst (known_values ord y order sd)) (map fst (sd_solved sd)) /\ forall d w, In (d, w) (known_values ord y order sd) -> w = Hs d (ray_x order).
  Proof.
    intros So [C [U _]]. split.
    - unfold known_values. rewrite map_map. cbn [fst]. apply Permutation_map. apply Ho.
    - intros d w I. unfold known_values in I. apply in_map_iff in I as [[d' q] [E I]]. cbn [fst snd] in E. injection E as -> <-. apply in_ord_any in I; [|exact Ho].
      pose proof (proj2 (nfind_iff _ d q (co_keys _ _ _ _ C)) I) as F. pose proof (co_solved _ _ _ _ C d q F) as R.
      assert (Pd : present d). { apply (co_iff _ _ _ _ C). apply in_map_iff. exists (d, q). split; [reflexivity|exact I]. }
      pose proof (present_le d Pd) as Ld. destruct (nmem d (sd_dense sd)) eqn:Ed.
      + apply (calc_ray d (Hs d)); [exact So|]. apply repr_sub. exact R.
      + assert (Es : shifted c s = true). { destruct (shifted c s) eqn:Es; [reflexivity|]. rewrite (co_all _ _ _ _ C Es d Pd) in Ed. discriminate Ed. }
        rewrite (calc_ray d (Hp d) q order So (repr_sub _ _ _ _ R)). rewrite (calc_ray d _ _ order So (co_sub _ _ _ _ C Es d Ld)). symmetry. apply subsum_full; [exact Ld|]. intros k Lk Pk. apply (proj1 U d k Pd Ed Lk Pk).
  Qed.
  Lemma vfind_cons e (w : K) m o d z : vfind ((e, w) :: m) o d z = (if (if list_eq_dec Nat.eq_dec o (fst e) then true else false) && (d =? fst (snd e)) && (z =? snd (snd e)) then Some w else vfind m o d z).
  Proof. clear. destruct e as [o' [d' z']]. reflexivity. Qed.
  Lemma save_ok order zi l pend sd b : (forall d w, In (d, w) l -> w = Hs d (ray_x order)) -> inv pend sd b -> inv pend (save_values ord order zi l sd) b.
  Proof.
    intros Hl [C [U [B [Sv [Ct Mx]]]]]. unfold inv. cbn [save_values sd_solved sd_sub sd_dense sd_saved sd_count sd_max]. split; [exact C|]. split; [exact U|]. split; [exact B|]. split; [|auto].
    assert (Hl' : forall d w, In (d, w) (ord _ l) -> w = Hs d (ray_x order)) by (intros d w I; apply in_ord_any in I; [apply Hl; exact I|exact Ho]).
    clear C U B Ct Mx Hl. revert Sv Hl'. generalize (sd_saved sd) as m. generalize (ord _ l) as l'. induction l' as [|[d w] l' IH]; intros m Sv Hl'; [exact Sv|]. cbn [fold_left fst snd]. apply IH; [|intros; apply Hl'; right; assumption].
    destruct (_ <? _); [|exact Sv]. intros o e z u. rewrite vfind_cons. cbn [fst snd]. destruct (list_eq_dec Nat.eq_dec o order) as [->|No]; cbn [andb]; [|apply Sv].
    destruct (Nat.eqb_spec e d) as [->|Nd]; cbn [andb]; [|apply Sv]. destruct (z =? zi); [|apply Sv]. intros X. injection X as <-. rewrite (Hl' d w (or_introl eq_refl)). symmetry. apply bb_value. apply SH.
  Qed.
  Lemma save_found order zi (l : list (nat * K)) d (w : K) (sd : side K) : In (d, w) l -> nth (zi - 2) order 0 < d + 2 -> vfind (sd_saved (save_values ord order zi l sd)) order d zi <> None.
  Proof.
    intros I G'. cbn [save_values sd_saved]. assert (I' : In (d, w) (ord _ l)) by (apply in_ord_any; [exact Ho|exact I]). clear I. revert I'.
    assert (Mono : forall (l' : list (nat * K)) (m : list ((list nat * (nat * nat)) * K)), vfind m order d zi <> None -> vfind (fold_left (fun m e => if nth (zi - 2) order 0 <? fst e + 2 then ((order, (fst e, zi)), snd e) :: m else m) l' m) order d zi <> None).
    { clear. induction l' as [|[e u] l' IH]; intros m H; [exact H|]. cbn [fold_left fst snd]. apply IH. destruct (_ <? _); [|exact H]. rewrite vfind_cons. destruct (_ && _); [discriminate|exact H]. }
    generalize (sd_saved sd) as m. generalize (ord _ l) as l'. induction l' as [|[e u] l' IH]; intros m I; [contradiction|]. cbn [fold_left fst snd]. destruct I as [E|I]; [|apply IH; exact I].
    injection E as -> ->. apply Mono. destruct (Nat.ltb_spec (nth (zi - 2) order 0) (d + 2)); [|lia]. rewrite vfind_cons. cbn [fst snd]. rewrite !Nat.eqb_refl. destruct (list_eq_dec Nat.eq_dec order order); [discriminate|contradiction].
  Qed.
  Lemma request_ok pend sd b d st : inv pend sd b -> In (d, st) pend ->
    exists z i k, z < n - 1 /\ S (ps_zi st) = S (S z) /\ ps_order st = order_at (poly_cfg c is_num d) z (S i) (S k) /\ i < Nat.max (length P) (length Ps) /\ k <= d /\ d <= G /\ nth z (ps_order st) 0 < d + 2 /\ small_order (ps_order st).
  Proof.
    intros [C [U [B _]]] I. assert (Pd : 0 < d /\ present d) by (apply (co_pend _ _ _ _ C); apply in_map_iff; exists (d, st); split; [reflexivity|exact I]). destruct Pd as [D0 Pd]. pose proof (present_le d Pd) as Ld.
    assert (T : exists j, traj d (nmem d (sd_dense sd)) j st). { apply in_split in I as [l1 [l2 ->]]. destruct (budget_at _ _ _ _ _ _ B) as [j [b1 [b2 [T _]]]]. exists j. exact T. }
    destruct T as [j T]. pose proof (traj_small d _ j st (conj D0 Ld) T) as So.
    pose proof (traj_shape HK ord Ho c y is_num G P Ps) as TS. destruct SH. edestruct TS as [z [i [k [Hz [Ez [Eo [Hi Hk]]]]]]]; try eassumption; [lia|].
    exists z, i, k. split; [exact Hz|]. split; [rewrite Ez; reflexivity|]. split; [exact Eo|]. split; [|split; [exact Hk|split; [exact Ld|split; [|exact So]]]].
    - assert (1 <= length P) by (destruct P; [exfalso; destruct sh_P0 as [X _]; apply X; reflexivity|cbn; lia]). unfold source in Hi. destruct (nmem d (sd_dense sd)); lia.
    - rewrite Eo, (order_nth (poly_cfg c is_num d)) by exact Hz. rewrite Nat.ltb_irrefl, Nat.eqb_refl. lia.
  Qed.
  Lemma part_sum (l : list nat) (F : nat -> K) (t : K) : NoDup l -> (forall e, In e l -> e <= G) -> (forall e, e <= G -> ~ In e l -> F e = f0) ->
    lsum (fun e => F e * pw t e)%K l = ueval (S G) F t.
  Proof.
    clear - HK. intros N L Z. unfold ueval. revert F Z. induction l as [|e l IH]; intros F Z.
    - symmetry. apply (fsum_0 HK). intros i Hi. rewrite Z by (try lia; intros []). ring.
    - rewrite lsum_cons. inversion N as [|? ? N1 N2]; subst.
      rewrite (lsum_ext _ (fun e' => (if e' =? e then f0 else F e') * pw t e')%K) by (intros x Hx; destruct (Nat.eqb_spec x e) as [->|]; [contradiction|reflexivity]).
      rewrite (IH N2 (fun e' I => L e' (or_intror I)) (fun e' => if e' =? e then f0 else F e')).
      + transitivity (fsum (S G) (fun i => (if (i =? e)%nat then F e * pw t e else f0) + (if (i =? e)%nat then f0 else F i) * pw t i))%K.
        * rewrite (fsum_add HK). f_equal. rewrite (fsum_single HK (S G) e); [rewrite Nat.eqb_refl; reflexivity|specialize (L e (or_introl eq_refl)); lia|]. intros j _ Nj. destruct (Nat.eqb_spec j e); [contradiction|reflexivity].
        * apply fsum_ext. intros i _. destruct (Nat.eqb_spec i e) as [->|]; ring.
      + intros e' Le Ne. destruct (Nat.eqb_spec e' e) as [->|N']; [reflexivity|]. apply Z; [exact Le|]. intros [X|X]; [apply N'; symmetry; exact X|contradiction].
  Qed.
  Lemma sorted_nodup l : StronglySorted gt l -> NoDup l.
  Proof. clear. induction 1 as [|x l S IH F]; constructor; [|exact IH]. intros I. rewrite Forall_forall in F. specialize (F x I). lia. Qed.
  Lemma side_sum pend sd b x t : inv pend sd b -> (lsum (fun e => Hs e x * pw t e)%K (map fst pend) + lsum (fun e => Hs e x * pw t e)%K (map fst (sd_solved sd)))%K = pv n P (fun i => t * x i + s i)%K.
  Proof.
    intros [C _]. rewrite <- lsum_app by exact HK. rewrite (part_sum _ (fun e => Hs e x)).
    - rewrite <- (sh_V SH (fun i => t * x i)%K). symmetry. apply (hom_value HK n G). apply SH.
    - apply NoDup_app_intro; [apply sorted_nodup; apply C|apply C|]. intros e I J. apply (co_iff _ _ _ _ C) in J as [_ J]. exact (J I).
    - intros e I. apply present_le. apply in_app_or in I as [I|I]; [apply (co_pend _ _ _ _ C e I)|apply (co_iff _ _ _ _ C e); exact I].
    - intros e Le Ne. unfold RatMultiSub.Hs. destruct (hom e Ps) eqn:E; [reflexivity|]. exfalso. apply Ne. apply in_or_app. destruct (in_dec Nat.eq_dec e (map fst pend)) as [I|I]; [left; exact I|right].
      apply (co_iff _ _ _ _ C). split; [|exact I]. split; [exact Le|]. rewrite E. discriminate.
  Qed.
End Side.

(** Proofs for PolyReconst, part 4: rows of probes, the change of the stage, the result *)
From Coq Require Import Permutation.
From Verif Require Import Machine FField FSum LinAlg LinAlgProofs FPoly Vandermonde VandermondeProofs PolyFF PolySpec PolyFFProofs PolyFFProofs2 Thiele ThieleSpec ThieleProofs Newton NewtonProofs BM BMSpec BMProofs BTProofs RatUni RatUniThiele PolyRec PolyRecSpec PolyRecKey PolyRecMath PolyRecFile PolyRecRunSpec.
Open Scope nat_scope.

Section Stage.
  Context {K : fops} (HK : flaws K).
  Add Field KS : (fl_field K HK).
  Variable ord : forall A : Type, list A -> list A.
  Hypothesis Ho : forall A (l : list A), Permutation (ord A l) l.
  Variable c : pcfg.
  Notation n := (pc_n c).
  Notation deg := (pc_deg c).
  Variables (D : nat) (f : list (list Z * K)) (y : nat -> K).
  Hypothesis Hf : polynomial n D f.
  Hypothesis Hc : config_fits c D f y.
  Hypothesis Hs : suitable (pc_newton c) (pc_bt c) n D f y.
  Notation keys := (keys n f).
  Notation co := (co n f y).
  Notation sl := (sl n f y).
  Notation sterms := (sterms n f y).
  Notation ext := (ext n f).
  Notation trunc := (trunc n).
  Notation sv := (sv c f y).
  Notation filed := (filed c f y).
  Notation fkeys := (fkeys c f).
  Notation mv := monomial_value.

  Lemma T62 : (Z.of_nat (length f) + 1 < 2 ^ 62)%Z. Proof. apply Hc. Qed.
  (** ---- the orders of a probe ---- *)
  Definition order_at (z i k : nat) : list nat := map (fun j => if j <? z then i else if j =? z then k else 1) (seq 0 n).
  Lemma order_nth z i k j : j < n -> nth j (order_at z i k) 0 = if j <? z then i else if j =? z then k else 1.
  Proof. intros H. unfold order_at. rewrite nth_map_seq by exact H. reflexivity. Qed.
  Lemma set_order_at z k : set_order c (S z) k = order_at z 1 k.
  Proof. unfold set_order, order_at. apply map_ext. intros j. replace (S z - 1) with z by lia. destruct (Nat.eqb_spec j z) as [->|]; [destruct (Nat.ltb_spec z z); [lia|reflexivity]|destruct (j <? z); reflexivity]. Qed.
  Lemma start_order k : repeat 1 n = order_at 0 k 1.
  Proof.
    unfold order_at. assert (G : forall m s, repeat 1 m = map (fun j => if j <? 0 then k else if j =? 0 then 1 else 1) (seq s m)).
    { induction m as [|m IH]; intros s; [reflexivity|]. cbn [repeat seq map]. rewrite (IH (S s)). destruct (s =? 0); reflexivity. }
    apply G.
  Qed.

  Section Z.
  Variable z : nat.
  Hypothesis Hz : z < n.
  (** the value of a probe without the known terms *)
  Definition rest (R : list (list Z)) (i k : nat) : K := lsum (fun q => pw (mv z q y) i * sv z q (k - 1))%K R.
  Lemma probe_value i k : 0 < k -> black_box n f y (order_at z i k) = rest (keys z) i k.
  Proof.
    intros Hk. unfold black_box, rest. rewrite (lsum_ext _ (fun q => mv z q (fun j => pw (y j) i) * sl z q (pw (y z) k))%K).
    2: { intros q _. rewrite (mv_pw HK). unfold PolyRecFile.sv. replace (S (k - 1)) with k by lia. rewrite (sl_terms HK n f y z q _ Hz). reflexivity. }
    rewrite <- (f_split HK n f y z (fun j => pw (y j) i) (pw (y z) k) Hz). rewrite !pv_lsum. apply lsum_ext. intros t _. f_equal. apply mv_ext_x. intros j Hj.
    rewrite order_nth by exact Hj. destruct (j <? z); [reflexivity|]. destruct (Nat.eqb_spec j z) as [->|]; [reflexivity|]. cbn [pw]. ring.
  Qed.
  Lemma term_fold (e : list Z) (g : nat -> K) m : forall a, fold_left (fun r j => fmul r (g j)) (seq 0 m) a = (a * fold_left (fun r j => fmul r (g j)) (seq 0 m) f1)%K.
  Proof. induction m as [|m IH]; intros a; [cbn; ring|]. rewrite seq_S, !fold_left_app. cbn [fold_left Nat.add]. rewrite IH. ring. Qed.
  Lemma term_value_ok i k q a : (i <= length f) -> (Z.of_nat k < 2 ^ 64)%Z -> In q (keys (S z)) ->
    term_value y (S z) (order_at z i k) (q, a) = (a * mv (S z) q (fun j => pw (y j) (nth j (order_at z i k) 0%nat)))%K.
  Proof.
    intros Hi Hk I. unfold term_value. cbn [fst snd]. rewrite (term_fold q (fun j => fpow (rand_zi (y j) (nth j (order_at z i k) 0%nat)) (expo q j))). f_equal.
    assert (G : forall m, m <= S z -> fold_left (fun r j => fmul r (fpow (rand_zi (y j) (nth j (order_at z i k) 0%nat)) (expo q j))) (seq 0 m) f1 = mv m q (fun j => pw (y j) (nth j (order_at z i k) 0%nat))).
    { induction m as [|m IH]; intros Hm; [reflexivity|]. rewrite seq_S, fold_left_app. cbn [fold_left Nat.add monomial_value]. rewrite IH by lia. f_equal.
      pose proof (keys_range n D f Hf _ _ m I) as R. pose proof (D32 c D f y Hc). pose proof T62. unfold expo. rewrite (fl_pow K HK) by (unfold two64; lia). f_equal. unfold rand_zi.
      assert (B : (Z.of_nat (nth m (order_at z i k) 0%nat) < 2 ^ 64)%Z) by (rewrite order_nth by lia; destruct (m <? z); [lia|destruct (m =? z); lia]).
      rewrite (fl_pow K HK) by (unfold two64; lia). rewrite Nat2Z.id. reflexivity. }
    apply G. lia.
  Qed.
  Lemma fold_sub {A} (g : A -> K) l : forall a, fold_left (fun r el => fsub r (g el)) l a = (a - lsum g l)%K.
  Proof. induction l as [|x l IH]; intros a; [cbn; ring|]. cbn [fold_left]. rewrite IH, lsum_cons. ring. Qed.
  Lemma lsum_filed (g : list Z * K -> K) R b : lsum g (filed z R b) = lsum (fun q => g (q, co (S z) q)) (fkeys z R b).
  Proof. unfold PolyRecFile.filed. apply lsum_map. Qed.

  Lemma known_value R i k : NoDup R -> (forall q, In q R -> In q (keys z)) -> 0 < k ->
    (lsum (fun q => co (S z) q * mv (S z) q (fun j => pw (y j) (nth j (order_at z i k) 0%nat)))%K (fkeys z R true) +
     lsum (fun q => co (S z) q * mv (S z) q (fun j => pw (y j) (nth j (order_at z i k) 0%nat)))%K (fkeys z R false) + rest R i k)%K = rest (keys z) i k.
  Proof.
    intros N Sub Hk. set (X := fun j => pw (y j) (nth j (order_at z i k) 0%nat)). set (g := fun q => (co (S z) q * mv (S z) q X)%K).
    set (out := filter (fun q => negb (inb (trunc z q) R)) (keys (S z))).
    assert (E1 : (lsum g (fkeys z R true) + lsum g (fkeys z R false))%K = lsum g out).
    { rewrite (lsum_filter HK (fun q => (tot q =? deg)%Z) g out). unfold out. rewrite !filter_filter. unfold PolyRecFile.fkeys. f_equal.
      - f_equal. apply filter_ext. intros q. destruct (tot q =? deg)%Z; cbn [Bool.eqb]; destruct (inb (trunc z q) R); reflexivity.
      - f_equal. apply filter_ext. intros q. destruct (tot q =? deg)%Z; cbn [Bool.eqb]; destruct (inb (trunc z q) R); reflexivity. }
    rewrite E1. set (Rc := filter (fun q => negb (inb q R)) (keys z)).
    assert (E2 : lsum g out = lsum (fun q => pw (mv z q y) i * sv z q (k - 1))%K Rc).
    { rewrite (lsum_group HK (trunc z) g Rc).
      - apply lsum_ext. intros q Hq. apply filter_In in Hq as [Hq1 Hq2]. apply Bool.negb_true_iff, inb_false in Hq2.
        assert (F : filter (fun x => mon_eqb (trunc z x) q) out = ext z q).
        { unfold out, PolyRecMath.ext. rewrite filter_filter. apply filter_ext_in. intros x Hx. destruct (mon_eqb_spec (trunc z x) q) as [E|E]; [|apply andb_false_r].
          rewrite andb_true_r. apply Bool.negb_true_iff, inb_false. rewrite E. exact Hq2. }
        rewrite F. unfold g. rewrite (ext_value HK n f y z q X Hz). f_equal.
        + unfold X. rewrite <- (mv_pw HK). apply mv_ext_x. intros j Hj. rewrite order_nth by lia. destruct (Nat.ltb_spec j z); [reflexivity|lia].
        + unfold PolyRecFile.sv, X. rewrite (sl_terms HK n f y z q _ Hz). rewrite order_nth by exact Hz. destruct (Nat.ltb_spec z z); [lia|]. rewrite Nat.eqb_refl. replace (S (k - 1)) with k by lia. reflexivity.
      - apply NoDup_filter, keys_nodup.
      - intros x Hx. apply filter_In in Hx as [Hx1 Hx2]. apply filter_In. split; [apply (keys_trunc n f z (S z)); [lia|exact Hx1]|exact Hx2]. }
    rewrite E2. unfold rest. rewrite (lsum_filter HK (fun q => inb q R) _ (keys z)). fold Rc.
    assert (P : Permutation R (filter (fun q => inb q R) (keys z))).
    { apply NoDup_Permutation; [exact N|apply NoDup_filter, keys_nodup|]. intros x. rewrite filter_In, inb_spec. split; [intros H; split; [apply Sub; exact H|exact H]|intros [_ H]; exact H]. }
    rewrite (lsum_perm HK _ _ _ P). ring.
  Qed.

  (** ---- the invariant inside a stage above the first ---- *)
  Record in_stage (R : list (list Z)) (i k : nat) (s : pst K) : Prop := mk_in_stage {
    is_zi : ps_zi s = S z;
    is_order : ps_order s = order_at z (S i) (S k);
    is_rec : ps_rec s = R;
    is_nodup : NoDup R;
    is_keys : forall q, In q R -> In q (keys z);
    is_nums : ps_nums s = map (fun i => rest R i (S k)) (seq 1 i);
    is_i : i < length R;
    is_st : st_ok c f y z R (ps_solved s, ps_tmp s);
    is_state : forall q, In q R -> kstate c f y z k q (ps_ais s) (ps_bt s);
    is_k : 0 < k;
    is_within : within c D f k }.

  Lemma within_64 k : within c D f k -> (Z.of_nat (S k) < 2 ^ 64)%Z.
  Proof.
    intros [W1 W2]. pose proof (D32 c D f y Hc). pose proof T62. assert (Th : (Z.of_nat (pc_thr c) < 2 ^ 62)%Z) by apply Hc. pose proof (proj1 Hc) as On.
    destruct (Bool.bool_dec (pc_newton c) true) as [BN|BN]; [specialize (W1 BN); lia|]. apply Bool.not_true_is_false in BN. rewrite BN in On. specialize (W2 On). lia.
  Qed.
  Lemma subtract_ok R i k s : in_stage R i k s -> subtract_known ord y s (black_box n f y (ps_order s)) = rest R (S i) (S k).
  Proof.
    intros I. destruct I as [Ez Eo Er Nd Ks En Li [S1 S2] St Kp W]. cbn [fst snd] in S1, S2. unfold subtract_known. rewrite Eo, Ez. rewrite !(fold_sub).
    set (g := fun el : list Z * K => term_value y (S z) (order_at z (S i) (S k)) el).
    rewrite (lsum_perm HK g _ _ (Permutation_trans (Ho _ (ps_tmp s)) S2)), (lsum_perm HK g _ _ (Permutation_trans (Ho _ (ps_solved s)) S1)).
    rewrite !lsum_filed. rewrite probe_value by lia. pose proof (keys_len n f z) as KL. assert (LR : length R <= length (keys z)) by (apply NoDup_incl_length; [exact Nd|exact Ks]).
    rewrite !(lsum_ext (fun q => g (q, co (S z) q)) (fun q => co (S z) q * mv (S z) q (fun j => pw (y j) (nth j (order_at z (S i) (S k)) 0%nat)))%K).
    - rewrite <- (known_value R (S i) (S k) Nd Ks ltac:(lia)). ring.
    - intros q Hq. apply in_fkeys in Hq as [Hq _]. apply term_value_ok; [lia|apply within_64; exact W|exact Hq].
    - intros q Hq. apply in_fkeys in Hq as [Hq _]. apply term_value_ok; [lia|apply within_64; exact W|exact Hq].
  Qed.

  (** ---- the transposed Vandermonde system ---- *)
  Lemma node_ok q : In q (keys z) -> node_of y (S z) q = mv z q y.
  Proof.
    intros I. unfold node_of. replace (S z - 1) with z by lia.
    assert (G : forall m, m <= z -> fold_left (fun vi j => fmul vi (rand_zi (y j) (Z.to_nat (expo q j)))) (seq 0 m) f1 = mv m q y).
    { induction m as [|m IH]; intros Hm; [reflexivity|]. rewrite seq_S, fold_left_app. cbn [fold_left Nat.add monomial_value]. rewrite IH by lia. f_equal.
      pose proof (keys_range n D f Hf _ _ m I) as R. pose proof (D32 c D f y Hc). unfold rand_zi, expo. rewrite (fl_pow K HK) by (unfold two64; lia). rewrite Nat2Z.id. reflexivity. }
    apply G. lia.
  Qed.
  Lemma mv_keys_inj q q' : In q (keys z) -> In q' (keys z) -> mv z q y = mv z q' y -> q = q'.
  Proof.
    intros I I' E. apply in_keys in I as [e [I Ee]]. apply in_keys in I' as [e' [I' Ee']]. rewrite <- Ee, <- Ee'. apply (trunc_firstn n); [lia|apply (f_length n D f Hf); exact I|apply (f_length n D f Hf); exact I'|].
    apply (su_monomials _ _ _ _ _ _ Hs z e e' Hz I I'). rewrite <- Ee, <- Ee' in E.
    rewrite (mv_ext z e (trunc z e)), (mv_ext z e' (trunc z e')); [exact E| |].
    - intros j Hj. rewrite trunc_nth by lia. destruct (Nat.ltb_spec j z); [reflexivity|lia].
    - intros j Hj. rewrite trunc_nth by lia. destruct (Nat.ltb_spec j z); [reflexivity|lia].
  Qed.
  Lemma combine_map {A B} (g : A -> B) l : combine l (map g l) = map (fun a => (a, g a)) l.
  Proof. induction l as [|a l IH]; [reflexivity|]. cbn [map combine]. rewrite IH. reflexivity. Qed.
  Lemma solve_row_ok R k : NoDup R -> (forall q, In q R -> In q (keys z)) -> R <> [] ->
    solve_row y (S z) R (map (fun i => rest R i (S k)) (seq 1 (length R))) = map (fun q => (q, sv z q k)) R.
  Proof.
    intros Nd Ks Ne. unfold solve_row. set (nums := map (fun i => rest R i (S k)) (seq 1 (length R))).
    assert (E : solve_tv (map (node_of y (S z)) R) nums = map (fun q => sv z q k) R).
    { rewrite (map_ext_in (node_of y (S z)) (fun q => mv z q y)) by (intros q Hq; apply node_ok, Ks, Hq). set (d := hd [] R).
      unfold solve_tv. destruct (map (fun q => mv z q y) R) as [|r0 rs] eqn:Er; [destruct R; [contradiction|discriminate]|]. rewrite <- Er. rewrite map_length.
      assert (V : forall i, i < length R -> nth i (map (fun q => mv z q y) R) f0 = mv z (nth i R []) y) by (intros i Hi; rewrite (nth_indep _ f0 (mv z [] y)) by (rewrite map_length; exact Hi); apply (map_nth (fun q => mv z q y))).
      assert (Pos : 0 < length R) by (destruct R; [contradiction|cbn; lia]).
      assert (U : forall i, i < length R -> sv z (nth i R []) k = vdm_solve (length R) (fun i => nth i (map (fun q => mv z q y) R) f0) (fun i => nth i nums f0) i).
      { apply (vdm_unique HK (length R) (fun i => nth i (map (fun q => mv z q y) R) f0) (fun i => nth i nums f0) Pos).
        - intros i j Hi Hj Ev. rewrite !V in Ev by assumption. apply (NoDup_nth R []); [exact Nd|exact Hi|exact Hj|]. apply mv_keys_inj; [apply Ks, nth_In, Hi|apply Ks, nth_In, Hj|exact Ev].
        - intros i Hi. rewrite V by exact Hi. apply (mv_nz HK). intros j Hj. apply (y_nz c D f y Hs). lia.
        - intros i Hi. unfold nums. rewrite (nth_indep _ f0 (rest R 0 (S k))) by (rewrite map_length, seq_length; lia). rewrite (map_nth (fun i => rest R i (S k)) (seq 1 (length R)) 0), seq_nth by lia. replace (1 + (i - 1)) with i by lia.
          unfold rest. rewrite (lsum_fsum HK []). apply fsum_ext. intros m Hm. rewrite V by exact Hm. replace (S k - 1) with k by lia. ring. }
      apply (nth_ext _ _ f0 f0); [rewrite !map_length, seq_length; reflexivity|]. intros i Hi. rewrite map_length, seq_length in Hi. rewrite nth_map_seq by exact Hi.
      rewrite <- U by exact Hi. rewrite (nth_indep _ f0 (sv z [] k)) by (rewrite map_length; exact Hi). symmetry. apply (map_nth (fun q => sv z q k)). }
    rewrite E, combine_map. rewrite (fold_pemplace (fun el : list Z * K => fst el) (fun el => snd el)).
    - cbn [app]. rewrite map_map. cbn [fst snd]. reflexivity.
    - cbn [map app]. rewrite map_map. cbn [fst]. rewrite map_id. exact Nd.
  Qed.

  (** ---- one probe ---- *)
  Definition stage_end (s : pst K) : Prop := ps_zi s = S z /\ ps_nums s = [] /\ st_ok c f y z [] (ps_solved s, ps_tmp s).
  Lemma stage_next_ok R i k s : 0 < z -> in_stage R i k s -> exists fl s', stage_next ord c y s (black_box n f y (ps_order s)) = Ret (fl, s') /\ (fl = true /\ stage_end s' \/
     fl = false /\ (in_stage R (S i) k s' \/ exists R', in_stage R' 0 (S k) s' /\ length R' <= length R)).
  Proof.
    intros Z0 I. assert (N1 : n <> 1) by lia. unfold stage_next. rewrite (subtract_ok R i k s I). destruct I as [Ez Eo Er Nd Ks En Li [S1 S2] St Kp W]. rewrite Ez, Er, En.
    rewrite app_length, map_length, seq_length. cbn [length].
    replace (map (fun i => rest R i (S k)) (seq 1 i) ++ [rest R (S i) (S k)]) with (map (fun i => rest R i (S k)) (seq 1 (S i))) by (rewrite seq_S, map_app; reflexivity).
    rewrite Eo. replace (S z - 1) with z by lia. rewrite order_nth by exact Hz. destruct (Nat.ltb_spec z z) as [?|_]; [lia|]. rewrite Nat.eqb_refl.
    destruct (Nat.eqb_spec (i + 1) (length R)) as [E|E].
    - replace (S i) with (length R) by lia. rewrite solve_row_ok; [|exact Nd|exact Ks|destruct R; [cbn in Li; lia|discriminate]].
      replace (S k - 1) with k by lia.
      destruct (Permutation_map_inv _ _ (Ho _ (map (fun q => (q, sv z q k)) R))) as [todo [Et Pt]]. rewrite Et.
      destruct (process_keys_ok HK ord Ho c D f y Hf Hc Hs z Hz k Z0 N1 W todo (mk_row (ps_ais s) (ps_bt s) (ps_solved s, ps_tmp s) R 0 0) 0) as [w' [Ew [Q1 [Q2 [Q3 [Q4 [Q5 [Q6 Q7]]]]]]]]; cbn [w_rec w_st w_ais w_bt w_cb w_cn].
      + apply (Permutation_NoDup Pt). exact Nd.
      + exact Nd.
      + exact Ks.
      + intros q Hq. apply (Permutation_in q (Permutation_sym Pt)). exact Hq.
      + split; assumption.
      + intros q Hq. apply St. apply (Permutation_in q (Permutation_sym Pt)). exact Hq.
      + intros q Hq Nq. exfalso. apply Nq. apply (Permutation_in q Pt). exact Hq.
      + rewrite (Permutation_length Pt). lia.
      + reflexivity.
      + lia.
      + reflexivity.
      + rewrite Ew. cbn [obind w_rec] in *. eexists. eexists. split; [reflexivity|]. cbn [w_rec] in Q2.
        assert (Dn : ((w_cn w' =? 0) && pc_newton c || (w_cb w' =? 0) && pc_bt c) = (length (w_rec w') =? 0)).
        { clear - Q5 Q6 Q7 Hc. pose proof (proj1 Hc) as On. destruct (pc_newton c) eqn:BN; destruct (pc_bt c) eqn:BB; cbn [orb] in On; try discriminate; rewrite ?andb_true_r, ?andb_false_r, ?orb_false_r.
          - rewrite (Q5 eq_refl). specialize (Q6 eq_refl). destruct (Nat.eqb_spec (length (w_rec w')) 0); [apply orb_true_r|]. destruct (Nat.eqb_spec (w_cn w') 0); [lia|reflexivity].
          - rewrite (Q7 eq_refl eq_refl). reflexivity.
          - rewrite (Q5 eq_refl). reflexivity. }
        rewrite Dn. destruct (w_rec w') as [|r0 rs] eqn:Ew'.
        * left. split; [reflexivity|]. split; [reflexivity|]. split; [reflexivity|]. cbn [ps_solved ps_tmp]. rewrite <- surjective_pairing. exact Q3.
        * right. split; [reflexivity|]. right. exists (w_rec w'). rewrite Ew'. split; [|apply NoDup_incl_length; [exact Q1|exact Q2]]. rewrite <- Ew' in *.
          constructor; cbn [ps_zi ps_order ps_rec ps_nums ps_solved ps_tmp ps_ais ps_bt].
          -- reflexivity.
          -- apply set_order_at.
          -- reflexivity.
          -- exact Q1.
          -- intros q Hq. apply Ks, Q2, Hq.
          -- reflexivity.
          -- rewrite Ew'. cbn. lia.
          -- rewrite <- surjective_pairing. exact Q3.
          -- intros q Hq. apply Q4, Hq.
          -- lia.
          -- destruct (Q4 r0) as [_ Q]; [rewrite Ew'; left; reflexivity|exact Q].
    - eexists. eexists. split; [reflexivity|]. right. split; [reflexivity|]. left. constructor; cbn [ps_zi ps_order ps_rec ps_nums ps_solved ps_tmp ps_ais ps_bt]; try assumption; try reflexivity.
      + unfold order_at at 3. apply map_ext_in. intros j Hj. apply in_seq in Hj. rewrite !order_nth by lia. destruct (j <? z); reflexivity.
      + lia.
      + split; assumption.
  Qed.
End Z.
End Stage.

(** Proofs about generate_possible_shifts, compute_bunch_size, compute_job_number (Combi.v) *)
From Coq Require Import Permutation Sorted Zpow_facts.
From Verif Require Import Machine NumTheory Combi CombiProofs.
Open Scope Z_scope.

(** ---------- powers of two in size_t ---------- *)
Lemma pow2_loop_spec f : forall e s b, 0 <= e < 2 ^ Z.of_nat f -> 0 <= s < two64 ->
  pow2_loop f e s b = wrap64 (s * b ^ e).
Proof.
  induction f as [|f IH]; intros e s b He Hs.
  - assert (e = 0) by (cbn in He; lia). subst e. cbn [pow2_loop]. rewrite Z.pow_0_r, Z.mul_1_r.
    symmetry; apply wrap64_small; exact Hs.
  - cbn [pow2_loop]. destruct (e =? 0) eqn:E0.
    + assert (e = 0) by lia. subst e. rewrite Z.pow_0_r, Z.mul_1_r. symmetry; apply wrap64_small; exact Hs.
    + rewrite Nat2Z.inj_succ, Z.pow_succ_r in He by lia.
      rewrite <- Z.div2_spec, Z.div2_div.
      rewrite IH.
      * rewrite (Z.div_mod e 2) at 3 by lia. rewrite Zmod_odd.
        assert (D : 0 <= e / 2) by (apply Z.div_pos; lia).
        unfold wrap64.
        assert (P : forall x n, 0 <= n -> ((x mod two64) ^ n) mod two64 = (x ^ n) mod two64).
        { intros x n Hn. symmetry. apply Zpower_mod. reflexivity. }
        rewrite Z.pow_add_r, Z.pow_mul_r by (destruct (Z.odd e); lia).
        destruct (Z.odd e); cbn [Z.b2z].
        -- rewrite Z.mul_mod, P by (lia || discriminate).
           rewrite Zmod_mod, <- Z.mul_mod by discriminate. f_equal.
           rewrite Z.pow_2_r, Z.pow_1_r. ring.
        -- rewrite Z.mul_mod, P by (lia || discriminate). rewrite <- Z.mul_mod by discriminate. f_equal.
           rewrite Z.pow_2_r, Z.pow_0_r. ring.
      * split; [apply Z.div_pos; lia|]. apply Z.div_lt_upper_bound; lia.
      * destruct (Z.odd e); [apply wrap64_range|exact Hs].
Qed.

Lemma shifts_size r : Z.of_nat r < two32 -> pow2_loop 33 (Z.of_nat r) 1 2 = wrap64 (2 ^ Z.of_nat r).
Proof.
  intros H. rewrite pow2_loop_spec; [rewrite Z.mul_1_l; reflexivity| |unfold two64; lia].
  change (2 ^ Z.of_nat 33) with 8589934592. unfold two32 in H. lia.
Qed.

(** ---------- digits ---------- *)
Lemma tuple_of_length r c : length (tuple_of r c) = r.
Proof. revert c; induction r as [|r IH]; intros c; [reflexivity|]. cbn [tuple_of]. rewrite app_length, IH. cbn; lia. Qed.

Lemma mod2_01 c : is01 (c mod 2).
Proof. unfold is01. pose proof (Z.mod_pos_bound c 2); lia. Qed.

Lemma tuple_of_01 r c : Forall is01 (tuple_of r c).
Proof.
  revert c; induction r as [|r IH]; intros c; [constructor|]. cbn [tuple_of]. apply Forall_app. split; [apply IH|].
  constructor; [apply mod2_01|constructor].
Qed.

Lemma pow2S r : 2 ^ Z.of_nat (S r) = 2 * 2 ^ Z.of_nat r.
Proof. rewrite Nat2Z.inj_succ, Z.pow_succ_r by lia. reflexivity. Qed.

Lemma tuple_of_inj r : forall c d, 0 <= c < 2 ^ Z.of_nat r -> 0 <= d < 2 ^ Z.of_nat r ->
  tuple_of r c = tuple_of r d -> c = d.
Proof.
  induction r as [|r IH]; intros c d Hc Hd E; [cbn in *; lia|].
  rewrite pow2S in *. cbn [tuple_of] in E. apply app_inj_tail in E as [E1 E2].
  apply IH in E1.
  - rewrite (Z.div_mod c 2), (Z.div_mod d 2) by lia. lia.
  - split; [apply Z.div_pos; lia|apply Z.div_lt_upper_bound; lia].
  - split; [apply Z.div_pos; lia|apply Z.div_lt_upper_bound; lia].
Qed.

Lemma tuple_of_surj r : forall t, length t = r -> Forall is01 t ->
  exists c, 0 <= c < 2 ^ Z.of_nat r /\ tuple_of r c = t.
Proof.
  induction r as [|r IH]; intros t Hl Ht.
  - destruct t; [|discriminate]. exists 0. split; [cbn; lia|reflexivity].
  - destruct (exists_last (l:=t)) as [t' [d ->]]; [intros ->; discriminate|].
    rewrite app_length in Hl. cbn in Hl. apply Forall_app in Ht as [Ht Hd].
    destruct (IH t' ltac:(lia) Ht) as [c [Hc E]]. inversion_clear Hd as [|? ? H01 _].
    exists (2 * c + d). rewrite pow2S. split; [destruct H01; lia|]. cbn [tuple_of].
    assert (D : (2 * c + d) / 2 = c) by (symmetry; apply (Z.div_unique _ 2 c d); destruct H01; lia).
    assert (M : (2 * c + d) mod 2 = d) by (symmetry; apply (Z.mod_unique _ 2 c d); destruct H01; lia).
    rewrite D, M, E. reflexivity.
Qed.

Lemma tuple_of_zero r : tuple_of r 0 = repeat 0 r.
Proof. induction r as [|r IH]; [reflexivity|]. cbn [tuple_of]. change (0 / 2) with 0. change (0 mod 2) with 0.
  rewrite IH. symmetry; apply repeat_S_end. Qed.

Lemma tuple_of_ones r : tuple_of r (2 ^ Z.of_nat r - 1) = repeat 1 r.
Proof.
  induction r as [|r IH]; [reflexivity|]. rewrite pow2S. cbn [tuple_of].
  assert (D : (2 * 2 ^ Z.of_nat r - 1) / 2 = 2 ^ Z.of_nat r - 1)
    by (symmetry; apply (Z.div_unique _ 2 _ 1); lia).
  assert (M : (2 * 2 ^ Z.of_nat r - 1) mod 2 = 1)
    by (symmetry; apply (Z.mod_unique _ 2 (2 ^ Z.of_nat r - 1)); lia).
  rewrite D, M, IH. symmetry; apply repeat_S_end.
Qed.

Definition shift_list (r : nat) : list (list Z) :=
  map (fun c => tuple_of r (Z.of_nat c)) (seq 0 (Z.to_nat (2 ^ Z.of_nat r - 1))).

Lemma shift_list_in r t : In t (shift_list r) <-> length t = r /\ Forall is01 t /\ t <> repeat 1 r.
Proof.
  unfold shift_list. rewrite in_map_iff.
  assert (P : 0 < 2 ^ Z.of_nat r) by (apply Z.pow_pos_nonneg; lia).
  split.
  - intros [c [<- Hc]]. apply in_seq in Hc. split; [apply tuple_of_length|]. split; [apply tuple_of_01|].
    rewrite <- tuple_of_ones. intros E. apply tuple_of_inj in E; lia.
  - intros [Hl [H01 Hne]]. destruct (tuple_of_surj r t Hl H01) as [c [Hc E]]. exists (Z.to_nat c).
    rewrite Z2Nat.id by lia. split; [exact E|]. apply in_seq.
    assert (c <> 2 ^ Z.of_nat r - 1) by (intros ->; rewrite tuple_of_ones in E; congruence). lia.
Qed.

Lemma shift_list_nodup r : NoDup (shift_list r).
Proof.
  unfold shift_list. apply NoDup_map_inj; [|apply seq_NoDup].
  assert (P : 0 < 2 ^ Z.of_nat r) by (apply Z.pow_pos_nonneg; lia).
  intros x y Hx Hy E. apply in_seq in Hx, Hy. apply tuple_of_inj in E; lia.
Qed.

(** ---------- sorting ---------- *)
Lemma insert_by_perm lt x l : Permutation (insert_by lt x l) (x :: l).
Proof.
  induction l as [|y l IH]; [reflexivity|]. cbn [insert_by]. destruct (lt y x); [|reflexivity].
  rewrite IH. apply perm_swap.
Qed.

Lemma sort_by_perm lt l : Permutation (sort_by lt l) l.
Proof. induction l as [|x l IH]; [reflexivity|]. cbn [sort_by fold_right]. rewrite insert_by_perm. constructor. exact IH. Qed.

Section Sorting.
  Variable lt : list Z -> list Z -> bool.
  Variable P : list Z -> Prop.
  Hypothesis lt_trans : forall a b c, P a -> P b -> P c -> lt a b = true -> lt b c = true -> lt a c = true.
  Hypothesis lt_total : forall a b, P a -> P b -> lt a b = true \/ lt b a = true \/ a = b.
  Hypothesis lt_irrefl : forall a, P a -> lt a a = false.

  Definition before (a b : list Z) : Prop := lt a b = true.

  Lemma insert_sorted x l : P x -> Forall P l -> ~ In x l -> StronglySorted before l ->
    StronglySorted before (insert_by lt x l).
  Proof.
    induction l as [|y l IH]; intros Hx Hl Hn Hs; [repeat constructor|].
    inversion_clear Hl as [|? ? Hy Hl']. inversion_clear Hs as [|? ? Hs' Ha]. cbn [insert_by].
    destruct (lt y x) eqn:C.
    - constructor; [apply IH; try assumption; intros D; apply Hn; right; exact D|].
      apply Forall_forall. intros z Hz. apply (Permutation_in z (insert_by_perm lt x l)) in Hz.
      destruct Hz as [<-|Hz]; [exact C|]. rewrite Forall_forall in Ha. apply Ha; exact Hz.
    - assert (B : before x y).
      { destruct (lt_total x y Hx Hy) as [D|[D|D]]; [exact D|congruence|]. exfalso; apply Hn; left; congruence. }
      constructor; [constructor; assumption|]. constructor; [exact B|].
      rewrite Forall_forall in *. intros z Hz. apply (lt_trans x y z); auto. apply Ha; exact Hz.
  Qed.

  Lemma sort_sorted l : Forall P l -> NoDup l -> StronglySorted before (sort_by lt l).
  Proof.
    induction l as [|x l IH]; intros Hl Hn; [constructor|]. cbn [sort_by fold_right].
    inversion_clear Hl as [|? ? Hx Hl']. inversion_clear Hn as [|? ? Hx' Hn'].
    fold (sort_by lt l). apply insert_sorted.
    - exact Hx.
    - rewrite Forall_forall in *. intros z Hz. apply Hl'. apply (Permutation_in z (sort_by_perm lt l)); exact Hz.
    - intros D. apply Hx'. apply (Permutation_in x (sort_by_perm lt l)); exact D.
    - apply IH; assumption.
  Qed.

  Lemma sorted_unique l : forall l', Forall P l -> Permutation l l' -> StronglySorted before l ->
    StronglySorted before l' -> l = l'.
  Proof.
    induction l as [|x l IH]; intros l' Hl Hp Hs Hs'.
    - apply Permutation_nil in Hp. congruence.
    - destruct l' as [|y l']; [apply Permutation_sym, Permutation_nil in Hp; discriminate|].
      assert (Hl2 : Forall P (y :: l')).
      { rewrite Forall_forall in *. intros z Hz. apply Hl. apply (Permutation_in z (Permutation_sym Hp)); exact Hz. }
      inversion_clear Hs as [|? ? Hs1 Ha]. inversion_clear Hs' as [|? ? Hs1' Ha'].
      assert (Px : P x) by (inversion Hl; assumption). assert (Py : P y) by (inversion Hl2; assumption).
      assert (E : x = y).
      { pose proof (Permutation_in x Hp (or_introl eq_refl)) as Ix.
        pose proof (Permutation_in y (Permutation_sym Hp) (or_introl eq_refl)) as Iy.
        destruct Ix as [->|Ix]; [reflexivity|]. destruct Iy as [->|Iy]; [reflexivity|].
        rewrite Forall_forall in Ha, Ha'. specialize (Ha _ Iy). specialize (Ha' _ Ix).
        pose proof (lt_trans x y x Px Py Px Ha Ha') as B. rewrite lt_irrefl in B by exact Px. discriminate. }
      subst y. f_equal. apply IH; [inversion Hl; assumption|apply Permutation_cons_inv in Hp; exact Hp|exact Hs1|exact Hs1'].
  Qed.
End Sorting.

Lemma shift_lt_spec a b : length a = length b -> (shift_lt a b = true <-> graded_gt b a).
Proof.
  intros H. unfold shift_lt. destruct (a_grt_b_s_spec b a (eq_sym H)) as [r [-> Hr]]. destruct r; [tauto|].
  rewrite <- Hr. split; discriminate.
Qed.

Lemma shift_lt_trans r a b c : length a = r -> length b = r -> length c = r ->
  shift_lt a b = true -> shift_lt b c = true -> shift_lt a c = true.
Proof.
  intros Ha Hb Hc. rewrite !shift_lt_spec by lia. intros H1 H2. apply (graded_trans c b a); auto; lia.
Qed.

Lemma shift_lt_total r a b : length a = r -> length b = r -> shift_lt a b = true \/ shift_lt b a = true \/ a = b.
Proof.
  intros Ha Hb. rewrite !shift_lt_spec by lia. destruct (graded_total a b ltac:(lia)) as [D|[D|D]]; tauto.
Qed.

Lemma shift_lt_irrefl a : shift_lt a a = false.
Proof. destruct (shift_lt a a) eqn:E; [|reflexivity]. apply shift_lt_spec in E; [|reflexivity].
  exfalso; apply (graded_irrefl a E). Qed.

Lemma zsum_01_num t : Forall is01 t -> zsum t = Z.of_nat (num_of_ones t).
Proof.
  induction t as [|x t IH]; intros H; [reflexivity|]. inversion_clear H as [|? ? Hx Ht].
  cbn [zsum fold_right]. fold (zsum t). rewrite (IH Ht). unfold num_of_ones. cbn [filter].
  destruct Hx as [-> | ->]; [reflexivity|]. change (1 =? 1) with true. cbv iota.
  change (length (1 :: filter (fun x => x =? 1) t)) with (S (length (filter (fun x => x =? 1) t))). lia.
Qed.

(** order of the result, stated without the comparator *)
Definition fewer_ones_first (a b : list Z) : Prop :=
  (num_of_ones a < num_of_ones b)%nat \/ (num_of_ones a = num_of_ones b /\ colex_gt a b).

Lemma shift_before r a b : (r <= 32)%nat -> length a = r -> length b = r -> Forall is01 a -> Forall is01 b ->
  (shift_lt a b = true <-> fewer_ones_first a b).
Proof.
  intros Hr Ha Hb H1 H2. rewrite shift_lt_spec by lia. unfold graded_gt, fewer_ones_first.
  pose proof (filter_ones_le a). pose proof (filter_ones_le b).
  rewrite !deg32_small by (rewrite zsum_01_num by assumption; unfold two32; lia).
  rewrite !zsum_01_num by assumption.
  split; (intros [A|[A B]]; [left; lia|right; split; [lia|exact B]]).
Qed.

Lemma StronglySorted_impl_in {A} (R S : A -> A -> Prop) l :
  (forall x y, In x l -> In y l -> R x y -> S x y) -> StronglySorted R l -> StronglySorted S l.
Proof.
  intros H Hs. induction Hs as [|x l Hs IH Ha]; constructor.
  - apply IH. intros a b Ia Ib; apply H; right; assumption.
  - rewrite Forall_forall in *. intros y Hy. apply H; [left; reflexivity|right; exact Hy|apply Ha; exact Hy].
Qed.

Theorem generate_possible_shifts_ok r : (1 <= r <= 32)%nat ->
  exists l, generate_possible_shifts r = Ret l /\ NoDup l /\
    (forall t, In t l <-> length t = r /\ Forall (fun x => x = 0 \/ x = 1) t /\ t <> repeat 1 r) /\
    StronglySorted fewer_ones_first l /\
    (forall l', Permutation l l' -> StronglySorted fewer_ones_first l' -> l' = l).
Proof.
  intros Hr. unfold generate_possible_shifts. rewrite shifts_size by (unfold two32; lia).
  assert (B : 2 <= 2 ^ Z.of_nat r <= two32).
  { split.
    - change 2 with (2 ^ 1) at 1. apply Z.pow_le_mono_r; lia.
    - change two32 with (2 ^ 32). apply Z.pow_le_mono_r; lia. }
  rewrite wrap64_small by (unfold two32, two64 in *; lia).
  destruct (2 ^ Z.of_nat r =? 0) eqn:C0; [lia|]. destruct (two32 <? 2 ^ Z.of_nat r) eqn:C1; [lia|].
  assert (E : repeat 0 r :: map (fun c => tuple_of r (Z.of_nat c)) (seq 1 (Z.to_nat (2 ^ Z.of_nat r - 2)))
              = shift_list r).
  { unfold shift_list. replace (Z.to_nat (2 ^ Z.of_nat r - 1)) with (S (Z.to_nat (2 ^ Z.of_nat r - 2))) by lia.
    cbn [seq map]. change (Z.of_nat 0) with 0. rewrite tuple_of_zero. reflexivity. }
  rewrite E. eexists. split; [reflexivity|].
  pose proof (sort_by_perm shift_lt (shift_list r)) as Pm.
  assert (In1 : forall t, In t (sort_by shift_lt (shift_list r)) <-> In t (shift_list r)).
  { intros t. split; apply Permutation_in; [exact Pm|apply Permutation_sym; exact Pm]. }
  assert (FL : Forall (fun t => length t = r) (shift_list r)).
  { apply Forall_forall. intros t Ht. apply shift_list_in in Ht. tauto. }
  assert (FL' : Forall (fun t => length t = r) (sort_by shift_lt (shift_list r))).
  { apply Forall_forall. intros t Ht. apply In1, shift_list_in in Ht. tauto. }
  assert (S0 : StronglySorted (before shift_lt) (sort_by shift_lt (shift_list r))).
  { apply (sort_sorted shift_lt (fun t => length t = r)).
    - intros a b c. apply shift_lt_trans.
    - intros a b. apply shift_lt_total.
    - exact FL.
    - apply shift_list_nodup. }
  split; [apply (Permutation_NoDup (Permutation_sym Pm)); apply shift_list_nodup|].
  split; [intros t; rewrite In1; apply shift_list_in|]. split.
  - apply (StronglySorted_impl_in (before shift_lt)); [|exact S0].
    intros x y Hx Hy. apply In1, shift_list_in in Hx. apply In1, shift_list_in in Hy.
    unfold before. rewrite (shift_before r); [tauto|lia|tauto|tauto|tauto|tauto].
  - intros l' Hp Hs. symmetry. apply (sorted_unique shift_lt (fun t => length t = r)).
    + intros a b c. apply shift_lt_trans.
    + intros a _. apply shift_lt_irrefl.
    + exact FL'.
    + exact Hp.
    + exact S0.
    + apply (StronglySorted_impl_in fewer_ones_first); [|exact Hs].
      intros x y Hx Hy. apply (Permutation_in x (Permutation_sym Hp)) in Hx.
      apply (Permutation_in y (Permutation_sym Hp)) in Hy.
      apply In1, shift_list_in in Hx. apply In1, shift_list_in in Hy.
      unfold before. rewrite (shift_before r); [tauto|lia|tauto|tauto|tauto|tauto].
Qed.

Lemma generate_possible_shifts_big r : (32 < r)%nat -> Z.of_nat r < two32 ->
  generate_possible_shifts r = if (r <? 64)%nat then Diverge else Throw.
Proof.
  intros H1 H2. unfold generate_possible_shifts. rewrite shifts_size by exact H2.
  destruct (r <? 64)%nat eqn:C.
  - apply Nat.ltb_lt in C.
    assert (B : two32 < 2 ^ Z.of_nat r < two64).
    { split.
      - change two32 with (2 ^ 32). apply Z.pow_lt_mono_r; lia.
      - change two64 with (2 ^ 64). apply Z.pow_lt_mono_r; lia. }
    rewrite wrap64_small by (unfold two32, two64 in *; lia).
    destruct (2 ^ Z.of_nat r =? 0) eqn:C0; [unfold two32 in *; lia|].
    destruct (two32 <? 2 ^ Z.of_nat r) eqn:C1; [reflexivity|lia].
  - apply Nat.ltb_ge in C. unfold wrap64.
    replace (Z.of_nat r) with ((Z.of_nat r - 64) + 64) by lia. rewrite Z.pow_add_r by lia.
    change (2 ^ 64) with two64. rewrite Z.mod_mul by discriminate. reflexivity.
Qed.

(** ---------- bunch sizes ---------- *)
Definition top_bits (t k : Z) : Prop := 0 < t /\ forall i, Z.log2 t - k < i <= Z.log2 t -> 0 <= i -> Z.testbit t i = true.

Lemma top_bits_1 t : 0 < t -> top_bits t 1.
Proof. intros H. split; [exact H|]. intros i Hi Hi0. replace i with (Z.log2 t) by lia. apply Z.bit_log2; exact H. Qed.

Lemma shiftr_log2_le t k : 0 < t -> 0 <= k -> Z.log2 (Z.shiftr t k) <= Z.log2 t.
Proof.
  intros Ht Hk. apply Z.log2_le_mono. rewrite Z.shiftr_div_pow2 by exact Hk.
  apply Z.div_le_upper_bound; [apply Z.pow_pos_nonneg; lia|].
  assert (1 <= 2 ^ k) by (apply (Z.pow_le_mono_r 2 0 k); lia).
  pose proof (Z.mul_le_mono_nonneg_r 1 (2 ^ k) t). lia.
Qed.

Lemma top_bits_double t k : 0 < k -> top_bits t k ->
  top_bits (Z.lor t (Z.shiftr t k)) (2 * k) /\ Z.log2 (Z.lor t (Z.shiftr t k)) = Z.log2 t.
Proof.
  intros Hk [Ht Hb].
  assert (Hs : 0 <= Z.shiftr t k) by (apply Z.shiftr_nonneg; lia).
  assert (L : Z.log2 (Z.lor t (Z.shiftr t k)) = Z.log2 t).
  { rewrite Z.log2_lor by lia. pose proof (shiftr_log2_le t k Ht). lia. }
  split; [|exact L]. split.
  - destruct (Z.eq_dec (Z.lor t (Z.shiftr t k)) 0) as [E|E].
    + apply Z.lor_eq_0_iff in E. lia.
    + assert (0 <= Z.lor t (Z.shiftr t k)) by (apply Z.lor_nonneg; lia). lia.
  - rewrite L. intros i Hi Hi0. rewrite Z.lor_spec, Z.shiftr_spec by exact Hi0.
    destruct (Z_lt_le_dec (Z.log2 t - k) i) as [C|C].
    + rewrite Hb by lia. reflexivity.
    + rewrite (Hb (i + k)) by lia. apply orb_true_r.
Qed.

Lemma top_bits_all t k : top_bits t k -> Z.log2 t < k -> t = 2 ^ (Z.log2 t + 1) - 1.
Proof.
  intros [Ht Hb] Hk. pose proof (Z.log2_nonneg t) as HL.
  rewrite Z.sub_1_r, <- Z.ones_equiv.
  apply Z.bits_inj'. intros i Hi. destruct (Z_lt_le_dec i (Z.log2 t + 1)) as [C|C].
  - rewrite Z.ones_spec_low by lia. apply Hb; lia.
  - rewrite Z.ones_spec_high by lia. apply Z.bits_above_log2; lia.
Qed.

Lemma smear_ok t : 0 < t < two32 ->
  let t1 := Z.lor t (Z.shiftr t 1) in
  let t2 := Z.lor t1 (Z.shiftr t1 2) in
  let t3 := Z.lor t2 (Z.shiftr t2 4) in
  let t4 := Z.lor t3 (Z.shiftr t3 8) in
  let t5 := Z.lor t4 (Z.shiftr t4 16) in
  t5 = 2 ^ (Z.log2 t + 1) - 1.
Proof.
  intros Ht t1 t2 t3 t4 t5.
  destruct (top_bits_double t 1 ltac:(lia) (top_bits_1 t ltac:(lia))) as [B1 L1]. fold t1 in B1, L1.
  destruct (top_bits_double t1 2 ltac:(lia) B1) as [B2 L2]. fold t2 in B2, L2.
  destruct (top_bits_double t2 4 ltac:(lia) B2) as [B3 L3]. fold t3 in B3, L3.
  destruct (top_bits_double t3 8 ltac:(lia) B3) as [B4 L4]. fold t4 in B4, L4.
  destruct (top_bits_double t4 16 ltac:(lia) B4) as [B5 L5]. fold t5 in B5, L5.
  assert (LL : Z.log2 t5 = Z.log2 t) by congruence.
  rewrite <- LL. apply (top_bits_all t5 (2 * 16)); [exact B5|]. rewrite LL.
  apply Z.log2_lt_pow2; [lia|]. exact (proj2 Ht).
Qed.

(** closed form *)
Lemma compute_bunch_size_closed q thr mx : 0 <= q < two32 -> 1 <= thr < two32 -> 2 <= mx < two32 ->
  0 < q / thr < two31 ->
  compute_bunch_size q thr mx =
    let t := 2 ^ Z.log2 (q / thr) in
    Some (Z.min mx (if (2 * t <? q) && negb (t * thr =? q) then 2 * t else t)).
Proof.
  intros Hq Ht Hm Hd. unfold compute_bunch_size.
  destruct (mx =? 1) eqn:C1; [lia|]. destruct (thr =? 0) eqn:C2; [lia|].
  destruct (q / thr =? 0) eqn:C3; [lia|]. cbn [negb]. cbv zeta.
  pose proof (smear_ok (q / thr) ltac:(unfold two31, two32 in *; lia)) as S. cbv zeta in S.
  rewrite S. clear S. set (d := q / thr) in *.
  assert (HL0 : 0 <= Z.log2 d) by apply Z.log2_nonneg.
  assert (HL : Z.log2 d < 31) by (apply Z.log2_lt_pow2; [lia|exact (proj2 Hd)]).
  replace (2 ^ (Z.log2 d + 1) - 1 + 1) with (2 * 2 ^ Z.log2 d) by (rewrite Z.pow_add_r by lia; change (2^1) with 2; lia).
  pose proof (Z.log2_spec d ltac:(lia)) as [P1 P2]. rewrite Z.pow_succ_r in P2 by lia.
  assert (T31 : 2 * 2 ^ Z.log2 d <= two31).
  { rewrite <- Z.pow_succ_r by lia. change two31 with (2 ^ 31). apply Z.pow_le_mono_r; lia. }
  set (t := 2 ^ Z.log2 d) in *.
  rewrite (wrap32_small (2 * t)) by (unfold two31, two32 in *; lia).
  rewrite Z.shiftr_div_pow2 by lia. change (2 ^ 1) with 2.
  replace (2 * t / 2) with t by (rewrite Z.mul_comm, Z.div_mul; lia).
  rewrite Z.shiftl_mul_pow2 by lia. change (2 ^ 1) with 2.
  replace (t * 2) with (2 * t) by lia.
  rewrite (wrap32_small (2 * t)) by (unfold two31, two32 in *; lia).
  assert (TQ : t * thr <= q).
  { pose proof (Z.mul_div_le q thr ltac:(lia)) as M. fold d in M.
    pose proof (Z.mul_le_mono_nonneg_r t d thr ltac:(lia) P1). lia. }
  assert (0 <= t * thr) by (apply Z.mul_nonneg_nonneg; lia).
  rewrite (wrap32_small (t * thr)) by (unfold two32 in *; lia).
  reflexivity.
Qed.

Lemma compute_bunch_size_ok q thr mx : 0 <= q < two32 -> 1 <= thr < two32 -> 1 <= mx < two32 -> q / thr < two31 ->
  exists b, compute_bunch_size q thr mx = Some b /\ 1 <= b <= mx /\ (1 <= q -> b <= q) /\
    (b = mx \/ exists k, 0 <= k /\ b = 2 ^ k) /\
    (b < mx -> 2 <= thr -> q <= b * thr).
Proof.
  intros Hq Ht Hm Hd.
  destruct (Z.eq_dec mx 1) as [->|Hm1].
  { exists 1. unfold compute_bunch_size. cbn. repeat split; try lia. }
  assert (Hd0 : 0 <= q / thr) by (apply Z.div_pos; lia).
  destruct (Z.eq_dec (q / thr) 0) as [E0|E0].
  { exists 1. unfold compute_bunch_size. destruct (mx =? 1) eqn:C1; [lia|]. destruct (thr =? 0) eqn:C2; [lia|].
    rewrite E0. cbn [negb Z.eqb]. split; [reflexivity|].
    assert (q < thr) by (apply Z.div_small_iff in E0; lia).
    repeat split; try lia. right. exists 0. split; [lia|reflexivity]. }
  rewrite compute_bunch_size_closed by lia. cbv zeta. eexists. split; [reflexivity|].
  pose proof (Z.log2_spec (q / thr) ltac:(lia)) as [P1 P2]. pose proof (Z.log2_nonneg (q / thr)) as L0.
  rewrite Z.pow_succ_r in P2 by lia.
  assert (TQ : 2 ^ Z.log2 (q / thr) * thr <= q).
  { pose proof (Z.mul_div_le q thr ltac:(lia)) as M.
    pose proof (Z.mul_le_mono_nonneg_r _ (q / thr) thr ltac:(lia) P1). lia. }
  assert (T1 : 1 <= 2 ^ Z.log2 (q / thr)) by (apply (Z.pow_le_mono_r 2 0); lia).
  assert (QB : q < 2 * 2 ^ Z.log2 (q / thr) * thr).
  { pose proof (Z.mul_succ_div_gt q thr ltac:(lia)) as M.
    pose proof (Z.mul_le_mono_nonneg_r (Z.succ (q / thr)) (2 * 2 ^ Z.log2 (q / thr)) thr ltac:(lia) ltac:(lia)). lia. }
  assert (Q1 : 2 ^ Z.log2 (q / thr) <= q).
  { pose proof (Z.mul_le_mono_nonneg_l 1 thr (2 ^ Z.log2 (q / thr)) ltac:(lia) ltac:(lia)). lia. }
  assert (Pw : exists k, 0 <= k /\ 2 ^ Z.log2 (q / thr) = 2 ^ k) by eauto.
  assert (Pw' : exists k, 0 <= k /\ 2 * 2 ^ Z.log2 (q / thr) = 2 ^ k).
  { exists (Z.log2 (q / thr) + 1). split; [lia|]. rewrite Z.pow_add_r by lia. change (2^1) with 2. lia. }
  set (t := 2 ^ Z.log2 (q / thr)) in *. clearbody t.
  destruct (2 * t <? q) eqn:D1; cbn [andb].
  - destruct (t * thr =? q) eqn:D2; cbn [negb].
    + destruct (Z.min_spec mx t) as [[? ->]|[? ->]]; repeat split; first [lia | left; reflexivity | right; assumption].
    + destruct (Z.min_spec mx (2 * t)) as [[? ->]|[? ->]]; repeat split; first [lia | left; reflexivity | right; assumption].
  - assert (2 <= thr -> q <= t * thr).
    { intros H2. pose proof (Z.mul_le_mono_nonneg_l 2 thr t ltac:(lia) H2). lia. }
    destruct (Z.min_spec mx t) as [[? ->]|[? ->]]; repeat split; first [lia | left; reflexivity | right; assumption].
Qed.

Lemma div_mono_31 q q' thr : 0 <= q' <= q -> 1 <= thr -> q / thr < two31 -> q' / thr < two31.
Proof. intros H Ht Hd. pose proof (Z.div_le_mono q' q thr ltac:(lia) ltac:(lia)). lia. Qed.

Lemma job_loop_ok th : forall q total mx, 1 <= q < two32 -> 1 <= total < two32 -> 1 <= mx < two32 ->
  q / total < two31 ->
  exists q', job_loop th q total mx = Some q' /\ 0 <= q' <= q /\ (q' = 0 \/ Z.of_nat th <= q - q') /\
     q - q' <= Z.of_nat th * mx.
Proof.
  induction th as [|th IH]; intros q total mx Hq Ht Hm Hd.
  - exists q. cbn. repeat split; lia.
  - cbn [job_loop]. destruct (compute_bunch_size_ok q total mx ltac:(lia) Ht Hm Hd) as [b [-> [Hb [Hbq _]]]].
    specialize (Hbq ltac:(lia)). cbv zeta. rewrite wrap32_small by lia.
    destruct (q - b =? 0) eqn:C.
    + exists (q - b). repeat split; try lia.
    + destruct (IH (q - b) total mx ltac:(lia) Ht Hm) as [q' [-> [H1 [H2 H3]]]].
      * apply (div_mono_31 q); lia.
      * exists q'. repeat split; try lia. 
Qed.

Theorem compute_job_number_ok q th total mx : 1 <= q < two32 -> 0 <= th < two32 -> 1 <= total < two32 -> 1 <= mx < two32 ->
  q / total < two31 ->
  exists n, compute_job_number q th total mx = Some n /\ 0 <= n <= q /\ (n = q \/ th <= n) /\ n <= th * mx.
Proof.
  intros Hq Hth Ht Hm Hd. unfold compute_job_number.
  destruct (job_loop_ok (Z.to_nat th) q total mx Hq Ht Hm Hd) as [q' [-> [H1 [H2 H3]]]].
  rewrite Z2Nat.id in * by lia.
  rewrite wrap32_small by lia. exists (q - q'). repeat split; lia.
Qed.

(** ---------- order of the visit (C13) ---------- *)
Lemma StronglySorted_app {A} (R : A -> A -> Prop) l l' : StronglySorted R l -> StronglySorted R l' ->
  (forall x y, In x l -> In y l' -> R x y) -> StronglySorted R (l ++ l').
Proof.
  induction 1 as [|x l Hs IH Ha]; intros Hs' H; [exact Hs'|]. cbn [app]. constructor.
  - apply IH; [exact Hs'|]. intros a b Ia Ib; apply H; [right; exact Ia|exact Ib].
  - apply Forall_app. split; [exact Ha|]. apply Forall_forall. intros y Hy. apply H; [left; reflexivity|exact Hy].
Qed.

Lemma StronglySorted_map {A B} (R : A -> A -> Prop) (S : B -> B -> Prop) (f : A -> B) l :
  (forall x y, R x y -> S (f x) (f y)) -> StronglySorted R l -> StronglySorted S (map f l).
Proof.
  intros H. induction 1 as [|x l Hs IH Ha]; cbn [map]; constructor; [exact IH|].
  apply Forall_map. eapply Forall_impl; [|exact Ha]. intros y. apply H.
Qed.

Lemma lex_lt_cons x a b : lex_lt a b -> lex_lt (x :: a) (x :: b).
Proof.
  intros [i [Hi [Hl Ha]]]. exists (S i). cbn. split; [lia|]. split; [exact Hl|]. intros [|j] Hj; [reflexivity|]. apply Ha; lia.
Qed.

Lemma lex_lt_head a b : lex_lt (0 :: a) (1 :: b).
Proof. exists O. cbn. split; [lia|]. split; [lia|]. intros j Hj; lia. Qed.

Lemma comb_sorted n k : StronglySorted lex_lt (comb n k).
Proof.
  revert k. induction n as [|n IH]; intros k; cbn [comb]; [destruct k; repeat constructor|].
  apply StronglySorted_app.
  - apply (StronglySorted_map lex_lt); [apply lex_lt_cons|apply IH].
  - destruct k; [constructor|]. apply (StronglySorted_map lex_lt); [apply lex_lt_cons|apply IH].
  - intros x y Hx Hy. destruct k; [destruct Hy|]. apply in_map_iff in Hx as [s [<- _]].
    apply in_map_iff in Hy as [s' [<- _]]. apply lex_lt_head.
Qed.

Definition visit_order (a b : list Z) : Prop :=
  (num_of_ones a < num_of_ones b)%nat \/ (num_of_ones a = num_of_ones b /\ lex_lt a b).

Lemma blocks_sorted n m : StronglySorted visit_order (blocks n m).
Proof.
  induction m as [|m IH]; [constructor|]. unfold blocks in *. rewrite seq_S, flat_map_app. cbn [flat_map].
  rewrite app_nil_r. apply StronglySorted_app; [exact IH| |].
  - apply (StronglySorted_impl_in lex_lt); [|apply comb_sorted]. intros x y Hx Hy H.
    apply comb_in in Hx, Hy. right. split; [lia|exact H].
  - intros x y Hx Hy. apply in_flat_map in Hx as [k [Hk Hx]]. apply in_seq in Hk.
    apply comb_in in Hx, Hy. left. lia.
Qed.

Theorem visit_sorted n f : (2 ^ n <= f)%nat ->
  StronglySorted visit_order (visit f (repeat 0 n)) /\ last (visit f (repeat 0 n)) [] = repeat 1 n.
Proof.
  intros Hf. destruct (blocks_hd n) as [l E]. destruct (blocks_chain n n ltac:(lia)) as [C [l' E']].
  pose proof (blocks_length n) as L.
  assert (V : visit f (repeat 0 n) = blocks n (S n)).
  { rewrite E in *. apply visit_chain; [exact C| |cbn in L; lia].
    exists l'. rewrite E', last_last. unfold highest. rewrite Nat.sub_diag, app_nil_r.
    rewrite repeat_length. reflexivity. }
  rewrite V. split; [apply blocks_sorted|]. rewrite E', last_last. unfold highest.
  rewrite Nat.sub_diag, app_nil_r. reflexivity.
Qed.

(** Matrix inversion, LU decomposition and determinant (LinAlg.v) *)
From Verif Require Import Machine FField FSum LinAlg LinSpec LinAlgProofs Det.
Open Scope nat_scope.

Section Proofs.
  Context {K : fops} (HK : flaws K).
  Add Field KF : (fl_field K HK).
  Notation mat := (mat K). Notation vect := (vect K).
  Implicit Types (A B U M : mat) (x y b : vect).

  (** ---- calc_inverse ---- *)
  Lemma inv_scale_spec n A i r c : i < n ->
    fold_left (fun B k => set_entry B i k (fdiv (B i k) (B i i))) (seq n n) A r c =
    if (r =? i) && (n <=? c) && (c <? n + n) then (A i c / A i i)%K else A r c.
  Proof.
    intros Hi. apply (row_fold_spec (fun B k => fdiv (B i k) (B i i)) i n (fun c => (A i c / A i i)%K) A n).
    intros B j Hj H. rewrite (H i j), (H i i) by lia. reflexivity.
  Qed.

  Lemma inv_rows_spec n i k A : k <= i -> i < n -> forall r c,
    fold_left (fun B rm => fold_left (fun B' cm => set_entry B' rm cm (fsub (B' rm cm) (fmul (B' i cm) (B' rm i)))) (seq n n) B)
      (rev (seq 0 k)) A r c =
    if (r <? k) && (n <=? c) && (c <? n + n) then (A r c - A i c * A r i)%K else A r c.
  Proof.
    intros Hk Hi. revert A. induction k as [|k IH]; intros A r c.
    - cbn. nb.
    - rewrite rev_seq_S. cbn [fold_left]. rewrite IH by lia.
      assert (E : forall r c, fold_left (fun B' cm => set_entry B' k cm (fsub (B' k cm) (fmul (B' i cm) (B' k i)))) (seq n n) A r c =
        if (r =? k) && (n <=? c) && (c <? n + n) then (A k c - A i c * A k i)%K else A r c).
      { apply (row_fold_spec (fun B' cm => fsub (B' k cm) (fmul (B' i cm) (B' k i))) k n (fun c => (A k c - A i c * A k i)%K) A n).
        intros B j Hj H. rewrite (H k j), (H i j), (H k i) by lia. reflexivity. }
      rewrite !E. nb; reflexivity.
  Qed.

  Lemma inv_back_step_spec n A i r c : i < n -> inv_back_step n A i r c =
    if (n <=? c) && (c <? n + n) then
      (if r =? i then (A i c / A i i)%K else if r <? i then (A r c - A i c / A i i * A r i)%K else A r c)
    else A r c.
  Proof.
    intros Hi. unfold inv_back_step. rewrite inv_rows_spec by lia. rewrite !inv_scale_spec by exact Hi. nb; reflexivity.
  Qed.

  Lemma inv_fold_spec n U : below_zero n n U -> (forall i, i < n -> U i i <> f0) ->
    forall k (M : mat), k <= n -> (forall r c, r < n -> c < n -> M r c = U r c) ->
    let M' := fold_left (inv_back_step n) (rev (seq 0 k)) M in
    (forall r c, (c < n \/ k <= r) -> M' r c = M r c) /\
    forall r q, r < k -> n <= q < n + n -> fsum k (fun c => U r c * M' c q)%K = M r q.
  Proof.
    intros Hb Hd. induction k as [|k IH]; intros M Hk HM; cbv zeta.
    - split; [reflexivity|]. intros; lia.
    - rewrite rev_seq_S. cbn [fold_left].
      destruct (IH (inv_back_step n M k)) as [H1 H2].
      + lia.
      + intros r c Hr Hc. rewrite inv_back_step_spec by lia. nb; apply HM; lia.
      + cbv zeta in H1, H2. set (M' := fold_left _ _ _) in *. split.
        * intros r c Hrc. rewrite H1 by lia. rewrite inv_back_step_spec by lia. nb.
        * intros r q Hr Hq. cbn [fsum]. rewrite (H1 k q) by lia. rewrite inv_back_step_spec by lia.
          destruct (Nat.eq_dec r k) as [->|Hne].
          -- rewrite fsum_0; [|exact HK|intros c Hc; rewrite (Hb k c) by lia; ring].
             nb. rewrite (HM k k) by lia. field. apply Hd; lia.
          -- rewrite H2 by lia. rewrite inv_back_step_spec by lia. nb. rewrite (HM r k), (HM k k) by lia. field. apply Hd; lia.
  Qed.

  Lemma right_left n A X : nonsingular n A -> right_inverse n A X -> right_inverse n X A.
  Proof.
    intros Hn H r c Hr Hc. apply (fsub_0 HK).
    apply (Hn (fun r => fsum n (fun k => X r k * A k c) - (if r =? c then f1 else f0))%K); [|exact Hr].
    intros i Hi.
    rewrite (fsum_ext n _ (fun r => fsum n (fun k => A i r * X r k * A k c) - A i r * (if r =? c then f1 else f0))%K).
    2:{ intros j Hj. rewrite (fsum_ext n (fun k => A i j * X j k * A k c)%K (fun k => A i j * (X j k * A k c))%K) by (intros; ring).
        rewrite fsum_mul_l by exact HK. ring. }
    rewrite fsum_sub, fsum_swap by exact HK.
    rewrite (fsum_ext n _ (fun k => (if i =? k then f1 else f0) * A k c)%K).
    2:{ intros k Hk. rewrite fsum_mul_r by exact HK. rewrite H by assumption. reflexivity. }
    rewrite (fsum_single HK n i) by (assumption || (intros j Hj Hne; nb; ring)).
    rewrite (fsum_single HK n c) by (assumption || (intros j Hj Hne; nb; ring)).
    rewrite !Nat.eqb_refl. ring.
  Qed.

  (** a left inverse shows that A is non-singular *)
  Lemma nonsingular_of_left_inverse n A (X : mat) : right_inverse n X A -> nonsingular n A.
  Proof.
    intros H x Hx c Hc.
    assert (E : fsum n (fun r => X c r * fsum n (fun k => A r k * x k))%K = f0).
    { apply fsum_0; [exact HK|]. intros r Hr. rewrite Hx by exact Hr. ring. }
    rewrite (fsum_ext n _ (fun r => fsum n (fun k => X c r * A r k * x k)%K)) in E.
    2:{ intros r Hr. rewrite <- fsum_mul_l by exact HK. apply fsum_ext. intros; ring. }
    rewrite fsum_swap in E by exact HK.
    rewrite (fsum_ext n _ (fun k => (if c =? k then f1 else f0) * x k)%K) in E.
    2:{ intros k Hk. rewrite fsum_mul_r by exact HK. rewrite H by assumption. reflexivity. }
    rewrite (fsum_single HK n c) in E; [|exact Hc|].
    - rewrite Nat.eqb_refl in E. rewrite <- E. ring.
    - intros j Hj Hne. nb. ring.
  Qed.

  Lemma augment_nonsingular n A : nonsingular n A -> nonsingular n (augment n A).
  Proof.
    intros H x Hx. apply H. intros r Hr. rewrite <- (Hx r Hr). apply fsum_ext. intros c Hc. unfold augment. nb.
  Qed.

  Theorem calc_inverse_ok n A : nonsingular n A ->
    right_inverse n A (calc_inverse n A) /\ right_inverse n (calc_inverse n A) A.
  Proof.
    intros Hs.
    assert (R : right_inverse n A (calc_inverse n A)).
    { destruct n as [|n0]; [intros r c Hr; lia|]. set (n := S n0) in *.
      set (U := triangularise n (n + n) (augment n A)).
      destruct (triangularise_spec HK n (n + n) (augment n A) ltac:(lia)) as [Hb _]. fold U in Hb.
      assert (HU : nonsingular n U).
      { intros x Hx. apply (augment_nonsingular n A Hs). apply (tri_kernel HK n (n + n) _ x ltac:(lia)). exact Hx. }
      pose proof (tri_diag_nonzero HK n U Hb HU) as Hd.
      destruct (inv_fold_spec n U Hb Hd n U (Nat.le_refl n) ltac:(reflexivity)) as [_ H]. cbv zeta in H.
      intros r c Hr Hc. unfold calc_inverse. fold U.
      set (M := fold_left _ _ _) in *.
      assert (SU : solves n U (fun r => U r (n + c)) (fun k => M k (n + c))).
      { intros r' Hr'. apply H; [exact Hr'|lia]. }
      apply (tri_solves HK n (n + n) (n + c) (augment n A)) in SU; [|lia]. specialize (SU r Hr).
      rewrite (fsum_ext n _ (fun k => augment n A r k * M k (n + c)%nat)%K).
      2:{ intros k Hk. unfold augment. nb. }
      rewrite SU. unfold augment. nb. }
    split; [exact R|]. apply right_left; assumption.
  Qed.

  (** ---- LU ---- *)
  Lemma lu_pivot_fold (A : mat) i l : forall el row,
    let r := snd (fold_left (fun '(el, row) k => if fgtb (A k i) el then (A k i, k) else (el, row)) l (el, row)) in
    (el <> f0 -> A row i = el -> (r = row \/ In r l) /\ A r i <> f0) /\
    (el = f0 -> (r = row /\ forall k, In k l -> A k i = f0) \/ (In r l /\ A r i <> f0)).
  Proof.
    induction l as [|k l IH]; intros el row; cbv zeta.
    - cbn. split; [intros H E; split; [left; reflexivity|congruence]|]. intros E. left. split; [reflexivity|intros k []].
    - cbn [fold_left]. destruct (fgtb (A k i) el) eqn:G.
      + assert (N : A k i <> f0) by (intros Z; rewrite Z, (fl_0gtb K HK) in G; discriminate).
        destruct (IH (A k i) k) as [H _]. destruct (H N eq_refl) as [H1 H2]. split.
        * intros _ _. split; [right|exact H2]. destruct H1 as [->|H1]; [left; reflexivity|right; exact H1].
        * intros _. right. split; [|exact H2]. destruct H1 as [->|H1]; [left; reflexivity|right; exact H1].
      + destruct (IH el row) as [H H']. split.
        * intros N E. destruct (H N E) as [H1 H2]. split; [|exact H2]. destruct H1 as [->|H1]; [left; reflexivity|right; right; exact H1].
        * intros ->. destruct (H' eq_refl) as [[H1 H2]|[H1 H2]].
          -- left. split; [exact H1|]. intros j [<-|Hj]; [|apply H2; exact Hj].
             rewrite (fl_gtb0 K HK) in G. apply (fl_eqb K HK). destruct (feqb (A k i) f0); [reflexivity|discriminate].
          -- right. split; [right; exact H1|exact H2].
  Qed.

  Lemma lu_pivot_spec n A i : i < n -> i <= lu_pivot n A i < n /\
    (A (lu_pivot n A i) i = f0 -> forall k, i <= k < n -> A k i = f0).
  Proof.
    intros Hi. unfold lu_pivot. destruct (lu_pivot_fold A i (seq i (n - i)) f0 i) as [_ H]. cbv zeta in H.
    set (r := snd _) in *. destruct (H eq_refl) as [[-> H2]|[H1 H2]].
    - split; [lia|]. intros _ k Hk. apply H2. apply in_seq. lia.
    - apply in_seq in H1. split; [lia|]. intros E. contradiction.
  Qed.

  Lemma lu_row_spec n A i j r c : i < n -> i <> j -> lu_row n A i j r c =
    if r =? j then (if c =? i then (A j i / A i i)%K else if (i <? c) && (c <? n) then (A j c - A j i / A i i * A i c)%K else A j c)
    else A r c.
  Proof.
    intros Hi Hj. unfold lu_row.
    rewrite (row_fold_spec (fun B k => fsub (B j k) (fmul (B j i) (B i k))) j (S i) (fun c => (A j c - A j i / A i i * A i c)%K)).
    - unfold set_entry. nb; reflexivity.
    - intros B k Hk H. rewrite (H j k), (H i k), (H j i) by lia. unfold set_entry. nb.
  Qed.

  Lemma lu_rows_spec n A i cnt : i < n -> forall r c,
    fold_left (fun B j => lu_row n B i j) (seq (S i) cnt) A r c =
    if (i <? r) && (r <? S i + cnt) then (if c =? i then (A r i / A i i)%K else if (i <? c) && (c <? n) then (A r c - A r i / A i i * A i c)%K else A r c)
    else A r c.
  Proof.
    intros Hi. induction cnt as [|cnt IH]; intros r c.
    - cbn [seq fold_left]. nb.
    - rewrite seq_S, fold_left_app. cbn [fold_left]. rewrite lu_row_spec by lia. rewrite !IH. nb; reflexivity.
  Qed.

  Definition LUinv (n i : nat) (A0 : mat) (s : lu K) : Prop :=
    perm_on n (lu_p s) /\
    forall r c, r < n -> c < n -> A0 (lu_p s r) c =
      (fsum i (fun k => lu_L (lu_a s) r k * lu_U (lu_a s) k c) + (if (r <? i) || (c <? i) then f0 else lu_a s r c))%K.

  Definition lu_swapped (n : nat) (s : lu K) (i : nat) : lu K :=
    if lu_pivot n (lu_a s) i =? i then s
    else mk_lu (swap_rows (lu_a s) i (lu_pivot n (lu_a s) i)) (swap_perm (lu_p s) i (lu_pivot n (lu_a s) i)) (lu_cnt s + 1)%Z.

  Lemma lu_swapped_a n s i r c : lu_a (lu_swapped n s i) r c = lu_a s (if r =? i then lu_pivot n (lu_a s) i else if r =? lu_pivot n (lu_a s) i then i else r) c.
  Proof. unfold lu_swapped. destruct (Nat.eqb_spec (lu_pivot n (lu_a s) i) i) as [E|E]; cbn [lu_a]; unfold swap_rows; [rewrite E|]; nb; reflexivity. Qed.
  Lemma lu_swapped_p n s i r : lu_p (lu_swapped n s i) r = lu_p s (if r =? i then lu_pivot n (lu_a s) i else if r =? lu_pivot n (lu_a s) i then i else r).
  Proof. unfold lu_swapped. destruct (Nat.eqb_spec (lu_pivot n (lu_a s) i) i) as [E|E]; cbn [lu_p]; unfold swap_perm; [rewrite E|]; nb; reflexivity. Qed.

  Lemma lu_step_p n s i : lu_p (lu_step n s i) = lu_p (lu_swapped n s i).
  Proof. reflexivity. Qed.
  Lemma lu_step_cnt n s i : lu_cnt (lu_step n s i) = lu_cnt (lu_swapped n s i).
  Proof. reflexivity. Qed.
  Lemma lu_step_a n s i r c : i < n -> r < n -> lu_a (lu_step n s i) r c =
    let A := lu_a (lu_swapped n s i) in
    if i <? r then (if c =? i then (A r i / A i i)%K else if (i <? c) && (c <? n) then (A r c - A r i / A i i * A i c)%K else A r c) else A r c.
  Proof.
    intros Hi Hr. change (lu_a (lu_step n s i)) with (fold_left (fun B j => lu_row n B i j) (seq (S i) (n - S i)) (lu_a (lu_swapped n s i))).
    rewrite lu_rows_spec by exact Hi. cbv zeta. nb; reflexivity.
  Qed.

  Lemma swapped_pivot n s i : i < n -> let A := lu_a (lu_swapped n s i) in
    A i i = f0 -> forall r, i <= r < n -> A r i = f0.
  Proof.
    intros Hi. cbv zeta. destruct (lu_pivot_spec n (lu_a s) i Hi) as [R1 R2].
    rewrite lu_swapped_a, Nat.eqb_refl. intros E r Hr. rewrite lu_swapped_a. apply R2; [exact E|]. nb.
  Qed.

  Lemma lu_swap_inv n i A0 s : i < n -> LUinv n i A0 s -> LUinv n i A0 (lu_swapped n s i).
  Proof.
    intros Hi [[P1 [P2 P3]] H]. destruct (lu_pivot_spec n (lu_a s) i Hi) as [R _]. set (m := lu_pivot n (lu_a s) i) in *.
    set (sg := fun r => if r =? i then m else if r =? m then i else r).
    assert (Sg : forall r, sg (sg r) = r) by (intros r; unfold sg; nb).
    assert (Sn : forall r, r < n -> sg r < n) by (intros r Hr; unfold sg; nb).
    split; [split; [|split]|].
    - intros r Hr. rewrite lu_swapped_p. apply P1. apply Sn; exact Hr.
    - intros r r' Hr Hr'. rewrite !lu_swapped_p. fold m. fold (sg r) (sg r'). intros E. apply P2 in E; [|apply Sn; assumption..].
      rewrite <- (Sg r), E. apply Sg.
    - intros j Hj. destruct (P3 j Hj) as [r [Hr E]]. exists (sg r). split; [apply Sn; exact Hr|].
      rewrite lu_swapped_p. fold m. fold (sg (sg r)). rewrite Sg. exact E.
    - intros r c Hr Hc. rewrite lu_swapped_p. fold m. fold (sg r). rewrite (H (sg r) c) by auto.
      f_equal.
      + apply fsum_ext. intros k Hk. unfold lu_L, lu_U. rewrite !lu_swapped_a. fold m. fold (sg r).
        assert (Ek : forall c, lu_a s (if k =? i then m else if k =? m then i else k) c = lu_a s k c) by (intros c'; f_equal; nb).
        rewrite Ek. unfold sg. nb.
      + rewrite lu_swapped_a. fold m. fold (sg r). unfold sg. nb.
  Qed.

  Lemma lu_step_inv n i A0 s : i < n -> LUinv n i A0 s -> LUinv n (S i) A0 (lu_step n s i).
  Proof.
    intros Hi HI. apply lu_swap_inv in HI; [|exact Hi]. destruct HI as [P H]. split.
    - rewrite lu_step_p. exact P.
    - intros r c Hr Hc. rewrite lu_step_p. rewrite H by assumption. pose proof (swapped_pivot n s i Hi) as PV. cbv zeta in PV.
      set (A := lu_a (lu_swapped n s i)) in *. cbn [fsum].
      rewrite (fsum_ext i (fun k => lu_L (lu_a (lu_step n s i)) r k * lu_U (lu_a (lu_step n s i)) k c)%K (fun k => lu_L A r k * lu_U A k c)%K).
      2:{ intros k Hk. unfold lu_L, lu_U. rewrite !lu_step_a by lia. cbv zeta. fold A. nb. }
      assert (X : ((if (r <? i) || (c <? i) then f0 else A r c) =
        lu_L (lu_a (lu_step n s i)) r i * lu_U (lu_a (lu_step n s i)) i c + (if (r <? S i) || (c <? S i) then f0 else lu_a (lu_step n s i) r c))%K).
      { unfold lu_L, lu_U. rewrite !lu_step_a by lia. cbv zeta. fold A.
        destruct (K_dec HK (A i i) f0) as [Z|NZ].
        - assert (Hri : i <= r -> A r i = f0) by (intros; apply PV; [exact Z|lia]).
          nb; try ring; try (rewrite Hri by lia; rewrite ?Z; ring). 
          all: rewrite Hri, (fdiv0_l HK) by lia; ring.
        - nb; try ring; try (field; exact NZ). }
      rewrite X. ring.
  Qed.

  Lemma lu_ok n A0 : LUinv n n A0 (calc_lu_decomposition n A0).
  Proof.
    unfold calc_lu_decomposition.
    assert (G : forall k, k <= n -> LUinv n k A0 (fold_left (lu_step n) (seq 0 k) (mk_lu A0 (fun i => i) (Z.of_nat n)))).
    { induction k as [|k IH]; intros Hk.
      - split.
        + split; [intros; assumption|]. split; [intros; assumption|]. intros j Hj. exists j. split; [exact Hj|reflexivity].
        + intros r c Hr Hc. cbn. ring.
      - rewrite seq_S, fold_left_app. cbn [fold_left Nat.add]. apply lu_step_inv; [lia|]. apply IH. lia. }
    apply G. lia.
  Qed.

  Theorem lu_decomposition_ok n A0 : let s := calc_lu_decomposition n A0 in
    perm_on n (lu_p s) /\
    forall r c, r < n -> c < n -> A0 (lu_p s r) c = fsum n (fun k => lu_L (lu_a s) r k * lu_U (lu_a s) k c)%K.
  Proof.
    cbv zeta. destruct (lu_ok n A0) as [P H]. split; [exact P|]. intros r c Hr Hc. rewrite H by assumption. nb. ring.
  Qed.

  (** ---- solving with the decomposition ---- *)
  Lemma acc_loop (A : mat) i l : forall y, (forall k, In k l -> k <> i) -> forall c,
    fold_left (fun y k => upd_vec y i (fsub (y i) (fmul (A i k) (y k)))) l y c =
    if c =? i then fold_left (fun a k => a - A i k * y k)%K l (y i) else y c.
  Proof.
    induction l as [|k l IH]; intros y Hl c; cbn [fold_left].
    - nb.
    - rewrite IH by (intros j Hj; apply Hl; right; exact Hj).
      assert (E : forall l a, (forall j, In j l -> j <> i) -> fold_left (fun a k0 => (a - A i k0 * upd_vec y i (y i - A i k * y k) k0)%K) l a = fold_left (fun a k => a - A i k * y k)%K l a).
      { clear. induction l as [|j l IH]; intros a H; [reflexivity|]. cbn [fold_left]. rewrite IH by (intros; apply H; right; assumption).
        f_equal. unfold upd_vec. destruct (Nat.eqb_spec j i) as [E|E]; [exfalso; apply (H j); [left; reflexivity|exact E]|reflexivity]. }
      rewrite E by (intros j Hj; apply Hl; right; exact Hj). unfold upd_vec. nb.
  Qed.

  Lemma acc_sum (g : nat -> K) s cnt : forall a, fold_left (fun a k => a - g k)%K (seq s cnt) a = (a - fsum cnt (fun k => g (s + k)%nat))%K.
  Proof.
    induction cnt as [|cnt IH]; intros a.
    - cbn. ring.
    - rewrite seq_S, fold_left_app, IH. cbn [fold_left fsum]. ring.
  Qed.

  Lemma lu_forward_spec n A b : forall i, i < n ->
    (lu_forward n A b i + fsum i (fun k => A i k * lu_forward n A b k))%K = b i.
  Proof.
    unfold lu_forward.
    set (stp := fun x i => fold_left (fun y k => upd_vec y i (fsub (y i) (fmul (A i k) (y k)))) (seq 0 i) (upd_vec x i (b i))).
    assert (St : forall x i c, stp x i c = if c =? i then (b i - fsum i (fun k => A i k * x k))%K else x c).
    { intros x i c. unfold stp. rewrite acc_loop by (intros k Hk; apply in_seq in Hk; lia).
      rewrite (acc_sum (fun k => A i k * upd_vec x i (b i) k)%K). unfold upd_vec. rewrite Nat.eqb_refl. cbn [Nat.add].
      rewrite (fsum_ext i (fun k => A i k * (if k =? i then b i else x k))%K (fun k => A i k * x k)%K); [nb|].
      intros k Hk. nb. }
    assert (G : forall m, let x := fold_left stp (seq 0 m) (fun _ => f0) in forall i, i < m -> (x i + fsum i (fun k => A i k * x k))%K = b i).
    { induction m as [|m IH]; cbv zeta; intros i Hi; [lia|]. rewrite seq_S, fold_left_app. cbn [fold_left Nat.add].
      set (x := fold_left stp (seq 0 m) (fun _ => f0)) in *. cbv zeta in IH.
      rewrite (fsum_ext i (fun k => A i k * stp x m k)%K (fun k => A i k * x k)%K) by (intros k Hk; rewrite St; nb).
      rewrite St. destruct (Nat.eqb_spec i m) as [->|N]; [ring|]. apply IH. lia. }
    intros i Hi. apply G. exact Hi.
  Qed.

  Lemma lu_backward_spec n A x0 : (forall i, i < n -> A i i <> f0) -> forall i, i < n ->
    fsum n (fun c => lu_U A i c * lu_backward n A x0 c)%K = x0 i.
  Proof.
    intros Hd. unfold lu_backward.
    set (stp := fun (x : vect) i => let y := fold_left (fun y k => upd_vec y i (fsub (y i) (fmul (A i k) (y k)))) (seq (S i) (n - S i)) x in upd_vec y i (fdiv (y i) (A i i))).
    assert (St : forall x i c, stp x i c = if c =? i then ((x i - fsum (n - S i) (fun k => A i (S i + k)%nat * x (S i + k)%nat)) / A i i)%K else x c).
    { intros x i c. unfold stp, upd_vec at 1. destruct (Nat.eqb_spec c i) as [->|N].
      - rewrite acc_loop by (intros k Hk; apply in_seq in Hk; lia). rewrite Nat.eqb_refl.
        rewrite (acc_sum (fun k => A i k * x k)%K). reflexivity.
      - rewrite acc_loop by (intros k Hk; apply in_seq in Hk; lia). nb. }
    assert (G : forall m x, m <= n -> let x' := fold_left stp (rev (seq 0 m)) x in
      (forall i, m <= i -> x' i = x i) /\ forall i, i < m -> (A i i * x' i + fsum (n - S i) (fun k => A i (S i + k)%nat * x' (S i + k)%nat))%K = x i).
    { induction m as [|m IH]; intros x Hm; cbv zeta; [split; [reflexivity|intros; lia]|].
      rewrite rev_seq_S. cbn [fold_left]. destruct (IH (stp x m) ltac:(lia)) as [H1 H2]. cbv zeta in H1, H2.
      set (x' := fold_left stp (rev (seq 0 m)) (stp x m)) in *. split.
      - intros i Hi. rewrite H1 by lia. rewrite St. nb.
      - intros i Hi. destruct (Nat.eq_dec i m) as [->|N].
        + rewrite (fsum_ext _ (fun k => A m (S m + k)%nat * x' (S m + k)%nat)%K (fun k => A m (S m + k)%nat * x (S m + k)%nat)%K).
          2:{ intros k Hk. rewrite H1 by lia. rewrite St. nb. }
          rewrite H1 by lia. rewrite St, Nat.eqb_refl. field. apply Hd; lia.
        + rewrite H2 by lia. rewrite St. nb. }
    intros i Hi. destruct (G n x0 (Nat.le_refl n)) as [_ H]. cbv zeta in H. rewrite <- (H i Hi).
    set (x' := fold_left stp (rev (seq 0 n)) x0). replace n with (i + S (n - S i)) at 1 by lia.
    rewrite fsum_split, fsum_S_l, Nat.add_0_r by exact HK.
    rewrite (fsum_0 HK i) by (intros c Hc; unfold lu_U; nb; ring).
    rewrite (fsum_ext _ (fun k => lu_U A i (i + S k)%nat * x' (i + S k)%nat)%K (fun k => A i (S i + k)%nat * x' (S i + k)%nat)%K).
    2:{ intros k Hk. replace (i + S k) with (S i + k) by lia. unfold lu_U. nb. }
    unfold lu_U. nb. ring.
  Qed.

  Lemma lu_diag n A0 : nonsingular n A0 -> forall i, i < n -> lu_a (calc_lu_decomposition n A0) i i <> f0.
  Proof.
    intros Hs. destruct (lu_decomposition_ok n A0) as [[P1 [P2 P3]] H]. set (s := calc_lu_decomposition n A0) in *.
    assert (D : forall i, i < n -> lu_U (lu_a s) i i <> f0).
    { apply (tri_diag_nonzero HK n).
      - intros r c Hc Hr. unfold lu_U. nb.
      - intros x Hx. apply Hs. intros r Hr. destruct (P3 r Hr) as [r' [Hr' <-]].
        rewrite (fsum_ext n _ (fun c => fsum n (fun k => lu_L (lu_a s) r' k * (lu_U (lu_a s) k c * x c)))%K).
        2:{ intros c Hc. rewrite H by assumption. rewrite <- fsum_mul_r by exact HK. apply fsum_ext. intros; ring. }
        rewrite fsum_swap by exact HK. apply fsum_0; [exact HK|]. intros k Hk. rewrite fsum_mul_l, Hx by assumption. ring. }
    intros i Hi. specialize (D i Hi). unfold lu_U in D. rewrite Nat.leb_refl in D. exact D.
  Qed.

  (** the combination: any b' with b' r = b (p r) *)
  Lemma lu_solve_gen n A0 (b' b : vect) : nonsingular n A0 -> let s := calc_lu_decomposition n A0 in
    (forall r, r < n -> b' r = b (lu_p s r)) ->
    solves n A0 b (lu_backward n (lu_a s) (lu_forward n (lu_a s) b')).
  Proof.
    intros Hs. cbv zeta. destruct (lu_decomposition_ok n A0) as [[P1 [P2 P3]] H]. pose proof (lu_diag n A0 Hs) as D.
    set (s := calc_lu_decomposition n A0) in *. intros Hb r Hr.
    destruct (P3 r Hr) as [r' [Hr' <-]].
    set (y := lu_forward n (lu_a s) b'). set (x := lu_backward n (lu_a s) y).
    rewrite (fsum_ext n _ (fun c => fsum n (fun k => lu_L (lu_a s) r' k * (lu_U (lu_a s) k c * x c)))%K).
    2:{ intros c Hc. rewrite H by assumption. rewrite <- fsum_mul_r by exact HK. apply fsum_ext. intros; ring. }
    rewrite fsum_swap by exact HK.
    rewrite (fsum_ext n _ (fun k => lu_L (lu_a s) r' k * y k)%K).
    2:{ intros k Hk. rewrite fsum_mul_l by exact HK. unfold x. rewrite lu_backward_spec by assumption. reflexivity. }
    rewrite <- Hb by exact Hr'. rewrite <- (lu_forward_spec n (lu_a s) b' r' Hr'). fold y.
    replace n with (r' + S (n - S r')) at 1 by lia. rewrite fsum_split, fsum_S_l, Nat.add_0_r by exact HK.
    rewrite (fsum_ext r' (fun k => lu_L (lu_a s) r' k * y k)%K (fun k => lu_a s r' k * y k)%K) by (intros k Hk; unfold lu_L; nb).
    rewrite (fsum_0 HK (n - S r')) by (intros k Hk; unfold lu_L; nb; ring). unfold lu_L. nb. ring.
  Qed.

  Theorem solve_lu_ok n A0 b : nonsingular n A0 -> let s := calc_lu_decomposition n A0 in
    solves n A0 b (solve_lu n (lu_a s) (lu_p s) b).
  Proof. intros Hs. cbv zeta. unfold solve_lu. apply lu_solve_gen; [exact Hs|]. reflexivity. Qed.

  Theorem calc_inverse_lu_ok n A0 : nonsingular n A0 -> let s := calc_lu_decomposition n A0 in
    right_inverse n A0 (calc_inverse_lu n (lu_a s) (lu_p s)) /\ right_inverse n (calc_inverse_lu n (lu_a s) (lu_p s)) A0.
  Proof.
    intros Hs. cbv zeta. set (s := calc_lu_decomposition n A0).
    assert (R : right_inverse n A0 (calc_inverse_lu n (lu_a s) (lu_p s))).
    { intros r c Hr Hc. unfold calc_inverse_lu.
      apply (lu_solve_gen n A0 (fun i => if lu_p s i =? c then f1 else f0) (fun i => if i =? c then f1 else f0) Hs); [reflexivity|exact Hr]. }
    split; [exact R|]. apply right_left; assumption.
  Qed.

  (** ---- determinant ---- *)
  Lemma det_add_rows n i (a : nat -> K) A t : i < n -> t <= n ->
    det n (fun r c => if (i <? r) && (r <? t) then (A r c + a r * A i c)%K else A r c) = det n A.
  Proof.
    intros Hi. induction t as [|t IH]; intros Ht.
    - apply det_ext. intros r c Hr Hc. nb.
    - rewrite <- IH by lia. destruct (Nat.le_gt_cases t i) as [C|C].
      + apply det_ext. intros r c Hr Hc. nb.
      + apply (det_add_row HK n i t _ _ (a t)); [lia|lia|lia| |].
        * intros r c Hr Hc Hne. nb.
        * intros c Hc. nb.
  Qed.

  Definition lu_V (i : nat) A : mat := fun r c => if (c <? i) && (c <? r) then f0 else A r c.
  Definition zsgn (z : Z) : K := if Z.even z then f1 else (- (1))%K.

  Lemma zsgn_1 z : zsgn (z + 1) = (- zsgn z)%K.
  Proof. unfold zsgn. rewrite Z.even_add. destruct (Z.even z); cbn; ring. Qed.

  Lemma lu_step_det n i s A0 : i < n ->
    det n A0 = (zsgn (lu_cnt s - Z.of_nat n) * det n (lu_V i (lu_a s)))%K ->
    det n A0 = (zsgn (lu_cnt (lu_step n s i) - Z.of_nat n) * det n (lu_V (S i) (lu_a (lu_step n s i))))%K.
  Proof.
    intros Hi ->. destruct (lu_pivot_spec n (lu_a s) i Hi) as [R _]. rewrite lu_step_cnt.
    assert (E1 : (zsgn (lu_cnt s - Z.of_nat n) * det n (lu_V i (lu_a s)) =
      zsgn (lu_cnt (lu_swapped n s i) - Z.of_nat n) * det n (lu_V i (lu_a (lu_swapped n s i))))%K).
    { set (m := lu_pivot n (lu_a s) i) in *. destruct (Nat.eq_dec m i) as [Em|Em].
      - assert (lu_swapped n s i = s) as -> by (unfold lu_swapped; fold m; rewrite Em, Nat.eqb_refl; reflexivity). reflexivity.
      - assert (lu_cnt (lu_swapped n s i) = lu_cnt s + 1)%Z as -> by (unfold lu_swapped; fold m; nb).
        replace (lu_cnt s + 1 - Z.of_nat n)%Z with (lu_cnt s - Z.of_nat n + 1)%Z by lia. rewrite zsgn_1.
        rewrite (det_swap HK n i m (lu_V i (lu_a s)) (lu_V i (lu_a (lu_swapped n s i)))).
        + ring.
        + lia.
        + exact Hi.
        + lia.
        + intros r c Hr Hc N1 N2. unfold lu_V. rewrite lu_swapped_a. fold m. nb.
        + intros c Hc. unfold lu_V. rewrite lu_swapped_a. fold m. nb.
        + intros c Hc. unfold lu_V. rewrite lu_swapped_a. fold m. nb. }
    rewrite E1. f_equal. pose proof (swapped_pivot n s i Hi) as PV. cbv zeta in PV. set (A := lu_a (lu_swapped n s i)) in *.
    rewrite <- (det_add_rows n i (fun r => (- (A r i / A i i))%K) (lu_V i A) n Hi (Nat.le_refl n)).
    apply det_ext. intros r c Hr Hc. unfold lu_V. rewrite lu_step_a by assumption. cbv zeta. fold A.
    destruct (Nat.eq_dec c i) as [->|Hci].
    - destruct (K_dec HK (A i i) f0) as [Z|NZ].
      + nb. rewrite (PV Z r) by lia. rewrite Z. ring.
      + nb. field; exact NZ.
    - nb; try ring.
  Qed.

  Lemma lu_cnt_range n A0 k : let s := fold_left (lu_step n) (seq 0 k) (mk_lu A0 (fun i => i) (Z.of_nat n)) in
    (Z.of_nat n <= lu_cnt s <= Z.of_nat n + Z.of_nat k)%Z.
  Proof.
    induction k as [|k IH]; cbv zeta in *; [cbn; lia|]. rewrite seq_S, fold_left_app. cbn [fold_left Nat.add].
    set (s := fold_left _ _ _) in *. rewrite lu_step_cnt. unfold lu_swapped. destruct (_ =? _); cbn [lu_cnt]; lia.
  Qed.

  Lemma diag_fold (A : mat) m : forall a, fold_left (fun d i => fmul d (A i i)) (seq 1 m) a = (a * fprod m (fun i => A (S i) (S i)))%K.
  Proof.
    induction m as [|m IH]; intros a; [cbn; ring|]. rewrite seq_S, fold_left_app, IH. cbn [fold_left fprod Nat.add]. ring.
  Qed.

  Theorem calc_determinant_lu_ok n A0 : 0 < n -> (Z.of_nat n < two31)%Z -> let s := calc_lu_decomposition n A0 in
    calc_determinant_lu n (lu_a s) (lu_cnt s) = Some (det n A0).
  Proof.
    intros Hn Hlt. cbv zeta.
    assert (G : forall k, k <= n -> let s := fold_left (lu_step n) (seq 0 k) (mk_lu A0 (fun i => i) (Z.of_nat n)) in
      det n A0 = (zsgn (lu_cnt s - Z.of_nat n) * det n (lu_V k (lu_a s)))%K).
    { induction k as [|k IH]; intros Hk; cbv zeta in *.
      - cbn [seq fold_left lu_cnt lu_a]. rewrite Z.sub_diag. unfold zsgn. cbn [Z.even].
        rewrite (det_ext n (lu_V 0 A0) A0); [ring|]. intros r c Hr Hc. unfold lu_V. nb.
      - rewrite seq_S, fold_left_app. cbn [fold_left Nat.add]. apply lu_step_det; [lia|]. apply IH. lia. }
    specialize (G n (Nat.le_refl n)). cbv zeta in G. pose proof (lu_cnt_range n A0 n) as C. cbv zeta in C.
    fold (calc_lu_decomposition n A0) in G, C. set (s := calc_lu_decomposition n A0) in *.
    rewrite (det_upper HK n (lu_V n (lu_a s))) in G by (intros r c Hc; unfold lu_V; nb).
    assert (E : fprod n (fun i => lu_V n (lu_a s) i i) = fprod n (fun i => lu_a s i i)).
    { clear -HK. assert (Y : forall i, lu_V n (lu_a s) i i = lu_a s i i) by (intros i; unfold lu_V; nb).
      generalize n at 1 3. induction n0 as [|m IH]; [reflexivity|]. cbn [fprod]. rewrite IH, Y. reflexivity. }
    rewrite E in G. destruct n as [|n']; [lia|]. unfold calc_determinant_lu. rewrite diag_fold.
    replace (S n' - 1) with n' by lia. rewrite fprod_S_l in G by exact HK. rewrite G. f_equal.
    assert (W : wrap32 (lu_cnt s - Z.of_nat (S n')) = (lu_cnt s - Z.of_nat (S n'))%Z) by (apply wrap32_small; unfold two31, two32 in *; lia).
    rewrite W. unfold zsgn. rewrite Zeven_mod.
    unfold Zeq_bool. destruct (_ ?= 0)%Z eqn:Q.
    - apply Z.compare_eq in Q. rewrite Q. cbn. ring.
    - destruct (Z.eqb_spec ((lu_cnt s - Z.of_nat (S n')) mod 2) 0) as [X|X]; [rewrite X in Q; discriminate|ring].
    - destruct (Z.eqb_spec ((lu_cnt s - Z.of_nat (S n')) mod 2) 0) as [X|X]; [rewrite X in Q; discriminate|ring].
  Qed.
End Proofs.

(** Correctness of the transposed Vandermonde solver *)
From Verif Require Import Machine FField FSum LinAlg LinSpec LinAlgProofs LinAlgProofs2 FPoly Vandermonde.
Open Scope nat_scope.

Section Proofs.
  Context {K : fops} (HK : flaws K).
  Add Field KF : (fl_field K HK).
  Implicit Types (c v : nat -> K).

  Lemma asc_fold (a : K) s cnt : forall c k,
    fold_left (fun c j => upd_vec c j (fsub (c j) (fmul a (c (S j))))) (seq s cnt) c k =
    if (s <=? k) && (k <? s + cnt) then (c k - a * c (S k))%K else c k.
  Proof.
    induction cnt as [|cnt IH]; intros c k.
    - cbn [seq fold_left]. nb.
    - rewrite seq_S, fold_left_app. cbn [fold_left]. unfold upd_vec at 1. rewrite !IH. nb.
  Qed.

  (** value of the master polynomial after step i (i+1 factors) *)
  Definition Mval (N i : nat) c (z : K) : K :=
    (pw z (S i) + ueval (S i) (fun m => c (N - 1 - i + m)%nat) z)%K.

  Lemma master_step_spec N v c i : 0 < i < N -> (forall k, k < N - i -> c k = f0) ->
    (forall k, k < N - S i -> master_step N v c i k = f0) /\
    forall z, Mval N i (master_step N v c i) z = (Mval N (i - 1) c z * (z - v i))%K.
  Proof.
    intros Hi Hz. assert (E : forall k, master_step N v c i k = if k =? N - 1 then (c k - v i)%K else if (N - 1 - i <=? k) && (k <? N - 1) then (c k - v i * c (S k))%K else c k).
    { intros k. unfold master_step. unfold upd_vec at 1. rewrite !asc_fold.
      replace (N - 1 - i + i) with (N - 1) by lia. nb. }
    split.
    - intros k Hk. rewrite E. nb. apply Hz; lia.
    - intros z. unfold Mval. destruct i as [|i]; [lia|]. replace (S i - 1) with i by lia.
      rewrite (ueval_ext (S (S i)) _ (fun m => c (N - 1 - S i + m)%nat - v (S i) * (if m =? S i then f1 else c (N - 1 - i + m)%nat))%K).
      2:{ intros m Hm. rewrite E. destruct (Nat.eqb_spec m (S i)) as [->|Nm].
          - replace (N - 1 - S i + S i) with (N - 1) by lia. rewrite Nat.eqb_refl. ring.
          - replace (S (N - 1 - S i + m)) with (N - 1 - i + m) by lia. nb. }
      rewrite (ueval_sub HK), (ueval_scale HK).
      rewrite (ueval_S_l HK (S i) (fun m => c (N - 1 - S i + m)%nat)).
      rewrite (Hz (N - 1 - S i + 0)%nat) by lia.
      rewrite (ueval_ext (S i) (fun m => c (N - 1 - S i + S m)%nat) (fun m => c (N - 1 - i + m)%nat)).
      2:{ intros m Hm. f_equal. lia. }
      rewrite (ueval_S (S i)). rewrite Nat.eqb_refl.
      rewrite (ueval_ext (S i) (fun m => if m =? S i then f1 else c (N - 1 - i + m)%nat) (fun m => c (N - 1 - i + m)%nat)).
      2:{ intros m Hm. nb. }
      cbn [pw]. ring.
  Qed.

  Lemma master_spec N v z : 0 < N -> (pw z N + ueval N (master N v) z)%K = nodal N v z.
  Proof.
    intros HN. unfold master.
    assert (G : forall k, k < N -> let c := fold_left (master_step N v) (seq 1 k) (upd_vec (fun _ => f0) (N - 1) (fopp (v 0))) in
      (forall j, j < N - S k -> c j = f0) /\ forall z, Mval N k c z = nodal (S k) v z).
    { induction k as [|k IH]; intros Hk; cbv zeta.
      - cbn [seq fold_left]. split.
        + intros j Hj. unfold upd_vec. nb.
        + intros z'. unfold Mval, ueval, upd_vec. cbn [fsum pw nodal]. replace (N - 1 - 0 + 0) with (N - 1) by lia. rewrite Nat.eqb_refl. ring.
      - destruct IH as [I1 I2]; [lia|]. rewrite seq_S, fold_left_app. cbn [fold_left Nat.add].
        set (c := fold_left _ _ _) in *. destruct (master_step_spec N v c (S k) ltac:(lia)) as [S1 S2].
        + intros j Hj. apply I1. lia.
        + split; [exact S1|]. intros z'. rewrite S2. replace (S k - 1) with k by lia. rewrite I2. reflexivity. }
    destruct (G (N - 1) ltac:(lia)) as [_ G2]. replace (S (N - 1)) with N in G2 by lia. rewrite <- G2.
    unfold Mval. replace (S (N - 1)) with N by lia. f_equal. apply ueval_ext. intros m Hm. f_equal. lia.
  Qed.

  (** quotient coefficients of the synthetic division, b_{N-1} = 1 *)
  Fixpoint bq (c : nat -> K) (a : K) (N d : nat) : K := (* d = N-1-j *)
    match d with O => f1 | S d' => (c (N - 1 - d')%nat + a * bq c a N d')%K end.

  Lemma synth_loop_spec N c nums a : 0 < N ->
    synth_loop N c nums a = (bq c a N (N - 1), ueval N (fun j => bq c a N (N - 1 - j)) a * f0 + fsum N (fun j => nums j * bq c a N (N - 1 - j)%nat), ueval N (fun j => bq c a N (N - 1 - j)) a)%K.
  Proof.
    intros HN. unfold synth_loop.
    assert (G : forall d, d < N -> fold_left (synth_body c nums a)
      (rev (seq (N - d) d)) (f1, nums (N - 1)%nat, f1) =
      (bq c a N d, fsum (S d) (fun e => nums (N - 1 - d + e)%nat * bq c a N (d - e))%K, ueval (S d) (fun e => bq c a N (d - e)) a)).
    { induction d as [|d IH]; intros Hd.
      - cbn. unfold ueval. cbn. replace (N - 1 - 0 + 0) with (N - 1) by lia. f_equal; [f_equal|]; ring.
      - replace (seq (N - S d) (S d)) with ((N - S d)%nat :: seq (N - d) d).
        2:{ cbn [seq]. f_equal. f_equal. lia. }
        cbn [rev]. rewrite fold_left_app. rewrite IH by lia. cbn [fold_left synth_body].
        replace (c (N - S d)%nat + a * bq c a N d)%K with (bq c a N (S d)).
        2:{ cbn [bq]. f_equal. f_equal. lia. }
        f_equal; [f_equal|].
        + rewrite (fsum_S_l HK (S d)). replace (S d - 0) with (S d) by lia. replace (N - 1 - S d + 0) with (N - S d - 1) by lia.
          rewrite (fsum_ext (S d) (fun e => nums (N - 1 - S d + S e)%nat * bq c a N (S d - S e))%K (fun e => nums (N - 1 - d + e)%nat * bq c a N (d - e))%K).
          2:{ intros e He. replace (N - 1 - S d + S e) with (N - 1 - d + e) by lia. reflexivity. }
          ring.
        + rewrite (ueval_S_l HK (S d)). replace (S d - 0) with (S d) by lia.
          change (fun i => bq c a N (S d - S i)) with (fun e => bq c a N (d - e)). ring. }
    specialize (G (N - 1) ltac:(lia)). replace (N - (N - 1)) with 1 in G by lia. replace (S (N - 1)) with N in G by lia.
    rewrite G. f_equal. f_equal. replace (N - 1 - (N - 1)) with 0 by lia. cbn [Nat.add]. ring.
  Qed.

  Section Solve.
    Variables (N : nat) (v nums : nat -> K).
    Hypothesis HN : 0 < N.
    Hypothesis Hd : distinct N v.
    Hypothesis Hnz : forall i, i < N -> v i <> f0.
    Let b (i j : nat) : K := bq (master N v) (v i) N (N - 1 - j).

    (** (z - v_i) Q_i(z) = M(z) *)
    Lemma quot_master i z : i < N -> ((z - v i) * ueval N (b i) z)%K = nodal N v z.
    Proof.
      intros Hi.
      assert (D : forall z, (pw z N + ueval N (master N v) z)%K =
        ((z - v i) * ueval N (b i) z + (master N v 0%nat + v i * b i 0%nat))%K).
      { intros y.
        set (c' := fun j => if j =? N then f1 else master N v j).
        set (b' := fun j => if j =? N then f0 else b i j).
        assert (E1 : (pw y N + ueval N (master N v) y)%K = ueval (S N) c' y).
        { rewrite ueval_S. rewrite (ueval_ext N c' (master N v)) by (intros k Hk; unfold c'; nb).
          unfold c'. rewrite Nat.eqb_refl. ring. }
        rewrite E1. rewrite (synth_div HK N c' b' (v i)).
        - rewrite (ueval_ext N b' (b i)) by (intros k Hk; unfold b'; nb).
          unfold c', b'. nb.
        - unfold b'. nb.
        - intros j Hj. unfold b', c'. destruct (Nat.eqb_spec j N); [lia|]. destruct (Nat.eqb_spec (S j) N) as [E|E].
          + unfold b. replace (N - 1 - j) with 0 by lia. cbn [bq]. ring.
          + unfold b. replace (N - 1 - j) with (S (N - 1 - S j)) by lia. cbn [bq]. replace (N - 1 - (N - 1 - S j)) with (S j) by lia. reflexivity. }
      assert (Z : (master N v 0%nat + v i * b i 0%nat)%K = f0).
      { pose proof (D (v i)) as E. rewrite master_spec in E by exact HN.
        assert (X : nodal N v (v i) = f0) by (apply (nodal_0 HK); exists i; split; [exact Hi|reflexivity]).
        rewrite X in E. rewrite E. ring. }
      rewrite <- master_spec by exact HN. rewrite D, Z. ring.
    Qed.

    Lemma Q_other i l : i < N -> l < N -> l <> i -> ueval N (b i) (v l) = f0.
    Proof.
      intros Hi Hl Hne. pose proof (quot_master i (v l) Hi) as E.
      assert (X : nodal N v (v l) = f0) by (apply (nodal_0 HK); exists l; split; [exact Hl|reflexivity]).
      rewrite X in E. apply (fmul_0 HK) in E as [E|E]; [|exact E]. apply (fsub_0 HK) in E. apply Hd in E; [lia|assumption|assumption].
    Qed.

    Lemma Q_self i : i < N -> ueval N (b i) (v i) <> f0.
    Proof.
      intros Hi E.
      assert (B : b i (N - 1) = f0).
      { apply (roots_zero HK N (b i) v Hd); [|lia]. intros l Hl. destruct (Nat.eq_dec l i) as [->|]; [exact E|apply Q_other; assumption]. }
      unfold b in B. rewrite Nat.sub_diag in B. exact (f1_neq_0 HK B).
    Qed.

    Lemma vdm_solve_val i : i < N ->
      vdm_solve N v nums i = (fsum N (fun j => nums j * b i j) / ueval N (b i) (v i) / v i)%K.
    Proof.
      intros Hi. unfold vdm_solve. rewrite synth_loop_spec by exact HN. fold (b i).
      f_equal. f_equal. unfold b. ring.
    Qed.

    Theorem vdm_solve_ok : forall k, 0 < k <= N -> fsum N (fun i => vdm_solve N v nums i * pw (v i) k)%K = nums (k - 1).
    Proof.
      intros k Hk. set (L := fun i j => (b i j / ueval N (b i) (v i))%K). set (V := fun j i => pw (v i) j).
      assert (R : right_inverse N L V).
      { intros i l Hi Hl. unfold L, V.
        rewrite (fsum_ext N _ (fun k0 => b i k0 * pw (v l) k0 * (1 / ueval N (b i) (v i)))%K).
        2:{ intros j Hj. field. apply Q_self; exact Hi. }
        rewrite fsum_mul_r by exact HK. fold (ueval N (b i) (v l)).
        destruct (Nat.eqb_spec i l) as [<-|Hne].
        - field. apply Q_self; exact Hi.
        - rewrite (Q_other i l) by auto. ring. }
      apply (inverse_comm HK) in R.
      rewrite (fsum_ext N _ (fun i => fsum N (fun j => nums j * (V (k - 1)%nat i * L i j)))%K).
      2:{ intros i Hi. rewrite vdm_solve_val by exact Hi. unfold V, L. destruct k as [|k]; [lia|]. cbn [pw].
          replace (S k - 1) with k by lia.
          rewrite (fsum_ext N (fun j => nums j * (pw (v i) k * (b i j / ueval N (b i) (v i))))%K (fun j => nums j * b i j * (pw (v i) k / ueval N (b i) (v i)))%K).
          2:{ intros j Hj. field. apply Q_self; exact Hi. }
          rewrite fsum_mul_r by exact HK. field. split; (apply Hnz; exact Hi) || (apply Q_self; exact Hi). }
      rewrite fsum_swap by exact HK.
      rewrite (fsum_ext N _ (fun j => nums j * (if (k - 1 =? j)%nat then f1 else f0))%K).
      2:{ intros j Hj. rewrite fsum_mul_l by exact HK. rewrite R by lia. reflexivity. }
      rewrite (fsum_single HK N (k - 1)).
      - rewrite Nat.eqb_refl. ring.
      - lia.
      - intros j Hj Hne. nb. ring.
    Qed.

    (** the solution is unique *)
    Theorem vdm_unique : forall c : nat -> K, (forall k, 0 < k <= N -> fsum N (fun i => c i * pw (v i) k)%K = nums (k - 1)%nat) ->
      forall i, i < N -> c i = vdm_solve N v nums i.
    Proof.
      intros c Hc i Hi. apply (fsub_0 HK). set (d := fun i => (c i - vdm_solve N v nums i)%K).
      assert (Hz : forall k, 0 < k <= N -> fsum N (fun i => d i * pw (v i) k)%K = f0).
      { intros k Hk. unfold d. rewrite (fsum_ext N _ (fun i => c i * pw (v i) k - vdm_solve N v nums i * pw (v i) k)%K) by (intros; ring).
        rewrite fsum_sub by exact HK. rewrite Hc, vdm_solve_ok by exact Hk. ring. }
      (* pair with the coefficients of z Q_i(z) *)
      assert (E : fsum N (fun l => d l * (v l * ueval N (b i) (v l)))%K = f0).
      { rewrite (fsum_ext N _ (fun l => fsum N (fun j => b i j * (d l * pw (v l) (S j))))%K).
        2:{ intros l Hl. unfold ueval. rewrite <- !fsum_mul_l by exact HK. apply fsum_ext. intros j Hj. cbn [pw]. ring. }
        rewrite fsum_swap by exact HK. apply fsum_0; [exact HK|]. intros j Hj. rewrite fsum_mul_l by exact HK. rewrite Hz by lia. ring. }
      rewrite (fsum_single HK N i) in E; [|exact Hi|].
      - apply (fmul_0 HK) in E as [E|E]; [exact E|]. exfalso. apply (fmul_0 HK) in E as [E|E]; [exact (Hnz i Hi E)|exact (Q_self i Hi E)].
      - intros l Hl Hne. rewrite (Q_other i l) by auto. ring.
    Qed.
  End Solve.
End Proofs.

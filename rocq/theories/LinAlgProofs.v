(** Gaussian elimination (LinAlg.v) *)
From Verif Require Import Machine FField FSum LinAlg LinSpec.
Open Scope nat_scope.

Ltac nb1 := match goal with
  | H : context [(?a =? ?b)] |- _ => destruct (Nat.eqb_spec a b)
  | |- context [(?a =? ?b)] => destruct (Nat.eqb_spec a b)
  | H : context [(?a <=? ?b)] |- _ => destruct (Nat.leb_spec a b)
  | |- context [(?a <=? ?b)] => destruct (Nat.leb_spec a b)
  | H : context [(?a <? ?b)] |- _ => destruct (Nat.ltb_spec a b)
  | |- context [(?a <? ?b)] => destruct (Nat.ltb_spec a b)
  end; cbn [andb orb negb] in *; try (exfalso; lia).
Ltac nb := repeat nb1; try subst; try lia; try reflexivity.

Section Proofs.
  Context {K : fops} (HK : flaws K).
  Add Field KF : (fl_field K HK).
  Notation mat := (mat K). Notation vect := (vect K).
  Implicit Types (A B : mat) (y b : vect).

  (** ---- loops over one row ---- *)
  Lemma row_fold_spec (h : mat -> nat -> K) (k s : nat) (G : nat -> K) A cnt :
    (forall B j, s <= j < s + cnt ->
       (forall r c, (r <> k \/ c < s \/ j <= c) -> B r c = A r c) -> h B j = G j) ->
    forall r c, fold_left (fun B j => set_entry B k j (h B j)) (seq s cnt) A r c =
      if (r =? k) && (s <=? c) && (c <? s + cnt) then G c else A r c.
  Proof.
    induction cnt as [|cnt IH]; intros H r c.
    - cbn [seq fold_left]. nb.
    - rewrite seq_S, fold_left_app. cbn [fold_left]. unfold set_entry at 1.
      set (B := fold_left (fun B j => set_entry B k j (h B j)) (seq s cnt) A).
      assert (HB : forall r c, B r c = if (r =? k) && (s <=? c) && (c <? s + cnt) then G c else A r c).
      { apply IH. intros B' j Hj HA. apply H; [lia|exact HA]. }
      assert (E : h B (s + cnt) = G (s + cnt)).
      { apply H; [lia|]. intros r' c' Hrc. rewrite HB. nb. }
      rewrite E, HB. nb; reflexivity.
  Qed.

  (** ---- loops over the entries of a vector ---- *)
  Lemma vec_fold_spec (G : nat -> K -> K) l b : NoDup l ->
    forall k, fold_left (fun b k => upd_vec b k (G k (b k))) l b k =
      if existsb (Nat.eqb k) l then G k (b k) else b k.
  Proof.
    revert b. induction l as [|a l IH]; intros b Hn k; [reflexivity|].
    inversion_clear Hn as [|? ? Ha Hl]. cbn [fold_left existsb]. rewrite IH by exact Hl. unfold upd_vec.
    destruct (Nat.eqb_spec k a) as [->|Hne]; [|reflexivity]. cbn [orb].
    destruct (existsb (Nat.eqb a) l) eqn:E; [|reflexivity].
    apply existsb_exists in E as [z [Hz E]]. apply Nat.eqb_eq in E. subst z. contradiction.
  Qed.

  Lemma existsb_seq k s cnt : existsb (Nat.eqb k) (seq s cnt) = (s <=? k) && (k <? s + cnt).
  Proof.
    destruct (existsb (Nat.eqb k) (seq s cnt)) eqn:E.
    - apply existsb_exists in E as [z [Hz E]]. apply Nat.eqb_eq in E. subst z. apply in_seq in Hz. nb.
    - nb. assert (X : existsb (Nat.eqb k) (seq s cnt) = true); [|congruence].
      apply existsb_exists. exists k. rewrite in_seq, Nat.eqb_refl. split; [lia|reflexivity].
  Qed.

  Lemma existsb_rev {X} (f : X -> bool) l : existsb f (rev l) = existsb f l.
  Proof.
    destruct (existsb f l) eqn:E.
    - apply existsb_exists in E as [z [Hz E]]. apply existsb_exists. exists z. rewrite <- in_rev. tauto.
    - destruct (existsb f (rev l)) eqn:E'; [|reflexivity]. apply existsb_exists in E' as [z [Hz E']].
      rewrite <- E. symmetry. apply existsb_exists. exists z. rewrite in_rev. tauto.
  Qed.

  (** ---- pivot search ---- *)
  Lemma pivot_fold (A : mat) i l : forall el row, A row i = el ->
    let r := snd (fold_left (fun '(el, row) k => if fgtb (A k i) el then (A k i, k) else (el, row)) l (el, row)) in
    (r = row \/ In r l) /\ (A r i = f0 -> el = f0 /\ forall k, In k l -> A k i = f0).
  Proof.
    induction l as [|k l IH]; intros el row Hel.
    - cbn. split; [left; reflexivity|]. intros E. split; [congruence|]. intros k [].
    - cbn [fold_left]. destruct (fgtb (A k i) el) eqn:G.
      + destruct (IH (A k i) k eq_refl) as [H1 H2]. cbv zeta. split.
        * destruct H1 as [->|H1]; [right; left; reflexivity|right; right; exact H1].
        * intros E. apply H2 in E as [E1 E2]. exfalso.
          rewrite E1, (fl_0gtb K HK) in G. discriminate.
      + destruct (IH el row Hel) as [H1 H2]. cbv zeta. split.
        * destruct H1 as [->|H1]; [left; reflexivity|right; right; exact H1].
        * intros E. apply H2 in E as [E1 E2]. split; [exact E1|]. intros j [<-|Hj]; [|apply E2; exact Hj].
          rewrite E1, (fl_gtb0 K HK) in G. apply (fl_eqb K HK). destruct (feqb (A k i) f0); [reflexivity|discriminate].
  Qed.

  Lemma pivot_spec n A i : i < n -> let r := pivot_row n A i in
    i <= r < n /\ (A r i = f0 -> forall k, i <= k < n -> A k i = f0).
  Proof.
    intros Hi. unfold pivot_row. destruct (pivot_fold A i (seq (S i) (n - S i)) (A i i) i eq_refl) as [H1 H2].
    cbv zeta. split.
    - destruct H1 as [->|H1]; [lia|]. apply in_seq in H1. lia.
    - intros E k Hk. apply H2 in E as [E1 E2]. destruct (Nat.eq_dec k i) as [->|]; [exact E1|].
      apply E2. apply in_seq. lia.
  Qed.

  (** ---- swapping ---- *)
  Lemma swap_cols_spec A i r cnt s : forall x c,
    fold_left (fun B k => let tmp := B r k in set_entry (set_entry B r k (B i k)) i k tmp) (seq s cnt) A x c =
      if (s <=? c) && (c <? s + cnt) then (if x =? i then A r c else if x =? r then A i c else A x c) else A x c.
  Proof.
    induction cnt as [|cnt IH]; intros x c.
    - cbn [seq fold_left]. nb.
    - rewrite seq_S, fold_left_app. cbn [fold_left].
      set (B := fold_left _ (seq s cnt) A) in *. cbv zeta. unfold set_entry. rewrite !IH.
      nb; reflexivity.
  Qed.

  Definition S_of (m : nat) A (i r : nat) : mat := fun x c =>
    if (i <=? c) && (c <? m) then (if x =? i then A r c else if x =? r then A i c else A x c) else A x c.

  Lemma swap_cols_S m A i r x c : i <= m -> swap_cols m A i r x c = S_of m A i r x c.
  Proof. intros H. unfold swap_cols, S_of. rewrite swap_cols_spec. replace (i + (m - i)) with m by lia. reflexivity. Qed.

  (** ---- elimination ---- *)
  Definition E_of (m : nat) B (i k : nat) : mat := fun x c =>
    if (x =? k) && (i <=? c) && (c <? m)
    then (if i =? c then f0 else (B k c + (- B k i) / B i i * B i c)%K) else B x c.

  Lemma elim_row_spec m B i k x c : i <= m -> k <> i -> elim_row m B i k x c = E_of m B i k x c.
  Proof.
    intros Hm Hk. unfold elim_row, E_of. cbv zeta.
    rewrite (row_fold_spec _ k i (fun j => if i =? j then f0 else (B k j + (- B k i) / B i i * B i j)%K)).
    - replace (i + (m - i)) with m by lia. reflexivity.
    - intros B' j Hj H. rewrite (H k j), (H i j) by lia. reflexivity.
  Qed.

  Lemma elim_all_spec m B i cnt s : i < s -> i <= m -> forall x c,
    fold_left (fun B k => elim_row m B i k) (seq s cnt) B x c =
      if (s <=? x) && (x <? s + cnt) && (i <=? c) && (c <? m)
      then (if i =? c then f0 else (B x c + (- B x i) / B i i * B i c)%K) else B x c.
  Proof.
    intros Hs Hm. induction cnt as [|cnt IH]; intros x c.
    - cbn [seq fold_left]. nb.
    - rewrite seq_S, fold_left_app. cbn [fold_left]. rewrite elim_row_spec by lia. unfold E_of.
      set (C := fold_left _ (seq s cnt) B) in *. rewrite !IH. nb; reflexivity.
  Qed.

  Lemma gauss_step_spec n m A i : i < n -> n <= m -> forall x c,
    let S := S_of m A i (pivot_row n A i) in
    gauss_step n m A i x c =
      if (i <? x) && (x <? n) && (i <=? c) && (c <? m)
      then (if i =? c then f0 else (S x c + (- S x i) / S i i * S i c)%K) else S x c.
  Proof.
    intros Hi Hm x c. cbv zeta. unfold gauss_step. rewrite elim_all_spec by lia.
    rewrite !swap_cols_S by lia. replace (S i + (n - S i)) with n by lia.
    change (S i <=? x) with (i <? x). reflexivity.
  Qed.

  (** ---- invariants of the forward pass ---- *)
  Definition below_zero (n i : nat) A : Prop := forall r c, c < i -> c < r < n -> A r c = f0.
  Definition row_sum (m : nat) A (r : nat) y : K := fsum m (fun c => A r c * y c)%K.
  Definition annihilates (n m : nat) A y : Prop := forall r, r < n -> row_sum m A r y = f0.

  Section Step.
    Variables (n m i : nat) (A : mat).
    Hypothesis Hi : i < n.
    Hypothesis Hm : n <= m.
    Hypothesis Hz : below_zero n i A.
    Let r := pivot_row n A i.
    Let SS := S_of m A i r.
    Let E := gauss_step n m A i.

    Lemma r_range : i <= r < n. Proof. apply pivot_spec; exact Hi. Qed.

    Lemma S_below x c : c < i -> i <= x < n -> SS x c = f0.
    Proof. intros Hc Hx. unfold SS, S_of. nb; apply Hz; lia. Qed.

    Lemma S_row x y : x < n -> row_sum m SS x y = row_sum m A (if x =? i then r else if x =? r then i else x) y.
    Proof.
      intros Hx. unfold row_sum. apply fsum_ext. intros c Hc. f_equal. pose proof r_range.
      unfold SS, S_of. nb; try reflexivity.
      - rewrite (Hz i c), (Hz r c) by lia. reflexivity.
      - rewrite (Hz r c), (Hz i c) by lia. reflexivity.
    Qed.

    Lemma E_lin x c : i < x < n -> c < m -> E x c = (SS x c + (- SS x i) / SS i i * SS i c)%K.
    Proof.
      intros Hx Hc. unfold E. rewrite gauss_step_spec by assumption. cbv zeta. fold r. fold SS.
      pose proof r_range as R.
      destruct (Nat.lt_ge_cases c i) as [C|C].
      - replace ((i <? x) && (x <? n) && (i <=? c) && (c <? m)) with false by nb.
        rewrite (S_below i c), (S_below x c) by lia. ring.
      - replace ((i <? x) && (x <? n) && (i <=? c) && (c <? m)) with true by nb.
        destruct (Nat.eqb_spec i c) as [<-|N]; [|reflexivity].
        destruct (K_dec HK (SS i i) f0) as [Z|NZ]; [|field; exact NZ].
        assert (E0 : A r i = f0) by (revert Z; unfold SS, S_of; nb; tauto).
        pose proof (proj2 (pivot_spec n A i Hi)) as PV. cbv zeta in PV. fold r in PV. specialize (PV E0).
        assert (SS x i = f0) as ->. { unfold SS, S_of. nb; apply PV; lia. }
        rewrite Z. ring.
    Qed.

    Lemma E_upper x c : x <= i -> x < n -> E x c = SS x c.
    Proof.
      intros Hx Hn. unfold E. rewrite gauss_step_spec by assumption. cbv zeta. fold r. fold SS. nb; reflexivity.
    Qed.

    Lemma step_below : below_zero n (S i) E.
    Proof.
      intros x c Hc Hx. destruct (Nat.eq_dec c i) as [->|N].
      - unfold E. rewrite gauss_step_spec by assumption. cbv zeta. nb; reflexivity.
      - destruct (Nat.le_gt_cases x i) as [C|C].
        + rewrite E_upper by lia. destruct (Nat.eq_dec x i) as [->|]; [apply S_below; lia|].
          unfold SS, S_of. pose proof r_range. nb; apply Hz; lia.
        + rewrite E_lin by lia. rewrite (S_below x c), (S_below i c) by lia. ring.
    Qed.

    Lemma E_row x y : i < x < n -> row_sum m E x y = (row_sum m SS x y + (- SS x i) / SS i i * row_sum m SS i y)%K.
    Proof.
      intros Hx. unfold row_sum. rewrite <- fsum_mul_l, <- fsum_add by exact HK. apply fsum_ext.
      intros c Hc. rewrite E_lin by lia. ring.
    Qed.

    Lemma E_row_upper x y : x <= i -> row_sum m E x y = row_sum m SS x y.
    Proof. intros Hx. unfold row_sum. apply fsum_ext. intros c Hc. rewrite E_upper by lia. reflexivity. Qed.

    Lemma step_annihilates y : annihilates n m E y <-> annihilates n m A y.
    Proof.
      pose proof r_range as R. transitivity (annihilates n m SS y).
      - split; intros H x Hx.
        + destruct (Nat.le_gt_cases x i) as [C|C].
          * rewrite <- E_row_upper by exact C. apply H; exact Hx.
          * specialize (H x Hx) as Ex. rewrite E_row in Ex by lia.
            rewrite <- (E_row_upper i) in Ex by lia. rewrite (H i Hi) in Ex. rewrite <- Ex. ring.
        + destruct (Nat.le_gt_cases x i) as [C|C].
          * rewrite E_row_upper by exact C. apply H; exact Hx.
          * rewrite E_row by lia. rewrite (H x Hx), (H i Hi). ring.
      - split; intros H x Hx.
        + specialize (H (if x =? i then r else if x =? r then i else x)).
          rewrite S_row in H by nb. rewrite <- H by nb. f_equal. nb.
        + rewrite S_row by exact Hx. apply H. nb.
    Qed.
  End Step.

  Lemma triangularise_spec n m A : n <= m -> below_zero n n (triangularise n m A) /\
    forall y, annihilates n m (triangularise n m A) y <-> annihilates n m A y.
  Proof.
    intros Hm. unfold triangularise.
    assert (G : forall k, k <= n -> below_zero n k (fold_left (gauss_step n m) (seq 0 k) A) /\
      forall y, annihilates n m (fold_left (gauss_step n m) (seq 0 k) A) y <-> annihilates n m A y).
    { induction k as [|k IH]; intros Hk.
      - split; [intros r c Hc; lia|]. reflexivity.
      - destruct IH as [B E]; [lia|]. rewrite seq_S, fold_left_app. cbn [fold_left Nat.add]. split.
        + apply step_below; [lia|exact Hm|exact B].
        + intros y. rewrite step_annihilates by (assumption || lia). apply E. }
    apply G. lia.
  Qed.

  (** ---- systems ---- *)
  (** x extended by -1 at position [pos] and 0 at the other positions >= n *)
  Definition ext_vec (n pos : nat) (t : K) (x : vect) : vect := fun c => if c <? n then x c else if c =? pos then t else f0.

  Lemma row_sum_ext n m pos t A x r : n <= pos < m ->
    row_sum m A r (ext_vec n pos t x) = (fsum n (fun c => A r c * x c) + A r pos * t)%K.
  Proof.
    intros Hp. unfold row_sum. replace m with (n + (m - n)) by lia. rewrite fsum_split by exact HK. f_equal.
    - apply fsum_ext. intros c Hc. unfold ext_vec. nb.
    - rewrite (fsum_single HK (m - n) (pos - n)).
      + replace (n + (pos - n)) with pos by lia. unfold ext_vec. nb.
      + lia.
      + intros j Hj Hne. unfold ext_vec. nb. ring.
  Qed.

  Lemma tri_solves n m pos A x : n <= pos < m ->
    (solves n (triangularise n m A) (fun r => triangularise n m A r pos) x <-> solves n A (fun r => A r pos) x).
  Proof.
    intros Hp. pose proof (proj2 (triangularise_spec n m A ltac:(lia)) (ext_vec n pos (- (1))%K x)) as G.
    assert (T : forall A, annihilates n m A (ext_vec n pos (- (1))%K x) <-> solves n A (fun r => A r pos) x).
    { intros B. split; intros H r Hr.
      - specialize (H r Hr). rewrite row_sum_ext in H by exact Hp.
        apply (fsub_0 HK). rewrite <- H. ring.
      - rewrite row_sum_ext by exact Hp. rewrite (H r Hr). ring. }
    rewrite <- !T. exact G.
  Qed.

  Lemma tri_kernel n m A x : n < m ->
    ((forall r, r < n -> fsum n (fun c => triangularise n m A r c * x c)%K = f0) <->
     (forall r, r < n -> fsum n (fun c => A r c * x c)%K = f0)).
  Proof.
    intros Hm. pose proof (proj2 (triangularise_spec n m A ltac:(lia)) (ext_vec n n f0 x)) as G.
    assert (T : forall A, annihilates n m A (ext_vec n n f0 x) <-> forall r, r < n -> fsum n (fun c => A r c * x c)%K = f0).
    { intros B. split; intros H r Hr; specialize (H r Hr).
      - rewrite row_sum_ext in H by lia. rewrite <- H. ring.
      - rewrite row_sum_ext by lia. rewrite H. ring. }
    rewrite <- !T. exact G.
  Qed.

  (** ---- an upper triangular matrix with trivial kernel has a non-zero diagonal ---- *)
  Lemma tri_partial_kernel n U i : below_zero n n U -> i < n -> (forall j, j < i -> U j j <> f0) ->
    forall k, k <= i -> exists y : vect, y i = f1 /\ (forall c, i < c -> y c = f0) /\
      forall r, i - k <= r < i -> fsum n (fun c => U r c * y c)%K = f0.
  Proof.
    intros Hb Hi Hd. induction k as [|k IH]; intros Hk.
    - exists (fun c => if c =? i then f1 else f0). split; [rewrite Nat.eqb_refl; reflexivity|].
      split; [intros c Hc; nb; reflexivity|]. intros r Hr; lia.
    - destruct IH as [y [Hy1 [Hy2 Hy3]]]; [lia|]. set (d := i - S k).
      assert (Hd0 : U d d <> f0) by (apply Hd; unfold d; lia).
      exists (fun c => if c =? d then (y d - fsum n (fun c => U d c * y c) / U d d)%K else y c).
      split; [destruct (Nat.eqb_spec i d); [unfold d in *; lia|exact Hy1]|].
      split; [intros c Hc; destruct (Nat.eqb_spec c d); [unfold d in *; lia|apply Hy2; exact Hc]|].
      intros r Hr.
      rewrite (fsum_upd HK n d _ (fun c => U r c * y c)%K); [|unfold d; lia|intros j Hj Hn; nb; reflexivity].
      rewrite Nat.eqb_refl. destruct (Nat.eq_dec r d) as [->|Hne].
      + field. exact Hd0.
      + rewrite (Hy3 r) by (unfold d in *; lia). rewrite (Hb r d) by (unfold d in *; lia). ring.
  Qed.

  Lemma tri_diag_nonzero n U : below_zero n n U -> nonsingular n U -> forall i, i < n -> U i i <> f0.
  Proof.
    intros Hb Hn. assert (G : forall k i, i < k -> i < n -> U i i <> f0).
    { induction k as [|k IH]; intros i Hik Hi; [lia|].
      assert (Hlow : forall j, j < i -> U j j <> f0) by (intros j Hj; apply IH; lia).
      intros Z. destruct (tri_partial_kernel n U i Hb Hi Hlow i ltac:(lia)) as [y [Y1 [Y2 Y3]]].
      assert (X : y i = f0).
      { apply Hn; [|exact Hi]. intros r Hr. destruct (Nat.lt_ge_cases r i) as [C|C]; [apply Y3; lia|].
        apply fsum_0; [exact HK|]. intros c Hc. destruct (Nat.lt_trichotomy c i) as [D|[D|D]].
        - rewrite (Hb r c) by lia. ring.
        - subst c. destruct (Nat.eq_dec r i) as [->|]; [rewrite Z; ring|]. rewrite (Hb r i) by lia. ring.
        - rewrite Y2 by exact D. ring. }
      rewrite Y1 in X. exact (f1_neq_0 HK X). }
    intros i Hi. apply (G (S i)); lia.
  Qed.

  (** ---- back substitution ---- *)
  Lemma back_loop (A : mat) (i : nat) (v : K) b k :
    fold_left (fun b k => upd_vec b k (fsub (b k) (fmul (A k i) v))) (rev (seq 0 i)) b k =
    if k <? i then (b k - A k i * v)%K else b k.
  Proof.
    rewrite (vec_fold_spec (fun k bk => (bk - A k i * v)%K)) by (apply NoDup_rev, seq_NoDup).
    rewrite existsb_rev, existsb_seq. nb; reflexivity.
  Qed.

  Lemma rev_seq_S n : rev (seq 0 (S n)) = n :: rev (seq 0 n).
  Proof. rewrite seq_S, rev_app_distr. reflexivity. Qed.

  (** processing i = k-1, ..., 0 *)
  Lemma back_fold_spec n U : below_zero n n U -> (forall i, i < n -> U i i <> f0) ->
    forall k rhs res, k <= n ->
    let st := fold_left (back_step U) (rev (seq 0 k)) (rhs, res) in
    (forall c, k <= c -> snd st c = res c) /\
    forall r, r < k -> fsum k (fun c => U r c * snd st c)%K = rhs r.
  Proof.
    intros Hb Hd. induction k as [|k IH]; intros rhs res Hk; cbv zeta.
    - split; [reflexivity|]. intros r Hr; lia.
    - rewrite rev_seq_S. cbn [fold_left back_step].
      set (res' := upd_vec res k (fdiv (rhs k) (U k k))).
      set (rhs' := fold_left _ (rev (seq 0 k)) rhs).
      destruct (IH rhs' res' ltac:(lia)) as [H1 H2]. cbv zeta in H1, H2.
      set (x := snd (fold_left (back_step U) (rev (seq 0 k)) (rhs', res'))) in *.
      assert (Xk : x k = (rhs k / U k k)%K).
      { rewrite H1 by lia. unfold res', upd_vec. rewrite Nat.eqb_refl. reflexivity. }
      split.
      + intros c Hc. rewrite H1 by lia. unfold res', upd_vec. nb.
      + intros r Hr. cbn [fsum]. destruct (Nat.eq_dec r k) as [->|Hne].
        * rewrite fsum_0; [|exact HK|intros c Hc; rewrite (Hb k c) by lia; ring].
          rewrite Xk. field. apply Hd; lia.
        * rewrite (H2 r) by lia. unfold rhs'.
          replace (fdiv (rhs k) (U k k)) with (x k) in res' by exact Xk.
          rewrite (back_loop U k (res' k)). assert (res' k = x k) as ->.
          { unfold res', upd_vec. rewrite Nat.eqb_refl. symmetry; exact Xk. }
          nb. ring.
  Qed.

  Lemma back_substitute_spec n U : below_zero n n U -> (forall i, i < n -> U i i <> f0) ->
    solves n U (fun r => U r n) (back_substitute n U).
  Proof.
    intros Hb Hd r Hr. unfold back_substitute.
    destruct (back_fold_spec n U Hb Hd n (fun r => U r n) (fun _ => f0) (Nat.le_refl n)) as [_ H].
    apply H. exact Hr.
  Qed.

  Lemma solves_unique n A col x x' : nonsingular n A -> solves n A col x -> solves n A col x' ->
    forall c, c < n -> x c = x' c.
  Proof.
    intros Hn H H' c Hc. apply (fsub_0 HK). apply (Hn (fun c => x c - x' c)%K); [|exact Hc].
    intros r Hr. rewrite (fsum_ext n _ (fun c => A r c * x c - A r c * x' c)%K) by (intros; ring).
    rewrite fsum_sub by exact HK. rewrite (H r Hr), (H' r Hr). ring.
  Qed.

  Theorem solve_gauss_ok n A force : 0 < n -> nonsingular n A ->
    exists x, solve_gauss_system n A force = Ret x /\ solves n A (fun r => A r n) x /\
      forall x', solves n A (fun r => A r n) x' -> forall c, c < n -> x' c = x c.
  Proof.
    intros Hn Hs. set (U := triangularise n (S n) A).
    destruct (triangularise_spec n (S n) A ltac:(lia)) as [Hb _]. fold U in Hb.
    assert (HU : nonsingular n U).
    { intros x Hx. apply Hs. apply (tri_kernel n (S n) A x ltac:(lia)). exact Hx. }
    pose proof (tri_diag_nonzero n U Hb HU) as Hd.
    assert (Hx : solves n A (fun r => A r n) (back_substitute n U)).
    { apply (tri_solves n (S n) n A); [lia|]. apply back_substitute_spec; assumption. }
    exists (back_substitute n U). split; [|split; [exact Hx|]].
    - unfold solve_gauss_system. fold U. destruct n as [|n']; [lia|].
      assert (feqb (U n' n') f0 = false) as -> by (apply feqb_neq; [exact HK|apply Hd; lia]).
      cbn [negb]. rewrite orb_true_r. reflexivity.
    - intros x' Hx' c Hc. apply (solves_unique n A (fun r => A r n)); assumption.
  Qed.

  Theorem solve_gauss_exit n A : 0 < n -> solve_gauss_system n A false = Exit -> ~ nonsingular n A.
  Proof.
    intros Hn E Hs. destruct (solve_gauss_ok n A false Hn Hs) as [x [E' _]]. congruence.
  Qed.
End Proofs.

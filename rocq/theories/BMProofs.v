(** Proofs about Berlekamp/Massey *)
From Verif Require Import Machine FField FSum LinAlg LinAlgProofs FPoly Vandermonde VandermondeProofs BM BMSpec.
Open Scope nat_scope.

Section Proofs.
  Context {K : fops} (HK : flaws K).
  Add Field KF : (fl_field K HK).

  (** ---- stripping trailing zeros ---- *)
  Lemma drop_zeros_spec l : exists k, l = repeat f0 k ++ @drop_zeros K l /\ (drop_zeros l = [] \/ exists x r, drop_zeros l = x :: r /\ x <> f0).
  Proof.
    induction l as [|x l [k [E H]]]; [exists 0; split; [reflexivity|left; reflexivity]|]. cbn [drop_zeros]. destruct (feqb x f0) eqn:Ex.
    - apply (fl_eqb K HK) in Ex. subst x. exists (S k). split; [cbn; f_equal; exact E|exact H].
    - exists 0. split; [reflexivity|]. right. exists x, l. split; [reflexivity|]. apply (feqb_neq HK). exact Ex.
  Qed.
  Lemma nth_app_repeat (l : list K) k i : nth i (l ++ repeat f0 k) f0 = nth i l f0.
  Proof.
    destruct (Nat.lt_ge_cases i (length l)) as [H|H]; [rewrite app_nth1 by exact H; reflexivity|].
    rewrite app_nth2 by lia. rewrite (nth_overflow l) by lia. apply nth_repeat.
  Qed.
  Lemma zero_or_not (l : list K) : (exists i, nth i l f0 <> f0) \/ forall i, nth i l f0 = f0.
  Proof.
    induction l as [|x l [[i H]|H]]; [right; intros [|i]; reflexivity|left; exists (S i); exact H|].
    destruct (K_dec HK x f0) as [->|N]; [right; intros [|i]; [reflexivity|apply H]|left; exists 0; exact N].
  Qed.
  Lemma strip_spec l : (exists i, nth i l (@f0 K) <> f0) ->
    exists l', strip l = Ret l' /\ (forall i, nth i l' f0 = nth i l f0) /\ l' <> [] /\ last l' f0 <> f0.
  Proof.
    intros [i Hi]. unfold strip. destruct (drop_zeros_spec (rev l)) as [k [E H]]. apply (f_equal (@rev K)) in E. rewrite rev_involutive, rev_app_distr in E.
    assert (R : rev (repeat (@f0 K) k) = repeat f0 k).
    { clear. induction k as [|k IH]; [reflexivity|]. cbn. rewrite IH. clear. induction k as [|k IH]; [reflexivity|]. cbn. f_equal. exact IH. }
    rewrite R in E. destruct H as [H|[x [r [H Hx]]]].
    - rewrite H in E. cbn in E. exfalso. apply Hi. rewrite E. pose proof (nth_app_repeat [] k i) as N. cbn [app] in N. rewrite N. destruct i; reflexivity.
    - rewrite H in E |- *. cbn [rev] in E |- *. exists (rev r ++ [x]). split; [destruct (rev r); reflexivity|]. split.
      + intros j. rewrite E. rewrite nth_app_repeat. reflexivity.
      + split; [destruct (rev r); discriminate|]. rewrite last_last. exact Hx.
  Qed.
  Lemma strip_zero l : (forall i, nth i l (@f0 K) = f0) -> strip l = UB.
  Proof.
    intros Hz. unfold strip. destruct (drop_zeros_spec (rev l)) as [k [E H]]. destruct H as [H|[x [r [H Hx]]]]; [rewrite H; reflexivity|].
    exfalso. rewrite H in E. apply (f_equal (@rev K)) in E. rewrite rev_involutive, rev_app_distr in E. cbn [rev] in E.
    apply Hx. rewrite <- (Hz (length (rev r))). rewrite E, <- !app_assoc. cbn [app]. rewrite nth_middle. reflexivity.
  Qed.

  (** ---- convolution ---- *)
  Implicit Types (c s : nat -> K).
  Definition conv c s (k : nat) : K := fsum (S k) (fun i => c i * s (k - i)%nat)%K.
  Lemma conv_trunc c s k L : L <= k -> (forall i, L < i -> c i = f0) -> conv c s k = fsum (S L) (fun i => c i * s (k - i)%nat)%K.
  Proof. intros HL H. unfold conv. apply (fsum_trunc HK); [lia|]. intros j Hj. rewrite H by lia. ring. Qed.
  Lemma conv_sub c d s a k : conv (fun i => c i - a * d i)%K s k = (conv c s k - a * conv d s k)%K.
  Proof. unfold conv. rewrite <- (fsum_mul_l HK), <- (fsum_sub HK). apply fsum_ext. intros; ring. Qed.
  Lemma conv_ext c d s k : (forall i, c i = d i) -> conv c s k = conv d s k.
  Proof. intros H. unfold conv. apply fsum_ext. intros i _. rewrite H. reflexivity. Qed.
  Definition shiftf c (i : nat) : K := match i with O => f0 | S j => c j end.
  Lemma conv_shift c s k : conv (shiftf c) s (S k) = conv c s k.
  Proof. unfold conv. rewrite (fsum_S_l HK). cbn [shiftf]. rewrite (fsum_ext _ _ (fun i => c i * s (k - i)%nat)%K); [ring|]. intros i Hi. reflexivity. Qed.
  Lemma conv_shift_0 c s : conv (shiftf c) s 0 = f0.
  Proof. unfold conv. cbn. ring. Qed.

  (** Massey's lemma: two recurrences, one of which fails at n *)
  Lemma massey_lemma c L d l s n : recurrence c L s (S n) -> recurrence d l s n -> fsum (S l) (fun i => d i * s (n - i)%nat)%K <> f0 -> L + l <= n -> False.
  Proof.
    intros [C1 [C2 C3]] [D1 [D2 D3]] Hne HL. apply Hne.
    assert (E : fsum (S l) (fun i => fsum (S L) (fun j => d i * c j * s (n - i - j)%nat)%K) = f0).
    { apply (fsum_0 HK). intros i Hi. rewrite (fsum_ext _ _ (fun j => d i * (c j * s (n - i - j)%nat))%K) by (intros; ring).
      rewrite (fsum_mul_l HK). rewrite C3 by lia. ring. }
    rewrite (fsum_swap HK) in E. rewrite (fsum_S_l HK) in E.
    rewrite (fsum_0 HK L) in E.
    2:{ intros j Hj. rewrite (fsum_ext _ _ (fun i => c (S j) * (d i * s (n - S j - i)%nat))%K).
        2:{ intros i Hi. replace (n - i - S j) with (n - S j - i) by lia. ring. }
        rewrite (fsum_mul_l HK). rewrite D3 by lia. ring. }
    rewrite <- E. rewrite (fsum_ext _ (fun i => d i * c 0%nat * s (n - i - 0)%nat)%K (fun i => d i * s (n - i)%nat)%K); [ring|].
    intros i Hi. rewrite C1. replace (n - i - 0) with (n - i) by lia. ring.
  Qed.

  (** ---- the invariant ---- *)
  Definition cf (l : list K) (i : nat) : K := nth i l f0.
  (** r = number of values processed plus one *)
  Record inv (s : nat -> K) (r : nat) (st : bm K) : Prop := mk_inv {
    i_r : bm_iter st = r; i_r2 : 2 <= r;
    i_l : 1 <= bm_l st <= r - 1;
    i_rec : recurrence (cf (bm_lambda st)) (bm_l st) s (r - 1);
    i_len : length (bm_lambda st) <= S (bm_l st);
    i_last : last (bm_lambda st) f0 <> f0;
    i_bdeg : forall i, r - bm_l st < i -> cf (f0 :: bm_b st) i = f0;
    i_bconv : forall k, r - bm_l st <= k < r - 1 -> conv (cf (f0 :: bm_b st)) s k = f0;
    i_bdelta : conv (cf (f0 :: bm_b st)) s (r - 1) = bm_delta st;
    i_delta : bm_delta st <> f0;
    i_min : forall c L, recurrence c L s (r - 1) -> bm_l st <= L
  }.

  Lemma last_nth (l : list K) : l <> [] -> last l f0 = nth (length l - 1) l f0.
  Proof.
    intros H. destruct (exists_last H) as [m [x ->]]. rewrite last_last, app_length. cbn [length].
    replace (length m + 1 - 1) with (length m) by lia. rewrite nth_middle. reflexivity.
  Qed.
  Lemma len_bound (l : list K) d : l <> [] -> last l f0 <> f0 -> (forall i, d < i -> nth i l f0 = f0) -> length l <= S d.
  Proof.
    intros Hn Hl H. destruct (Nat.le_gt_cases (length l) (S d)) as [G|G]; [exact G|]. exfalso. apply Hl. rewrite last_nth by exact Hn. apply H. lia.
  Qed.

  Lemma discrepancy_spec st nums r s : bm_iter st = r -> r <= length nums -> length (bm_lambda st) <= r -> (forall k, k < r -> nth k nums f0 = s k) ->
    discrepancy st nums = Ret (conv (cf (bm_lambda st)) s (r - 1)).
  Proof.
    intros Hr Hn Hl Hs. unfold discrepancy. rewrite Hr. destruct (Nat.ltb_spec (length nums) r); [lia|]. destruct (Nat.ltb_spec r (length (bm_lambda st))); [lia|].
    cbn [orb]. f_equal.
    assert (G : forall n a, n <= length (bm_lambda st) -> fold_left (fun d i => fadd d (fmul (nth i (bm_lambda st) f0) (nth (r - i - 1) nums f0))) (seq 0 n) a = (a + fsum n (fun i => cf (bm_lambda st) i * s (r - 1 - i)%nat))%K).
    { induction n as [|n IH]; intros a Hle; [cbn; ring|]. rewrite seq_S, fold_left_app, IH by lia. cbn [fold_left fsum Nat.add]. unfold cf.
      rewrite Hs by lia. replace (r - n - 1) with (r - 1 - n) by lia. ring. }
    rewrite G by lia. destruct (Nat.eq_dec r 0) as [->|N].
    - destruct (bm_lambda st); [|cbn in Hl; lia]. unfold conv, cf. cbn. ring.
    - unfold conv. rewrite (fsum_trunc HK (S (r - 1)) (length (bm_lambda st))); [ring|lia|].
      intros j Hj. unfold cf. rewrite nth_overflow by lia. ring.
  Qed.

  Lemma cf_cons b i : cf (f0 :: b) i = shiftf (cf b) i. Proof. destruct i; reflexivity. Qed.

  Lemma new_lambda_cf lam b dr delta i : nth i (map (new_lambda lam b dr delta) (seq 0 (Nat.max (length lam) (length b)))) f0
    = (cf lam i - dr / delta * cf b i)%K.
  Proof.
    destruct (Nat.lt_ge_cases i (Nat.max (length lam) (length b))) as [H|H].
    - rewrite (nth_indep _ f0 (new_lambda lam b dr delta 0)) by (rewrite map_length, seq_length; exact H). rewrite map_nth, seq_nth by exact H. cbn [Nat.add].
      unfold new_lambda, cf. destruct (Nat.ltb_spec i (length lam)), (Nat.ltb_spec i (length b)); cbn [andb].
      + reflexivity.
      + rewrite (nth_overflow b) by lia. ring.
      + rewrite (nth_overflow lam) by lia. rewrite (Field_theory.Fdiv_def (fl_field K HK) (- dr)%K delta), (Field_theory.Fdiv_def (fl_field K HK) dr delta). ring.
      + lia.
    - rewrite nth_overflow by (rewrite map_length, seq_length; exact H). unfold cf. rewrite !nth_overflow by lia. ring.
  Qed.

  Lemma rec_weaken c L s n m : m <= n -> recurrence c L s n -> recurrence c L s m.
  Proof. intros H [A [B C]]. split; [exact A|]. split; [exact B|]. intros k H1 H2. apply C; lia. Qed.
  Lemma rec_conv c L s n k : recurrence c L s n -> L <= k < n -> conv c s k = f0.
  Proof. intros [_ [B C]] H. rewrite (conv_trunc c s k L); [apply C; lia|lia|exact B]. Qed.

  Lemma bm_step_inv thr s r st nums : inv s r st -> r <= length nums -> (forall k, k < r -> nth k nums f0 = s k) ->
    exists fl st', bm_step thr st nums = Ret (fl, st') /\ inv s (S r) st' /\
      (fl = true <-> conv (cf (bm_lambda st)) s (r - 1) = f0 /\ thr <= bm_term st /\ 2 * bm_l st < r) /\
      (conv (cf (bm_lambda st)) s (r - 1) = f0 -> bm_lambda st' = bm_lambda st /\ bm_l st' = bm_l st /\ bm_term st' = S (bm_term st)) /\
      (conv (cf (bm_lambda st)) s (r - 1) <> f0 -> bm_term st' = 1).
  Proof.
    intros I Hn Hs. destruct I as [Ir Ir2 Il Irec Ilen Ilast Ibdeg Ibconv Ibdelta Idelta Imin].
    pose proof Irec as [R1 [R2 R3]].
    unfold bm_step. rewrite (discrepancy_spec st nums r s Ir Hn ltac:(lia) Hs). set (dr := conv (cf (bm_lambda st)) s (r - 1)) in *.
    assert (Bnz : exists i, nth i (f0 :: bm_b st) f0 <> f0).
    { destruct (zero_or_not (f0 :: bm_b st)) as [H|H]; [exact H|]. exfalso. apply Idelta. rewrite <- Ibdelta. unfold conv. apply (fsum_0 HK).
      intros i Hi. unfold cf. rewrite H. ring. }
    destruct (strip_spec _ Bnz) as [b' [Eb [Cb [Nb Lb]]]].
    assert (Rr : conv (cf (bm_lambda st)) s (r - 1) = fsum (S (bm_l st)) (fun i => cf (bm_lambda st) i * s (r - 1 - i)%nat)%K) by (apply conv_trunc; [lia|exact R2]).
    assert (NL : bm_lambda st <> []) by (intros E; rewrite E in R1; cbn in R1; apply (f1_neq_0 HK); symmetry; exact R1).
    (* facts about the shifted b *)
    assert (S1 : forall l0 i, (forall i, nth i l0 f0 = nth i (f0 :: bm_b st) f0) -> S r - bm_l st < i -> cf (f0 :: l0) i = f0).
    { intros l0 i Hl Hi. rewrite cf_cons. destruct i as [|i]; [reflexivity|]. cbn [shiftf]. unfold cf. rewrite Hl. apply Ibdeg. lia. }
    assert (S2 : forall l0 k, (forall i, nth i l0 f0 = nth i (f0 :: bm_b st) f0) -> 0 < k -> conv (cf (f0 :: l0)) s k = conv (cf (f0 :: bm_b st)) s (k - 1)).
    { intros l0 k Hl Hk. rewrite (conv_ext _ (shiftf (cf l0)) s k (cf_cons l0)). destruct k as [|k]; [lia|]. rewrite conv_shift. replace (S k - 1) with k by lia.
      apply conv_ext. exact Hl. }
    destruct (feqb dr f0) eqn:Edr.
    - apply (fl_eqb K HK) in Edr. rewrite Eb. eexists. eexists. split; [reflexivity|]. split; [|split; [|split]].
      + constructor; cbn [bm_iter bm_lambda bm_b bm_l bm_delta bm_term].
        * lia.
        * lia.
        * lia.
        * replace (S r - 1) with r by lia. split; [exact R1|]. split; [exact R2|]. intros k H1 H2. destruct (Nat.eq_dec k (r - 1)) as [->|N]; [|apply R3; lia].
          rewrite <- Rr. exact Edr.
        * exact Ilen.
        * exact Ilast.
        * intros i Hi. apply S1; [exact Cb|lia].
        * intros k Hk. rewrite S2; [|exact Cb|lia]. apply Ibconv. lia.
        * rewrite S2; [|exact Cb|lia]. replace (S r - 1 - 1) with (r - 1) by lia. exact Ibdelta.
        * exact Idelta.
        * intros c L Hc. apply (Imin c L). apply (rec_weaken _ _ _ (S r - 1)); [lia|exact Hc].
      + rewrite Bool.andb_true_iff, Nat.leb_le, Nat.ltb_lt, Ir. split; [intros [A B]; repeat split; [exact Edr|lia|lia]|intros [_ [A B]]; lia].
      + intros _. auto.
      + intros H. contradiction.
    - apply (feqb_neq HK) in Edr. set (b1 := f0 :: bm_b st) in *.
      set (lam1 := map (new_lambda (bm_lambda st) b1 dr (bm_delta st)) (seq 0 (Nat.max (length (bm_lambda st)) (length b1)))).
      assert (C1 : forall i, nth i lam1 f0 = (cf (bm_lambda st) i - dr / bm_delta st * cf b1 i)%K) by (intros i; apply new_lambda_cf).
      assert (C10 : nth 0 lam1 f0 = f1) by (rewrite C1, R1; unfold b1, cf; cbn [nth]; ring).
      destruct (strip_spec lam1) as [lam' [El [Cl [Nl Ll]]]]; [exists 0; rewrite C10; apply (f1_neq_0 HK)|]. rewrite El.
      assert (Cz : forall k, conv (cf lam') s k = (conv (cf (bm_lambda st)) s k - dr / bm_delta st * conv (cf b1) s k)%K).
      { intros k. rewrite <- conv_sub. apply conv_ext. intros i. unfold cf at 1. rewrite Cl. apply C1. }
      assert (Cd : forall i, Nat.max (bm_l st) (r - bm_l st) < i -> cf lam' i = f0).
      { intros i Hi. unfold cf. rewrite Cl, C1, R2, Ibdeg by lia. ring. }
      assert (Cz0 : forall k, Nat.max (bm_l st) (r - bm_l st) <= k < r -> conv (cf lam') s k = f0).
      { intros k Hk. rewrite Cz. destruct (Nat.eq_dec k (r - 1)) as [->|N].
        - rewrite Ibdelta. fold dr. field. exact Idelta.
        - rewrite Ibconv by lia. rewrite (rec_conv _ _ _ _ k Irec) by lia. ring. }
      assert (New : forall L', Nat.max (bm_l st) (r - bm_l st) = L' -> recurrence (cf lam') L' s r).
      { intros L' E. split; [unfold cf; rewrite Cl; exact C10|]. split; [intros i Hi; apply Cd; lia|]. intros k H1 H2.
        rewrite <- (conv_trunc (cf lam') s k L'); [apply Cz0; lia|lia|intros i Hi; apply Cd; lia]. }
      rewrite Ir. destruct (Nat.ltb_spec (2 * bm_l st) r) as [Hsw|Hsw].
      + assert (Lnz : exists i, nth i (bm_lambda st) f0 <> f0) by (exists 0; fold (cf (bm_lambda st) 0); rewrite R1; apply (f1_neq_0 HK)).
        destruct (strip_spec _ Lnz) as [b2 [Eb2 [Cb2 [Nb2 Lb2]]]]. rewrite Eb2. eexists. eexists. split; [reflexivity|]. split; [|split; [|split]].
        * constructor; cbn [bm_iter bm_lambda bm_b bm_l bm_delta bm_term].
          -- lia.
          -- lia.
          -- lia.
          -- replace (S r - 1) with r by lia. apply New. lia.
          -- apply len_bound; [exact Nl|exact Ll|]. intros i Hi. apply Cd. lia.
          -- exact Ll.
          -- intros i Hi. rewrite cf_cons. destruct i as [|i]; [reflexivity|]. cbn [shiftf]. unfold cf. rewrite Cb2. apply R2. lia.
          -- intros k Hk. rewrite (conv_ext _ (shiftf (cf b2)) s k (cf_cons b2)). destruct k as [|k]; [lia|]. rewrite conv_shift.
             rewrite (conv_ext (cf b2) (cf (bm_lambda st)) s k Cb2). apply (rec_conv _ _ _ _ k Irec). lia.
          -- replace (S r - 1) with (S (r - 1)) by lia. rewrite (conv_ext _ (shiftf (cf b2)) s _ (cf_cons b2)), conv_shift. apply conv_ext. exact Cb2.
          -- exact Edr.
          -- intros c L Hc. replace (S r - 1) with (S (r - 1)) in Hc by lia. destruct (Nat.le_gt_cases (r - bm_l st) L) as [G|G]; [exact G|]. exfalso.
             apply (massey_lemma c L (cf (bm_lambda st)) (bm_l st) s (r - 1) Hc Irec); [rewrite <- Rr; exact Edr|lia].
        * split; [discriminate|intros [A _]; contradiction].
        * intros A. contradiction.
        * reflexivity.
      + rewrite Eb. eexists. eexists. split; [reflexivity|]. split; [|split; [|split]].
        * constructor; cbn [bm_iter bm_lambda bm_b bm_l bm_delta bm_term].
          -- lia.
          -- lia.
          -- lia.
          -- replace (S r - 1) with r by lia. apply New. lia.
          -- apply len_bound; [exact Nl|exact Ll|]. intros i Hi. apply Cd. lia.
          -- exact Ll.
          -- intros i Hi. apply S1; [exact Cb|lia].
          -- intros k Hk. rewrite S2; [|exact Cb|lia]. apply Ibconv. lia.
          -- rewrite S2; [|exact Cb|lia]. replace (S r - 1 - 1) with (r - 1) by lia. exact Ibdelta.
          -- exact Idelta.
          -- intros c L Hc. apply (Imin c L). apply (rec_weaken _ _ _ (S r - 1)); [lia|exact Hc].
        * split; [discriminate|intros [A _]; contradiction].
        * intros A. contradiction.
        * reflexivity.
  Qed.

  (** the first value *)
  Lemma bm_first_zero thr (nums : list K) : bm_step thr bm_init (f0 :: nums) = UB.
  Proof.
    unfold bm_step, discrepancy. cbn [bm_iter bm_init bm_lambda length]. destruct (Nat.ltb_spec (S (length nums)) 1); [lia|]. cbn [orb Nat.ltb Nat.leb seq fold_left nth Nat.sub].
    assert (E : (f0 + f1 * f0)%K = (f0 : K)) by ring. rewrite E, (feqb_refl HK). rewrite strip_zero; [reflexivity|].
    intros [|[|[|i]]]; reflexivity.
  Qed.
  Lemma bm_first thr s nums : nth 0 nums f0 = s 0%nat -> s 0%nat <> f0 -> 1 <= length nums ->
    exists st, bm_step thr bm_init nums = Ret (false, st) /\ inv s 2 st /\ bm_term st = 1.
  Proof.
    intros Hs Hne Hl. unfold bm_step, discrepancy. cbn [bm_iter bm_init bm_lambda length]. destruct (Nat.ltb_spec (length nums) 1); [lia|].
    cbn [orb Nat.ltb Nat.leb seq fold_left]. change (1 - 0 - 1) with 0. rewrite Hs. cbn [nth].
    assert (E : (f0 + f1 * s 0%nat)%K = s 0%nat) by ring. rewrite E. clear E.
    destruct (feqb (s 0%nat) f0) eqn:E0; [apply (fl_eqb K HK) in E0; contradiction|].
    cbn [bm_l bm_b bm_delta bm_init bm_lambda bm_iter Nat.mul Nat.ltb Nat.leb length Nat.max Nat.sub].
    destruct (strip_spec (map (new_lambda [f1] [f0; f0] (s 0%nat) f1) (seq 0 2))) as [lam' [El [Cl [Nl Ll]]]].
    { exists 0. cbn [seq map nth]. unfold new_lambda. cbn [length Nat.ltb Nat.leb andb nth]. intros E. apply (f1_neq_0 HK). rewrite <- E. ring. }
    rewrite El. match goal with |- context [strip (if ?b then _ else _)] => change b with true end; cbn iota. destruct (strip_spec [f1]) as [b' [Eb [Cb [Nb Lb]]]]; [exists 0; apply (f1_neq_0 HK)|]. rewrite Eb.
    assert (C : forall i, nth i lam' f0 = nth i [f1] f0).
    { intros i. rewrite Cl. etransitivity; [apply (new_lambda_cf [f1] [f0; f0] (s 0%nat) f1 i)|]. unfold cf.
      assert (Z : nth i [f0; f0] f0 = (f0 : K)) by (destruct i as [|[|[|i]]]; reflexivity). rewrite Z. ring. }
    eexists. split; [reflexivity|]. split; [|reflexivity]. constructor; cbn [bm_iter bm_lambda bm_b bm_l bm_delta bm_term Nat.sub].
    - reflexivity.
    - lia.
    - lia.
    - split; [unfold cf; rewrite C; reflexivity|]. split; [intros i Hi; unfold cf; rewrite C; destruct i as [|[|i]]; [lia|reflexivity|destruct i; reflexivity]|]. intros k; lia.
    - apply len_bound; [exact Nl|exact Ll|]. intros i Hi. rewrite C. destruct i as [|[|i]]; [lia|reflexivity|destruct i; reflexivity].
    - exact Ll.
    - intros i Hi. rewrite cf_cons. destruct i as [|[|i]]; [lia|lia|]. cbn [shiftf]. unfold cf. rewrite Cb. destruct i; reflexivity.
    - intros; lia.
    - rewrite (conv_ext _ (shiftf (cf b')) s 1 (cf_cons b')), conv_shift. rewrite (conv_ext (cf b') (cf [f1]) s 0 Cb). unfold conv, cf. cbn. ring.
    - exact Hne.
    - intros c L [H1 [H2 H3]]. destruct L as [|L]; [|lia]. exfalso. specialize (H3 0 ltac:(lia) ltac:(lia)). cbn in H3. rewrite H1 in H3. apply Hne. rewrite <- H3. ring.
  Qed.

  Lemma bm_feed_app thr (vals1 : list K) : forall vals2 st nums, bm_feed thr st nums (vals1 ++ vals2) =
    match bm_feed thr st nums vals1 with
    | Ret (fs, st') => match bm_feed thr st' (nums ++ vals1) vals2 with Ret (fs', st'') => Ret (fs ++ fs', st'') | o => o end
    | o => o end.
  Proof.
    induction vals1 as [|v vals1 IH]; intros vals2 st nums; cbn [bm_feed app].
    - rewrite app_nil_r. destruct (bm_feed thr st nums vals2) as [[fs st']| | | |]; reflexivity.
    - destruct (bm_step thr st (nums ++ [v])) as [[fl st1]| | | |]; try reflexivity. rewrite IH. rewrite <- app_assoc. cbn [app].
      destruct (bm_feed thr st1 (nums ++ [v]) vals1) as [[fs st2]| | | |]; try reflexivity.
      destruct (bm_feed thr st2 (nums ++ v :: vals1) vals2) as [[fs' st3]| | | |]; reflexivity.
  Qed.

  Theorem bm_feed_inv thr s n : 0 < n -> s 0%nat <> f0 ->
    exists fs st, bm_feed thr bm_init [] (map s (seq 0 n)) = Ret (fs, st) /\ inv s (S n) st.
  Proof.
    intros Hn Hs. induction n as [|n IH]; [lia|]. destruct (Nat.eq_dec n 0) as [->|N].
    - cbn [seq map bm_feed app]. destruct (bm_first thr s [s 0%nat] eq_refl Hs) as [st [E [I _]]]; [cbn; lia|]. rewrite E. exists [false], st. split; [reflexivity|exact I].
    - destruct (IH ltac:(lia)) as [fs [st [E I]]]. rewrite seq_S, map_app, bm_feed_app, E. cbn [app map Nat.add bm_feed].
      set (nums := map s (seq 0 n) ++ [s n]). assert (Ln : length nums = S n) by (unfold nums; rewrite app_length, map_length, seq_length; cbn; lia).
      destruct (bm_step_inv thr s (S n) st nums I) as [fl [st' [E' [I' _]]]].
      + lia.
      + intros k Hk. unfold nums. destruct (Nat.eq_dec k n) as [->|Nk].
        * replace n with (length (map s (seq 0 n))) at 1 by (rewrite map_length, seq_length; reflexivity). rewrite nth_middle. reflexivity.
        * rewrite app_nth1 by (rewrite map_length, seq_length; lia). rewrite (nth_indep _ f0 (s 0%nat)) by (rewrite map_length, seq_length; lia).
          rewrite map_nth, seq_nth by lia. reflexivity.
      + rewrite E'. exists (fs ++ [fl]), st'. split; [reflexivity|exact I'].
  Qed.
End Proofs.

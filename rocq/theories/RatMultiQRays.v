(** Proofs for RatReconst in several variables over several primes, part 5: the rays of a further prime. *)
From Coq Require Import Znumtheory Permutation.
From Verif Require Import Machine NumTheory FFInt FField FSum LinAlg FPoly PolyFF PolySpec PolyFFProofs PolyFFProofs2 PolyFFProofs3 RatNum Modular PField RatUni RatUniSpec RatUniProofs RatUniFirst RatUniNext RatUniRun Newton PolyRec PolyRecSpec PolyRecMath PolyRatSpec RatMulti RatMultiSpec RatMultiMath RatMultiShift RatMultiRay RatMultiQ RatMultiQSpec RatMultiQCoef RatMultiQSide RatMultiQMaps RatMultiQCheck.
Open Scope nat_scope.

(** the state between two primes; M: the product of the primes used so far *)
Definition qinv (N D : list qterm) (in_den : bool) (m : list Z) (M : Z) (g : qrr) : Prop :=
  qr_new_prime g = true /\ qr_first_feed g = true /\ qr_done g = false /\ qr_combined_prime g = M /\ (0 <= qr_zero_counter g < qr_prime_number g)%Z /\
  qr_eqn g = length (qr_nsn g) + length (qr_nsd g) /\ (2 < M)%Z /\
  exists T1 T2 S1 S2, qpart M N (qr_gni g) (qr_cni g) (qr_nsn g) T1 T2 /\ qpart M D (qr_gdi g) (qr_cdi g) (qr_nsd g) S1 S2 /\ In (m, (1, 1)%Z) (if in_den then S1 else T1).

Section Rays.
  Variable ord : forall A : Type, list A -> list A.
  Hypothesis Ho : forall A (l : list A), Permutation (ord A l) l.
  Variable c : mcfg.
  Local Notation n := (mc_n c).
  Hypothesis Hn : 2 <= n.
  Variable F : pfield.
  Local Notation K := (fld F).
  Local Notation KL := (HK F).
  Add Field KRS : (fl_field K (HK F)).
  Local Notation pv := (@poly_value K).
  Variable y : nat -> K.
  Variables (N D : list qterm) (in_den : bool) (m : list Z).
  Hypothesis FN : keys_fit c N.
  Hypothesis FD : keys_fit c D.
  Hypothesis Hlow : forall t, In t (N ++ D) -> lowest (snd t).
  Hypothesis alone_m : forall k, In k (map fst (if in_den then D else N)) -> total k = total m -> k = m.
  Hypothesis Hsize : (Z.of_nat (length N + length D) < 2 ^ 31)%Z.
  Variables (M : Z) (bb : list nat -> K -> K) (ts : list K).
  Hypothesis HM : (2 < M)%Z.
  Local Notation p := (pf_mod F).
  Local Notation Z0 := (length N + length D).
  Local Notation R0 := (Nat.max (length N) (length D)).
  Local Notation pnt := (fun i => nth i ts (@f0 K)).
  Hypothesis Hfin : forall t, In t (N ++ D) -> ~ (p | snd (snd t))%Z.
  Hypothesis Hprime : ~ (p | M)%Z.
  Hypothesis Hvals : forall o t, bb o t = ray_value n (over F N) (over F D) y no_shift o t.
  Hypothesis Henough : R0 * Z0 <= length ts.
  Hypothesis Hpoles : forall i j, 1 <= i <= R0 -> j < length ts -> pv n (over F D) (ray_point y no_shift (repeat i (n - 1)) (pnt j)) <> f0.
  Hypothesis Hanch : forall i, i < n - 1 -> y i <> f0.
  Hypothesis Hapart : forall T k k', T = N \/ T = D -> In k (map fst T) -> In k' (map fst T) -> total k = total k' ->
      monomial_value (n - 1) (tl k) y = monomial_value (n - 1) (tl k') y -> k = k'.
  Hypothesis Himp : forall t, In t (N ++ D) -> no_impostor M (M * p) (snd t).
  Hypothesis Hreg : forall i j SN SD, 1 <= i <= R0 -> NoDup SN -> NoDup SD ->
      (forall d, In d SN -> In (Z.of_nat d) (map (fun t => total (fst t)) N) /\ (in_den = false -> Z.of_nat d <> total m)) ->
      (forall d, In d SD -> In (Z.of_nat d) (map (fun t => total (fst t)) D) /\ (in_den = true -> Z.of_nat d <> total m)) ->
      j + (length SN + length SD) <= length ts ->
      determined SN SD (fun k => pnt (j + k)) (fun k => bb (repeat i (n - 1)) (pnt (j + k))) (length SN + length SD).

  Variables (g : qrr) (T1 T2 S1 S2 : list qterm).
  Hypothesis Hcp : qr_combined_prime g = M.
  Hypothesis SN : qpart M N (qr_gni g) (qr_cni g) (qr_nsn g) T1 T2.
  Hypothesis SD : qpart M D (qr_gdi g) (qr_cdi g) (qr_nsd g) S1 S2.
  Hypothesis I0 : In (m, (1, 1)%Z) (if in_den then S1 else T1).

  (** what Side needs of a part *)
  Lemma part_facts T gm co ns A B : T = N \/ T = D -> qpart M T gm co ns A B ->
    NoDup (map fst (over F A ++ over F B)) /\ (forall k, In k (map fst (over F A ++ over F B)) -> key_ok n k) /\ groups ns (map fst (over F B)) /\
    (forall k k', In k (map fst (over F B)) -> In k' (map fst (over F B)) -> total k = total k' -> monomial_value (n - 1) (tl k) y = monomial_value (n - 1) (tl k') y -> k = k').
  Proof.
    intros ET Q. assert (FT : keys_fit c T) by (destruct ET; subst T; assumption). destruct (qpart_keys _ _ _ _ _ _ _ (proj1 FT) Q) as [ND _]. destruct Q as [P1 [_ [_ [G _]]]].
    assert (IA : forall k, In k (map fst (A ++ B)) -> In k (map fst T)) by (intros k I; apply (Permutation_in _ (Permutation_sym (Permutation_map fst P1))); exact I).
    rewrite <- over_app, over_keys. split; [exact ND|]. split; [intros k I; apply (proj2 FT); apply IA; exact I|]. rewrite over_keys. split; [exact G|].
    intros k k' I I'. apply (Hapart T k k' ET); apply IA; rewrite map_app; apply in_or_app; right; assumption.
  Qed.
  Definition fN := part_facts N _ _ _ _ _ (or_introl eq_refl) SN.
  Definition fD := part_facts D _ _ _ _ _ (or_intror eq_refl) SD.
  Local Notation sN := (sinv c F y (over F T1) (over F T2) (qr_nsn g)).
  Local Notation sD := (sinv c F y (over F S1) (over F S2) (qr_nsd g)).
  Local Notation GN := (G c F y (over F T2)).
  Local Notation GD := (G c F y (over F S2)).
  Local Notation knN := (known F (over F T1) (over F T2)).
  Local Notation knD := (known F (over F S1) (over F S2)).
  Definition small_degs (s : qside F) : Prop := forall d, In d (map fst (qs_solved F s)) -> (Z.of_nat d < 2 ^ 31)%Z.

  Lemma value_parts T gm co ns A B x : qpart M T gm co ns A B -> pv n (over F T) x = pv n (over F A ++ over F B) x.
  Proof. intros [P1 _]. rewrite <- over_app. apply (pv_perm KL). apply over_perm. exact P1. Qed.
  Lemma len_part T gm co ns A B : qpart M T gm co ns A B -> length ns <= length T /\ length B <= length T.
  Proof.
    intros [P1 [_ [_ [G _]]]]. apply groups_length in G. rewrite map_length in G. apply Permutation_length in P1. rewrite app_length in P1. clear - G P1. split; [apply (Nat.le_trans _ _ _ G)|]; rewrite P1; apply Nat.le_add_l.
  Qed.
  Lemma ray_diag j t i : i < n -> ray_point y no_shift (repeat j (n - 1)) t i = (t * diag y j i)%K.
  Proof.
    intros Hi. unfold ray_point, no_shift, diag, x1. destruct i as [|i]; [ring|]. rewrite (nth_indep _ 0 j) by (rewrite repeat_length; lia). rewrite nth_repeat. ring.
  Qed.

  (** a stage: the j-th ray is done, the equations of the next one use the points from b on *)
  Definition ti (b i : nat) : K := pnt (b + i).
  Definition vi (j b i : nat) : K := bb (repeat (S j) (n - 1)) (ti b i).
  Definition xr (j b i : nat) : nat -> K := fun l => (ti b i * diag y (S j) l)%K.
  Definition rhs (j b i : nat) : K := ((f0 - pv n (knN (fun _ => j)) (xr j b i)) + pv n (knD (fun _ => j)) (xr j b i) * vi j b i)%K.
  Definition row (j b : nat) (num den : qside F) (i : nat) : list K := sys_row (map fst (qs_ns F num)) (map fst (qs_ns F den)) (ti b) (vi j b) (rhs j b) i.
  Record winv (j b k : nat) (w : qwork F) : Prop := mk_winv {
    wi_n : sN (fun _ => j) (qw_num F w);
    wi_d : sD (fun _ => j) (qw_den F w);
    wi_sn : small_degs (qw_num F w);
    wi_sd : small_degs (qw_den F w);
    wi_order : qw_order F w = S j;
    wi_eqn : qw_eqn F w = length (qs_ns F (qw_num F w)) + length (qs_ns F (qw_den F w));
    wi_rows : qw_rows F w = map (row j b (qw_num F w) (qw_den F w)) (seq 0 k);
    wi_subs : 0 < k -> qw_subs F w = (qknown ord c F y (S j) (qw_num F w), qknown ord c F y (S j) (qw_den F w));
    wi_k : k < qw_eqn F w;
    wi_b : b <= j * Z0
  }.

  Lemma lenof_le (B : list qterm) d : lenof F (over F B) d <= length B.
  Proof. unfold lenof. pose proof (of_degree_le d (map fst (over F B))) as H. rewrite over_keys, map_length in H. rewrite over_keys. exact H. Qed.
  Lemma stage_bound j num den : sN (fun _ => j) num -> sD (fun _ => j) den -> 0 < length (qs_ns F num) + length (qs_ns F den) ->
    j < R0 /\ length (qs_ns F num) + length (qs_ns F den) <= Z0.
  Proof.
    intros IN ID Pos. destruct (len_part _ _ _ _ _ _ SN) as [LN1 LN2]. destruct (len_part _ _ _ _ _ _ SD) as [LD1 LD2]. split.
    - assert (X : (exists d, In d (map fst (qs_ns F num))) \/ exists d, In d (map fst (qs_ns F den))).
      { clear - Pos. destruct (qs_ns F num) as [|e l]; [right|left; exists (fst e); left; reflexivity]. destruct (qs_ns F den) as [|e l]; [cbn in Pos; lia|]. exists (fst e). left. reflexivity. }
      destruct X as [[d X]|[d X]].
      + apply (in_ns c Hn F y _ _ _ (proj1 (proj2 (proj2 fN))) _ num d IN) in X as [_ X]. pose proof (lenof_le T2 d). cbv beta in X. clear - X H LN2. lia.
      + apply (in_ns c Hn F y _ _ _ (proj1 (proj2 (proj2 fD))) _ den d ID) in X as [_ X]. pose proof (lenof_le S2 d). cbv beta in X. clear - X H LD2. lia.
    - assert (A : length (qs_ns F num) <= length (qr_nsn g)) by (rewrite (si_ns _ _ _ _ _ _ _ _ IN); clear; induction (qr_nsn g) as [|e l IH]; [reflexivity|]; cbn [filter]; destruct (_ <? _); cbn [length]; lia).
      assert (B : length (qs_ns F den) <= length (qr_nsd g)) by (rewrite (si_ns _ _ _ _ _ _ _ _ ID); clear; induction (qr_nsd g) as [|e l IH]; [reflexivity|]; cbn [filter]; destruct (_ <? _); cbn [length]; lia).
      clear - A B LN1 LD1. lia.
  Qed.
  Lemma winv_bound j b k w : winv j b k w -> j < R0 /\ b + qw_eqn F w <= length ts.
  Proof.
    intros W. pose proof (wi_k _ _ _ _ W) as Hk. pose proof (wi_eqn _ _ _ _ W) as He. destruct (stage_bound j _ _ (wi_n _ _ _ _ W) (wi_d _ _ _ _ W)) as [A B]; [clear - Hk He; lia|]. split; [exact A|].
    pose proof (wi_b _ _ _ _ W) as Hb. assert (X : S j * Z0 <= R0 * Z0) by (apply Nat.mul_le_mono_r; clear - A; lia). cbn [Nat.mul] in X. clear - X B Hb He Henough. lia.
  Qed.
  Lemma order_small j : j < R0 -> (Z.of_nat (S j) < 2 ^ 31)%Z.
  Proof. intros H. clear - H Hsize. lia. Qed.

  (** ---- an equation ---- *)
  Lemma build_ok j b k w : winv j b k w ->
    qbuild_row ord c F y w (ti b k) (vi j b k) = mk_qwork F (qw_num F w) (qw_den F w) (qw_order F w) (qw_eqn F w) (qknown ord c F y (S j) (qw_num F w), qknown ord c F y (S j) (qw_den F w))
      (map (row j b (qw_num F w) (qw_den F w)) (seq 0 (S k))).
  Proof.
    intros W. destruct (winv_bound j b k w W) as [Hj _]. pose proof (order_small j Hj) as So. unfold qbuild_row.
    assert (Es : match qw_rows F w with [] => (qknown ord c F y (qw_order F w) (qw_num F w), qknown ord c F y (qw_order F w) (qw_den F w)) | _ => qw_subs F w end
      = (qknown ord c F y (S j) (qw_num F w), qknown ord c F y (S j) (qw_den F w))).
    { rewrite (wi_rows _ _ _ _ W), (wi_order _ _ _ _ W). destruct k as [|k]; [reflexivity|]. cbn [seq map]. apply (wi_subs _ _ _ _ W). lia. }
    rewrite Es. cbn [fst snd].
    rewrite (fold_sub_lsum KL (fun e : nat * K => snd e * fpow (ti b k) (Z.of_nat (fst e)))%K), (fold_add_lsum KL (fun e : nat * K => snd e * fpow (ti b k) (Z.of_nat (fst e)) * vi j b k)%K), (lsum_mul_r KL).
    destruct fN as [N1 _]. destruct fD as [D1 _].
    rewrite (qknown_sum ord Ho c Hn F y (over F T1) (over F T2) (qr_nsn g) N1 (fun _ => j) (qw_num F w) (S j) (ti b k) So (wi_n _ _ _ _ W) (wi_sn _ _ _ _ W)).
    rewrite (qknown_sum ord Ho c Hn F y (over F S1) (over F S2) (qr_nsd g) D1 (fun _ => j) (qw_den F w) (S j) (ti b k) So (wi_d _ _ _ _ W) (wi_sd _ _ _ _ W)).
    f_equal. rewrite (wi_rows _ _ _ _ W), seq_S, map_app. f_equal. cbn [map Nat.add]. f_equal. unfold row, sys_row. rewrite !map_map. reflexivity.
  Qed.

  Lemma true_equation j b i num den : j < R0 -> b + i < length ts -> sN (fun _ => j) num -> sD (fun _ => j) den ->
    (lsum (fun e => GN e (S j) * pw (ti b i) e) (map fst (qs_ns F num)) - vi j b i * lsum (fun e => GD e (S j) * pw (ti b i) e) (map fst (qs_ns F den)))%K = rhs j b i.
  Proof.
    intros Hj Hb IN ID. destruct fN as [N1 [N2 [N3 _]]]. destruct fD as [D1 [D2 [D3 _]]].
    rewrite <- (unknown_sum c Hn F y (over F T1) (over F T2) (qr_nsn g) N1 N2 N3 j num (ti b i) IN).
    rewrite <- (unknown_sum c Hn F y (over F S1) (over F S2) (qr_nsd g) D1 D2 D3 j den (ti b i) ID).
    set (x := fun l => (ti b i * diag y (S j) l)%K). unfold rhs. change (xr j b i) with x.
    assert (EX : forall P, pv n P (ray_point y no_shift (repeat (S j) (n - 1)) (ti b i)) = pv n P x) by (intros P; apply pv_ext_x; intros l Hl; apply ray_diag; exact Hl).
    pose proof (Hpoles (S j) (b + i) ltac:(clear - Hj; lia) Hb) as Hp. change (nth (b + i) ts f0) with (ti b i) in Hp.
    assert (EV : (vi j b i * pv n (over F D) x)%K = pv n (over F N) x). { unfold vi. rewrite Hvals. unfold ray_value. rewrite !EX in *. field. exact Hp. }
    rewrite (value_parts _ _ _ _ _ _ x SN), (value_parts _ _ _ _ _ _ x SD), (split_value c F (over F T1) (over F T2) (fun _ => j) x), (split_value c F (over F S1) (over F S2) (fun _ => j) x) in EV.
    match type of EV with (?w * (?a + ?b))%K = (?c0 + ?d0)%K => transitivity ((c0 + d0) - w * b - c0)%K; [ring|rewrite <- EV; ring] end.
  Qed.

  Lemma degree_in T gm co ns A B (norm : Prop) d l : T = N \/ T = D -> qpart M T gm co ns A B -> In (d, l) ns ->
    exists k, In k (map fst B) /\ Z.of_nat d = total k /\ In (Z.of_nat d) (map (fun t => total (fst t)) T).
  Proof.
    intros ET Q I. assert (FT : keys_fit c T) by (destruct ET; subst T; assumption). destruct Q as [P1 [_ [_ [[_ [G _]] _]]]]. destruct (G d l I) as [Ne P]. destruct l as [|k l]; [contradiction|].
    assert (J : In k (of_degree d (map fst B))) by (apply (Permutation_in _ P); left; reflexivity). apply filter_In in J as [J E]. apply Nat.eqb_eq in E.
    assert (JT : In k (map fst T)) by (apply (Permutation_in _ (Permutation_sym (Permutation_map fst P1))); rewrite map_app; apply in_or_app; right; exact J).
    exists k. split; [exact J|]. pose proof (dg_total n k (proj2 FT k JT)) as X. rewrite E in X. split; [symmetry; exact X|]. apply in_map_iff in JT as [t [<- JT]]. apply in_map_iff. exists t. split; [exact X|exact JT].
  Qed.
  Lemma solve_ok j b w : winv j b (pred (qw_eqn F w)) w -> forall w', qw_num F w' = qw_num F w -> qw_den F w' = qw_den F w -> qw_eqn F w' = qw_eqn F w ->
    qw_rows F w' = map (row j b (qw_num F w) (qw_den F w)) (seq 0 (qw_eqn F w)) ->
    exists ln ld, qsolve_rows F w' = Ret (ln, ld) /\ map fst ln = map fst (qs_ns F (qw_num F w)) /\ map fst ld = map fst (qs_ns F (qw_den F w)) /\
      (forall d v, In (d, v) ln -> v = GN d (S j)) /\ (forall d v, In (d, v) ld -> v = GD d (S j)).
  Proof.
    intros W w' E1 E2 E3 E4. destruct (winv_bound _ _ _ _ W) as [Hj Hb]. pose proof (wi_k _ _ _ _ W) as Hk. pose proof (wi_eqn _ _ _ _ W) as He.
    pose proof (wi_n _ _ _ _ W) as IN. pose proof (wi_d _ _ _ _ W) as ID. set (num := qw_num F w) in *. set (den := qw_den F w) in *.
    pose proof (proj1 (proj2 (proj2 fN))) as N3. pose proof (proj1 (proj2 (proj2 fD))) as D3.
    assert (InN : forall d, In d (map fst (qs_ns F num)) -> exists l, In (d, l) (qr_nsn g)).
    { intros d X. rewrite (si_ns _ _ _ _ _ _ _ _ IN) in X. apply in_map_iff in X as [[d' l] [<- X]]. apply filter_In in X as [X _]. exists l. exact X. }
    assert (InD : forall d, In d (map fst (qs_ns F den)) -> exists l, In (d, l) (qr_nsd g)).
    { intros d X. rewrite (si_ns _ _ _ _ _ _ _ _ ID) in X. apply in_map_iff in X as [[d' l] [<- X]]. apply filter_In in X as [X _]. exists l. exact X. }
    destruct (sys_solve KL (map fst (qs_ns F num)) (map fst (qs_ns F den)) (ti b) (vi j b) (rhs j b) (fun e => GN e (S j)) (fun e => GD e (S j)) (qw_rows F w')) as [x [Ex [XN XD]]].
    - exact (ns_nodup c F y _ _ _ N3 _ num IN).
    - exact (ns_nodup c F y _ _ _ D3 _ den ID).
    - intros e [X|X].
      + destruct (InN e X) as [l I]. destruct (degree_in _ _ _ _ _ _ True e l (or_introl eq_refl) SN I) as [k [J [-> _]]]. apply (key_range n). apply (proj1 (proj2 fN)). rewrite map_app, !over_keys. apply in_or_app. right. exact J.
      + destruct (InD e X) as [l I]. destruct (degree_in _ _ _ _ _ _ True e l (or_intror eq_refl) SD I) as [k [J [-> _]]]. apply (key_range n). apply (proj1 (proj2 fD)). rewrite map_app, !over_keys. apply in_or_app. right. exact J.
    - intros i Hi. rewrite E4, !map_length in *. rewrite <- He in Hi. rewrite (nth_indep _ [] (row j b num den 0)) by (rewrite map_length, seq_length; exact Hi). rewrite map_nth, seq_nth by exact Hi. reflexivity.
    - apply (Hreg (S j) b).
      + clear - Hj. lia.
      + exact (ns_nodup c F y _ _ _ N3 _ num IN).
      + exact (ns_nodup c F y _ _ _ D3 _ den ID).
      + intros d X. destruct (InN d X) as [l I]. destruct (degree_in _ _ _ _ _ _ True d l (or_introl eq_refl) SN I) as [k [J [Ek Ed]]]. split; [exact Ed|]. intros Eden Em. rewrite Eden in *. cbn iota in *.
        assert (Kk : k = m). { apply alone_m; [|congruence]. destruct SN as [P1 _]. apply (Permutation_in _ (Permutation_sym (Permutation_map fst P1))). rewrite map_app. apply in_or_app. right. exact J. }
        subst k. pose proof (proj1 (qpart_keys _ _ _ _ _ _ _ (proj1 FN) SN)) as ND. rewrite map_app in ND. apply (nodup_app_disjoint _ _ m ND); [|exact J]. apply in_map_iff. exists (m, (1, 1)%Z). split; [reflexivity|exact I0].
      + intros d X. destruct (InD d X) as [l I]. destruct (degree_in _ _ _ _ _ _ True d l (or_intror eq_refl) SD I) as [k [J [Ek Ed]]]. split; [exact Ed|]. intros Eden Em. rewrite Eden in *. cbn iota in *.
        assert (Kk : k = m). { apply alone_m; [|congruence]. destruct SD as [P1 _]. apply (Permutation_in _ (Permutation_sym (Permutation_map fst P1))). rewrite map_app. apply in_or_app. right. exact J. }
        subst k. pose proof (proj1 (qpart_keys _ _ _ _ _ _ _ (proj1 FD) SD)) as ND. rewrite map_app in ND. apply (nodup_app_disjoint _ _ m ND); [|exact J]. apply in_map_iff. exists (m, (1, 1)%Z). split; [reflexivity|exact I0].
      + rewrite !map_length. clear - Hb He. lia.
    - intros i Hi. rewrite !map_length in Hi. apply (true_equation j b i num den Hj); [clear - Hi Hb He; lia|exact IN|exact ID].
    - rewrite !map_length. clear - Hk He. lia.
    - destruct (combine_nth_keys (qs_ns F num) x 0 (fun e => GN e (S j))) as [KN VN]; [intros k Hk'; apply XN; rewrite map_length; exact Hk'|].
      destruct (combine_nth_keys (qs_ns F den) x (length (qs_ns F num)) (fun e => GD e (S j))) as [KD VD]; [intros k Hk'; rewrite <- (map_length fst (qs_ns F num)); apply XD; rewrite map_length; exact Hk'|].
      unfold qsolve_rows. rewrite E1, E2, E3, He. fold num den. rewrite !map_length in Ex. rewrite Ex. cbn [obind]. eexists _, _. split; [reflexivity|]. split; [exact KN|]. split; [exact KD|]. split; [exact VN|exact VD].
  Qed.

  (** ---- the end of a ray ---- *)
  Lemma part_sum T gm co ns A B (num : qside F) lev : T = N \/ T = D -> qpart M T gm co ns A B -> sinv c F y (over F A) (over F B) ns lev num -> qs_mat F num = [] ->
    forall t, In t B -> coef_at (qsum ord c F num) (fst t) = @krat K (snd t).
  Proof.
    intros ET Q I E t Ht. destruct (part_facts T gm co ns A B ET Q) as [N1 [N2 [N3 _]]]. rewrite (qsum_ok ord Ho c Hn F y (over F A) (over F B) ns N1 N3 lev num I E (fst t)).
    apply coef_in; [exact N1|]. apply in_or_app. right. unfold over. apply in_map_iff. exists t. split; [reflexivity|exact Ht].
  Qed.
  Hypothesis Hdone : qr_done g = false.
  Hypothesis Hzc : (0 <= qr_zero_counter g < qr_prime_number g)%Z.
  Hypothesis H300 : (qr_prime_number g + 1 < 300)%Z.
  Hypothesis Hopen : qr_nsn g <> [] \/ qr_nsd g <> [].

  Lemma combine_next_ok num den j : sN (fun _ => j) num -> sD (fun _ => j) den -> qs_mat F num = [] -> qs_mat F den = [] ->
    exists g', qcombine_next ord F g (qsum ord c F num) (qsum ord c F den) = Ret g' /\ qinv N D in_den m (M * p) g' /\ qr_prime_number g' = (qr_prime_number g + 1)%Z.
  Proof.
    intros IN ID EN ED. pose proof (p_gt1 F) as Hp.
    destruct (qpart_next ord Ho n F M N (qr_gni g) (qr_cni g) (qr_nsn g) T1 T2 (qsum ord c F num) 0%Z HM Hprime (proj1 FN)) as [cn [En [cn2 [gn2 [nn2 [Ta [Tb [Fn Sn]]]]]]]]; [|exact SN|exact (part_sum _ _ _ _ _ _ num _ (or_introl eq_refl) SN IN EN)|].
    { intros t Ht. assert (Ht' : In t (N ++ D)) by (apply in_or_app; left; exact Ht). split; [apply (proj2 FN); apply in_map; exact Ht|]. split; [apply Hlow; exact Ht'|]. split; [apply Hfin; exact Ht'|apply Himp; exact Ht']. }
    destruct (qpart_next ord Ho n F M D (qr_gdi g) (qr_cdi g) (qr_nsd g) S1 S2 (qsum ord c F den) (match qr_cni g with [] => 0 | _ => M * p end)%Z HM Hprime (proj1 FD)) as [cd [Ed [cd2 [gd2 [nd2 [Sa [Sb [Fd Sd]]]]]]]]; [|exact SD|exact (part_sum _ _ _ _ _ _ den _ (or_intror eq_refl) SD ID ED)|].
    { intros t Ht. assert (Ht' : In t (N ++ D)) by (apply in_or_app; right; exact Ht). split; [apply (proj2 FD); apply in_map; exact Ht|]. split; [apply Hlow; exact Ht'|]. split; [apply Hfin; exact Ht'|apply Himp; exact Ht']. }
    unfold qcombine_next. rewrite Hcp, En. cbn [obind fst snd]. rewrite Ed. cbn [obind fst snd].
    assert (EL : match qr_cdi g with [] => match qr_cni g with [] => 0 | _ => M * p end | _ => M * p end%Z = (M * p)%Z).
    { destruct (qr_cdi g) eqn:E1; [|reflexivity]. destruct (qr_cni g) eqn:E2; [|reflexivity]. exfalso.
      destruct SN as [_ [_ [A1 [A2 _]]]]. destruct SD as [_ [_ [B1 [B2 _]]]]. rewrite ?E2 in A1. rewrite ?E1 in B1. inversion A1; inversion B1; subst.
      apply groups_length in A2, B2. cbn in A2, B2. destruct (qr_nsn g); [|cbn in A2; lia]. destruct (qr_nsd g); [|cbn in B2; lia]. clear - Hopen. destruct Hopen as [X|X]; apply X; reflexivity. }
    rewrite EL, Fn. cbn [obind]. rewrite Fd. cbn [obind]. destruct (Z.eqb_spec (qr_prime_number g + 1) 300) as [X|_]; [clear - X H300; lia|].
    eexists. split; [reflexivity|]. split; [|reflexivity]. unfold qinv. cbn [qr_prime_number qr_new_prime qr_first_feed qr_zero_counter qr_done qr_combined_prime qr_cni qr_cdi qr_gni qr_gdi qr_nsn qr_nsd qr_eqn].
    split; [reflexivity|]. split; [reflexivity|]. split; [exact Hdone|]. split; [reflexivity|]. split; [clear - Hzc; lia|]. split; [rewrite !(Permutation_length (Ho _ _)); reflexivity|]. split; [clear - HM Hp; nia|].
    exists (T1 ++ Ta), Tb, (S1 ++ Sa), Sb. split; [exact Sn|]. split; [exact Sd|]. destruct in_den; apply in_or_app; left; exact I0.
  Qed.

  Lemma finish_ok j b w : winv j b (pred (qw_eqn F w)) w -> forall w' ln ld, qw_num F w' = qw_num F w -> qw_den F w' = qw_den F w -> qw_order F w' = S j ->
    map fst ln = map fst (qs_ns F (qw_num F w)) -> map fst ld = map fst (qs_ns F (qw_den F w)) -> (forall d v, In (d, v) ln -> v = GN d (S j)) -> (forall d v, In (d, v) ld -> v = GD d (S j)) ->
    (exists g', qfinish_ray ord c F y g w' ln ld = Ret (QNext F g') /\ qinv N D in_den m (M * p) g' /\ qr_prime_number g' = (qr_prime_number g + 1)%Z) \/
    exists w2, qfinish_ray ord c F y g w' ln ld = Ret (QMore F g w2) /\ winv (S j) (b + qw_eqn F w) 0 w2.
  Proof.
    intros W w' ln ld E1 E2 Eo Kn Kd Vn Vd. pose proof (wi_n _ _ _ _ W) as IN. pose proof (wi_d _ _ _ _ W) as ID. pose proof fN as [N1 [N2 [N3 N4]]]. pose proof fD as [D1 [D2 [D3 D4]]].
    set (num := qw_num F w) in *. set (den := qw_den F w) in *.
    assert (Pn : Permutation (map fst (ord _ ln)) (map fst (qs_ns F num))) by (rewrite <- Kn; apply Permutation_map; apply Ho).
    assert (Pd : Permutation (map fst (ord _ ld)) (map fst (qs_ns F den))) by (rewrite <- Kd; apply Permutation_map; apply Ho).
    destruct (file_ray_ok ord Ho c Hn F y Hanch (over F T1) (over F T2) (qr_nsn g) N1 N2 N3 N4 j num (ord _ ln) IN Pn) as [num' [FE1 IN']]; [intros d v I; apply Vn; apply (Permutation_in _ (Ho _ _) I)|].
    destruct (file_ray_ok ord Ho c Hn F y Hanch (over F S1) (over F S2) (qr_nsd g) D1 D2 D3 D4 j den (ord _ ld) ID Pd) as [den' [FE2 ID']]; [intros d v I; apply Vd; apply (Permutation_in _ (Ho _ _) I)|].
    assert (Dsm : forall (l : list (nat * K)) s, Permutation (map fst l) (map fst (qs_ns F s)) -> (forall d, In d (map fst (qs_ns F s)) -> (Z.of_nat d < 2 ^ 31)%Z) -> forall d v, In (d, v) l -> (Z.of_nat d < 2 ^ 31)%Z).
    { intros l s Q H d v I. apply H. apply (Permutation_in _ Q). apply in_map_iff. exists (d, v). auto. }
    assert (Sn' : small_degs num').
    { unfold small_degs. apply (small_solved ord c F y (over F T1) (over F T2) (qr_nsn g) (fun _ => j) num IN (wi_sn _ _ _ _ W) _ _ FE1). apply (Dsm _ num Pn). intros d X. rewrite (si_ns _ _ _ _ _ _ _ _ IN) in X. apply in_map_iff in X as [[d' l] [<- X]]. apply filter_In in X as [X _].
      destruct (degree_in _ _ _ _ _ _ True d' l (or_introl eq_refl) SN X) as [k [J [Ek _]]]. cbn [fst]. rewrite Ek. apply (key_range n). apply N2. rewrite map_app, !over_keys. apply in_or_app. right. exact J. }
    assert (Sd' : small_degs den').
    { unfold small_degs. apply (small_solved ord c F y (over F S1) (over F S2) (qr_nsd g) (fun _ => j) den ID (wi_sd _ _ _ _ W) _ _ FE2). apply (Dsm _ den Pd). intros d X. rewrite (si_ns _ _ _ _ _ _ _ _ ID) in X. apply in_map_iff in X as [[d' l] [<- X]]. apply filter_In in X as [X _].
      destruct (degree_in _ _ _ _ _ _ True d' l (or_intror eq_refl) SD X) as [k [J [Ek _]]]. cbn [fst]. rewrite Ek. apply (key_range n). apply D2. rewrite map_app, !over_keys. apply in_or_app. right. exact J. }
    unfold qfinish_ray. rewrite E1, E2. fold num den. rewrite FE1. cbn [obind]. rewrite FE2. cbn [obind].
    assert (Cont : (qs_mat F num' <> [] \/ qs_mat F den' <> []) -> winv (S j) (b + qw_eqn F w) 0 (mk_qwork F num' den' (S (S j)) (length (qs_ns F num') + length (qs_ns F den')) ([], []) [])).
    { intros Ne. constructor; cbn [qw_num qw_den qw_order qw_eqn qw_rows qw_subs]; try assumption; try reflexivity.
      - intros X. lia.
      - pose proof (f_equal (@length nat) (si_keys _ _ _ _ _ _ _ _ IN')) as X1. pose proof (f_equal (@length nat) (si_keys _ _ _ _ _ _ _ _ ID')) as X2. rewrite !map_length in X1, X2. rewrite <- X1, <- X2. clear - Ne. destruct (qs_mat F num'), (qs_mat F den'); cbn [length]; try lia. destruct Ne as [X|X]; congruence.
      - pose proof (wi_b _ _ _ _ W) as Hb. pose proof (wi_k _ _ _ _ W) as Hk. pose proof (wi_eqn _ _ _ _ W) as He. destruct (stage_bound j _ _ IN ID) as [_ B]; [fold num den in He; clear - Hk He; lia|]. cbn [Nat.mul]. fold num den in He. clear - Hb He B. lia. }
    destruct (qs_mat F num') as [|e1 l1] eqn:M1.
    - destruct (qs_mat F den') as [|e2 l2] eqn:M2.
      + left. destruct (combine_next_ok num' den' (S j) IN' ID' M1 M2) as [g' [Eg [Ig Pg]]]. rewrite Eg. cbn [obind]. exists g'. auto.
      + right. rewrite Eo. eexists. split; [reflexivity|]. apply Cont. right. discriminate.
    - right. rewrite Eo. eexists. split; [reflexivity|]. apply Cont. left. discriminate.
  Qed.

  (** ---- the probes after the first one ---- *)
  Hypothesis Hnp : qr_new_prime g = false.
  Hypothesis Hff : qr_first_feed g = false.
  Definition row_step (w : qwork F) (t v : K) : outcome (qfed F) :=
    let w2 := qbuild_row ord c F y w t v in
    if qw_eqn F w2 =? length (qw_rows F w2) then do nd <- qsolve_rows F w2; qfinish_ray ord c F y g w2 (fst nd) (snd nd) else Ret (QMore F g w2).
  Lemma row_step_ok j b k w : winv j b k w ->
    (exists g', row_step w (ti b k) (vi j b k) = Ret (QNext F g') /\ qinv N D in_den m (M * p) g' /\ qr_prime_number g' = (qr_prime_number g + 1)%Z) \/
    exists j' b' k' w2, row_step w (ti b k) (vi j b k) = Ret (QMore F g w2) /\ winv j' b' k' w2 /\ b' + k' = S (b + k).
  Proof.
    intros W. unfold row_step. rewrite (build_ok j b k w W). cbn [qw_eqn qw_rows]. rewrite map_length, seq_length. destruct (Nat.eqb_spec (qw_eqn F w) (S k)) as [E|E].
    - assert (Ek : k = pred (qw_eqn F w)) by (rewrite E; reflexivity). rewrite <- E. set (w' := mk_qwork F _ _ _ _ _ _). pose proof W as W'. rewrite Ek in W'.
      destruct (solve_ok j b w W' w' eq_refl eq_refl eq_refl eq_refl) as [ln [ld [Es [Kn [Kd [Vn Vd]]]]]]. rewrite Es. cbn [obind fst snd].
      destruct (finish_ok j b w W' w' ln ld eq_refl eq_refl (wi_order _ _ _ _ W) Kn Kd Vn Vd) as [H|[w2 [H1 H2]]]; [left; exact H|]. right. exists (S j), (b + qw_eqn F w), 0, w2. split; [exact H1|]. split; [exact H2|]. rewrite E. clear. lia.
    - right. exists j, b, (S k). eexists. split; [reflexivity|]. split; [|clear; lia]. destruct W as [A1 A2 A3 A4 A5 A6 A7 A8 A9 A10]. constructor; cbn [qw_num qw_den qw_order qw_eqn qw_rows qw_subs]; try assumption; try reflexivity. clear - A9 E. lia.
  Qed.
  Lemma feed_later w t v : qfeed ord c F y g w t v = row_step w t v.
  Proof. unfold qfeed. rewrite Hdone, Hff. unfold qinterpolate. rewrite Hnp. reflexivity. Qed.
  Lemma drive_later : forall r j b k w, winv j b k w -> length ts - (b + k) = r ->
    exists g', qdrive ord c F y bb (skipn (b + k) ts) g w = Ret (QNext F g') /\ qinv N D in_den m (M * p) g' /\ qr_prime_number g' = (qr_prime_number g + 1)%Z.
  Proof.
    induction r as [|r IH]; intros j b k w W Er; destruct (winv_bound _ _ _ _ W) as [Hj Hb]; pose proof (wi_k _ _ _ _ W) as Hk; [clear - Er Hb Hk; lia|].
    assert (Hl : b + k < length ts) by (clear - Hb Hk; lia). rewrite (skipn_nth f0 ts (b + k) Hl). cbn [qdrive]. rewrite (wi_order _ _ _ _ W). change (nth (b + k) ts f0) with (ti b k). change (bb (repeat (S j) (n - 1)) (ti b k)) with (vi j b k).
    rewrite feed_later. destruct (row_step_ok j b k w W) as [[g' [E H]]|[j' [b' [k' [w2 [E [W2 S]]]]]]]; rewrite E; cbn [obind].
    - exists g'. split; [reflexivity|exact H].
    - rewrite <- S. apply (IH j' b' k' w2 W2). clear - S Er. lia.
  Qed.
End Rays.

(** Property theorems C49: reconstructing a rational function of n > 1 variables with rational coefficients over several primes (RatReconst). *)
From Coq Require Import Znumtheory Permutation.
From Verif Require Import Machine NumTheory FFInt FField FSum FPoly PolyFF PolySpec PolyFFProofs Thiele ThieleSpec ThieleProofs RatNum Modular Primes PField RatUni RatUniSpec RatUniProofs Newton PolyRec PolyRecSpec PolyRecMath PolyRecChecks PolyRatSpec BM BMSpec BTProofs RatMulti RatMultiSpec RatMultiRunSpec RatMultiMath RatMultiRun RatMultiQ RatMultiQSpec RatMultiQCheck RatMultiQRays RatMultiQRun RatMultiQFirst RatMultiQMain RatMultiQLate RatMultiQEx RatUniMisled.
Open Scope nat_scope.

(** The first prime s fixes a coefficient of the numerator or of the denominator that is set to one.  With good further primes l the object
    either waits for the next prime or is done, and then numerator and denominator are those of the normalised function, for every order in
    which the hash maps are iterated. *)
Theorem C49_result_is_the_function : forall ord, (forall A (l : list A), Permutation (ord A l) l) ->
  forall (c : mcfg) (N D : list qterm) (s : msession) (l : list msession),
  rational_function_n (mc_n c) N D -> first_session c N D s ->
  (exists in_den m, normalised_by (mc_n c) (mc_norm_den c) (over (ms_F s) N) (over (ms_F s) D) in_den m false) ->
  (forall in_den m N1 D1, normalisation c (ms_F s) N D in_den m N1 D1 -> exists M', good_sessions (mc_n c) N1 D1 in_den m (pf_mod (ms_F s)) l M') ->
  length l < 299 ->
  exists in_den m N1 D1 g, normalisation c (ms_F s) N D in_den m N1 D1 /\
    ((reconstruct ord c s l = Ret (QRunning g) /\ qr_done g = false) \/
     (reconstruct ord c s l = Ret (QComplete g) /\ qr_done g = true /\ is_polynomial (qr_gni g) N1 /\ is_polynomial (qr_gdi g) D1)).
Proof.
  intros ord Ho c N D s l RF FS NB GS Hl. destruct (first_prime_ok ord Ho c N D s RF FS NB) as [in_den [m [N1 [D1 [r [HN [Hn [Ht [Hv [Er [Q1 [Q2 [FN [FD [HL [HA HZ]]]]]]]]]]]]]]]].
  destruct (GS in_den m N1 D1 HN) as [M' G]. rewrite (reconstruct_first ord c s l Ht Hv r Er).
  destruct (run_ok ord Ho c Hn N1 D1 in_den m FN FD HL HA HZ (pf_mod (ms_F s)) l M' G _ Q1) as [[g [E [I _]]]|[g [E [X1 [X2 X3]]]]]; [rewrite Q2; lia| |]; exists in_den, m, N1, D1, g; (split; [exact HN|]).
  - left. split; [exact E|]. apply I.
  - right. auto.
Qed.
Print Assumptions C49_result_is_the_function.

(** If every coefficient is within the bound for the product of the primes, the first probe of one more prime ends the run. *)
Theorem C49_reconstruction_ends : forall ord, (forall A (l : list A), Permutation (ord A l) l) ->
  forall (c : mcfg) (N D : list qterm) (s : msession) (l : list msession) (s' : msession),
  rational_function_n (mc_n c) N D -> first_session c N D s ->
  (exists in_den m, normalised_by (mc_n c) (mc_norm_den c) (over (ms_F s) N) (over (ms_F s) D) in_den m false) ->
  (forall in_den m N1 D1, normalisation c (ms_F s) N D in_den m N1 D1 ->
     one_probe (mc_n c) N1 D1 s' /\ exists M', good_sessions (mc_n c) N1 D1 in_den m (pf_mod (ms_F s)) l M' /\ all_within M' (N1 ++ D1)) ->
  length l < 299 ->
  exists in_den m N1 D1 g, normalisation c (ms_F s) N D in_den m N1 D1 /\
    reconstruct ord c s (l ++ [s']) = Ret (QComplete g) /\ qr_done g = true /\ is_polynomial (qr_gni g) N1 /\ is_polynomial (qr_gdi g) D1.
Proof.
  intros ord Ho c N D s l s' RF FS NB GS Hl. destruct (first_prime_ok ord Ho c N D s RF FS NB) as [in_den [m [N1 [D1 [r [HN [Hn [Ht [Hv [Er [Q1 [Q2 [FN [FD [HL [HA HZ]]]]]]]]]]]]]]]].
  destruct (GS in_den m N1 D1 HN) as [OP [M' [G AW]]]. rewrite (reconstruct_first ord c s (l ++ [s']) Ht Hv r Er), run_app. exists in_den, m, N1, D1.
  destruct (run_ok ord Ho c Hn N1 D1 in_den m FN FD HL HA HZ (pf_mod (ms_F s)) l M' G _ Q1) as [[g [E [I _]]]|[g [E [X1 [X2 X3]]]]]; [rewrite Q2; lia| |].
  - rewrite E. cbn [obind]. destruct (last_probe ord Ho c Hn N1 D1 in_den m FN FD HZ M' s' g OP AW I) as [g' [E' [X1 [X2 X3]]]]. exists g'. auto.
  - rewrite E. cbn [obind]. exists g. auto.
Qed.
Print Assumptions C49_reconstruction_ends.

(** Three zero first values give the zero function 0 / 1; in particular the zero function is found. *)
Theorem C49_zero_function : forall ord (c : mcfg) (s0 s1 s2 : msession) (l : list msession),
  (forall s, In s [s0; s1; s2] -> ms_ts s <> [] /\ first_val (mc_n c) s = f0) ->
  exists g, reconstruct ord c s0 (s1 :: s2 :: l) = Ret (QComplete g) /\ qr_done g = true /\
    qr_gni g = [(zeros (mc_n c), mk_rn 0 1)] /\ qr_gdi g = [(zeros (mc_n c), mk_rn 1 1)].
Proof.
  intros ord c s0 s1 s2 l H.
  assert (Z : forall s, In s [s0; s1; s2] -> exists t ts, ms_ts s = t :: ts /\ feqb (ms_bb s (repeat 1 (mc_n c - 1)) t) f0 = true).
  { intros s I. destruct (H s I) as [Ht Hv]. unfold first_val, pt in Hv. destruct (ms_ts s) as [|t ts]; [contradiction|]. cbn [nth] in Hv. exists t, ts. split; [reflexivity|]. rewrite Hv. apply (fl_eqb _ (HK (ms_F s))). reflexivity. }
  destruct (Z s0) as [t0 [r0 [E0 V0]]]; [left; reflexivity|]. destruct (Z s1) as [t1 [r1 [E1 V1]]]; [right; left; reflexivity|]. destruct (Z s2) as [t2 [r2 [E2 V2]]]; [right; right; left; reflexivity|].
  unfold reconstruct. cbn [reconstruct_from]. rewrite E0, V0. unfold qfeed_zero at 1. cbn [fresh qr_zero_counter qr_prime_number Z.add Z.eqb Pos.eqb Pos.add andb obind].
  rewrite E1, V1. unfold qfeed_zero at 1. cbn [qr_zero_counter qr_prime_number Z.add Z.eqb Pos.eqb Pos.add andb obind Pos.succ].
  rewrite E2, V2. unfold qfeed_zero at 1. cbn [qr_zero_counter qr_prime_number Z.add Z.eqb Pos.eqb Pos.add andb obind Pos.succ]. eexists. split; [reflexivity|]. split; [reflexivity|]. split; reflexivity.
Qed.
Print Assumptions C49_zero_function.

(** If the function is not constant and its first value over the first prime is zero, the run ends with an access out of range as soon as the
    interpolation on the first ray over the next prime is complete. *)
Theorem C49_zero_first_value_refuted : forall ord, (forall A (l : list A), Permutation (ord A l) l) ->
  forall (c : mcfg) (N D : list qterm) (s s' : msession) (l : list msession),
  rational_function_n (mc_n c) N D -> (exists t, In t (N ++ D) /\ (0 < total (fst t))%Z) ->
  (forall o t, ms_bb s o t = ray_value (mc_n c) (over (ms_F s) N) (over (ms_F s) D) (ms_y s) (ms_s s) o t) -> ms_ts s <> [] -> first_val (mc_n c) s = f0 ->
  first_session c N D s' ->
  reconstruct ord c s (s' :: l) = UB.
Proof.
  intros ord Ho c N D s s' l RF [t0 [It Ht]] _ Hts Hz [Hbb [k [Ns [Ds [IP [CF MP]]]]]].
  assert (Hk : k <> f0).
  { pose proof (HK (ms_F s')) as KL. pose proof (ip_norm _ _ _ _ _ _ _ _ _ _ IP) as X. intros E. apply (F_1_neq_0 (fl_field _ KL)). rewrite <- X. destruct (mc_norm_den c); rewrite (times_value (ms_F s')), E; apply (f0_l KL). }
  assert (EB : forall o t, ms_bb s' o t = ray_value (mc_n c) (times k (over (ms_F s') N)) (times k (over (ms_F s') D)) (ms_y s') (ms_s s') o t) by (intros o t; rewrite (times_ray (ms_F s')) by exact Hk; apply Hbb).
  assert (Hd : 0 < max_degree (times k (over (ms_F s') N)) (times k (over (ms_F s') D))).
  { assert (G : forall T : list qterm, In t0 T -> 0 < tdegree (times k (over (ms_F s') T))).
    { intros T I. assert (I' : In (fst t0, fmul k (@krat (fld (ms_F s')) (snd t0))) (times k (over (ms_F s') T))).
      { unfold times, over. rewrite map_map. apply in_map_iff. exists t0. auto. }
      pose proof (tdegree_le _ _ _ I') as L. cbn [fst] in L. lia. }
    unfold max_degree. apply in_app_or in It as [It|It]; apply G in It; lia. }
  pose proof (late_ub ord Ho c (ms_F s') _ _ _ _ _ _ _ IP CF Hd (ms_bb s') EB) as L.
  assert (V : feqb (ms_bb s' (repeat 1 (mc_n c - 1)) (nth 0 (ms_ts s') f0)) f0 = false).
  { apply (feqb_neq (HK (ms_F s'))). rewrite EB. exact (ip_first _ _ _ _ _ _ _ _ _ _ IP). }
  pose proof (ip_points _ _ _ _ _ _ _ _ _ _ IP) as Lp. unfold reconstruct. cbn [reconstruct_from]. unfold first_val, pt in Hz. destruct (ms_ts s) as [|t ts]; [contradiction|]. cbn [nth] in Hz. rewrite Hz.
  replace (feqb (@f0 (fld (ms_F s))) f0) with true by (symmetry; apply (fl_eqb _ (HK (ms_F s))); reflexivity).
  unfold qfeed_zero. cbn [fresh qr_zero_counter qr_prime_number Z.add Z.eqb Pos.eqb Pos.add andb obind].
  destruct (ms_ts s') as [|t' ts']; [cbn [length] in Lp; lia|]. cbn [nth] in V. rewrite V, L. reflexivity.
Qed.
Print Assumptions C49_zero_first_value_refuted.

(** Concrete case: (2 x + 3 y) / 5 over the primes 101, 107 and 113. *)
Definition small_prime_check (p : Z) : bool := forallb (fun k => Z.gcd (Z.of_nat k) p =? 1)%Z (seq 1 (Z.to_nat p - 1)).
Lemma small_prime p : (1 < p)%Z -> small_prime_check p = true -> prime p.
Proof.
  intros Hp C. apply prime_intro; [exact Hp|]. intros k Hk. apply Zgcd_1_rel_prime. unfold small_prime_check in C. rewrite forallb_forall in C.
  specialize (C (Z.to_nat k)). rewrite Z2Nat.id in C by lia. apply Z.eqb_eq. apply C. apply in_seq. lia.
Qed.
Definition Q101 : pfield := mk_pf 101 (small_prime 101 eq_refl eq_refl) eq_refl.
Definition Q107 : pfield := mk_pf 107 (small_prime 107 eq_refl eq_refl) eq_refl.
Definition Q113 : pfield := mk_pf 113 (small_prime 113 eq_refl eq_refl) eq_refl.
Definition ex_N : list qterm := [([1; 0], (2, 1)); ([0; 1], (3, 1))]%Z.
Definition ex_D : list qterm := [([0; 0], (5, 1))]%Z.
Definition ex_N1 : list qterm := [([1; 0], (2, 5)); ([0; 1], (3, 5))]%Z.
Definition ex_D1 : list qterm := [([0; 0], (1, 1))]%Z.
Definition ex_ts (F : pfield) : list (fld F) := map (fun i => kint (Z.of_nat i)) (seq 1 24).
Definition ex_y (F : pfield) : nat -> fld F := fun _ => kint 2.
Definition ex_s (F : pfield) : nat -> fld F := fun i => nth i [kint 2; kint 5] f0.
Definition ex_first (F : pfield) : msession := mk_msession F (ex_y F) (ex_s F) (ray_value 2 (over F ex_N) (over F ex_D) (ex_y F) (ex_s F)) (ex_ts F).
Definition ex_later (F : pfield) : msession := mk_msession F (ex_y F) no_shift (ray_value 2 (over F ex_N) (over F ex_D) (ex_y F) no_shift) (ex_ts F).

Section Example.
  Variable F : pfield.
  Hypothesis big : (60 < pf_mod F)%Z.
  Local Notation K := (fld F).
  Local Notation KL := (HK F).
  Add Field KEX : (fl_field K (HK F)).
  Lemma kint_nz z : (0 < z <= 60)%Z -> @kint K z <> f0.
  Proof. intros H E. apply (kint_0 F) in E. apply Z.divide_pos_le in E; lia. Qed.
  Lemma kint_inj i j : (0 <= i <= 60)%Z -> (0 <= j <= 60)%Z -> @kint K i = kint j -> i = j.
  Proof.
    intros Hi Hj E. assert (X : @kint K (i - j) = f0) by (rewrite (kint_sub F), E; ring). apply (kint_0 F) in X as [q X]. assert (q = 0)%Z by nia. lia.
  Qed.
  Lemma kint_plus i j : @kint K (i + j) = fadd (kint i) (kint j).
  Proof. replace (i + j)%Z with (i - (0 - j))%Z by lia. rewrite !(kint_sub F). replace (@kint K 0) with (@f0 K) by (symmetry; apply (kint_0 F); exists 0%Z; reflexivity). ring. Qed.
  Lemma krat_int z : @krat K (z, 1)%Z = kint z.
  Proof. unfold krat. cbn [fst snd]. rewrite (kint_1 F). field. apply (F_1_neq_0 (fl_field K KL)). Qed.
  Lemma ex_point i : i < 24 -> point (ex_ts F) i = kint (Z.of_nat (S i)).
  Proof. intros H. unfold point, ex_ts. rewrite (nth_indep _ f0 (kint (Z.of_nat 0))) by (rewrite map_length, seq_length; exact H). rewrite (map_nth (fun j => @kint K (Z.of_nat j))), seq_nth by exact H. reflexivity. Qed.
  Lemma ex_length : length (ex_ts F) = 24. Proof. unfold ex_ts. rewrite map_length. reflexivity. Qed.
  Definition k5 : K := fdiv f1 (kint 5).
  Lemma k5_nz : k5 <> f0.
  Proof. pose proof (kint_nz 5 ltac:(lia)) as H. intros E. apply (F_1_neq_0 (fl_field K KL)). transitivity (fmul k5 (kint 5)); [unfold k5; field; exact H|rewrite E; ring]. Qed.
  Lemma k5_int z : (0 < z <= 60)%Z -> fmul k5 (kint z) <> f0.
  Proof. intros H. apply (fmul_neq0 KL); [exact k5_nz|apply kint_nz; exact H]. Qed.
  Local Notation A := (fmul k5 (krat (2, 1)%Z)).
  Local Notation B := (fmul k5 (krat (3, 1)%Z)).
  Lemma ex_times : times k5 (over F ex_N) = li_N A B /\ times k5 (over F ex_D) = li_D.
  Proof.
    split; [reflexivity|]. unfold times, over, ex_D, li_D. cbn [map fst snd]. rewrite krat_int. replace (fmul k5 (kint 5)) with (@f1 K); [reflexivity|]. unfold k5. field. apply kint_nz. lia.
  Qed.
  Lemma ex_first_ok : first_session li_c ex_N ex_D (ex_first F).
  Proof.
    split; [reflexivity|]. exists k5, (li_Ns A B (kint 2) (kint 5)), li_D. cbn [ms_F ex_first ms_y ms_s ms_ts mc_n mc_norm_den mc_bt li_c]. destruct ex_times as [E1 E2]. rewrite E1, E2.
    assert (EA : A = fmul k5 (kint 2)) by (rewrite krat_int; reflexivity). assert (EB : B = fmul k5 (kint 3)) by (rewrite krat_int; reflexivity).
    assert (Hbe : fadd A (fmul B (kint 2)) = fmul k5 (kint 8)). { rewrite EA, EB. change 8%Z with (2 + 3 * 2)%Z. rewrite kint_plus, (kint_mul F). ring. }
    assert (Hal : fadd (fmul A (kint 2)) (fmul B (kint 5)) = fmul k5 (kint 19)). { rewrite EA, EB. change 19%Z with (2 * 2 + 3 * 5)%Z. rewrite kint_plus, !(kint_mul F). ring. }
    split; [|destruct (li_fits A B (kint 2) (kint 5) (ex_ts F) ex_length) as [X Y]; split; [exact X|rewrite ex_length; exact Y]].
    apply (li_interpolable KL A B (kint 2) (kint 2) (kint 5) (ex_ts F)).
    - rewrite EA. apply k5_int. lia.
    - rewrite EB. apply k5_int. lia.
    - rewrite Hbe. apply k5_int. lia.
    - rewrite Hal. apply k5_int. lia.
    - apply kint_nz. lia.
    - assert (P : forall i, i < 3 -> pw (@kint K 2) i = kint (nth i [1; 2; 4] 0)%Z). { intros [|[|[|i]]] Hi; try lia; cbn [pw nth]; [symmetry; apply (kint_1 F)|ring|]. change 4%Z with (2 * 2)%Z. rewrite (kint_mul F). ring. }
      intros i j Hi Hj E. rewrite !P in E by assumption. apply kint_inj in E; destruct i as [|[|[|i]]], j as [|[|[|j]]]; cbn in *; lia.
    - exact ex_length.
    - intros i Hi. rewrite ex_point by exact Hi. apply kint_nz. lia.
    - intros i j Hi Hj E. rewrite !ex_point in E by lia. apply kint_inj in E; lia.
    - rewrite Hal, Hbe, ex_point by lia. replace (fadd (fmul k5 (kint 19)) (fmul (fmul k5 (kint 8)) (kint (Z.of_nat 1)))) with (fmul k5 (@kint K 27)); [apply k5_int; lia|]. change 27%Z with (19 + 8 * Z.of_nat 1)%Z. rewrite kint_plus, (kint_mul F). ring.
    - exists (fun i => kint (Z.of_nat i)). intros i j Hi Hj E. apply kint_inj in E; lia.
  Qed.

  (** the unshifted values *)
  Lemma ex_num x : poly_value 2 (over F ex_N) x = fadd (fmul (kint 2) (x 0)) (fmul (kint 3) (x 1)).
  Proof. unfold poly_value, over, ex_N. cbn [map fold_right fst snd monomial_value nth]. rewrite !krat_int. change (Z.to_nat 0) with 0. change (Z.to_nat 1) with 1. cbn [pw]. ring. Qed.
  Lemma ex_num1 x : poly_value 2 (over F ex_N1) x = fmul k5 (fadd (fmul (kint 2) (x 0)) (fmul (kint 3) (x 1))).
  Proof. pose proof (kint_nz 5 ltac:(lia)) as H5. unfold poly_value, over, ex_N1, k5. cbn [map fold_right fst snd monomial_value nth]. unfold krat. cbn [fst snd]. change (Z.to_nat 0) with 0. change (Z.to_nat 1) with 1. cbn [pw]. field. exact H5. Qed.
  Lemma ex_den x : poly_value 2 (over F ex_D) x = kint 5.
  Proof. unfold poly_value, over, ex_D. cbn [map fold_right fst snd monomial_value nth]. rewrite krat_int. change (Z.to_nat 0) with 0. cbn [pw]. ring. Qed.
  Lemma ex_den1 x : poly_value 2 (over F ex_D1) x = f1.
  Proof. unfold poly_value, over, ex_D1. cbn [map fold_right fst snd monomial_value nth]. rewrite krat_int, (kint_1 F). change (Z.to_nat 0) with 0. cbn [pw]. ring. Qed.
  Lemma ex_plain : plain_values 2 ex_N1 ex_D1 (ex_later F).
  Proof.
    intros o t. unfold ex_later, ray_value. cbn [ms_F ms_bb ms_y]. rewrite ex_num, ex_den, ex_num1, ex_den1. unfold k5. pose proof (kint_nz 5 ltac:(lia)) as H5. pose proof (F_1_neq_0 (fl_field K KL)) as H1. field. auto.
  Qed.
  Lemma ex_first_value : first_val 2 (ex_later F) = fmul k5 (kint 8).
  Proof.
    unfold first_val. rewrite ex_plain. unfold ray_value. rewrite ex_num1, ex_den1. change (pt (ex_later F) 0) with (point (ex_ts F) 0). rewrite ex_point by lia. unfold ray_point, no_shift, ex_later, ex_y. cbn [ms_y ms_F Nat.sub repeat nth pw].
    change (Z.of_nat 1) with 1%Z. rewrite (kint_1 F). change 8%Z with (2 + 3 * 2)%Z. rewrite kint_plus, (kint_mul F). field. apply (F_1_neq_0 (fl_field K KL)).
  Qed.
  Lemma ex_finite t : In t (ex_N1 ++ ex_D1) -> ~ (pf_mod F | snd (snd t))%Z.
  Proof. intros [<-|[<-|[<-|[]]]] H; cbn [snd] in H; apply Z.divide_pos_le in H; lia. Qed.
  Lemma ex_one_probe : one_probe 2 ex_N1 ex_D1 (ex_later F).
  Proof.
    split; [exact ex_finite|]. split; [exact ex_plain|]. split; [discriminate|]. split; [unfold ex_later; cbn [ms_F]; rewrite ex_den1; apply (F_1_neq_0 (fl_field K KL))|]. rewrite ex_first_value. apply k5_int. lia.
  Qed.
End Example.

(** the normalised function *)
Lemma ex_normalised F in_den m N1 D1 : normalisation li_c F ex_N ex_D in_den m N1 D1 -> in_den = true /\ m = [0; 0]%Z /\ N1 = ex_N1 /\ D1 = ex_D1.
Proof.
  intros [a [NB [Ia [DN DD]]]]. cbn [mc_n mc_norm_den li_c] in NB. unfold normalised_by in NB.
  destruct (in_dec _ _ _) as [_|X]; [|exfalso; apply X; left; reflexivity]. destruct NB as [-> [-> _]]. destruct Ia as [Ia|[]]. injection Ia as <-.
  split; [reflexivity|]. split; [reflexivity|].
  assert (G : forall (e k : list Z) (q0 q w : Z * Z), k = e /\ lowest q /\ (fst q * (snd q0 * 5) = fst q0 * 1 * snd q)%Z -> lowest w -> (fst w * (snd q0 * 5) = fst q0 * 1 * snd w)%Z -> (0 < snd q0)%Z -> (k, q) = (e, w)).
  { intros e k q0 q w [-> [L E]] Lw Ew H0. f_equal. apply RatUniMisled.lowest_unique; try assumption. destruct L, Lw. clear - E Ew H0. assert (X : ((fst q * snd w) * (snd q0 * 5) = (fst w * snd q) * (snd q0 * 5))%Z). { transitivity ((fst q * (snd q0 * 5)) * snd w)%Z; [ring|]. rewrite E. transitivity ((fst w * (snd q0 * 5)) * snd q)%Z; [rewrite Ew; ring|ring]. } apply Z.mul_reg_r in X; [exact X|lia]. }
  split.
  - inversion DN as [|t t1 T T1 H1 DN1]; subst. inversion DN1 as [|t' t2 T' T2 H2 DN2]; subst. inversion DN2; subst. destruct t1 as [e1 q1], t2 as [e2 q2]. cbn [fst snd] in H1, H2. unfold ex_N1. f_equal; [|f_equal].
    + apply (G _ _ (2, 1)%Z); [exact H1| |cbn; lia|cbn; lia]. split; [cbn; lia|reflexivity].
    + apply (G _ _ (3, 1)%Z); [exact H2| |cbn; lia|cbn; lia]. split; [cbn; lia|reflexivity].
  - inversion DD as [|t t1 T T1 H1 DD1]; subst. inversion DD1; subst. destruct t1 as [e1 q1]. cbn [fst snd] in H1. unfold ex_D1. f_equal. apply (G _ _ (5, 1)%Z); [exact H1| |cbn; lia|cbn; lia]. split; [cbn; lia|reflexivity].
Qed.

(** the fractions that can be guessed from the residues of 2 / 5 and 3 / 5 modulo 101 *)
Definition candidates (c : Z * Z) : list (Z * Z) :=
  filter (fun q => (Z.abs (fst q) * snd q <? 101) && (Z.gcd (fst q) (snd q) =? 1) && ((fst q * snd c - fst c * snd q) mod 101 =? 0))%Z
    (flat_map (fun d => map (fun x => (Z.of_nat x - 100, Z.of_nat d)%Z) (seq 0 201)) (seq 1 100)).
Lemma candidates_all c q : guessable 101 q -> agrees 101 c q -> In q (candidates c).
Proof.
  intros [[L1 L2] G] Ag. unfold candidates. apply filter_In. split.
  - destruct q as [x d]. cbn [fst snd] in *.
    assert (D : (d <= 100 /\ -100 <= x <= 100)%Z).
    { destruct (Z.eq_dec x 0) as [->|X]; [rewrite Z.gcd_0_l in L2; lia|]. nia. }
    apply in_flat_map. exists (Z.to_nat d). split; [apply in_seq; lia|]. apply in_map_iff. exists (Z.to_nat (x + 100)). split; [f_equal; lia|apply in_seq; lia].
  - apply andb_true_iff. split; [apply andb_true_iff; split; [apply Z.ltb_lt; exact G|apply Z.eqb_eq; exact L2]|apply Z.eqb_eq; exact Ag].
Qed.
(** only the right ones take the first value modulo 107 *)
Lemma candidates_checked : forallb (fun q1 => forallb (fun q2 =>
  negb ((5 * (fst q1 * snd q2 + 2 * fst q2 * snd q1) - 8 * snd q1 * snd q2) mod 107 =? 0)%Z || ((fst q1 =? 2) && (snd q1 =? 5) && (fst q2 =? 3) && (snd q2 =? 5))%Z) (candidates (3, 5)%Z)) (candidates (2, 5)%Z) = true.
Proof. vm_compute. reflexivity. Qed.
Lemma ex_not_misled N' D' : qvariant 101 ex_N1 N' -> qvariant 101 ex_D1 D' -> In ([0; 0]%Z, (1, 1)%Z) D' ->
  poly_value 2 (over Q107 N') (first_point 2 (ex_later Q107)) = fmul (first_val 2 (ex_later Q107)) (poly_value 2 (over Q107 D') (first_point 2 (ex_later Q107))) -> N' = ex_N1 /\ D' = ex_D1.
Proof.
  intros VN VD I1 E. assert (big : (60 < pf_mod Q107)%Z) by reflexivity. pose proof (HK Q107) as KL.
  inversion VD as [|? d1 ? D2 _ VD2]; subst. inversion VD2; subst. destruct I1 as [->|[]]. split; [|reflexivity]. change [([0; 0], (1, 1))]%Z with ex_D1 in E. rewrite (ex_den1 Q107), (ex_first_value Q107 big) in E.
  inversion VN as [|? t1 ? T1 [X1 [G1 A1]] VN1]; subst. inversion VN1 as [|? t2 ? T2 [X2 [G2 A2]] VN2]; subst. inversion VN2; subst. destruct t1 as [e1 q1], t2 as [e2 q2]. cbn [fst snd] in *. subst e1 e2.
  pose proof (candidates_all _ _ G1 A1) as C1. pose proof (candidates_all _ _ G2 A2) as C2. pose proof candidates_checked as CK. rewrite forallb_forall in CK. specialize (CK q1 C1). rewrite forallb_forall in CK. specialize (CK q2 C2).
  apply orb_true_iff in CK as [CK|CK].
  - exfalso. apply negb_true_iff, Z.eqb_neq in CK. apply CK. clear CK C1 C2 VN VN1 VN2 VD VD2 A1 A2.
    assert (Nd : forall q, guessable 101 q -> @kint (fld Q107) (snd q) <> f0). { intros q [[L1 L2] G] Z. apply (kint_0 Q107) in Z. change (pf_mod Q107) with 107%Z in Z. apply Z.divide_pos_le in Z; [|exact L1]. destruct (Z.eq_dec (fst q) 0) as [Y|Y]; [rewrite Y, Z.gcd_0_l in L2; lia|]. nia. }
    pose proof (Nd q1 G1) as N1. pose proof (Nd q2 G2) as N2. pose proof (kint_nz Q107 big 5 ltac:(lia)) as N5.
    apply Z.mod_divide; [lia|]. apply (kint_0 Q107). rewrite (kint_sub Q107), !(kint_mul Q107), (kint_plus Q107), !(kint_mul Q107). apply (ex_ring6 KL).
    assert (E' : fadd (krat q1) (fmul (kint 2) (krat q2)) = @fdiv (fld Q107) (kint 8) (kint 5)).
    { revert E. unfold poly_value, over. cbn [map fold_right fst snd monomial_value nth]. change (Z.to_nat 0) with 0. change (Z.to_nat 1) with 1. unfold first_point. change (pt (ex_later Q107) 0) with (point (ex_ts Q107) 0). rewrite ex_point by lia.
      unfold ray_point, no_shift, ex_later, ex_y. cbn [ms_y ms_F Nat.sub repeat nth pw]. change (Z.of_nat 1) with 1%Z. rewrite (kint_1 Q107). unfold k5. intros E.
      exact (ex_ring1 KL _ _ _ _ _ N5 E). }
    unfold krat in E'. exact (ex_ring2 KL _ _ _ _ _ _ _ N1 N2 N5 E').
  - apply andb_true_iff in CK as [CK C3]. apply andb_true_iff in CK as [CK C4]. apply andb_true_iff in CK as [C5 C6]. apply Z.eqb_eq in C3, C4, C5, C6. destruct q1 as [n1 d1], q2 as [n2 d2]. cbn [fst snd] in *. subst. reflexivity.
Qed.
Lemma ex_later_ok : later_session 2 ex_N1 ex_D1 true [0; 0]%Z 101 (ex_later Q107).
Proof.
  assert (big : (60 < pf_mod Q107)%Z) by reflexivity. pose proof (HK Q107) as KL.
  constructor.
  - exact (ex_finite Q107 big).
  - change (pf_mod (ms_F (ex_later Q107))) with 107%Z. intros H. apply Z.divide_pos_le in H; lia.
  - exact (ex_plain Q107 big).
  - change (length (ms_ts (ex_later Q107))) with (length (ex_ts Q107)). rewrite ex_length. cbn. lia.
  - rewrite (ex_first_value Q107 big). apply (k5_int Q107 big). lia.
  - intros i j _ _. cbn [ex_later ms_F]. rewrite (ex_den1 Q107). apply (F_1_neq_0 (fl_field _ KL)).
  - intros i _. apply (kint_nz Q107 big). lia.
  - intros T k k' HT I I' Et E. assert (M : @monomial_value (fld Q107) 1 [0]%Z (ex_y Q107) <> monomial_value 1 [1]%Z (ex_y Q107)).
    { cbn [monomial_value nth]. change (Z.to_nat 0) with 0. change (Z.to_nat 1) with 1. cbn [pw]. unfold ex_y. intros X. assert (Y : (1 = 2)%Z); [|discriminate Y]. apply (kint_inj Q107 big); [lia|lia|]. rewrite (kint_1 Q107). exact (ex_ring3 KL _ X). }
    destruct HT as [->| ->]; cbn [map fst ex_N1 ex_D1 In] in I, I'; destruct I as [<-|I], I' as [<-|I']; try destruct I as [<-|I]; try destruct I' as [<-|I']; try contradiction; try reflexivity; cbn [tl] in E; exfalso; apply M; first [exact E|symmetry; exact E].
  - intros t It. apply RatUniMisled.small_no_impostor; [lia| |]; destruct It as [<-|[<-|[<-|[]]]]; cbn [fst snd]; try (cbn; lia); (split; [cbn; lia|reflexivity]).
  - intros N' D' VN VD I1 _ E. exact (ex_not_misled N' D' VN VD I1 E).
  - intros i j SN SD Hi NN ND HSN HSD L p q E. assert (SD = []) as ->.
    { destruct SD as [|d SD]; [reflexivity|]. exfalso. destruct (HSD d (or_introl eq_refl)) as [A B]. destruct A as [A|[]]. apply B; [reflexivity|]. rewrite <- A. reflexivity. }
    assert (ON : forall d, In d SN -> d = 1). { intros d I. destruct (HSN d I) as [A _]. destruct A as [A|[A|[]]]; cbn in A; lia. }
    split; [|intros e []]. destruct SN as [|d SN]; [intros e []|]. pose proof (ON d (or_introl eq_refl)). subst d. assert (SN = []) as ->. { destruct SN as [|d SN]; [reflexivity|]. inversion NN as [|? ? N1 _]. exfalso. apply N1. left. apply (ON d). right. left. reflexivity. }
    intros e [<-|[]]. specialize (E 0 ltac:(cbn; lia)). cbn [fold_right pw] in E. rewrite Nat.add_0_r in E. change (length (ms_ts (ex_later Q107))) with (length (ex_ts Q107)) in L. rewrite ex_length in L. cbn [length] in L.
    change (pt (ex_later Q107) j) with (point (ex_ts Q107) j) in E. rewrite ex_point in E by lia. assert (X : fmul (@kint (fld Q107) (Z.of_nat (S j))) (p 1) = f0) by exact (ex_ring4 KL _ _ _ E).
    apply (fmul_0 KL) in X as [X|X]; [|exact X]. exfalso. revert X. apply (kint_nz Q107 big). lia.
Qed.

Example C49_hypotheses_met : rational_function_n (mc_n li_c) ex_N ex_D /\ first_session li_c ex_N ex_D (ex_first Q101) /\
  (exists in_den m, normalised_by (mc_n li_c) (mc_norm_den li_c) (over (ms_F (ex_first Q101)) ex_N) (over (ms_F (ex_first Q101)) ex_D) in_den m false) /\
  forall in_den m N1 D1, normalisation li_c (ms_F (ex_first Q101)) ex_N ex_D in_den m N1 D1 ->
    one_probe (mc_n li_c) N1 D1 (ex_later Q113) /\
    exists M', good_sessions (mc_n li_c) N1 D1 in_den m (pf_mod (ms_F (ex_first Q101))) [ex_later Q107] M' /\ all_within M' (N1 ++ D1).
Proof.
  split; [|split; [|split]].
  - constructor; try discriminate; try reflexivity; [repeat constructor; cbn; intuition discriminate|repeat constructor; cbn; intuition discriminate|].
    intros t [<-|[<-|[<-|[]]]]; cbn [fst snd]; (split; [lia|]); (split; [split; [cbn; lia|reflexivity]|]); (split; [reflexivity|]); (split; [|reflexivity]); intros [|[|[|i]]]; cbn; lia.
  - apply ex_first_ok. reflexivity.
  - exists true, [0; 0]%Z. unfold normalised_by. destruct (in_dec _ _ _) as [_|X]; [auto|exfalso; apply X; left; reflexivity].
  - intros in_den m N1 D1 H. destruct (ex_normalised _ _ _ _ _ H) as [-> [-> [-> ->]]]. split; [apply ex_one_probe; reflexivity|]. eexists. split; [apply gs_later; [exact ex_later_ok|apply gs_nil]|].
    intros t [<-|[<-|[<-|[]]]]; (split; [split; [cbn; lia|reflexivity]|]); cbn; lia.
Qed.
Example C49_example_ends : exists g, reconstruct (fun A l => l) li_c (ex_first Q101) [ex_later Q107; ex_later Q113] = Ret (QComplete g) /\ is_polynomial (qr_gni g) ex_N1 /\ is_polynomial (qr_gdi g) ex_D1.
Proof.
  destruct C49_hypotheses_met as [H1 [H2 [H3 H4]]]. destruct (C49_reconstruction_ends (fun A l => l) (fun A l => Permutation_refl l) li_c ex_N ex_D (ex_first Q101) [ex_later Q107] (ex_later Q113) H1 H2 H3 H4 ltac:(cbn; lia)) as [in_den [m [N1 [D1 [g [HN [E [_ [X Y]]]]]]]]].
  destruct (ex_normalised _ _ _ _ _ HN) as [_ [_ [-> ->]]]. exists g. auto.
Qed.
(** a first prime whose first value is zero: 2 x + 3 y at (x, y) = (0, 0) *)
Definition ex_zero : msession := mk_msession Q107 (ex_y Q107) no_shift (ray_value 2 (over Q107 ex_N) (over Q107 ex_D) (ex_y Q107) no_shift) [f0].
Example C49_refutation_met : (forall o t, ms_bb ex_zero o t = ray_value (mc_n li_c) (over (ms_F ex_zero) ex_N) (over (ms_F ex_zero) ex_D) (ms_y ex_zero) (ms_s ex_zero) o t) /\
  ms_ts ex_zero <> [] /\ first_val (mc_n li_c) ex_zero = f0 /\ reconstruct (fun A l => l) li_c ex_zero [ex_first Q101] = UB.
Proof.
  assert (Z : first_val 2 ex_zero = f0). { unfold first_val, ex_zero. cbn [ms_bb ms_F]. unfold ray_value. rewrite ex_num, ex_den. unfold pt, ray_point, no_shift. cbn [ms_ts nth]. exact (ex_ring5 (HK Q107) _ _ _ _ (kint_nz Q107 eq_refl 5 ltac:(lia))). }
  split; [reflexivity|]. split; [discriminate|]. split; [exact Z|]. destruct C49_hypotheses_met as [H1 [H2 _]].
  assert (V : forall o t, ms_bb ex_zero o t = ray_value (mc_n li_c) (over (ms_F ex_zero) ex_N) (over (ms_F ex_zero) ex_D) (ms_y ex_zero) (ms_s ex_zero) o t) by (intros; reflexivity).
  assert (T : ms_ts ex_zero <> []) by discriminate.
  assert (P : exists t, In t (ex_N ++ ex_D) /\ (0 < total (fst t))%Z) by (exists ([1; 0], (2, 1))%Z; split; [left; reflexivity|reflexivity]).
  exact (C49_zero_first_value_refuted (fun A l => l) (fun A l => Permutation_refl l) li_c ex_N ex_D ex_zero (ex_first Q101) [] H1 P V T Z H2).
Qed.

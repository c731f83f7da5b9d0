(** Property theorems C48: interpolating a rational function of n > 1 variables over one prime (RatReconst). *)
From Coq Require Import Znumtheory Permutation.
From Verif Require Import Machine FField FSum LinAlg LinAlgProofs FPoly PolyFF PolySpec PolyFFProofs PolyFFProofs3 Thiele ThieleSpec ThieleProofs RatUni RatUniSpec Newton NewtonProofs BM BMSpec BTProofs PolyRec PolyRecSpec PolyRecRunSpec PolyRecMath PolyRecChecks RatMulti RatMultiSpec RatMultiRunSpec RatMultiMath RatMultiMain RatMultiRun RatSingSpec Field101.
Open Scope nat_scope.

(** Feeding the values of N / D at the points ts of the requested rays never fails.  Whenever a result is there it is N and D, both times a
    common factor that sets the announced coefficient to one; it is there after at most max_probes probes, for every order in which the hash
    maps are iterated.  Every requested ray is one of those at which the hypotheses exclude poles. *)
Theorem C48_rational_function_recovered : forall (K : fops), flaws K -> forall ord, (forall A (l : list A), Permutation (ord A l) l) ->
  forall (c : mcfg) (N D Ns Ds : list (list Z * K)) (y s : nat -> K) (ts : list K),
  interpolable (mc_n c) (mc_norm_den c) (mc_bt c) N D Ns Ds y s ts -> mconfig_fits c N D Ns Ds ->
  forall m, m <= length ts ->
  exists out, mdrive ord c y s (ray_value (mc_n c) N D y s) (firstn m ts) (MFirst (mk_thiele [] [])) = Ret out /\
    match out with
    | MMore st => m < max_probes (mc_n c) N D Ns Ds /\ probe_order (mc_n c - 1) (max_terms N D Ns Ds) (max_degree N D) (requested c st)
    | MResult r => exists k a : K, In (mr_norm r, a) (if mr_norm_den r then D else N) /\ fmul k a = f1 /\
        Permutation (mr_num r) (times k N) /\ Permutation (mr_den r) (times k D) /\
        normalised_by (mc_n c) (mc_norm_den c) N D (mr_norm_den r) (mr_norm r) (mr_singular r) /\ mr_div_by_zero r = false
    end.
Proof.
  intros K HK ord Ho c N D Ns Ds y s ts IP CF m L. destruct (ip_field _ _ _ _ _ _ _ _ _ _ IP) as [v Hv].
  destruct (run_all HK ord Ho c N D Ns Ds y s ts IP CF v Hv m L) as [f [E H]]. exists f. split; [exact E|]. destruct f as [x|r]; [|exact (proj1 H)].
  apply (run_bound HK ord Ho c N D Ns Ds y s ts IP CF v Hv m x H).
Qed.
Print Assumptions C48_rational_function_recovered.

(** With max_probes points the result is there. *)
Theorem C48_result_is_there : forall (K : fops), flaws K -> forall ord, (forall A (l : list A), Permutation (ord A l) l) ->
  forall (c : mcfg) (N D Ns Ds : list (list Z * K)) (y s : nat -> K) (ts : list K),
  interpolable (mc_n c) (mc_norm_den c) (mc_bt c) N D Ns Ds y s ts -> mconfig_fits c N D Ns Ds -> max_probes (mc_n c) N D Ns Ds <= length ts ->
  exists r (k : K), mdrive ord c y s (ray_value (mc_n c) N D y s) ts (MFirst (mk_thiele [] [])) = Ret (MResult r) /\
    Permutation (mr_num r) (times k N) /\ Permutation (mr_den r) (times k D).
Proof.
  intros K HK ord Ho c N D Ns Ds y s ts IP CF L. destruct (C48_rational_function_recovered K HK ord Ho c N D Ns Ds y s ts IP CF (length ts) (le_n _)) as [out [E H]].
  rewrite firstn_all in E. destruct out as [x|r]; [exfalso; lia|]. destruct H as [k [a [_ [_ [H1 [H2 _]]]]]]. exists r, k. auto.
Qed.
Print Assumptions C48_result_is_there.

(** What the result carries for the further primes of a system that needs the shift: the greatest degrees; the degrees that only the shift has brought; the number
    of unknown homogeneous parts after the shift, without the one that is set to one; and, if there is a shift, its terms: for every degree the part
    after the shift without the part before it. *)
Theorem C48_what_the_first_prime_leaves : forall (K : fops), flaws K -> forall ord, (forall A (l : list A), Permutation (ord A l) l) ->
  forall (c : mcfg) (N D Ns Ds : list (list Z * K)) (y s : nat -> K) (ts : list K),
  interpolable (mc_n c) (mc_norm_den c) (mc_bt c) N D Ns Ds y s ts -> mconfig_fits c N D Ns Ds ->
  forall m r, m <= length ts -> mdrive ord c y s (ray_value (mc_n c) N D y s) (firstn m ts) (MFirst (mk_thiele [] [])) = Ret (MResult r) ->
  mr_degs r = (tdegree N, tdegree D) /\
  (forall d, In d (fst (mr_zeros r)) <-> hom d Ns <> [] /\ hom d N = []) /\ (forall d, In d (snd (mr_zeros r)) <-> hom d Ds <> [] /\ hom d D = []) /\
  (exists LN LD, NoDup LN /\ NoDup LD /\ (forall d, In d LN <-> hom d Ns <> []) /\ (forall d, In d LD <-> hom d Ds <> []) /\ S (mr_eqn r) = length LN + length LD) /\
  ((exists i, i < mc_n c /\ s i <> f0) -> shift_terms (mc_n c) (tdegree N) N Ns (fst (mr_subs r)) /\ shift_terms (mc_n c) (tdegree D) D Ds (snd (mr_subs r))).
Proof.
  intros K HK ord Ho c N D Ns Ds y s ts IP CF m r L E0. destruct (ip_field _ _ _ _ _ _ _ _ _ _ IP) as [v Hv].
  destruct (run_all HK ord Ho c N D Ns Ds y s ts IP CF v Hv m L) as [f [E H]]. rewrite E in E0. injection E0 as ->. destruct H as [_ [H1 [H2 [H3 [[LN [LD [A1 [A2 [A3 [A4 A5]]]]]] H5]]]]].
  assert (X : forall P Ps, translated (mc_n c) s P Ps -> forall d, (d <= tdegree P /\ hom d Ps <> []) <-> hom d Ps <> []).
  { intros P Ps [T1 [T2 _]] d. split; [tauto|]. intros Z. split; [|exact Z]. destruct (Nat.le_gt_cases d (tdegree P)) as [Y|Y]; [exact Y|]. exfalso. apply Z. rewrite <- T2 in Y. apply (hom_high (mc_n c) (tdegree Ps)); [apply (polynomial_wf _ _ _ T1)|exact Y]. }
  pose proof (X _ _ (ip_nums _ _ _ _ _ _ _ _ _ _ IP)) as XN. pose proof (X _ _ (ip_dens _ _ _ _ _ _ _ _ _ _ IP)) as XD.
  split; [exact H1|]. split; [intros d; rewrite H2, XN; reflexivity|]. split; [intros d; rewrite H3, XD; reflexivity|]. split.
  - exists LN, LD. split; [exact A1|]. split; [exact A2|]. split; [intros d; rewrite A3, XN; reflexivity|]. split; [intros d; rewrite A4, XD; reflexivity|].
    destruct (ip_nums _ _ _ _ _ _ _ _ _ _ IP) as [T1 [T2 _]]. assert (ZN : LN <> []).
    { destruct (tdegree_attained Ns) as [e [a [I Ea]]]; [apply T1|]. intros Z. subst LN. apply (A3 (tdegree N)). split; [apply le_n|]. intros Z. destruct T1 as [_ [_ T1]]. destruct (T1 e a I) as [_ [Le [Pe _]]].
      assert (J : In (e, a) (hom (tdegree N) Ns)); [|rewrite Z in J; exact J]. apply in_hom. split; [exact I|]. rewrite <- T2, <- Ea, Z2Nat.id; [reflexivity|]. apply total_range. intros i. apply Pe. }
    rewrite A5. destruct LN; [contradiction|]. cbn [length]. lia.
  - intros [i [Li Ni]]. apply H5. unfold shifted. apply existsb_exists. exists i. split; [apply in_seq; lia|]. destruct (feqb (s i) f0) eqn:Ez; [apply (fl_eqb K HK) in Ez; contradiction|reflexivity].
Qed.
Print Assumptions C48_what_the_first_prime_leaves.

(** Concrete case: (3 + x + 2 y) / (x + y - 6) modulo 101, shifted by (2, 5). *)
Definition z101 (k : Z) : F101 := fofZ k.
Definition v101 (x : F101) : Z := proj1_sig (x : ffint 101).
Lemma v101_inj (a b : F101) : v101 a = v101 b -> a = b. Proof. apply ffint_eq. Qed.
Definition rm_N : list (list Z * F101) := [([0; 0]%Z, z101 3); ([1; 0]%Z, z101 1); ([0; 1]%Z, z101 2)].
Definition rm_D : list (list Z * F101) := [([0; 0]%Z, z101 95); ([1; 0]%Z, z101 1); ([0; 1]%Z, z101 1)].
Definition rm_Ns : list (list Z * F101) := [([0; 0]%Z, z101 15); ([1; 0]%Z, z101 1); ([0; 1]%Z, z101 2)].
Definition rm_Ds : list (list Z * F101) := [([0; 0]%Z, z101 1); ([1; 0]%Z, z101 1); ([0; 1]%Z, z101 1)].
Definition rm_y (i : nat) : F101 := z101 2.
Definition rm_s (i : nat) : F101 := z101 (nth i [2; 5]%Z 0%Z).
Definition rm_c : mcfg := mk_mcfg 2 true true 1 None None 20 100.
Definition rm_ts : list F101 := map (fun i => z101 (Z.of_nat (S (Nat.modulo i 19)))) (seq 0 76).
Add Field K101 : (fl_field F101 F101_laws).
Ltac ne101 := let E := fresh in intros E; apply (f_equal v101) in E; vm_compute in E; discriminate E.
Ltac eq101 := apply v101_inj; vm_compute; reflexivity.
Lemma one101 : z101 1 = @f1 F101. Proof. eq101. Qed.
Lemma rm_poly (P : list (list Z * F101)) : In P [rm_N; rm_D; rm_Ns; rm_Ds] -> polynomial 2 1 P /\ tdegree P = 1 /\ forall d, hom d P <> [] <-> d <= 1.
Proof.
  intros I. split; [|split].
  - split; [destruct I as [<-|[<-|[<-|[<-|[]]]]]; discriminate|]. split; [destruct I as [<-|[<-|[<-|[<-|[]]]]]; repeat constructor; cbn; intuition discriminate|].
    intros e a J. assert (A : a <> f0 /\ (e = [0; 0]%Z \/ e = [1; 0]%Z \/ e = [0; 1]%Z)).
    { destruct I as [<-|[<-|[<-|[<-|[]]]]]; destruct J as [J|[J|[J|[]]]]; injection J as <- <-; (split; [ne101|tauto]). }
    destruct A as [A [->|[->| ->]]]; (split; [exact A|split; [reflexivity|split; [|reflexivity]]]); intros [|[|[|i]]]; cbn; lia.
  - destruct I as [<-|[<-|[<-|[<-|[]]]]]; reflexivity.
  - intros d. split.
    + intros H. destruct (hom d P) as [|[e a] l] eqn:E; [contradiction|]. assert (J : In (e, a) (hom d P)) by (rewrite E; left; reflexivity). apply in_hom in J as [J T].
      destruct I as [<-|[<-|[<-|[<-|[]]]]]; destruct J as [J|[J|[J|[]]]]; injection J as <- <-; cbn [total fold_right] in T; lia.
    + intros H. destruct d as [|[|d]]; [| |lia]; destruct I as [<-|[<-|[<-|[<-|[]]]]]; discriminate.
Qed.
Lemma rm_translated : translated 2 rm_s rm_N rm_Ns /\ translated 2 rm_s rm_D rm_Ds.
Proof.
  assert (V : forall x : nat -> F101, poly_value 2 rm_Ns x = poly_value 2 rm_N (fun i => x i + rm_s i)%K /\ poly_value 2 rm_Ds x = poly_value 2 rm_D (fun i => x i + rm_s i)%K).
  { intros x. unfold poly_value, rm_N, rm_Ns, rm_D, rm_Ds. cbn [fold_right fst snd monomial_value nth]. change (Z.to_nat 0) with 0. change (Z.to_nat 1) with 1. cbn [pw].
    replace (z101 15) with (z101 3 + z101 1 * rm_s 0%nat + z101 2 * rm_s 1%nat)%K by eq101. split; [ring|]. transitivity (z101 95 + z101 1 * rm_s 0%nat + z101 1 * rm_s 1%nat + z101 1 * x 0%nat + z101 1 * x 1%nat)%K; [|ring].
    replace (z101 95 + z101 1 * rm_s 0%nat + z101 1 * rm_s 1%nat)%K with (z101 1) by eq101. ring. }
  split; (split; [|split; [reflexivity|apply V]]); (apply rm_poly; cbn; tauto).
Qed.
Lemma rm_suitable (a b : F101) : a <> f0 -> b <> f0 -> (a + b * z101 2)%K <> f0 -> (a + b)%K <> f0 -> suitable true true 1 1 [([0]%Z, a); ([1]%Z, b)] rm_y.
Proof.
  intros Ha Hb Hab Hab'.
  assert (Sl : forall e t, slice 1 rm_y [([0]%Z, a); ([1]%Z, b)] 0 (firstn 0 e) t = (a + b * t)%K).
  { intros e t. unfold slice, part. cbn [firstn filter fst]. destruct (list_eq_dec Z.eq_dec [] []) as [_|X]; [|contradiction]. unfold poly_value. cbn [fold_right fst snd monomial_value nth Nat.ltb Nat.leb Nat.eqb].
    change (Z.to_nat 1) with 1. change (Z.to_nat 0) with 0. cbn [pw]. ring. }
  assert (Hd : distinct 3 (pw (z101 2))).
  { intros i k Hi Hk E. apply (f_equal v101) in E. destruct i as [|[|[|i]]]; destruct k as [|[|[|k]]]; try lia; vm_compute in E; discriminate E. }
  constructor.
  - intros j Hj. split; [ne101|exact Hd].
  - intros j e Hj [<-|[<-|[]]]; unfold coefficient, part; destruct j as [|[|j]]; try lia; cbn [firstn filter fst];
    repeat (destruct (list_eq_dec Z.eq_dec _ _) as [E|E]; try discriminate E; try (exfalso; apply E; reflexivity); clear E); unfold poly_value; cbn [fold_right fst snd monomial_value nth Nat.ltb Nat.leb];
    change (Z.to_nat 1) with 1; change (Z.to_nat 0) with 0; cbn [pw]; intros Z.
    + apply Hab. rewrite <- Z. unfold rm_y. ring.
    + apply Ha. rewrite <- Z. ring.
    + apply Hab. rewrite <- Z. unfold rm_y. ring.
    + apply Hb. rewrite <- Z. ring.
  - intros j e e' Hj I I' _. assert (j = 0) by lia. subst j. reflexivity.
  - intros _ j e Hj I k h Hk [g Hg] Hh. assert (j = 0) by lia. subst j. exfalso. pose proof (Hh 0 ltac:(lia)) as H0. rewrite Sl, Hg in H0. destruct k as [|[|k]]; [| |lia].
    + apply Hab. unfold ueval in H0. cbn [fsum pw] in H0. symmetry. rewrite H0. change (rm_y 0) with (z101 2). ring.
    + pose proof (Hh 1 ltac:(lia)) as H1. rewrite Sl, Hg in H1. unfold ueval in H0, H1. cbn [fsum pw] in H0, H1. change (rm_y 0) with (z101 2) in *.
      assert (X : (b * (z101 2 * z101 2 - z101 2))%K = f0) by (transitivity ((a + b * (z101 2 * (z101 2 * f1))) - (a + b * (z101 2 * f1)))%K; [ring|rewrite <- H0, <- H1; ring]).
      apply (fmul_0 F101_laws) in X as [X|X]; [contradiction|]. revert X. ne101.
  - intros _ j e Hj I. assert (j = 0) by lia. subst j.
    apply (recurrence_check F101_laws 2 (fun i => nth i [a; b] f0) (fun i => nth i [z101 1; z101 2] f0)).
    + lia.
    + intros i k Hi Hk E. apply (f_equal v101) in E. destruct i as [|[|i]]; destruct k as [|[|k]]; try lia; vm_compute in E; discriminate E.
    + intros [|[|i]] Hi; try lia; ne101.
    + intros [|[|i]] Hi; try lia; assumption.
    + intros k. rewrite Sl. unfold exponential_sum. cbn [fsum nth]. rewrite one101, (pw_1 F101_laws). change (rm_y 0) with (z101 2). ring.
    + intros L g HL. destruct L as [|[|L]]; [| |lia].
      * apply (no_rec_0 F101_laws). rewrite Sl. cbn [pw]. change (rm_y 0) with (z101 2). intros Z. apply Hab. rewrite <- Z. ring.
      * apply (no_rec_1 F101_laws). rewrite !Sl. cbn [pw]. change (rm_y 0) with (z101 2). intros Z.
        assert (X : (a * b * (z101 2 * (z101 2 - f1) * (z101 2 - f1)))%K = f0). { match type of Z with ?l = ?r => transitivity (r - l)%K; [ring|rewrite Z; ring] end. }
        apply (fmul_0 F101_laws) in X as [X|X]; [apply (fmul_0 F101_laws) in X as [X|X]; contradiction|]. revert X. ne101.
Qed.
Lemma rm_order o : probe_order 1 (max_terms rm_N rm_D rm_Ns rm_Ds) (max_degree rm_N rm_D) o -> o = [1] \/ o = [2].
Proof.
  intros [z [i [k [Hz [_ [Hk ->]]]]]]. assert (z = 0) by lia. subst z. cbn [seq map Nat.ltb Nat.leb Nat.eqb]. change (max_degree rm_N rm_D) with 1 in Hk. assert (k = 1 \/ k = 2) as [->| ->] by lia; auto.
Qed.
Definition rm_check (o : list nat) (i : nat) : bool :=
  let d j := poly_value 2 rm_D (ray_point rm_y rm_s o (point rm_ts j)) in
  let u j := ray_value 2 rm_N rm_D rm_y rm_s o (point rm_ts j) in
  negb (Z.eqb (v101 (d i)) 0) && negb (Z.eqb (v101 (u i)) 0) && negb (Z.eqb (v101 (point rm_ts i)) 0) && ((75 <=? i) || negb (Z.eqb (v101 (u i)) (v101 (u (S i))))).
Lemma rm_checked o i : o = [1] \/ o = [2] -> i < 76 -> poly_value 2 rm_D (ray_point rm_y rm_s o (point rm_ts i)) <> f0 /\ ray_value 2 rm_N rm_D rm_y rm_s o (point rm_ts i) <> f0 /\ point rm_ts i <> f0 /\
  (S i < 76 -> ray_value 2 rm_N rm_D rm_y rm_s o (point rm_ts i) <> ray_value 2 rm_N rm_D rm_y rm_s o (point rm_ts (S i))).
Proof.
  intros Ho Hi. assert (C : forallb (fun o => forallb (rm_check o) (seq 0 76)) [[1]; [2]] = true) by (vm_compute; reflexivity).
  rewrite forallb_forall in C. specialize (C o ltac:(cbn; destruct Ho as [-> | ->]; auto)). rewrite forallb_forall in C. specialize (C i ltac:(apply in_seq; lia)). unfold rm_check in C. cbv zeta in C.
  apply Bool.andb_true_iff in C as [C C4]. apply Bool.andb_true_iff in C as [C C3]. apply Bool.andb_true_iff in C as [C1 C2].
  assert (G : forall x : F101, negb (Z.eqb (v101 x) 0) = true -> x <> f0). { intros x H E. rewrite E in H. vm_compute in H. discriminate H. }
  split; [apply G; exact C1|]. split; [apply G; exact C2|]. split; [apply G; exact C3|]. intros L E. rewrite E, Z.eqb_refl, Bool.orb_false_r in C4. apply Nat.leb_le in C4. lia.
Qed.
Lemma rm_length : length rm_ts = 76. Proof. unfold rm_ts. rewrite map_length. apply seq_length. Qed.
Lemma ones_list (l : list nat) : NoDup l -> (forall d, In d l -> d = 1) -> l = [] \/ l = [1].
Proof.
  intros ND H. destruct l as [|a [|b l]]; [left; reflexivity|right; rewrite (H a (or_introl eq_refl)); reflexivity|]. exfalso. inversion ND as [|? ? N1 _]. apply N1. left. rewrite (H a (or_introl eq_refl)), (H b (or_intror (or_introl eq_refl))). reflexivity.
Qed.
Lemma rm_regular o i SN SD : o = [1] \/ o = [2] -> NoDup SN -> NoDup SD -> (forall d, In d SN -> d = 1) -> (forall d, In d SD -> d = 1) -> i + (length SN + length SD) <= 76 ->
  determined SN SD (fun j => point rm_ts (i + j)) (fun j => ray_value 2 rm_N rm_D rm_y rm_s o (point rm_ts (i + j))) (length SN + length SD).
Proof.
  intros Ho NN ND HN HD L a b H. destruct (ones_list SN NN HN) as [->| ->]; destruct (ones_list SD ND HD) as [->| ->]; cbn [length Nat.add] in *.
  - split; intros e [].
  - destruct (rm_checked o i Ho ltac:(lia)) as [_ [U [P _]]]. split; [intros e []|]. intros e [<-|[]]. specialize (H 0 ltac:(lia)). cbn [fold_right pw] in H. rewrite Nat.add_0_r in H.
    assert (X : (ray_value 2 rm_N rm_D rm_y rm_s o (point rm_ts i) * point rm_ts i * b 1%nat)%K = f0) by (rewrite H; ring). apply (fmul_0 F101_laws) in X as [X|X]; [|exact X]. apply (fmul_0 F101_laws) in X as [X|X]; contradiction.
  - destruct (rm_checked o i Ho ltac:(lia)) as [_ [U [P _]]]. split; [|intros e []]. intros e [<-|[]]. specialize (H 0 ltac:(lia)). cbn [fold_right pw] in H. rewrite Nat.add_0_r in H.
    assert (X : (point rm_ts i * a 1%nat)%K = f0) by (transitivity (a 1%nat * (point rm_ts i * f1) + f0)%K; [ring|rewrite H; ring]). apply (fmul_0 F101_laws) in X as [X|X]; [contradiction|exact X].
  - destruct (rm_checked o i Ho ltac:(lia)) as [_ [U [P Q]]]. specialize (Q ltac:(lia)). destruct (rm_checked o (S i) Ho ltac:(lia)) as [_ [_ [P' _]]].
    pose proof (H 0 ltac:(lia)) as H0. pose proof (H 1 ltac:(lia)) as H1. cbn [fold_right pw] in H0, H1. rewrite Nat.add_0_r in H0. replace (i + 1) with (S i) in H1 by lia.
    set (u := ray_value 2 rm_N rm_D rm_y rm_s o (point rm_ts i)) in *. set (u' := ray_value 2 rm_N rm_D rm_y rm_s o (point rm_ts (S i))) in *. set (t := point rm_ts i) in *. set (t' := point rm_ts (S i)) in *.
    assert (A0 : (t * (a 1%nat - u * b 1%nat))%K = f0) by (transitivity ((a 1%nat * (t * f1) + f0) - u * (b 1%nat * (t * f1) + f0))%K; [ring|rewrite H0; ring]).
    assert (A1 : (t' * (a 1%nat - u' * b 1%nat))%K = f0) by (transitivity ((a 1%nat * (t' * f1) + f0) - u' * (b 1%nat * (t' * f1) + f0))%K; [ring|rewrite H1; ring]).
    apply (fmul_0 F101_laws) in A0 as [A0|A0]; [contradiction|]. apply (fmul_0 F101_laws) in A1 as [A1|A1]; [contradiction|].
    assert (B : ((u - u') * b 1%nat)%K = f0) by (transitivity ((a 1%nat - u' * b 1%nat) - (a 1%nat - u * b 1%nat))%K; [ring|rewrite A0, A1; ring]). apply (fmul_0 F101_laws) in B as [B|B]; [apply (fsub_0 F101_laws) in B; contradiction|].
    split; intros e [<-|[]]; [|exact B]. rewrite B in A0. rewrite <- A0. ring.
Qed.
Example C48_hypotheses_met : interpolable (mc_n rm_c) (mc_norm_den rm_c) (mc_bt rm_c) rm_N rm_D rm_Ns rm_Ds rm_y rm_s rm_ts /\ mconfig_fits rm_c rm_N rm_D rm_Ns rm_Ds /\
  max_probes (mc_n rm_c) rm_N rm_D rm_Ns rm_Ds <= length rm_ts /\
  match mdrive (fun A l => l) rm_c rm_y rm_s (ray_value 2 rm_N rm_D rm_y rm_s) rm_ts (MFirst (mk_thiele [] [])) with
  | Ret (MResult r) => map (fun t => (fst t, v101 (snd t))) (mr_num r) = [([0; 0], 50); ([1; 0], 84); ([0; 1], 67)]%Z /\ map (fun t => (fst t, v101 (snd t))) (mr_den r) = [([0; 0], 1); ([1; 0], 84); ([0; 1], 84)]%Z
  | _ => False end.
Proof.
  split; [constructor|split; [constructor|split]].
  - apply le_n.
  - apply rm_poly; cbn; tauto.
  - apply rm_poly; cbn; tauto.
  - apply rm_translated.
  - apply rm_translated.
  - eq101.
  - intros d. split; intros H; (apply rm_poly; [cbn; tauto|]); (apply rm_poly in H; [exact H|cbn; tauto]).
  - intros P d I Hd H. apply rm_poly in H; [|exact I]. assert (d = 1) by lia. subst d. cbn [mc_bt rm_c mc_n Nat.sub]. destruct I as [<-|[<-|[<-|[<-|[]]]]]; apply rm_suitable; ne101.
  - exists (fun i => z101 (Z.of_nat i)). intros i j Hi Hj E. apply (f_equal v101) in E. change (3 * (tdegree rm_N + tdegree rm_D) + 3) with 9 in Hi, Hj.
    do 9 (destruct i as [|i]; [do 9 (destruct j as [|j]; [try reflexivity; vm_compute in E; discriminate E|]); lia|]). lia.
  - intros j Hj E. change (max_degree rm_N rm_D) with 1 in Hj. assert (j = 1) by lia. subst j. revert E. ne101.
  - exists (fun _ => z101 3 / z101 40)%K, (fun _ => fopp (z101 5 / z101 40))%K. change (tdegree rm_D) with 1. change (tdegree rm_N) with 1. split; [|split].
    + exists (fun i => if i =? 0 then (z101 3 / z101 40)%K else f0). intros x. unfold ueval. cbn [fsum Nat.eqb pw]. ring.
    + exists (fun i => if i =? 0 then fopp (z101 5 / z101 40)%K else f0). intros x. unfold ueval. cbn [fsum Nat.eqb pw]. ring.
    + intros t. assert (EN : poly_value (mc_n rm_c) rm_N (ray_point rm_y rm_s (ones (mc_n rm_c)) t) = (z101 15 + z101 5 * t)%K).
      { unfold poly_value, rm_N, ray_point, ones. cbn [mc_n rm_c Nat.sub repeat fold_right fst snd monomial_value nth]. change (Z.to_nat 0) with 0. change (Z.to_nat 1) with 1. cbn [pw]. unfold rm_y.
        transitivity (z101 3 + z101 1 * rm_s 0%nat + z101 2 * rm_s 1%nat + (z101 1 + z101 2 * z101 2) * t)%K; [ring|].
        replace (z101 3 + z101 1 * rm_s 0%nat + z101 2 * rm_s 1%nat)%K with (z101 15) by eq101. replace (z101 1 + z101 2 * z101 2)%K with (z101 5) by eq101. reflexivity. }
      assert (ED : poly_value (mc_n rm_c) rm_D (ray_point rm_y rm_s (ones (mc_n rm_c)) t) = (z101 1 + z101 3 * t)%K).
      { unfold poly_value, rm_D, ray_point, ones. cbn [mc_n rm_c Nat.sub repeat fold_right fst snd monomial_value nth]. change (Z.to_nat 0) with 0. change (Z.to_nat 1) with 1. cbn [pw]. unfold rm_y.
        transitivity (z101 95 + z101 1 * rm_s 0%nat + z101 1 * rm_s 1%nat + (z101 1 + z101 1 * z101 2) * t)%K; [ring|].
        replace (z101 95 + z101 1 * rm_s 0%nat + z101 1 * rm_s 1%nat)%K with (z101 1) by eq101. replace (z101 1 + z101 1 * z101 2)%K with (z101 3) by eq101. reflexivity. }
      rewrite EN, ED. transitivity ((z101 3 / z101 40 * z101 15 - z101 5 / z101 40 * z101 1) + (z101 3 / z101 40 * z101 5 - z101 5 / z101 40 * z101 3) * t)%K; [ring|].
      replace (z101 3 / z101 40 * z101 15 - z101 5 / z101 40 * z101 1)%K with (@f1 F101) by eq101. replace (z101 3 / z101 40 * z101 5 - z101 5 / z101 40 * z101 3)%K with (@f0 F101) by eq101. ring.
  - rewrite rm_length. vm_compute. lia.
  - ne101.
  - change (first_points rm_N rm_D) with 3. intros i j Hi Hj E. apply (f_equal v101) in E. destruct i as [|[|[|[|i]]]]; destruct j as [|[|[|[|j]]]]; try lia; vm_compute in E; discriminate E.
  - intros i Hi. change (first_points rm_N rm_D) with 3 in Hi. refine (proj1 (proj2 (proj2 (rm_checked [1] i _ _)))); [auto|lia].
  - change (first_points rm_N rm_D) with 3. intros i j Hj Hi E. apply (f_equal v101) in E. destruct i as [|[|[|i]]]; destruct j as [|[|[|j]]]; try lia; vm_compute in E; discriminate E.
  - change (first_points rm_N rm_D) with 3. intros k Hk. destruct k as [|[|[|k]]]; try lia; ne101.
  - intros o i Ho Hi. rewrite rm_length in Hi. exact (proj1 (rm_checked o i (rm_order o Ho) Hi)).
  - intros o i SN SD Ho NN ND HN HD L. rewrite rm_length in L. refine (rm_regular o i SN SD (rm_order o Ho) NN ND _ _ L).
    + intros d I. destruct (HN d I) as [A B]. apply rm_poly in B; [lia|cbn; tauto].
    + intros d I. destruct (HD d I) as [A B]. apply rm_poly in B; [lia|cbn; tauto].
  - vm_compute; lia.
  - vm_compute; lia.
  - reflexivity.
  - reflexivity.
  - reflexivity.
  - discriminate.
  - discriminate.
  - vm_compute; lia.
  - vm_compute. split; reflexivity.
Qed.

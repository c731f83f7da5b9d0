(** Property theorems C51: the search for a sparse shift, and the interpolation that starts from the degrees it has found. *)
From Coq Require Import Znumtheory Permutation Sorted.
From Verif Require Import Machine FField FSum LinAlg LinAlgProofs FPoly PolyFF PolySpec PolyFFProofs Thiele ThieleSpec RatUni RatUniSpec Combi PolyRec PolyRecSpec PolyRecRunSpec PolyRecMath RatMulti RatMultiSpec RatMultiRunSpec RatMultiMath RatMultiMain Field101 Props_RatMulti Scan ScanSpec ScanProofs ScanLoop ScanAccept ScanRun.
Open Scope nat_scope.

(** Round 0 shifts every variable, round k >= 1 the variables of the k-th pattern of L.  If in every round every function bbs j is a fraction R k j / S k j
    that Thiele's interpolation finds, then the search ends with the first pattern that shifts not all variables and keeps the degrees of all functions of
    round 0 (so no pattern with fewer shifted variables does), or with all variables if there is none.  Every function knows the degrees of its numerator
    and denominator in the last round, and whether the denominator has a constant term. *)
Theorem C51_sparsest_shift_found : forall (K : fops), flaws K -> forall ord, (forall A (l : list A), Permutation (ord A l) l) ->
  forall n L (y : nat -> K) (draw : nat -> nat -> K) (pts : nat -> list K) (bbs : list ((nat -> K) -> K)) (R S : nat -> nat -> list (nat * K)),
  1 <= n -> bbs <> [] -> all_patterns n L ->
  let pattern_of k := match k with O => repeat 1%Z n | Datatypes.S i => nth i L [] end in
  let keeps k j := udegree (R k j) = udegree (R 0 j) /\ udegree (S k j) = udegree (S 0 j) in
  (forall k j bb, k <= length L -> nth_error bbs j = Some bb -> fraction (on_ray bb y (shift_by (pattern_of k) (draw k))) (pts k) (R k j) (S k j)) ->
  forall fuel, 2 ^ n < fuel ->
  exists found p fs, scan_for_shift ord fuel n y draw pts bbs = Ret (found, p, fs) /\ map fst fs = bbs /\
    if (found : bool) then
      exists k, 1 <= k <= length L /\ p = nth (k - 1) L [] /\ p <> repeat 1%Z n /\ (forall j, j < length bbs -> keeps k j) /\
        (forall k', 1 <= k' < k -> ~ forall j, j < length bbs -> keeps k' j) /\
        forall j bb st, nth_error fs j = Some (bb, st) ->
          Permutation (fst (sf_degs st)) (map fst (R k j)) /\ Permutation (snd (sf_degs st)) (map fst (S k j)) /\ (sf_norm_den st = true <-> In 0 (map fst (S k j)))
    else
      p = repeat 1%Z n /\ (forall k, 1 <= k <= length L -> nth (k - 1) L [] <> repeat 1%Z n -> ~ forall j, j < length bbs -> keeps k j) /\
        forall j bb st, nth_error fs j = Some (bb, st) ->
          Permutation (fst (sf_degs st)) (map fst (R (length L) j)) /\ Permutation (snd (sf_degs st)) (map fst (S (length L) j)) /\
          (sf_norm_den st = false -> exists k, 1 <= k <= length L /\ nth (k - 1) L [] <> repeat 1%Z n /\ keeps k j /\ ~ In 0 (map fst (S k j))).
Proof.
  intros K HK ord Ho n L y draw pts bbs R S Hn Hb HL pattern_of keeps FR fuel Hf. pose proof (patterns_visited n L HL) as EL. subst L.
  destruct (scan_ok HK ord Ho n y draw pts bbs R S Hn Hb FR fuel Hf) as [ok [p [fs [E H]]]]. exists ok, p, fs. split; [exact E|]. destruct ok.
  - destruct H as [k [Hk [Ep [Np [AK [Prev [Mf Fd]]]]]]]. split; [exact Mf|]. exists k. split; [exact Hk|]. split; [destruct k as [|k]; [lia|]; cbn [Nat.sub]; rewrite Nat.sub_0_r; exact Ep|]. split; [exact Np|]. split; [exact AK|]. split; [exact Prev|exact Fd].
  - destruct H as [Ep [Prev [Mf Fd]]]. split; [exact Mf|]. split; [exact Ep|].
    assert (X : forall k, 1 <= k -> nth (k - 1) (visit (2 ^ n) (repeat 0%Z n)) [] = pat n k) by (intros [|k] Hk; [lia|]; cbn [Nat.sub pat]; rewrite Nat.sub_0_r; reflexivity). split.
    + intros k Hk Nk. apply Prev; [exact Hk|]. rewrite <- X by lia. exact Nk.
    + intros j bb st Ej. destruct (Fd j bb st Ej) as [P1 [P2 P3]]. split; [exact P1|]. split; [exact P2|]. intros Z. destruct (P3 Z) as [k [Hk [Nk H]]]. exists k. split; [exact Hk|]. split; [rewrite X by lia; exact Nk|exact H].
Qed.
Print Assumptions C51_sparsest_shift_found.

(** In addition every function is N / D and in round 0 no common factor has appeared (its degrees are those of N and D).  A shift that was found is good
    for the normalisation: at the shift the announced side, denominator or numerator, does not vanish. *)
Theorem C51_found_shift_normalises : forall (K : fops), flaws K -> forall ord, (forall A (l : list A), Permutation (ord A l) l) ->
  forall n L (y : nat -> K) (draw : nat -> nat -> K) (pts : nat -> list K) (NDs : list (list (list Z * K) * list (list Z * K))) (R S : nat -> nat -> list (nat * K)),
  1 <= n -> NDs <> [] -> all_patterns n L ->
  let bbs := map (fun nd x => fdiv (poly_value n (fst nd) x) (poly_value n (snd nd) x)) NDs in
  let pattern_of k := match k with O => repeat 1%Z n | Datatypes.S i => nth i L [] end in
  (forall k j bb, k <= length L -> nth_error bbs j = Some bb -> fraction (on_ray bb y (shift_by (pattern_of k) (draw k))) (pts k) (R k j) (S k j)) ->
  (forall j nd, nth_error NDs j = Some nd -> polynomial n (tdegree (fst nd)) (fst nd) /\ polynomial n (tdegree (snd nd)) (snd nd) /\
     udegree (R 0 j) = tdegree (fst nd) /\ udegree (S 0 j) = tdegree (snd nd) /\
     forall k i, k <= length L -> i < length (pts k) -> poly_value n (snd nd) (fun v => match v with O => fadd (point (pts k) i) (shift_by (pattern_of k) (draw k) 0) | Datatypes.S w => fadd (fmul (point (pts k) i) (y w)) (shift_by (pattern_of k) (draw k) (Datatypes.S w)) end) <> f0) ->
  forall fuel, 2 ^ n < fuel ->
  exists found p fs, scan_for_shift ord fuel n y draw pts bbs = Ret (found, p, fs) /\
    (found = true -> exists k, 1 <= k <= length L /\ p = nth (k - 1) L [] /\
       forall j bb st nd, nth_error fs j = Some (bb, st) -> nth_error NDs j = Some nd ->
         poly_value n (if sf_norm_den st then snd nd else fst nd) (shift_by p (draw k)) <> f0).
Proof.
  intros K HK ord Ho n L y draw pts NDs R S Hn Hb HL bbs pattern_of FR HND fuel Hf.
  destruct (C51_sparsest_shift_found K HK ord Ho n L y draw pts bbs R S Hn ltac:(unfold bbs; destruct NDs; [contradiction|discriminate]) HL FR fuel Hf) as [ok [p [fs [E [Mf H]]]]].
  exists ok, p, fs. split; [exact E|]. intros ->. destruct H as [k [Hk [Ep [Np [AK [Prev Fd]]]]]]. exists k. split; [exact Hk|]. split; [exact Ep|]. intros j bb st nd Ej End.
  destruct (HND j nd End) as [PN [PD [EN [ED Pol]]]].
  assert (Ebb : nth_error bbs j = Some (fun x => fdiv (poly_value n (fst nd) x) (poly_value n (snd nd) x))) by (unfold bbs; rewrite nth_error_map, End; reflexivity).
  assert (Lj : j < length bbs) by (apply nth_error_Some; rewrite Ebb; discriminate). destruct (AK j Lj) as [KR KS].
  pose proof (FR k j _ ltac:(lia) Ebb) as Fk. assert (Epk : pattern_of k = p) by (rewrite Ep; unfold pattern_of; destruct k as [|k]; [lia|]; cbn [Nat.sub]; rewrite Nat.sub_0_r; reflexivity). rewrite Epk in Fk.
  destruct (normalisable HK n (fst nd) (snd nd) y (shift_by p (draw k)) (pts k) (R k j) (S k j) _ PN PD (fun x _ => eq_refl) Fk) as [N1 N2].
  - congruence.
  - congruence.
  - intros i Hi. pose proof (fr_points _ _ _ _ Fk) as Lp. specialize (Pol k i ltac:(lia) ltac:(lia)). rewrite Epk in Pol. exact Pol.
  - destruct (Fd j bb st Ej) as [_ [_ P3]]. destruct (sf_norm_den st).
    + apply N1. apply P3. reflexivity.
    + apply N2. destruct (K_dec HK (poly_value n (snd nd) (shift_by p (draw k))) f0) as [Z|Z]; [exact Z|]. exfalso. apply N1, P3 in Z. discriminate Z.
Qed.
Print Assumptions C51_found_shift_normalises.

(** The interpolation that starts from the degrees of numerator and denominator instead of Thiele's interpolation: as C48. *)
Theorem C51_function_recovered_from_degrees : forall (K : fops), flaws K -> forall ord, (forall A (l : list A), Permutation (ord A l) l) ->
  forall (c : mcfg) (N D Ns Ds : list (list Z * K)) (y s : nat -> K) (ts : list K) (dn dd : list nat),
  known_degrees (mc_n c) (mc_norm_den c) (mc_bt c) N D Ns Ds y s ts dn dd -> mconfig_fits c N D Ns Ds ->
  forall m, m <= length ts ->
  exists out, sdrive ord c y s dn dd (ray_value (mc_n c) N D y s) (firstn m ts) (SDegs []) = Ret out /\
    match out with
    | SMore st => m < max_probes_known (mc_n c) N D Ns Ds dn dd /\ probe_order (mc_n c - 1) (max_terms N D Ns Ds) (max_degree N D) (srequested c st)
    | SResult r => exists k a : K, In (mr_norm r, a) (if mr_norm_den r then D else N) /\ fmul k a = f1 /\
        Permutation (mr_num r) (times k N) /\ Permutation (mr_den r) (times k D) /\
        normalised_by (mc_n c) (mc_norm_den c) N D (mr_norm_den r) (mr_norm r) (mr_singular r) /\ mr_div_by_zero r = false
    end.
Proof.
  intros K HK ord Ho c N D Ns Ds y s ts dn dd IP CF m L. destruct (kd_field _ _ _ _ _ _ _ _ _ _ _ _ IP) as [v Hv].
  destruct (srun_all HK ord Ho c N D Ns Ds y s ts dn dd IP CF v Hv m L) as [f [E H]]. exists f. split; [exact E|]. destruct f as [x|r]; [|exact (proj1 H)].
  apply (srun_bound HK ord Ho c N D Ns Ds y s ts dn dd IP CF v Hv m x H).
Qed.
Print Assumptions C51_function_recovered_from_degrees.
Theorem C51_result_is_there : forall (K : fops), flaws K -> forall ord, (forall A (l : list A), Permutation (ord A l) l) ->
  forall (c : mcfg) (N D Ns Ds : list (list Z * K)) (y s : nat -> K) (ts : list K) (dn dd : list nat),
  known_degrees (mc_n c) (mc_norm_den c) (mc_bt c) N D Ns Ds y s ts dn dd -> mconfig_fits c N D Ns Ds -> max_probes_known (mc_n c) N D Ns Ds dn dd <= length ts ->
  exists r (k : K), sdrive ord c y s dn dd (ray_value (mc_n c) N D y s) ts (SDegs []) = Ret (SResult r) /\
    Permutation (mr_num r) (times k N) /\ Permutation (mr_den r) (times k D).
Proof.
  intros K HK ord Ho c N D Ns Ds y s ts dn dd IP CF L. destruct (C51_function_recovered_from_degrees K HK ord Ho c N D Ns Ds y s ts dn dd IP CF (length ts) (le_n _)) as [out [E H]].
  rewrite firstn_all in E. destruct out as [x|r]; [exfalso; lia|]. destruct H as [k [a [_ [_ [H1 [H2 _]]]]]]. exists r, k. auto.
Qed.
Print Assumptions C51_result_is_there.

(** ---- Concrete case of the search: x / y and 1 / x modulo 101 with the anchor point 2.  Without a shift x / y is constant on the ray; shifting y suffices. *)
Lemma all101 (P : F101 -> Prop) : Forall P (map (fun i => z101 (Z.of_nat i)) (seq 0 101)) -> forall t, P t.
Proof.
  intros H t. rewrite Forall_forall in H. assert (B : (0 <= v101 t < 101)%Z) by exact (val_range 101 t).
  assert (E : z101 (Z.of_nat (Z.to_nat (v101 t))) = t). { apply v101_inj. rewrite Z2Nat.id by lia. change (v101 (z101 (v101 t))) with (v101 t mod 101)%Z. apply Z.mod_small. exact B. }
  rewrite <- E. apply H. apply in_map_iff. exists (Z.to_nat (v101 t)). split; [reflexivity|]. apply in_seq. lia.
Qed.
Definition eqb101 (a b : F101) : bool := (v101 a =? v101 b)%Z.
Lemma eqb101_ok a b : eqb101 a b = true <-> a = b.
Proof. unfold eqb101. rewrite Z.eqb_eq. split; [apply v101_inj|intros ->; reflexivity]. Qed.
Lemma neqb101_ok a b : negb (eqb101 a b) = true <-> a <> b.
Proof. rewrite Bool.negb_true_iff. split; [intros H E; apply eqb101_ok in E; congruence|]. intros H. destruct (eqb101 a b) eqn:E; [apply eqb101_ok in E; contradiction|reflexivity]. Qed.
Definition pairs (n : nat) (g : nat -> nat -> bool) : bool := forallb (fun i => forallb (g i) (seq 0 i)) (seq 0 n).
Lemma pairs_ok n g : pairs n g = true -> forall i j, j < i -> i < n -> g i j = true.
Proof. intros H i j Hj Hi. unfold pairs in H. rewrite forallb_forall in H. specialize (H i ltac:(apply in_seq; lia)). rewrite forallb_forall in H. apply H. apply in_seq. lia. Qed.
Lemma upto_ok n g : forallb g (seq 0 n) = true -> forall i, i < n -> g i = true.
Proof. intros H i Hi. rewrite forallb_forall in H. apply H. apply in_seq. lia. Qed.
Fixpoint nodupb (l : list nat) : bool := match l with [] => true | a :: r => negb (existsb (Nat.eqb a) r) && nodupb r end.
Lemma nodupb_ok l : nodupb l = true -> NoDup l.
Proof.
  induction l as [|a r IH]; intros H; [constructor|]. cbn in H. apply Bool.andb_true_iff in H as [A B]. constructor; [|apply IH; exact B]. intros I. apply Bool.negb_true_iff in A.
  assert (X : existsb (Nat.eqb a) r = true) by (apply existsb_exists; exists a; split; [exact I|apply Nat.eqb_refl]). congruence.
Qed.
(** decides [fraction]; u and v: coefficients of the polynomials U and V *)
Definition frac_check (h : F101 -> F101) (ts : list F101) (R S : list (nat * F101)) (u v : list F101) : bool :=
  let np := points_needed R S in
  let nz l := forallb (fun t => negb (eqb101 (snd t) f0)) l in
  let f i := h (point ts i) in
  negb (length R =? 0) && negb (length S =? 0) && nodupb (map fst R) && nodupb (map fst S) && nz R && nz S &&
  forallb (fun t => eqb101 (fadd (fmul (ueval (Datatypes.S (udegree S)) (fun i => nth i u f0) t) (uvalue R t)) (fmul (ueval (Datatypes.S (udegree R)) (fun i => nth i v f0) t) (uvalue S t))) f1) (map (fun i => z101 (Z.of_nat i)) (seq 0 101)) &&
  forallb (fun i => negb (eqb101 (uvalue S (point ts i)) f0) && eqb101 (fmul (f i) (uvalue S (point ts i))) (uvalue R (point ts i)) && negb (eqb101 (point ts i) f0)) (seq 0 (Datatypes.S np)) &&
  (udegree R + udegree S <=? 20) && (np <? length ts) && negb (eqb101 (f 0) f0) &&
  pairs (Datatypes.S np) (fun i j => negb (eqb101 (point ts i) (point ts j))) &&
  pairs np (fun i j => negb (eqb101 (inverse_difference (point ts) f i j) (inverse_difference (point ts) f j j))) &&
  forallb (fun k => (k =? 0) || negb (eqb101 (continued_fraction (point ts) f k (np - 1 - k) (point ts np)) f0)) (seq 0 np).
Lemma frac_check_ok h ts R S u v : frac_check h ts R S u v = true -> fraction h ts R S.
Proof.
  unfold frac_check. cbv zeta. intros H. apply Bool.andb_true_iff in H as [H Hcf]. apply Bool.andb_true_iff in H as [H Hbr]. apply Bool.andb_true_iff in H as [H Hdi]. apply Bool.andb_true_iff in H as [H Hf0]. apply Bool.andb_true_iff in H as [H Hlt].
  apply Bool.andb_true_iff in H as [H Hdg]. apply Bool.andb_true_iff in H as [H Hva]. apply Bool.andb_true_iff in H as [H Hco]. apply Bool.andb_true_iff in H as [H HzS]. apply Bool.andb_true_iff in H as [H HzR]. apply Bool.andb_true_iff in H as [H HnS]. apply Bool.andb_true_iff in H as [H HnR]. apply Bool.andb_true_iff in H as [HlR HlS].
  apply Nat.leb_le in Hdg. apply Nat.ltb_lt in Hlt. pose proof (upto_ok _ _ Hva) as Va.
  constructor.
  - split; [intros E; rewrite E in HlR; discriminate HlR|]. split; [apply nodupb_ok; exact HnR|]. intros t I. rewrite forallb_forall in HzR. apply neqb101_ok. apply HzR. exact I.
  - split; [intros E; rewrite E in HlS; discriminate HlS|]. split; [apply nodupb_ok; exact HnS|]. intros t I. rewrite forallb_forall in HzS. apply neqb101_ok. apply HzS. exact I.
  - exists (ueval (Datatypes.S (udegree S)) (fun i => nth i u f0)), (ueval (Datatypes.S (udegree R)) (fun i => nth i v f0)). split; [eexists; reflexivity|]. split; [eexists; reflexivity|]. apply all101. apply Forall_forall. intros t I. rewrite forallb_forall in Hco. apply eqb101_ok. apply (Hco t I).
  - intros i Hi. specialize (Va i ltac:(clear - Hi; lia)). apply Bool.andb_true_iff in Va as [Va _]. apply Bool.andb_true_iff in Va as [V1 V2]. split; [apply neqb101_ok; exact V1|apply eqb101_ok; exact V2].
  - exists (fun i => z101 (Z.of_nat i)). intros i j Hi Hj E. apply (f_equal v101) in E. change (Z.of_nat i mod 101 = Z.of_nat j mod 101)%Z in E. clear - E Hi Hj Hdg. rewrite !Z.mod_small in E by lia. lia.
  - unfold points_needed. change (2 ^ 32)%Z with 4294967296%Z. clear - Hdg. lia.
  - exact Hlt.
  - apply neqb101_ok. exact Hf0.
  - intros i j Hi Hj E. destruct (Nat.lt_trichotomy i j) as [X|[X|X]]; [|exact X|]; exfalso; [pose proof (pairs_ok _ _ Hdi j i X Hj) as Y|pose proof (pairs_ok _ _ Hdi i j X Hi) as Y]; apply neqb101_ok in Y; apply Y; [symmetry; exact E|exact E].
  - intros i Hi. specialize (Va i ltac:(clear - Hi; lia)). apply Bool.andb_true_iff in Va as [_ Va]. apply neqb101_ok. exact Va.
  - intros i j Hj Hi. apply neqb101_ok. apply (pairs_ok _ _ Hbr i j Hj Hi).
  - intros k Hk. pose proof (upto_ok _ _ Hcf k ltac:(clear - Hk; lia)) as X. cbv beta in X. apply Bool.orb_true_iff in X as [X|X]; [apply Nat.eqb_eq in X; clear - X Hk; lia|]. apply neqb101_ok. exact X.
Qed.

Definition sx_pair : list (list (list Z * F101) * list (list Z * F101)) := [([([1; 0]%Z, z101 1)], [([0; 1]%Z, z101 1)]); ([([0; 0]%Z, z101 1)], [([1; 0]%Z, z101 1)])].
Definition sx_bbs : list ((nat -> F101) -> F101) := map (fun nd x => fdiv (poly_value 2 (fst nd) x) (poly_value 2 (snd nd) x)) sx_pair.
Definition sx_L : list (list Z) := [[0; 0]; [0; 1]; [1; 0]; [1; 1]]%Z.
Definition sx_y (i : nat) : F101 := z101 2.
Definition sx_draw (k i : nat) : F101 := z101 (nth i [3; 5]%Z 0%Z).
Definition sx_pts (k : nat) : list F101 := map z101 [1; 2; 3; 4; 6]%Z.
Definition sx_pat (k : nat) : list Z := match k with O => [1; 1]%Z | Datatypes.S i => nth i sx_L [] end.
Definition sx_nz (l : list (nat * Z)) : list (nat * F101) := map (fun t => (fst t, z101 (snd t))) (filter (fun t => negb (snd t =? 0)%Z) l).
Definition sx_a (k : nat) : Z := if (nth 0 (sx_pat k) 0 =? 1)%Z then 3 else 0.
Definition sx_b (k : nat) : Z := if (nth 1 (sx_pat k) 0 =? 1)%Z then 5 else 0.
Definition sx_R (k j : nat) : list (nat * F101) := match j with O => if k =? 1 then sx_nz [(0, 1%Z)] else sx_nz [(0, sx_a k); (1, 1%Z)] | _ => sx_nz [(0, 1%Z)] end.
Definition sx_S (k j : nat) : list (nat * F101) := match j with O => if k =? 1 then sx_nz [(0, 2%Z)] else sx_nz [(0, sx_b k); (1, 2%Z)] | _ => sx_nz [(0, sx_a k); (1, 1%Z)] end.
Definition sx_u (k j : nat) : list F101 := match j with O => if k =? 1 then [z101 1] else [fdiv (z101 (-2)) (z101 (sx_b k - 2 * sx_a k))] | _ => [z101 1] end.
Definition sx_v (k j : nat) : list F101 := match j with O => if k =? 1 then [] else [fdiv (z101 1) (z101 (sx_b k - 2 * sx_a k))] | _ => [] end.
Lemma sx_patterns : all_patterns 2 sx_L.
Proof.
  split.
  - unfold sx_L. assert (A : earlier [0; 0]%Z [0; 1]%Z) by (left; vm_compute; lia). assert (B : earlier [0; 0]%Z [1; 0]%Z) by (left; vm_compute; lia). assert (C : earlier [0; 0]%Z [1; 1]%Z) by (left; vm_compute; lia).
    assert (D : earlier [0; 1]%Z [1; 0]%Z) by (right; split; [reflexivity|]; exists 0; split; [cbn; lia|]; split; [reflexivity|]; intros j Hj; lia).
    assert (E : earlier [0; 1]%Z [1; 1]%Z) by (left; vm_compute; lia). assert (F : earlier [1; 0]%Z [1; 1]%Z) by (left; vm_compute; lia).
    repeat (apply SSorted_cons || apply SSorted_nil || apply Forall_cons || apply Forall_nil || assumption).
  - intros p. split.
    + intros [<-|[<-|[<-|[<-|[]]]]]; (split; [reflexivity|]); repeat (apply Forall_cons || apply Forall_nil); auto.
    + intros [L F]. destruct p as [|a [|b [|c p]]]; try discriminate L. inversion F as [|x l Ha F' [Ex El]]. inversion F' as [|x' l' Hb F'' [Ex' El']].
      destruct Ha as [->| ->]; destruct Hb as [->| ->]; unfold sx_L; cbn; auto.
Qed.
Lemma sx_fraction k j bb : k <= 4 -> nth_error sx_bbs j = Some bb -> fraction (on_ray bb sx_y (shift_by (sx_pat k) (sx_draw k))) (sx_pts k) (sx_R k j) (sx_S k j).
Proof.
  intros Hk E. destruct j as [|[|j]].
  - injection E as <-. apply (frac_check_ok _ _ _ _ (sx_u k 0) (sx_v k 0)). do 5 (destruct k as [|k]; [vm_compute; reflexivity|]). lia.
  - injection E as <-. apply (frac_check_ok _ _ _ _ (sx_u k 1) (sx_v k 1)). do 5 (destruct k as [|k]; [vm_compute; reflexivity|]). lia.
  - destruct j; discriminate E.
Qed.
Example C51_scan_hypotheses_met : 1 <= 2 /\ sx_bbs <> [] /\ sx_pair <> [] /\ all_patterns 2 sx_L /\
  (let pattern_of k := match k with O => repeat 1%Z 2 | Datatypes.S i => nth i sx_L [] end in
   (forall k j bb, k <= length sx_L -> nth_error sx_bbs j = Some bb -> fraction (on_ray bb sx_y (shift_by (pattern_of k) (sx_draw k))) (sx_pts k) (sx_R k j) (sx_S k j)) /\
   (forall j nd, nth_error sx_pair j = Some nd -> polynomial 2 (tdegree (fst nd)) (fst nd) /\ polynomial 2 (tdegree (snd nd)) (snd nd) /\
      udegree (sx_R 0 j) = tdegree (fst nd) /\ udegree (sx_S 0 j) = tdegree (snd nd) /\
      forall k i, k <= length sx_L -> i < length (sx_pts k) -> poly_value 2 (snd nd) (fun v => match v with O => fadd (point (sx_pts k) i) (shift_by (pattern_of k) (sx_draw k) 0) | Datatypes.S w => fadd (fmul (point (sx_pts k) i) (sx_y w)) (shift_by (pattern_of k) (sx_draw k) (Datatypes.S w)) end) <> f0)) /\
  match scan_for_shift (fun A l => l) 5 2 sx_y sx_draw sx_pts sx_bbs with
  | Ret (found, p, fs) => found = true /\ p = [0; 1]%Z /\ map (fun f => sf_norm_den (snd f)) fs = [true; false] /\ map (fun f => sf_degs (snd f)) fs = [([1], [0; 1]); ([0], [1])]
  | _ => False end.
Proof.
  split; [lia|]. split; [discriminate|]. split; [discriminate|]. split; [apply sx_patterns|]. split; [cbv zeta; split|].
  - intros k j bb Hk E. apply (sx_fraction k j bb Hk E).
  - intros j nd E. destruct j as [|[|j]]; [injection E as <-|injection E as <-|destruct j; discriminate E].
    all: split; [|split; [|split; [vm_compute; reflexivity|split; [vm_compute; reflexivity|]]]].
    all: try (split; [discriminate|]; split; [repeat constructor; cbn; intuition discriminate|]; intros e a [J|[]]; injection J as <- <-; split; [ne101|]; split; [reflexivity|]; split; [intros [|[|[|i]]]; vm_compute; split; discriminate|reflexivity]).
    all: intros k i Hk Hi; change (length (sx_pts k)) with 5 in Hi; change (length sx_L) with 4 in Hk;
      do 5 (destruct k as [|k]; [do 5 (destruct i as [|i]; [ne101|]); lia|]); lia.
  - vm_compute. repeat split; reflexivity.
Qed.

(** ---- Concrete case of the interpolation: the function of C48_hypotheses_met, with the degrees 0 and 1 of numerator and denominator *)
Lemma rm_first : determined [0; 1] [1] (point rm_ts) (fun i => ray_value 2 rm_N rm_D rm_y rm_s (ones 2) (point rm_ts i)) 3.
Proof.
  intros a b H. pose proof (H 0 ltac:(lia)) as H0. pose proof (H 1 ltac:(lia)) as H1. pose proof (H 2 ltac:(lia)) as H2. clear H. cbn [fold_right pw] in H0, H1, H2.
  set (u0 := ray_value 2 rm_N rm_D rm_y rm_s (ones 2) (point rm_ts 0)) in *. set (u1 := ray_value 2 rm_N rm_D rm_y rm_s (ones 2) (point rm_ts 1)) in *. set (u2 := ray_value 2 rm_N rm_D rm_y rm_s (ones 2) (point rm_ts 2)) in *.
  replace (point rm_ts 0) with (@f1 F101) in H0 by eq101. replace (point rm_ts 1) with (@f1 F101 + f1)%K in H1 by eq101. replace (point rm_ts 2) with (@f1 F101 + f1 + f1)%K in H2 by eq101.
  assert (C : (u0 - (f1 + f1 + f1 + f1) * u1 + (f1 + f1 + f1) * u2)%K <> f0) by (unfold u0, u1, u2; ne101). clearbody u0 u1 u2.
  assert (R : b 1%nat = f0 /\ a 1%nat = f0 /\ a 0%nat = f0); [|destruct R as [B1 [A1 A0]]; split; [intros e [<-|[<-|[]]]|intros e [<-|[]]]; assumption].
  generalize dependent (a 0%nat). generalize dependent (a 1%nat). generalize dependent (b 1%nat). intros b1 a1 a0 H0 H1 H2.
  assert (B : b1 = f0).
  { assert (X : ((u0 - (f1 + f1 + f1 + f1) * u1 + (f1 + f1 + f1) * u2) * b1)%K = f0).
    { transitivity ((u0 * (b1 * (f1 * f1) + f0)) - (f1 + f1) * (u1 * (b1 * ((f1 + f1) * f1) + f0)) + (u2 * (b1 * ((f1 + f1 + f1) * f1) + f0)))%K; [ring|]. rewrite <- H0, <- H1, <- H2. ring. }
    apply (fmul_0 F101_laws) in X as [X|X]; [contradiction|exact X]. }
  subst b1. assert (A1 : a1 = f0).
  { transitivity ((a0 * f1 + (a1 * ((f1 + f1) * f1) + f0)) - (a0 * f1 + (a1 * (f1 * f1) + f0)))%K; [ring|]. rewrite H0, H1. ring. }
  subst a1. assert (A0 : a0 = f0). { transitivity (a0 * f1 + (f0 * (f1 * f1) + f0))%K; [ring|]. rewrite H0. ring. }
  subst a0. auto.
Qed.
Example C51_degrees_hypotheses_met : known_degrees (mc_n rm_c) (mc_norm_den rm_c) (mc_bt rm_c) rm_N rm_D rm_Ns rm_Ds rm_y rm_s rm_ts [0; 1] [0; 1] /\ mconfig_fits rm_c rm_N rm_D rm_Ns rm_Ds /\
  max_probes_known (mc_n rm_c) rm_N rm_D rm_Ns rm_Ds [0; 1] [0; 1] <= length rm_ts /\
  match sdrive (fun A l => l) rm_c rm_y rm_s [0; 1] [0; 1] (ray_value 2 rm_N rm_D rm_y rm_s) rm_ts (SDegs []) with
  | Ret (SResult r) => map (fun t => (fst t, v101 (snd t))) (mr_num r) = [([0; 0], 50); ([1; 0], 84); ([0; 1], 67)]%Z /\ map (fun t => (fst t, v101 (snd t))) (mr_den r) = [([0; 0], 1); ([1; 0], 84); ([0; 1], 84)]%Z
  | _ => False end.
Proof.
  destruct C48_hypotheses_met as [IP [CF [MP _]]]. split; [|split; [exact CF|split]].
  - apply mk_known_degrees; [apply (ip_n _ _ _ _ _ _ _ _ _ _ IP)|apply (ip_num _ _ _ _ _ _ _ _ _ _ IP)|apply (ip_den _ _ _ _ _ _ _ _ _ _ IP)|apply (ip_nums _ _ _ _ _ _ _ _ _ _ IP)|apply (ip_dens _ _ _ _ _ _ _ _ _ _ IP)|apply (ip_norm _ _ _ _ _ _ _ _ _ _ IP)|apply (ip_layers _ _ _ _ _ _ _ _ _ _ IP)|apply (ip_anchors _ _ _ _ _ _ _ _ _ _ IP)|apply (ip_field _ _ _ _ _ _ _ _ _ _ IP)|apply (ip_char _ _ _ _ _ _ _ _ _ _ IP)| |apply (ip_poles _ _ _ _ _ _ _ _ _ _ IP)| |apply (ip_regular _ _ _ _ _ _ _ _ _ _ IP)].
    + split; [repeat constructor; cbn; intuition discriminate|]. split; [repeat constructor; cbn; intuition discriminate|].
      split; intros d; (split; [intros [<-|[<-|[]]]; apply rm_poly; [cbn; tauto|lia|cbn; tauto|lia]|]); intros H; apply rm_poly in H; try (cbn; tauto); destruct d as [|[|d]]; [cbn; auto|cbn; auto|lia|cbn; auto|cbn; auto|lia].
    + exact rm_first.
  - rewrite rm_length. vm_compute. lia.
  - vm_compute. split; reflexivity.
Qed.

(** Property theorems C47: reconstructing a polynomial with rational coefficients over several primes (PolyReconst on its own). *)
From Coq Require Import Znumtheory Permutation.
From Verif Require Import Machine FFInt FField FSum LinAlg LinAlgProofs FPoly PolyFF PolySpec PolyFFProofs RatNum Modular ModularProofs PField BMSpec BTProofs RatUni RatUniSpec RatUniProofs PolyRec PolyRecSpec PolyRecRunSpec PolyRecChecks PolyRat PolyRatSpec PolyRatProofs PolyRatMain Props_RatUni.
Open Scope Z_scope.

(** A run over any primes never fails and needs no more probes than given; whenever the object says it is done, its result is f. *)
Theorem C47_rational_polynomial_recovered : forall ord, (forall A (l : list A), Permutation (ord A l) l) ->
  forall (c : pcfg) D (f : list qterm), (0 < pc_n c)%nat -> rational_polynomial (pc_n c) D f ->
  forall l M, l <> [] -> good_primes c D f None l M ->
  exists g, feed_primes ord c l (pq_start (first_mod l)) = Ret (Some g) /\ (q_done g = true -> is_polynomial (q_gi g) f).
Proof.
  intros ord Ho c D f Np Hf l M Hl H. destruct (run_primes ord Ho c D f Hf Np l M Hl H) as [g [E [[_ R]|[M1 [_ B]]]]]; exists g; split; try exact E; [intros _; exact R|].
  rewrite (proj1 (proj2 B)). discriminate.
Qed.
Print Assumptions C47_rational_polynomial_recovered.

(** Once numerators and denominators are at most sqrt(M/2), M the product of the primes so far, the first probe of any further prime
    completes the reconstruction. *)
Theorem C47_reconstruction_ends : forall ord, (forall A (l : list A), Permutation (ord A l) l) ->
  forall (c : pcfg) D (f : list qterm), (0 < pc_n c)%nat -> rational_polynomial (pc_n c) D f ->
  forall l M s, l <> [] -> good_primes c D f None l (Some M) -> 2 < M -> (forall t, In t f -> within_root M (snd t)) ->
  values_of c f s -> (1 <= se_m s)%nat ->
  exists g, feed_primes ord c (l ++ [s]) (pq_start (first_mod l)) = Ret (Some g) /\ q_done g = true /\ is_polynomial (q_gi g) f.
Proof.
  intros ord Ho c D f Np Hf l M s Hl H HM HS Hv Hm. destruct (run_primes ord Ho c D f Hf Np l (Some M) Hl H) as [g [E R]].
  assert (A : forall g0, feed_primes ord c l g0 = Ret (Some g) -> feed_primes ord c (l ++ [s]) g0 = feed_primes ord c [s] g).
  { clear. induction l as [|s0 l IH]; intros g0 E; [cbn in E; injection E as ->; reflexivity|]. cbn [app feed_primes] in *. destruct (feed_prime ord c (se_F s0) (se_y s0) (se_bb s0) (se_m s0) g0) as [[g1|]| | | |]; cbn [obind] in *; try discriminate E. apply IH. exact E. }
  rewrite (A _ E). destruct R as [[Hd R]|[M1 [E1 B]]].
  - exists g. split; [apply feed_done; exact Hd|]. split; assumption.
  - injection E1 as <-. destruct (finish ord Ho c D f Hf Np M g s B Hv Hm HM HS) as [g' [E2 [Hd R]]]. exists g'. split; [|split; assumption]. cbn [feed_primes]. rewrite E2. reflexivity.
Qed.
Print Assumptions C47_reconstruction_ends.

(** There is at most one guess that can be tested (denominators are units modulo M). *)
Theorem C47_one_guess : forall M f f1 f2, 2 < M -> (forall t, In t f -> Z.gcd (snd (snd t)) M = 1) -> lookalike M f f1 -> lookalike M f f2 -> f1 = f2.
Proof. exact lookalike_unique. Qed.
Print Assumptions C47_one_guess.

(** The zero polynomial is done at the first probe of the second prime. *)
Theorem C47_zero_polynomial : forall ord, (forall A (l : list A), Permutation (ord A l) l) -> forall (c : pcfg) s0 s1,
  (0 < pc_n c)%nat -> pc_newton c = true -> 2 < pf_mod (se_F s0) -> (1 <= se_m s0)%nat -> (1 <= se_m s1)%nat ->
  (forall o, se_bb s0 o = f0) -> (forall o, se_bb s1 o = f0) ->
  exists g, feed_primes ord c [s0; s1] (pq_start (pf_mod (se_F s0))) = Ret (Some g) /\ q_done g = true /\ q_gi g = [].
Proof.
  intros ord Ho c s0 s1 Np Hn HM M0 M1 Z0 Z1.
  assert (V : forall s, (forall o, se_bb s o = f0) -> values_of c [] s) by (intros s Z; split; [intros t []|intros o; rewrite Z; reflexivity]).
  destruct (C47_reconstruction_ends ord Ho c 0 [] Np) with (l := [s0]) (M := pf_mod (se_F s0)) (s := s1) as [g [E [Hd R]]]; try assumption; try (intros t []); try discriminate.
  - split; [constructor|intros t []].
  - apply gp_first; [apply V; exact Z0| |apply gp_nil]. split; assumption.
  - apply V. exact Z1.
  - exists g. split; [exact E|]. split; [exact Hd|]. apply Permutation_sym, Permutation_nil in R. exact R.
Qed.
Print Assumptions C47_zero_polynomial.

(** The condition on the size is needed: no probe distinguishes (1 + p0 p1) x from x modulo p0 and p1, the result is x ... *)
Lemma same_terms c D f h s : over (se_F s) f = over (se_F s) h -> (forall t, In t h -> ~ (pf_mod (se_F s) | snd (snd t))) ->
  (values_of c f s -> values_of c h s) /\ (prime_ok c D f s -> prime_ok c D h s).
Proof.
  intros E Hd. split; [intros [_ V]; split; [exact Hd|]; intros o; rewrite <- E; apply V|]. unfold prime_ok, image. rewrite E. intros H; exact H.
Qed.
Lemma not_one F : ~ (pf_mod F | 1).
Proof. intros X. pose proof (p_gt1 F). apply Z.divide_1_r_nonneg in X; lia. Qed.
Theorem C47_large_coefficient_refuted : forall ord, (forall A (l : list A), Permutation (ord A l) l) -> forall (c : pcfg) s0 s1,
  pc_n c = 1%nat -> 2 < pf_mod (se_F s0) ->
  let f := [([1], (1 + pf_mod (se_F s0) * pf_mod (se_F s1), 1))] in
  values_of c f s0 -> prime_ok c 1 f s0 -> values_of c f s1 -> (1 <= se_m s1)%nat ->
  exists g, feed_primes ord c [s0; s1] (pq_start (pf_mod (se_F s0))) = Ret (Some g) /\ q_done g = true /\ q_gi g = [([1], mk_rn 1 1)].
Proof.
  intros ord Ho c s0 s1 Hn HM f V0 P0 V1 M1. set (h := [([1], (1, 1))] : list qterm).
  assert (EQ : forall F, (pf_mod F | pf_mod (se_F s0) * pf_mod (se_F s1)) -> over F f = over F h).
  { intros F X. unfold over, f, h. cbn [map fst snd]. f_equal. f_equal. apply (krat_agrees F); try (cbn [snd]; apply not_one). unfold agrees. cbn [fst snd]. apply Z.mod_divide; [pose proof (p_gt1 F); lia|].
    replace (1 * 1 - (1 + pf_mod (se_F s0) * pf_mod (se_F s1)) * 1) with (- (pf_mod (se_F s0) * pf_mod (se_F s1))) by ring. apply Z.divide_opp_r. exact X. }
  assert (HD : forall F t, In t h -> ~ (pf_mod F | snd (snd t))) by (intros F t [<-|[]]; apply not_one).
  destruct (same_terms c 1 f h s0 (EQ _ (Z.divide_factor_l _ _)) (HD _)) as [A0 B0]. destruct (same_terms c 1 f h s1 (EQ _ (Z.divide_factor_r _ _)) (HD _)) as [A1 _].
  destruct (C47_reconstruction_ends ord Ho c 1 h ltac:(lia)) with (l := [s0]) (M := pf_mod (se_F s0)) (s := s1) as [g [E [Hd R]]]; try assumption; try discriminate.
  - split; [repeat constructor; intros []|]. rewrite Hn. intros t [<-|[]]. cbn [fst snd]. split; [discriminate|]. split; [split; reflexivity|]. split; [reflexivity|]. split; [intros [|[|i]]; cbn; lia|reflexivity].
  - apply gp_first; [apply A0; exact V0|apply B0; exact P0|apply gp_nil].
  - intros t [<-|[]]. cbn [fst snd]. split; [split; reflexivity|]. cbn [fst snd]. lia.
  - apply A1. exact V1.
  - exists g. split; [exact E|]. split; [exact Hd|]. apply Permutation_sym, Permutation_length_1_inv in R. exact R.
Qed.
Print Assumptions C47_large_coefficient_refuted.
(** ... and p0 p1 x is taken for the zero polynomial. *)
Theorem C47_lost_polynomial_refuted : forall ord, (forall A (l : list A), Permutation (ord A l) l) -> forall (c : pcfg) s0 s1,
  pc_n c = 1%nat -> pc_newton c = true -> 2 < pf_mod (se_F s0) -> (1 <= se_m s0)%nat -> (1 <= se_m s1)%nat ->
  let f := [([1], (pf_mod (se_F s0) * pf_mod (se_F s1), 1))] in values_of c f s0 -> values_of c f s1 ->
  exists g, feed_primes ord c [s0; s1] (pq_start (pf_mod (se_F s0))) = Ret (Some g) /\ q_done g = true /\ q_gi g = [].
Proof.
  intros ord Ho c s0 s1 Hn Hw HM M0 M1 f V0 V1.
  assert (Z : forall s, values_of c f s -> (pf_mod (se_F s) | pf_mod (se_F s0) * pf_mod (se_F s1)) -> forall o, se_bb s o = f0).
  { intros s [_ V] X o. rewrite V. assert (E : over (se_F s) f = [([1], f0)]).
    { unfold over, f. cbn [map fst snd]. f_equal. f_equal. apply (krat_0 (se_F s)); [cbn [snd]; apply not_one|exact X]. }
    rewrite E. unfold black_box. rewrite <- (pv_filter_nz (HK (se_F s))). cbn [filter snd]. rewrite (feqb_refl (HK (se_F s))). reflexivity. }
  apply (C47_zero_polynomial ord Ho); try assumption; [lia|apply Z; [exact V0|apply Z.divide_factor_l]|apply Z; [exact V1|apply Z.divide_factor_r]].
Qed.
Print Assumptions C47_lost_polynomial_refuted.

(** ---- a run that meets the hypotheses: 2^61/3 x y + 5 x over the first two primes of the table; both algorithms race ---- *)
Definition qf : list qterm := [([1; 1], (2 ^ 61, 3)); ([1; 0], (5, 1))].
Definition qc : pcfg := mk_pcfg 2 2 true true 1 None 20.
Definition qy (F : pfield) (i : nat) : fld F := fofZ (nth i [17; 19] 0).
Definition qs (F : pfield) (m : nat) : session := mk_session F (qy F) (black_box 2 (over F qf) (qy F)) m.
Section Facts.
  Variable F : pfield.
  Local Notation K := (fld F).
  Add Field KQ : (fl_field K (HK F)).
  Lemma linear_prediction z (g : K -> K) u w : (forall x, g x = u * x + w)%K -> u <> f0 -> g z <> f0 -> distinct 3 (pw z) -> prediction_is_right 1 z g.
  Proof.
    intros Hg Hu H1 Hd k h Hk [a Ha] Hv. destruct k as [|[|k]]; [| |lia].
    - exfalso. apply H1. pose proof (Hv 0%nat ltac:(lia)) as E. rewrite Ha in E. cbn [ueval fsum pw] in E. assert (E1 : (z * f1)%K = z) by ring. rewrite E1 in E. rewrite <- E. reflexivity.
    - exfalso. pose proof (Hv 0%nat ltac:(lia)) as E0. pose proof (Hv 1%nat ltac:(lia)) as E1. rewrite Ha, Hg in E0, E1. cbn [ueval fsum pw] in E0, E1.
      assert (Z : (u * (z * (z * f1) - z * f1))%K = f0).
      { transitivity ((u * (z * (z * f1)) + w) - (u * (z * f1) + w))%K; [ring|]. rewrite <- E0, <- E1. ring. }
      apply (fmul_0 (HK F)) in Z as [Z|Z]; [contradiction|]. apply (fsub_0 (HK F)) in Z. pose proof (Hd 2%nat 1%nat ltac:(lia) ltac:(lia) Z). lia.
  Qed.
  Variables (a b : K).
  Let g : list (list Z * K) := [([1; 1], a); ([1; 0], b)].
  Hypothesis Ha : a <> f0.
  Hypothesis Hb : b <> f0.
  Variable y : nat -> K.
  Hypothesis Hy : forall j, (j < 2)%nat -> y j <> f0 /\ distinct 3 (pw (y j)).
  Hypothesis Hab : (a * y 1%nat + b)%K <> f0.
  Lemma q_slice0 e t : In e (map fst g) -> slice 2 y g 0 (firstn 0 e) t = ((a * y 1%nat + b) * t + f0)%K.
  Proof.
    intros _. unfold slice, part. cbn [firstn filter g fst]. destruct (list_eq_dec Z.eq_dec [] []) as [_|X]; [|contradiction]. unfold poly_value. cbn [fold_right fst snd monomial_value nth Nat.ltb Nat.leb Nat.eqb].
    change (Z.to_nat 1) with 1%nat. change (Z.to_nat 0) with 0%nat. cbn [pw]. ring.
  Qed.
  Lemma q_slice1 e t : In e (map fst g) -> slice 2 y g 1 (firstn 1 e) t = (a * t + b)%K.
  Proof.
    intros I. assert (E : firstn 1 e = [1]) by (destruct I as [<-|[<-|[]]]; reflexivity). rewrite E. unfold slice, part. cbn [firstn filter g fst]. destruct (list_eq_dec Z.eq_dec [1] [1]) as [_|X]; [|contradiction]. unfold poly_value. cbn [fold_right fst snd monomial_value nth Nat.ltb Nat.leb Nat.eqb].
    change (Z.to_nat 1) with 1%nat. change (Z.to_nat 0) with 0%nat. cbn [pw]. ring.
  Qed.
  Lemma y1_ne : y 1%nat <> f1.
  Proof. intros E. pose proof (proj2 (Hy 1%nat ltac:(lia)) 1%nat 0%nat ltac:(lia) ltac:(lia)) as X. cbn [pw] in X. rewrite E in X. specialize (X ltac:(ring)). lia. Qed.
  Lemma q_suitable : suitable true true 2 1 g y.
  Proof.
    constructor.
    - intros j Hj. exact (Hy j Hj).
    - intros j e Hj I. destruct j as [|[|[|j]]]; [| | |lia].
      + assert (E : coefficient 2 y g 0 (firstn 0 e) = (y 0%nat * (a * y 1%nat + b))%K).
        { unfold coefficient, part. cbn [firstn filter g fst]. destruct (list_eq_dec Z.eq_dec [] []) as [_|X]; [|contradiction]. unfold poly_value. cbn [fold_right fst snd monomial_value nth Nat.ltb Nat.leb]. change (Z.to_nat 1) with 1%nat. change (Z.to_nat 0) with 0%nat. cbn [pw]. ring. }
        rewrite E. apply (fmul_neq0 (HK F)); [apply (Hy 0%nat); lia|exact Hab].
      + assert (E : coefficient 2 y g 1 (firstn 1 e) = (a * y 1%nat + b)%K).
        { assert (E : firstn 1 e = [1]) by (destruct I as [<-|[<-|[]]]; reflexivity). rewrite E. unfold coefficient, part. cbn [firstn filter g fst]. destruct (list_eq_dec Z.eq_dec [1] [1]) as [_|X]; [|contradiction]. unfold poly_value. cbn [fold_right fst snd monomial_value nth Nat.ltb Nat.leb]. change (Z.to_nat 1) with 1%nat. change (Z.to_nat 0) with 0%nat. cbn [pw]. ring. }
        rewrite E. exact Hab.
      + destruct I as [<-|[<-|[]]].
        * assert (E : coefficient 2 y g 2 (firstn 2 [1; 1]) = a); [|cbn [fst]; rewrite E; exact Ha]. unfold coefficient, part. cbn [firstn filter g fst]. destruct (list_eq_dec Z.eq_dec [1; 1] [1; 1]) as [_|X]; [|contradiction]. destruct (list_eq_dec Z.eq_dec [1; 0] [1; 1]) as [X|_]; [discriminate X|].
          unfold poly_value. cbn [fold_right fst snd monomial_value nth Nat.ltb Nat.leb]. rewrite !(pw_1 (HK F)). ring.
        * assert (E : coefficient 2 y g 2 (firstn 2 [1; 0]) = b); [|cbn [fst]; rewrite E; exact Hb]. unfold coefficient, part. cbn [firstn filter g fst]. destruct (list_eq_dec Z.eq_dec [1; 0] [1; 0]) as [_|X]; [|contradiction]. destruct (list_eq_dec Z.eq_dec [1; 1] [1; 0]) as [X|_]; [discriminate X|].
          unfold poly_value. cbn [fold_right fst snd monomial_value nth Nat.ltb Nat.leb]. rewrite !(pw_1 (HK F)). ring.
    - intros j e e' Hj I I' _. destruct j as [|[|j]]; [reflexivity| |lia]. destruct I as [<-|[<-|[]]], I' as [<-|[<-|[]]]; reflexivity.
    - intros _ j e Hj I. destruct (Hy j Hj) as [Y0 Yd]. destruct j as [|[|j]]; [| |lia].
      + apply (linear_prediction _ _ (a * y 1%nat + b)%K f0); [intros x; apply q_slice0; exact I|exact Hab| |exact Yd]. rewrite q_slice0 by exact I. intros E. apply (fmul_neq0 (HK F) _ _ Hab Y0). rewrite <- E. ring.
      + apply (linear_prediction _ _ a b); [intros x; apply q_slice1; exact I|exact Ha| |exact Yd]. rewrite q_slice1 by exact I. exact Hab.
    - intros _ j e Hj I. destruct (Hy j Hj) as [Y0 Yd]. destruct j as [|[|j]]; [| |lia].
      + apply (recurrence_check (HK F) 1 (fun _ => (a * y 1%nat + b)%K) (fun _ => y 0%nat)); [lia|intros i k Hi Hk _; lia|intros i _; exact Y0|intros i _; exact Hab| |].
        * intros k. rewrite q_slice0 by exact I. unfold exponential_sum. cbn [fsum]. ring.
        * intros L q HL. assert (L = 0%nat) by lia. subst L. apply (no_rec_0 (HK F)). rewrite q_slice0 by exact I. intros E. apply (fmul_neq0 (HK F) _ _ Hab Y0). rewrite <- E. cbn [pw]. ring.
      + apply (recurrence_check (HK F) 2 (fun i => if (i =? 0)%nat then a else b) (fun i => if (i =? 0)%nat then y 1%nat else f1)); [lia| | | | |].
        * intros i k Hi Hk E. pose proof y1_ne. destruct i as [|[|i]], k as [|[|k]]; try lia; cbn [Nat.eqb] in E; congruence.
        * intros i _. destruct (i =? 0)%nat; [exact Y0|apply (f1_neq_0 (HK F))].
        * intros i _. destruct (i =? 0)%nat; assumption.
        * intros k. rewrite q_slice1 by exact I. unfold exponential_sum. cbn [fsum Nat.eqb]. rewrite (pw_1 (HK F)). ring.
        * intros L q HL. destruct L as [|[|L]]; [| |lia].
          -- apply (no_rec_0 (HK F)). rewrite q_slice1 by exact I. cbn [pw]. intros E. apply Hab. rewrite <- E. ring.
          -- apply (no_rec_1 (HK F)). rewrite !q_slice1 by exact I. cbn [pw]. intros E. 
             assert (Z : (a * b * y 1%nat * ((y 1%nat - f1) * (y 1%nat - f1)))%K = f0).
             { transitivity ((a * (y 1%nat * f1) + b) * (a * (y 1%nat * (y 1%nat * (y 1%nat * f1))) + b) - (a * (y 1%nat * (y 1%nat * f1)) + b) * (a * (y 1%nat * (y 1%nat * f1)) + b))%K; [ring|]. rewrite E. ring. }
             revert Z. pose proof (fsub_neq0 (HK F) _ _ y1_ne) as Y1. repeat apply (fmul_neq0 (HK F)); assumption.
  Qed.
  Lemma q_config : config_fits qc 1 g y.
  Proof.
    split; [reflexivity|]. split; [cbn; lia|]. split; [right; split; [reflexivity|intros e [<-|[<-|[]]]; cbn; lia]|]. split; [intros bb E; discriminate E|]. split; [cbn; lia|]. split; [lia|]. split; [cbn; lia|]. split; [cbn; lia|].
    intros _ j _. exists 3%nat. split; [cbn; lia|]. right. cbn. lia.
  Qed.
End Facts.
Lemma q_image F : @krat (fld F) (2 ^ 61, 3) <> f0 -> @krat (fld F) (5, 1) <> f0 -> image F qf = [([1; 1], krat (2 ^ 61, 3)); ([1; 0], krat (5, 1))].
Proof.
  intros A B. unfold image, over, qf. cbn [map filter fst snd].
  destruct (feqb (@krat (fld F) (2 ^ 61, 3)) f0) eqn:E1; [apply (fl_eqb _ (HK F)) in E1; contradiction|]. destruct (feqb (@krat (fld F) (5, 1)) f0) eqn:E2; [apply (fl_eqb _ (HK F)) in E2; contradiction|]. reflexivity.
Qed.
Lemma q_prime F : @krat (fld F) (2 ^ 61, 3) <> f0 -> @krat (fld F) (5, 1) <> f0 -> (forall j, (j < 2)%nat -> qy F j <> f0 /\ distinct 3 (pw (qy F j))) ->
  fadd (fmul (krat (2 ^ 61, 3)) (qy F 1)) (krat (5, 1)) <> f0 -> prime_ok qc 1 qf (qs F 100).
Proof.
  intros A B Y AB. unfold prime_ok. cbn [qs se_F se_y se_m]. rewrite (q_image F A B). split; [apply q_config|]. split; [apply q_suitable; assumption|]. unfold depth. cbn [qc pc_newton pc_bt pc_n pc_thr length Nat.min Nat.max Nat.mul Nat.add]. lia.
Qed.
Ltac q_ne := let X := fresh in intros X; apply (f_equal kv) in X; rewrite ?krat_compute in X; vm_compute in X; discriminate X.
Lemma q_values F m : (forall t, In t qf -> ~ (pf_mod F | snd (snd t))) -> values_of qc qf (qs F m).
Proof. intros H. split; [exact H|reflexivity]. Qed.
Example C47_hypotheses_met : rational_polynomial 2 1 qf /\ good_primes qc 1 qf None [qs P0 100; qs P1 100] (Some (pf_mod P0 * pf_mod P1)) /\
  2 < pf_mod P0 * pf_mod P1 /\ (forall t, In t qf -> within_root (pf_mod P0 * pf_mod P1) (snd t)) /\ values_of qc qf (qs P2 1) /\
  ~ (forall t, In t qf -> within_root (pf_mod P0) (snd t)).
Proof.
  split; [|split; [|split; [reflexivity|split; [|split]]]].
  - split; [repeat constructor; cbn; intuition discriminate|]. intros t [<-|[<-|[]]]; cbn [fst snd]; (split; [vm_compute; discriminate|]); (split; [split; [reflexivity|vm_compute; reflexivity]|]); (split; [reflexivity|]);
    (split; [intros [|[|[|i]]]; cbn; lia|reflexivity]).
  - apply gp_first.
    + apply q_values. intros t [<-|[<-|[]]]; cbn [fst snd]; not_divides.
    + apply q_prime; try q_ne. intros j Hj. split; [destruct j as [|[|j]]; [q_ne|q_ne|lia]|]. intros i k Hi Hk X. apply (f_equal kv) in X. destruct j as [|[|j]]; [| |lia]; destruct i as [|[|[|i]]], k as [|[|[|k]]]; try lia; vm_compute in X; discriminate X.
    + apply gp_later; [| | |cbn [qs se_F]; not_divides|apply gp_nil].
      * apply q_values. intros t [<-|[<-|[]]]; cbn [fst snd]; not_divides.
      * apply q_prime; try q_ne. intros j Hj. split; [destruct j as [|[|j]]; [q_ne|q_ne|lia]|]. intros i k Hi Hk X. apply (f_equal kv) in X. destruct j as [|[|j]]; [| |lia]; destruct i as [|[|[|i]]], k as [|[|[|k]]]; try lia; vm_compute in X; discriminate X.
      * (* modulo the first prime 2^61/3 looks like 25/12; the test at the first probe of the second prime rejects it *)
        intros f' L E. exfalso. change (lookalike (pf_mod P0) qf f') in L. assert (Q : f' = [([1; 1], (25, 12)); ([1; 0], (5, 1))]).
        { apply (lookalike_unique (pf_mod P0) qf); [reflexivity|intros t [<-|[<-|[]]]; vm_compute; reflexivity|exact L|].
          repeat constructor; try (vm_compute; reflexivity); vm_compute; discriminate. }
        subst f'. cbn [qs se_F se_y over qf map fst snd] in E. unfold poly_value in E. cbn [fold_right fst snd monomial_value nth] in E. rewrite !krat_compute in E. apply (f_equal kv) in E. vm_compute in E. discriminate E.
  - intros t [<-|[<-|[]]]; cbn [fst snd]; (split; [split; [reflexivity|vm_compute; reflexivity]|]); split; vm_compute; discriminate.
  - apply q_values. intros t [<-|[<-|[]]]; cbn [fst snd]; not_divides.
  - intros H. destruct (H _ (or_introl eq_refl)) as [_ [X _]]. vm_compute in X. apply X. reflexivity.
Qed.

(** Property theorems C57: a rational function of n > 1 variables that needs the shift, reconstructed over several primes (RatReconst). *)
From Coq Require Import Znumtheory Permutation.
From Verif Require Import Machine NumTheory FFInt FField FSum FPoly PolyFF PolySpec RatNum Modular PField RatUni RatUniSpec RatUniProofs Newton PolyRec PolyRecSpec PolyRatSpec RatMulti RatMultiSpec RatMultiRunSpec RatMultiQ RatMultiQSpec RatMultiQRays RatMultiQRun RatMultiQFirst RatMultiQMain RatSing RatSingSpec RatSingRun RatSingRunSpec RatSingNext RatSingLoop RatSingFirst.
Open Scope nat_scope.

(** The first prime s fixes a coefficient of the denominator that is set to one, but is not alone in its degree: the further primes need the
    shift.  Neither numerator nor denominator has a constant; AN and AD are their monomials after the shift of the first prime, UN and UD the powers of
    t that are unknown on a ray.  With good further primes l the object either waits for the next prime or is done, and then numerator and
    denominator are those of the normalised function, for every order in which the hash maps are iterated. *)
Theorem C57_shifted_run_gives_the_function : forall ord, (forall A (l : list A), Permutation (ord A l) l) ->
  forall (c : mcfg) (N D : list qterm) (s : msession) (l : list msession) (AN AD : list (list Z)) (UN UD : list nat),
  rational_function_n (mc_n c) N D -> first_session c N D s ->
  (exists in_den m, normalised_by (mc_n c) (mc_norm_den c) (over (ms_F s) N) (over (ms_F s) D) in_den m true) ->
  ~ In (zeros (mc_n c)) (map fst (N ++ D)) ->
  monomials_after (mc_n c) (ms_F s) (ms_s s) N AN -> monomials_after (mc_n c) (ms_F s) (ms_s s) D AD ->
  unknown_degrees (negb (mc_norm_den c)) N AN UN -> unknown_degrees (mc_norm_den c) D AD UD ->
  (forall in_den m N1 D1, singular_normalisation c (ms_F s) N D in_den m N1 D1 ->
     exists M', shifted_sessions (mc_n c) (mc_norm_den c) N1 D1 AN AD in_den m UN UD (pf_mod (ms_F s)) l M') ->
  length l < 299 ->
  exists in_den m N1 D1 g, singular_normalisation c (ms_F s) N D in_den m N1 D1 /\
    ((exists u, sing_reconstruct ord c s l = Ret (SRunning g u) /\ qr_done g = false) \/
     (sing_reconstruct ord c s l = Ret (SComplete g) /\ qr_done g = true /\ is_polynomial (qr_gni g) N1 /\ is_polynomial (qr_gdi g) D1)).
Proof.
  intros ord Ho c N D s l AN AD UN UD RF FS NB NC MAN MAD UUN UUD GS Hl.
  destruct (first_prime_singular ord Ho c N D s AN AD UN UD RF FS NC MAN MAD UUN UUD NB) as [in_den [m [N1 [D1 [r [HN [Hn [Ht [Hv [Er [Sg [Q1 [Q2 [FN [FD [HL [HZ [NCn [NCd [FX TS]]]]]]]]]]]]]]]]]]]].
  destruct (GS in_den m N1 D1 HN) as [M' G]. rewrite (sing_reconstruct_first ord c s l Ht Hv r Er Sg).
  destruct (srun_ok ord Ho c Hn N1 D1 AN AD in_den m UN UD (sing_fixed r) FN FD HL HZ NCn NCd FX (pf_mod (ms_F s)) l M' G _ (first_terms (ms_F s) r) Q1 TS) as [[g [u' [E [I _]]]]|[g [E [X1 [X2 X3]]]]]; [rewrite Q2; lia| |]; exists in_den, m, N1, D1, g; (split; [exact HN|]).
  - left. exists u'. split; [exact E|]. apply I.
  - right. auto.
Qed.
Print Assumptions C57_shifted_run_gives_the_function.

(** If every coefficient is within the bound for the product of the primes, the first probe of one more prime ends the run. *)
Theorem C57_shifted_run_ends : forall ord, (forall A (l : list A), Permutation (ord A l) l) ->
  forall (c : mcfg) (N D : list qterm) (s : msession) (l : list msession) (s' : msession) (AN AD : list (list Z)) (UN UD : list nat),
  rational_function_n (mc_n c) N D -> first_session c N D s ->
  (exists in_den m, normalised_by (mc_n c) (mc_norm_den c) (over (ms_F s) N) (over (ms_F s) D) in_den m true) ->
  ~ In (zeros (mc_n c)) (map fst (N ++ D)) ->
  monomials_after (mc_n c) (ms_F s) (ms_s s) N AN -> monomials_after (mc_n c) (ms_F s) (ms_s s) D AD ->
  unknown_degrees (negb (mc_norm_den c)) N AN UN -> unknown_degrees (mc_norm_den c) D AD UD ->
  (forall in_den m N1 D1, singular_normalisation c (ms_F s) N D in_den m N1 D1 ->
     shifted_probe (mc_n c) N1 D1 s' /\
     exists M', shifted_sessions (mc_n c) (mc_norm_den c) N1 D1 AN AD in_den m UN UD (pf_mod (ms_F s)) l M' /\ all_within M' (N1 ++ D1)) ->
  length l < 299 ->
  exists in_den m N1 D1 g, singular_normalisation c (ms_F s) N D in_den m N1 D1 /\
    sing_reconstruct ord c s (l ++ [s']) = Ret (SComplete g) /\ qr_done g = true /\ is_polynomial (qr_gni g) N1 /\ is_polynomial (qr_gdi g) D1.
Proof.
  intros ord Ho c N D s l s' AN AD UN UD RF FS NB NC MAN MAD UUN UUD GS Hl.
  destruct (first_prime_singular ord Ho c N D s AN AD UN UD RF FS NC MAN MAD UUN UUD NB) as [in_den [m [N1 [D1 [r [HN [Hn [Ht [Hv [Er [Sg [Q1 [Q2 [FN [FD [HL [HZ [NCn [NCd [FX TS]]]]]]]]]]]]]]]]]]]].
  destruct (GS in_den m N1 D1 HN) as [OP [M' [G AW]]]. rewrite (sing_reconstruct_first ord c s (l ++ [s']) Ht Hv r Er Sg), srun_app. exists in_den, m, N1, D1.
  destruct (srun_ok ord Ho c Hn N1 D1 AN AD in_den m UN UD (sing_fixed r) FN FD HL HZ NCn NCd FX (pf_mod (ms_F s)) l M' G _ (first_terms (ms_F s) r) Q1 TS) as [[g [u' [E [I _]]]]|[g [E [X1 [X2 X3]]]]]; [rewrite Q2; lia| |].
  - rewrite E. cbn [obind]. destruct (slast_probe ord Ho c Hn N1 D1 in_den m (sing_fixed r) FN FD HZ M' s' g u' OP AW I) as [g' [E' [X1 [X2 X3]]]]. exists g'. auto.
  - rewrite E. cbn [obind]. exists g. auto.
Qed.
Print Assumptions C57_shifted_run_ends.

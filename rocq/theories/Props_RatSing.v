(** Property theorems C56: a further prime of a shifted system of RatReconst. *)
From Coq Require Import Permutation.
From Verif Require Import Machine FField FSum FPoly PolyFF PolySpec PolyFFProofs RatUni RatUniSpec Newton PolyRec PolyRecSpec PolyRecMath RatMulti RatMultiSpec RatMultiMath RatMultiSide RatMultiRun RatMultiQ RatMultiQCoef RatSing RatSingSub RatSingSide RatSingSpec RatSingStart RatSingRays RatSingMain.
Open Scope nat_scope.

Lemma still_remaining {K : fops} ks (P : list (list Z * K)) (a : K) :
  map (fun t => (fst t, fdiv (snd t) a)) (filter (fun t => negb (existsb (mon_eqb (fst t)) ks)) P) = remaining ks P a.
Proof.
  unfold remaining. f_equal. apply filter_ext. intros t. destruct (in_dec (list_eq_dec Z.eq_dec) (fst t) ks) as [I|I].
  - apply (proj2 (existsb_in (fst t) ks)) in I. rewrite I. reflexivity.
  - destruct (existsb (mon_eqb (fst t)) ks) eqn:E; [exfalso; apply I; apply existsb_in; exact E|reflexivity].
Qed.

(** Neither numerator nor denominator of N / D has a constant, so the variables are shifted by s, and the constant of the denominator (or of the numerator) of the shifted
    function is one.  K0 is the field of the prime before, K that of this prime.  From what is known when the prime begins, the object asks for probes on the rays
    1, 2, ...; from the values of N / D it computes every coefficient that is still missing, divided by that of the normalising monomial, for every order in which the
    maps are iterated: these residues are combined with those of the primes before (C47).  The subtraction terms that the next prime starts from are those of this prime. *)
Theorem C56_prime_of_a_shifted_system : forall (K0 K : fops), flaws K0 -> flaws K ->
  forall ord, (forall A (l : list A), Permutation (ord A l) l) ->
  forall (c : mcfg) (y s v : nat -> K) (N D Ns Ds : list (list Z * K)) (gN gD WN WD : list (list Z)) (nsN nsD : list (nat * list (list Z)))
    (subN subD : list (nat * polyff K0)) (zeroN zeroD UN UD : list nat) (R : nat) (ts : list K) (in_den : bool) (m : list Z) (a : K),
  let n := mc_n c in
  2 <= n -> (forall i, i < n - 1 -> y i <> f0) ->
  polynomial n (tdegree N) N -> polynomial n (tdegree D) D -> translated n s N Ns -> translated n s D Ds ->
  poly_value n (if mc_norm_den c then D else N) s = f1 ->
  distinct (S (Nat.max (tdegree N) (tdegree D))) v -> characteristic_above K (Nat.max (tdegree N) (tdegree D)) ->
  known_side n (tdegree N) (negb (mc_norm_den c)) N Ns y gN WN nsN subN zeroN ->
  known_side n (tdegree D) (mc_norm_den c) D Ds y gD WD nsD subD zeroD ->
  unknown_powers (tdegree N) (negb (mc_norm_den c)) N subN UN -> unknown_powers (tdegree D) (mc_norm_den c) D subD UD ->
  In (m, a) (if in_den then D else N) ->
  (forall d, length (hom d N) <= R /\ length (hom d D) <= R) -> (Z.of_nat R < 2 ^ 31)%Z -> R * (length UN + length UD) <= length ts ->
  let bb := ray_value n N D y s in
  (forall i j, 1 <= i <= R -> j < length ts -> poly_value n D (ray_point y s (repeat i (n - 1)) (nth j ts f0)) <> f0) ->
  (forall i j VN VD, 1 <= i <= R -> NoDup VN -> NoDup VD -> incl VN UN -> incl VD UD -> j + (length VN + length VD) <= length ts ->
     determined VN VD (fun k => nth (j + k) ts f0) (fun k => bb (repeat i (n - 1)) (nth (j + k) ts f0)) (length VN + length VD)) ->
  let (cn, stN) := sing_start ord c false (negb (mc_norm_den c)) gN nsN subN zeroN (tdegree N) in
  let (cd, stD) := sing_start ord c true (mc_norm_den c) gD nsD subD zeroD (tdegree D) in
  exists nu de subN' subD', sing_drive ord c y s cn cd (length UN + length UD) in_den m gN gD bb ts (mk_swork stN stD 1 ([], []) []) = Ret (SResult nu de subN' subD') /\
    Permutation nu (remaining gN N a) /\ Permutation de (remaining gD D a) /\
    shift_terms n (tdegree N) N Ns subN' /\ shift_terms n (tdegree D) D Ds subD'.
Proof.
  intros K0 K HK0 HK ord Ho c y s v N D Ns Ds gN gD WN WD nsN nsD subN subD zeroN zeroD UN UD R ts in_den m a n Hn Hy PN PD TN TD H1 Hv Hch KN KD HUN HUD Hm HR HR31 Hts bb Hp Hreg.
  set (rN := sing_start ord c false _ gN nsN subN zeroN _). set (rD := sing_start ord c true _ gD nsD subD zeroD _).
  assert (VN : distinct (S (tdegree N)) v) by (intros i j Li Lj E; apply Hv; [clear - Li; lia|clear - Lj; lia|exact E]).
  assert (VD : distinct (S (tdegree D)) v) by (intros i j Li Lj E; apply Hv; [clear - Li; lia|clear - Lj; lia|exact E]).
  assert (CN : characteristic_above K (tdegree N)) by (intros j Lj; apply Hch; clear - Lj; lia).
  assert (CD : characteristic_above K (tdegree D)) by (intros j Lj; apply Hch; clear - Lj; lia).
  assert (ON1 : negb (mc_norm_den c) = true -> poly_value n N s = f1) by (intros E; destruct (mc_norm_den c); [discriminate|exact H1]).
  assert (OD1 : mc_norm_den c = true -> poly_value n D s = f1) by (intros E; rewrite E in H1; exact H1).
  assert (RN : forall d, length (hom d N) <= R) by (intros d; apply HR). assert (RD : forall d, length (hom d D) <= R) by (intros d; apply HR).
  pose proof (one_side HK HK0 ord Ho c y s N Ns v Hn PN TN VN CN Hy (negb (mc_norm_den c)) false gN WN nsN subN zeroN KN ON1 R RN HR31) as ON.
  pose proof (one_side HK HK0 ord Ho c y s D Ds v Hn PD TD VD CD Hy (mc_norm_den c) true gD WD nsD subD zeroD KD OD1 R RD HR31) as OD.
  pose proof (one_powers HK0 ord Ho c y s N Ns v Hn PN VN CN (negb (mc_norm_den c)) false gN WN nsN subN zeroN KN ON1 R UN HUN) as PUN.
  pose proof (one_powers HK0 ord Ho c y s D Ds v Hn PD VD CD (mc_norm_den c) true gD WD nsD subD zeroD KD OD1 R UD HUD) as PUD.
  pose proof (lmax_R ord Ho c y s N Ns v Hn PN VN CN (negb (mc_norm_den c)) false gN WN nsN subN zeroN KN ON1 R RN) as LN.
  pose proof (lmax_R ord Ho c y s D Ds v Hn PD VD CD (mc_norm_den c) true gD WD nsD subD zeroD KD OD1 R RD) as LD.
  fold rN in ON, PUN, LN. fold rD in OD, PUD, LD. destruct rN as [cn stN]. destruct rD as [cd stD]. cbn [fst snd] in *.
  assert (LUN : length UN = length (ss_ns stN)) by (rewrite <- (map_length fst (ss_ns stN)); apply Permutation_length; exact PUN).
  assert (LUD : length UD = length (ss_ns stD)) by (rewrite <- (map_length fst (ss_ns stD)); apply Permutation_length; exact PUD).
  assert (Nd : forall P, P = N \/ P = D -> NoDup (map fst P) /\ forall e b, In (e, b) P -> b <> f0) by (intros P [->| ->]; [destruct PN as [_ [A B]]|destruct PD as [_ [A B]]]; (split; [exact A|intros e b I; apply (B e b I)])).
  assert (Dv : divisor N D in_den m = a) by (unfold divisor; destruct in_den; apply coef_in; try exact Hm; apply Nd; auto).
  rewrite LUN, LUD in *.
  edestruct (drive_ok HK ord c y s Hn cn cd (ss_ns stN) (ss_ns stD) stN stD _ _ _ _ _ _ _ _ N D Ns Ds _ _ ON OD) with (bb := bb) (ts := ts) (norm_den := in_den) (norm := m) (gni := gN) (gdi := gD) as [nu [de [un [ud [E [P1 [P2 [P3 P4]]]]]]]].
  - unfold cs. clear. destruct (mc_norm_den c); split; reflexivity.
  - intros x. destruct TN as [_ [_ T]]. apply T.
  - intros x. destruct TD as [_ [_ T]]. apply T.
  - reflexivity.
  - etransitivity; [apply Nat.mul_le_mono_r; apply Nat.max_lub; [exact LN|exact LD]|exact Hts].
  - intros i j Li Lj. apply Hp; [clear - Li LN LD; lia|exact Lj].
  - intros i j VN' VD' Li A B I1 I2 Lj. apply (Hreg i j VN' VD'); [clear - Li LN LD; lia|exact A|exact B| | |exact Lj].
    + intros d I. apply (Permutation_in _ (Permutation_sym PUN)). apply I1. exact I.
    + intros d I. apply (Permutation_in _ (Permutation_sym PUD)). apply I2. exact I.
  - left. intros ->. destruct in_den; [apply (kb_noconst _ _ _ _ _ _ _ _ _ _ _ KD)|apply (kb_noconst _ _ _ _ _ _ _ _ _ _ _ KN)]; apply in_map_iff; exists (zero_mon c, a); auto.
  - apply (Nd N). auto.
  - apply (Nd D). auto.
  - apply (Nd N). auto.
  - apply (Nd D). auto.
  - rewrite Dv. destruct in_den; [apply (proj2 (Nd D (or_intror eq_refl)) m a Hm)|apply (proj2 (Nd N (or_introl eq_refl)) m a Hm)].
  - exists nu, de, un, ud. split; [exact E|]. unfold still in P1, P2. rewrite Dv in P1, P2. rewrite still_remaining in P1, P2. auto.
Qed.
Print Assumptions C56_prime_of_a_shifted_system.

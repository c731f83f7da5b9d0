(** C45: a rational function of one variable is reconstructed over the rational numbers.
    Specification: RatUniSpec.v (N / D as lists of terms, probes, the conditions on primes and arguments).  Model: RatUni.v. *)
From Coq Require Import Znumtheory Permutation.
From Verif Require Import Machine NumTheory FFInt FField FSum LinAlg FPoly PolyFF Thiele ThieleSpec RatNum Modular Primes PField RatUni RatUniSpec RatUniProofs RatUniFirst RatUniNext RatUniRun RatUniMisled Props_Primes.
Open Scope Z_scope.

(** Over all functions, primes, probes and iteration orders of the hash maps: a finished reconstruction returns exactly N / D, and no prime
    leaves the object waiting for probes it was not promised *)
Theorem C45_result_is_the_function : forall ord, (forall A (l : list A), Permutation (ord A l) l) ->
  forall N D d0, rational_function N D d0 -> forall p l M, good_run N D d0 None l M -> (length l < 300)%nat -> ~ three_zeros l ->
  exists r, run ord (rr_start p) l = Ret r /\
    match r with
    | Running g => rr_done g = false
    | Starved _ => False
    | Complete g => is_result (rr_gni g) N /\ is_result (rr_gdi g) D
    end.
Proof.
  intros ord Hord N D d0 HR p l M HG HL H3.
  destruct (run_ok ord Hord N D d0 HR None l M HG (rr_start p)) as [[g [-> [_ [Hd _]]]]|[g [-> HC]]].
  - split; [apply start_ok|]. intros X. apply H3. apply lead_three. exact X.
  - cbn [rr_prime_number rr_start]. lia.
  - eexists. split; [reflexivity|]. exact Hd.
  - eexists. split; [reflexivity|]. exact HC.
Qed.
Print Assumptions C45_result_is_the_function.

(** Once the product of the primes used exceeds twice the squares of all numerators and denominators, one more probe with a value other
    than zero finishes the reconstruction *)
Theorem C45_finishes : forall ord, (forall A (l : list A), Permutation (ord A l) l) ->
  forall N D d0, rational_function N D d0 -> forall p l m F t v pr, good_run N D d0 None l (Some m) -> (length l < 300)%nat -> ~ three_zeros l ->
  (forall u, In u (N ++ D) -> 2 * (fst (snd u) * fst (snd u)) <= m /\ 2 * (snd (snd u) * snd (snd u)) <= m) ->
  probe_of N D (@fofZ (fld F) t) (fofZ v) -> @fofZ (fld F) v <> f0 ->
  exists g, run ord (rr_start p) (l ++ [(F, (t, v) :: pr)]) = Ret (Complete g) /\ is_result (rr_gni g) N /\ is_result (rr_gdi g) D.
Proof.
  intros ord Hord N D d0 HR p l m F t v pr HG HL H3 HS HP Hv. rewrite run_app.
  destruct (run_ok ord Hord N D d0 HR None l (Some m) HG (rr_start p)) as [[g [-> [_ [_ HI]]]]|[g [-> HC]]].
  - split; [apply start_ok|]. intros X. apply H3. apply lead_three. exact X.
  - cbn [rr_prime_number rr_start]. lia.
  - cbn [obind]. apply (last_probe ord Hord N D d0 HR m); assumption.
  - cbn [obind]. exists g. split; [reflexivity|exact HC].
Qed.
Print Assumptions C45_finishes.

(** The condition on coefficients in good_run: it holds for every coefficient n/d with |n| + d not above the prime *)
Theorem C45_small_coefficients_have_no_impostor : forall M p c, 1 < M -> lowest c -> Z.abs (fst c) + snd c <= p -> no_impostor M (M * p) c.
Proof. exact small_no_impostor. Qed.
Print Assumptions C45_small_coefficients_have_no_impostor.

(** The condition on the argument in good_run: a guess other than N / D takes the value of N / D at no more than degree N + degree D
    arguments of the prime field *)
Theorem C45_few_arguments_accept_a_wrong_guess : forall F N D d0 M, rational_function N D d0 -> 1 < M -> ~ (pf_mod F | M) ->
  (forall t, In t (N ++ D) -> ~ (pf_mod F | fst (snd t)) /\ ~ (pf_mod F | snd (snd t))) -> Z.of_nat (3 * (degree N + degree D) + 3) < pf_mod F ->
  coprime_polys (K := fld F) N D -> (forall t, In t (N ++ D) -> no_impostor M (M * pf_mod F) (snd t)) ->
  forall N' D', variant M N N' -> variant M D D' -> In (d0, (1, 1)) D' -> N' <> N \/ D' <> D ->
  forall l : list (fld F * fld F), NoDup (map fst l) ->
    (forall t v, In (t, v) l -> probe_of N D t v /\ fvalue N' t = fmul v (fvalue D' t)) -> (length l <= degree N + degree D)%nat.
Proof.
  intros F N D d0 M HR HM HpM Hnz Hp Hco Himp N' D' VN VD I0 Hne l ND HE. rewrite <- (map_length fst).
  apply (few_arguments F N D d0 M HR HM HpM Hnz Hp Hco Himp N' D' VN VD I0); [exact Hne|exact ND|].
  intros t Ht. apply in_map_iff in Ht as [[t' v] [E Hl]]. cbn [fst] in E. subst t'. destruct (HE t v Hl) as [[_ E] E'].
  rewrite E', <- E. apply mul_swap.
Qed.
Print Assumptions C45_few_arguments_accept_a_wrong_guess.

(** Values zero at the first argument of the first three primes: the result is zero, whatever follows (RatReconst.cpp:131-210) *)
Theorem C45_three_zeros_give_zero : forall ord p F0 F1 F2 t0 t1 t2 r0 r1 r2 r,
  exists g, run ord (rr_start p) ((F0, (t0, 0) :: r0) :: (F1, (t1, 0) :: r1) :: (F2, (t2, 0) :: r2) :: r) = Ret (Complete g) /\
    rr_gni g = [([0], mk_rn 0 1)] /\ rr_gdi g = [([0], mk_rn 1 1)].
Proof.
  intros ord p F0 F1 F2 t0 t1 t2 r0 r1 r2 r. assert (Z : forall F : pfield, feqb (@fofZ (fld F) 0) f0 = true).
  { intros F. apply (fl_eqb _ (HK F)). apply kv_inj. transitivity 0; [apply kv_fofZ_small; pose proof (p_gt1 F); lia|symmetry; apply kv_0]. }
  cbn [run feed_all]. unfold feed. cbn [rr_start rr_done rr_first_feed]. rewrite (Z F0). cbn [feed_zero obind rr_zero_counter rr_prime_number rr_start Z.add Z.eqb Pos.add Pos.eqb andb].
  cbn [run feed_all]. unfold feed. cbn [rr_done rr_first_feed]. rewrite (Z F1). unfold feed_zero. cbn [obind rr_zero_counter rr_prime_number Z.add Z.eqb Pos.add Pos.succ Pos.eqb andb].
  cbn [run feed_all]. unfold feed. cbn [rr_done rr_first_feed]. rewrite (Z F2). unfold feed_zero. cbn [obind rr_zero_counter rr_prime_number Z.add Z.eqb Pos.add Pos.succ Pos.eqb andb].
  eexists. split; [reflexivity|]. split; reflexivity.
Qed.
Print Assumptions C45_three_zeros_give_zero.

(** ---- the first primes of the table ---- *)
Definition table_prime (k : nat) (H : (k <? 300)%nat = true) : pfield.
Proof.
  refine (mk_pf (nth k primes 0) _ _); [apply C36_every_entry_is_prime|apply C36_every_entry_fits_63_bits]; apply nth_In; apply Nat.ltb_lt; exact H.
Defined.
Definition P0 := table_prime 0 eq_refl.
Definition P1 := table_prime 1 eq_refl.
Definition P2 := table_prime 2 eq_refl.
Definition in_order (A : Type) (l : list A) : list A := l.

Lemma krat_compute F a b : @krat (fld F) (a, b) = to_ff F (mk_rn a b).
Proof. rewrite to_ff_krat. reflexivity. Qed.
Ltac compute_probe := split;
  [intros X; apply (f_equal kv) in X; cbn [fvalue] in X; rewrite ?krat_compute in X; vm_compute in X; discriminate X
  |apply kv_inj; cbn [fvalue]; rewrite ?krat_compute; vm_compute; reflexivity].

(** A function with a coefficient that is congruent to one modulo the first two primes: the result is wrong *)
Theorem C45_coincidence_gives_a_wrong_result_refuted : let N := [(0%nat, (1 + pf_mod P0 * pf_mod P1, 1))] in let D := [(0%nat, (1, 1))] in
  let pr0 := [(17, 1); (18, 1)] in let pr1 := [(17, 1)] in
  rational_function N D 0 /\ probes_ok N D P0 pr0 /\ probes_ok N D P1 pr1 /\
  exists g, run in_order (rr_start (pf_mod P0)) [(P0, pr0); (P1, pr1)] = Ret (Complete g) /\ rr_gni g = [([0], mk_rn 1 1)] /\ ~ is_result (rr_gni g) N.
Proof.
  cbv zeta. split; [|split; [|split]].
  - split; [discriminate|]. split; [repeat constructor; intros []|]. split; [repeat constructor; intros []|]. split; [|split].
    + intros t [<-|[<-|[]]]; cbn [fst snd]; (split; [vm_compute; discriminate|]); (split; [split; [reflexivity|apply Z.gcd_1_r]|reflexivity]).
    + left. reflexivity.
    + intros t _. lia.
  - intros i Hi. cbn [length] in Hi. destruct i as [|[|i]]; [| |lia]; (split; [split; [discriminate|reflexivity]|]); (split; [split; [discriminate|reflexivity]|]); compute_probe.
  - intros i Hi. cbn [length] in Hi. destruct i as [|i]; [|lia]; (split; [split; [discriminate|reflexivity]|]); (split; [split; [discriminate|reflexivity]|]); compute_probe.
  - eexists. split; [vm_compute; reflexivity|]. split; [reflexivity|]. cbn [rr_gni]. intros X. unfold is_result in X. cbn [map fst snd] in X. apply Permutation_length_1 in X.
    apply (f_equal (fun e => num (snd e))) in X. vm_compute in X. discriminate X.
Qed.
Print Assumptions C45_coincidence_gives_a_wrong_result_refuted.

(** with no unknown coefficient left and a wrong one among the fixed ones every further probe is only collected *)
Lemma stuck ord F g pr : rr_done g = false -> rr_first_feed g = false -> rr_new_prime g = false -> rr_deg g <> None -> rr_eqn g = 0%nat ->
  forall w, exists w', feed_all ord F g w pr = Ret (More F g w').
Proof.
  intros H1 H2 H3 H4 H5. induction pr as [|[t v] pr IH]; intros w; [exists w; reflexivity|]. cbn [feed_all]. unfold feed. rewrite H1, H2. unfold interpolate. rewrite H3. cbn [obind].
  destruct (rr_deg g); [|congruence]. cbv zeta. rewrite H5. destruct (length (w_mat F (build_row ord F g w (fofZ t) (fofZ v)))) as [|k] eqn:E.
  - unfold build_row in E. cbn [w_mat] in E. rewrite app_length in E. cbn [length] in E. lia.
  - cbn [Nat.eqb obind]. apply IH.
Qed.

(** (1 + p0 p1) + 2^62 x: the constant is taken for one after the second prime (it is one modulo both) and never corrected, the other
    coefficient is recognised then; from the third prime on no equation is expected, and no number of further probes finishes the
    reconstruction *)
Definition late_N : list rterm := [(0%nat, (1 + pf_mod P0 * pf_mod P1, 1)); (1%nat, (2 ^ 62, 1))].
Definition late_D : list rterm := [(0%nat, (1, 1))].
Definition late_probes (F : pfield) (ts : list Z) : list (Z * Z) := map (fun t => (t, ((1 + pf_mod P0 * pf_mod P1) + 2 ^ 62 * t) mod pf_mod F)) ts.
Theorem C45_no_recovery_from_a_wrong_coefficient_refuted :
  rational_function late_N late_D 0 /\ probes_ok late_N late_D P0 (late_probes P0 [17; 18; 19]) /\ probes_ok late_N late_D P1 (late_probes P1 [17; 18]) /\ probes_ok late_N late_D P2 (late_probes P2 [17]) /\
  forall rest, exists g, run in_order (rr_start (pf_mod P0)) [(P0, late_probes P0 [17; 18; 19]); (P1, late_probes P1 [17; 18]); (P2, late_probes P2 [17] ++ rest)] = Ret (Starved g) /\ rr_done g = false.
Proof.
  split; [|split; [|split; [|split]]].
  - split; [discriminate|]. split; [repeat constructor; cbn; intuition discriminate|]. split; [repeat constructor; intros []|]. split; [|split].
    + intros t [<-|[<-|[<-|[]]]]; cbn [fst snd]; (split; [vm_compute; discriminate|]); (split; [split; [reflexivity|apply Z.gcd_1_r]|reflexivity]).
    + left. reflexivity.
    + intros t _. lia.
  - intros i Hi. cbn [late_probes map length] in Hi. destruct i as [|[|[|i]]]; [| | |lia]; (split; [split; [discriminate|reflexivity]|]); (split; [split; [vm_compute; discriminate|vm_compute; reflexivity]|]); unfold late_N, late_D; compute_probe.
  - intros i Hi. cbn [late_probes map length] in Hi. destruct i as [|[|i]]; [| |lia]; (split; [split; [discriminate|reflexivity]|]); (split; [split; [vm_compute; discriminate|vm_compute; reflexivity]|]); unfold late_N, late_D; compute_probe.
  - intros i Hi. cbn [late_probes map length] in Hi. destruct i as [|i]; [|lia]; (split; [split; [discriminate|reflexivity]|]); (split; [split; [vm_compute; discriminate|vm_compute; reflexivity]|]); unfold late_N, late_D; compute_probe.
  - intros rest.
    assert (E2 : exists g, run in_order (rr_start (pf_mod P0)) [(P0, late_probes P0 [17; 18; 19]); (P1, late_probes P1 [17; 18])] = Ret (Running g) /\
      exists g' w', feed_all in_order P2 g (work_start P2) (late_probes P2 [17]) = Ret (More P2 g' w') /\ rr_done g' = false /\ rr_first_feed g' = false /\ rr_new_prime g' = false /\ rr_deg g' <> None /\ rr_eqn g' = 0%nat).
    { assert (B : match run in_order (rr_start (pf_mod P0)) [(P0, late_probes P0 [17; 18; 19]); (P1, late_probes P1 [17; 18])] with
                  | Ret (Running g) => match feed_all in_order P2 g (work_start P2) (late_probes P2 [17]) with
                      | Ret (More _ g' _) => negb (rr_done g' || rr_first_feed g' || rr_new_prime g') && (match rr_deg g' with Some _ => true | None => false end) && Nat.eqb (rr_eqn g') 0
                      | _ => false end
                  | _ => false end = true) by (vm_compute; reflexivity).
      destruct (run in_order (rr_start (pf_mod P0)) [(P0, late_probes P0 [17; 18; 19]); (P1, late_probes P1 [17; 18])]) as [[g| |]| | | |]; try discriminate.
      destruct (feed_all in_order P2 g (work_start P2) (late_probes P2 [17])) as [[g' w'| |]| | | |] eqn:E'; try discriminate. exists g. split; [reflexivity|]. exists g', w'. split; [exact E'|].
      apply andb_prop in B as [B B3]. apply andb_prop in B as [B1 B2]. apply negb_true_iff in B1. apply orb_false_iff in B1 as [B1 B4]. apply orb_false_iff in B1 as [B1 B5]. apply Nat.eqb_eq in B3.
      destruct (rr_deg g'); [|discriminate]. repeat split; try assumption. discriminate. }
    destruct E2 as [g [E [g' [w' [E' [A1 [A2 [A3 [A4 A5]]]]]]]]].
    change [(P0, late_probes P0 [17; 18; 19]); (P1, late_probes P1 [17; 18]); (P2, late_probes P2 [17] ++ rest)] with ([(P0, late_probes P0 [17; 18; 19]); (P1, late_probes P1 [17; 18])] ++ [(P2, late_probes P2 [17] ++ rest)]).
    rewrite run_app, E. cbn [obind run]. 
    assert (FA : forall l1 l2 g w g1 w1, feed_all in_order P2 g w l1 = Ret (More P2 g1 w1) -> feed_all in_order P2 g w (l1 ++ l2) = feed_all in_order P2 g1 w1 l2).
    { clear. induction l1 as [|[t v] l1 IH]; intros l2 g w g1 w1 H; [injection H as -> ->; reflexivity|]. cbn [app feed_all] in *. destruct (feed in_order P2 g w (fofZ t) (fofZ v)) as [s| | | |]; try discriminate.
      cbn [obind] in *. destruct s; try discriminate. apply IH. exact H. }
    rewrite (FA _ rest _ _ _ _ E'). destruct (stuck in_order P2 g' rest A1 A2 A3 A4 A5 w') as [w2 ->]. cbn [obind]. exists g'. split; [reflexivity|exact A1].
Qed.
Print Assumptions C45_no_recovery_from_a_wrong_coefficient_refuted.

(** ---- a run that meets the hypotheses: 2^61/3 x; zero at the first argument of the first prime, then two primes ---- *)
Definition ex_N : list rterm := [(1%nat, (2 ^ 61, 3))].
Definition ex_D : list rterm := [(0%nat, (1, 1))].
Definition P3 := table_prime 3 eq_refl.
Definition ex_probes (F : pfield) (ts : list Z) : list (Z * Z) := map (fun t => (t, ff_mul (pf_mod F) (ff_div (pf_mod F) (2 ^ 61) 3) t)) ts.
Definition ex_run : list (pfield * list (Z * Z)) := [(P0, [(0, 0)]); (P1, ex_probes P1 [17; 18; 19]); (P2, ex_probes P2 [17])].

Ltac not_divides := let X := fresh in intros X; apply Z.mod_divide in X; [vm_compute in X; discriminate X|discriminate].
Ltac ne0 := let X := fresh in intros X; apply (f_equal kv) in X; vm_compute in X; discriminate X.
Lemma ex_function : rational_function ex_N ex_D 0.
Proof.
  split; [discriminate|]. split; [repeat constructor; intros []|]. split; [repeat constructor; intros []|]. split; [|split].
  - intros t [<-|[<-|[]]]; cbn [fst snd]; (split; [vm_compute; discriminate|]); (split; [split; [reflexivity|vm_compute; reflexivity]|reflexivity]).
  - left. reflexivity.
  - intros t _. lia.
Qed.
Section Facts.
  Variable F : pfield.
  Local Notation K := (fld F).
  Add Field KF : (fl_field K (HK F)).
  Lemma ex_coprime : coprime_polys (K := K) ex_N ex_D.
  Proof.
    exists (fun _ => f0), (fun _ => f1). split; [|split].
    - exists (fun _ => f0). intros x. symmetry. apply (ueval_0 (HK F)). reflexivity.
    - exists (fun i => match i with O => f1 | _ => f0 end). intros x. unfold ueval. cbn [degree ex_N map fst fold_right Nat.max fsum pw]. ring.
    - intros x. cbn [ex_N ex_D fvalue pw]. rewrite krat_1. ring.
  Qed.
  Lemma ex_determined pr SN SD : arg F pr 0 <> f0 -> NoDup SN -> NoDup SD -> incl SN (map fst ex_N) -> incl SD (map fst ex_D) -> ~ In 0%nat SD ->
    determined SN SD (arg F pr) (value F pr) (length SN + length SD).
  Proof.
    intros Ht N1 N2 I1 I2 H0. destruct SD as [|d SD].
    2: { exfalso. apply H0. left. specialize (I2 d (or_introl eq_refl)). destruct I2 as [<-|[]]. reflexivity. }
    destruct SN as [|e SN]; [intros a b _; split; intros e []|].
    assert (e = 1%nat) by (destruct (I1 e (or_introl eq_refl)) as [<-|[]]; reflexivity). subst e.
    assert (SN = []). { destruct SN as [|e SN]; [reflexivity|]. destruct (I1 e (or_intror (or_introl eq_refl))) as [<-|[]]. inversion N1 as [|? ? X _]. exfalso. apply X. left. reflexivity. } subst SN.
    intros a b H. specialize (H 0%nat ltac:(cbn; lia)). cbn [fold_right pw] in H. split; [|intros e []]. intros e [<-|[]].
    assert (E : fmul (a 1%nat) (arg F pr 0) = f0) by (transitivity (fadd (fmul (a 1%nat) (fmul (arg F pr 0) f1)) f0); [ring|rewrite H; ring]).
    apply (fmul_0 (HK F)) in E as [E|E]; [exact E|contradiction].
  Qed.
  Lemma ex_not_misled M pr : 1 < M -> ~ (pf_mod F | M) -> (forall t, In t (ex_N ++ ex_D) -> ~ (pf_mod F | fst (snd t)) /\ ~ (pf_mod F | snd (snd t))) -> 2 ^ 61 + 3 <= pf_mod F ->
    arg F pr 0 <> f0 -> probe_of ex_N ex_D (arg F pr 0) (value F pr 0) -> not_misled ex_N ex_D 0 M F pr.
  Proof.
    intros HM HpM Hnz Hp Ht [_ HP] N' D' VN VD I0 _ E. inversion VD as [|? b ? D1 _ VD1]; subst. inversion VD1; subst. destruct I0 as [->|[]].
    split; [|reflexivity]. apply (images_equal F ex_N ex_D M HM HpM Hnz); [cbn; lia| |intros t Ht'; apply in_or_app; left; exact Ht'|exact VN|].
    - intros t [<-|[<-|[]]]; apply small_no_impostor; try exact HM; try (split; [reflexivity|vm_compute; reflexivity]); cbn [fst snd]; lia.
    - inversion VN as [|? b ? N1 [Eb _] VN1]; subst. inversion VN1; subst. constructor; [|constructor]. split; [exact Eb|]. destruct b as [e c]. cbn [fst snd] in *. subst e.
      cbn [ex_D fvalue pw] in HP, E. cbn [ex_N fvalue pw] in HP. rewrite krat_1 in HP, E.
      apply (fmul_cancel (HK F) (arg F pr 0)); [exact Ht|]. transitivity (fadd (fmul (krat c) (fmul (arg F pr 0) f1)) f0); [ring|]. rewrite E, HP. ring.
  Qed.
End Facts.
Lemma ex_first : first_prime ex_N ex_D P1 (ex_probes P1 [17; 18; 19]).
Proof.
  split; [|split; [|split; [|split; [|split; [|split; [|split; [|split; [|split]]]]]]]].
  - intros t [<-|[<-|[]]]; cbn [fst snd]; split; not_divides.
  - reflexivity.
  - apply ex_coprime.
  - intros i Hi. cbn [ex_probes map length] in Hi. destruct i as [|[|[|i]]]; [| | |lia]; (split; [split; [discriminate|reflexivity]|]); (split; [split; [vm_compute; discriminate|vm_compute; reflexivity]|]); unfold ex_N, ex_D; compute_probe.
  - cbn. lia.
  - ne0.
  - intros i j Hi Hj X. cbn in Hi, Hj. apply (f_equal kv) in X. destruct i as [|[|[|i]]]; destruct j as [|[|[|j]]]; try lia; vm_compute in X; discriminate X.
  - intros i Hi. cbn in Hi. destruct i as [|[|[|i]]]; [| | |lia]; ne0.
  - intros i j Hij Hi. cbn in Hi. assert (i = 1%nat) by lia. assert (j = 0%nat) by lia. subst i j. ne0.
  - intros k Hk. cbn in Hk. assert (k = 1%nat) by lia. subst k. ne0.
Qed.
Lemma ex_later : later_prime ex_N ex_D 0 (pf_mod P1) P2 (ex_probes P2 [17]).
Proof.
  assert (Hnz : forall t, In t (ex_N ++ ex_D) -> ~ (pf_mod P2 | fst (snd t)) /\ ~ (pf_mod P2 | snd (snd t))) by (intros t [<-|[<-|[]]]; cbn [fst snd]; split; not_divides).
  assert (Hpr : probes_ok ex_N ex_D P2 (ex_probes P2 [17])).
  { intros i Hi. cbn [ex_probes map length] in Hi. destruct i as [|i]; [|lia]; (split; [split; [discriminate|reflexivity]|]); (split; [split; [vm_compute; discriminate|vm_compute; reflexivity]|]); unfold ex_N, ex_D; compute_probe. }
  assert (HM : ~ (pf_mod P2 | pf_mod P1)) by not_divides. assert (H1 : 1 < pf_mod P1) by reflexivity. assert (Ha : arg P2 (ex_probes P2 [17]) 0 <> f0) by ne0.
  split; [intros t Ht; apply Hnz; exact Ht|]. split; [exact HM|]. split; [exact Hpr|]. split; [discriminate|]. split; [cbn; lia|]. split; [ne0|]. split; [|split].
  - intros t [<-|[<-|[]]]; apply small_no_impostor; try exact H1; try (split; [reflexivity|vm_compute; reflexivity]); vm_compute; discriminate.
  - apply ex_not_misled; [exact H1|exact HM|exact Hnz|vm_compute; discriminate|exact Ha|apply Hpr; cbn; lia].
  - intros SN SD. apply ex_determined. exact Ha.
Qed.
Example C45_hypotheses_met : rational_function ex_N ex_D 0 /\ good_run ex_N ex_D 0 None ex_run (Some (pf_mod P1 * pf_mod P2)) /\ ~ three_zeros ex_run /\
  (forall u, In u (ex_N ++ ex_D) -> 2 * (fst (snd u) * fst (snd u)) <= pf_mod P1 * pf_mod P2 /\ 2 * (snd (snd u) * snd (snd u)) <= pf_mod P1 * pf_mod P2) /\
  exists g, run in_order (rr_start (pf_mod P0)) (ex_run ++ [(P3, ex_probes P3 [17])]) = Ret (Complete g) /\ rr_gni g = [([1], mk_rn (2 ^ 61) 3)].
Proof.
  split; [exact ex_function|]. split; [|split; [|split]].
  - apply gr_zero. apply gr_first; [exact ex_first|]. apply gr_later; [exact ex_later|]. apply gr_nil.
  - intros [F0 [F1 [F2 [t0 [t1 [t2 [r0 [r1 [r2 [r E]]]]]]]]]]. apply (f_equal (fun l => snd (nth 0 (snd (nth 1 l (P0, []))) (0, 0)))) in E. cbn [nth snd] in E. vm_compute in E. discriminate E.
  - intros u [<-|[<-|[]]]; cbn [fst snd]; split; vm_compute; discriminate.
  - assert (B : match run in_order (rr_start (pf_mod P0)) (ex_run ++ [(P3, ex_probes P3 [17])]) with Ret (Complete g) => rr_gni g | _ => [] end = [([1], mk_rn (2 ^ 61) 3)]) by (vm_compute; reflexivity).
    destruct (run in_order (rr_start (pf_mod P0)) (ex_run ++ [(P3, ex_probes P3 [17])])) as [[| |g]| | | |]; try discriminate. exists g. split; [reflexivity|exact B].
Qed.

(** Proofs for RatReconst in several variables over several primes, part 6: a further prime and the run over the further primes. *)
From Coq Require Import Znumtheory Permutation.
From Verif Require Import Machine NumTheory FFInt FField FSum LinAlg FPoly PolyFF PolySpec PolyFFProofs PolyFFProofs2 PolyFFProofs3 RatNum Modular PField RatUni RatUniSpec RatUniProofs RatUniFirst RatUniNext RatUniRun Newton PolyRec PolyRecSpec PolyRecMath PolyRatSpec RatMulti RatMultiSpec RatMultiMath RatMultiShift RatMultiRay RatMultiQ RatMultiQSpec RatMultiQCoef RatMultiQSide RatMultiQMaps RatMultiQCheck RatMultiQRays.
Open Scope nat_scope.

Section Div.
  Context {K : fops} (HK : flaws K).
  Add Field KDV : (fl_field K HK).
  Lemma div_mul (a b : K) : b <> f0 -> fmul (fdiv a b) b = a. Proof. intros H. field. exact H. Qed.
End Div.

Section Run.
  Variable ord : forall A : Type, list A -> list A.
  Hypothesis Ho : forall A (l : list A), Permutation (ord A l) l.
  Variable c : mcfg.
  Local Notation n := (mc_n c).
  Hypothesis Hn : 2 <= n.
  Variables (N D : list qterm) (in_den : bool) (m : list Z).
  Hypothesis FN : keys_fit c N.
  Hypothesis FD : keys_fit c D.
  Hypothesis Hlow : forall t, In t (N ++ D) -> lowest (snd t).
  Hypothesis alone_m : forall k, In k (map fst (if in_den then D else N)) -> total k = total m -> k = m.
  Hypothesis Hsize : (Z.of_nat (length N + length D) < 2 ^ 31)%Z.
  Local Notation qinv := (qinv N D in_den m).
  Definition found (g : qrr) : Prop := is_polynomial (qr_gni g) N /\ is_polynomial (qr_gdi g) D /\ qr_done g = true.
  Local Notation drive s g := (qdrive ord c (ms_F s) (ms_y s) (ms_bb s) (ms_ts s) g (work_start (ms_F s) g)).

  Definition fed (g : qrr) : qrr := mk_qrr (qr_prime_number g) (qr_new_prime g) false (qr_zero_counter g) (qr_done g) (qr_use_crt g) (qr_combined_prime g) (qr_cni g) (qr_cdi g)
                             (qr_gni g) (qr_gdi g) (qr_nsn g) (qr_nsd g) (qr_eqn g).
  Lemma feed_first F y g w t v M : qinv M g -> v <> f0 -> qfeed ord c F y g w t v = qinterpolate ord c F y (fed g) w t v.
  Proof.
    intros [_ [Hff [Hd _]]] Hv. unfold qfeed. rewrite Hd, Hff. destruct (feqb v f0) eqn:E; [|unfold fed; rewrite Hd; reflexivity]. apply (fl_eqb _ (HK F)) in E. contradiction.
  Qed.

  Lemma start_points s : 0 < length (ms_ts s) -> ms_ts s = pt s 0 :: skipn 1 (ms_ts s).
  Proof. intros H. unfold pt. destruct (ms_ts s); [cbn in H; lia|reflexivity]. Qed.

  Lemma later_ok M s g : later_session n N D in_den m M s -> qinv M g -> (qr_prime_number g + 1 < 300)%Z ->
    (exists g', drive s g = Ret (QNext (ms_F s) g') /\ qinv (M * pf_mod (ms_F s)) g' /\ qr_prime_number g' = (qr_prime_number g + 1)%Z) \/
    (exists g', drive s g = Ret (QDone (ms_F s) g') /\ found g').
  Proof.
    intros L I H300. destruct L as [Lfin Lpr Lval [Lpos Lenough] Lfirst Lpole Lanch Lapart Limp Lmis Lreg].
    rewrite (start_points s Lpos). set (F := ms_F s) in *. set (y := ms_y s) in *. set (bb := ms_bb s) in *. cbn [qdrive]. rewrite (feed_first F y g _ _ _ M I) by exact Lfirst.
    pose proof I as [Hnp [Hff [Hd [Hcp [Hzc [He [HM [T1 [T2 [S1 [S2 [SN [SD I0]]]]]]]]]]]]].
    set (t0 := pt s 0) in *. set (w := work_start F g). change (qw_order F w) with 1. set (v := bb (repeat 1 (n - 1)) t0). fold v in Lfirst.
    destruct (qcheck_ok ord Ho c F y no_shift N D in_den m FN FD M (fed g) T1 T2 S1 S2 HM Hcp SN SD I0 t0 v Lfirst w eq_refl) as [bl [g1 [w1 [Ec Hb]]]]; [exact Lmis|].
    unfold qinterpolate. change (qr_new_prime (fed g)) with (qr_new_prime g). change (fun _ : nat => @f0 (fld F)) with (@no_shift (fld F)). rewrite Hnp, Ec. cbn [obind].
    destruct bl; [right; exists g1; split; [reflexivity|]; unfold found; exact Hb|]. left.
    pose proof (Hb : (g1, w1) = quntested ord c F (fed g) w) as Hb'. clear Hb. injection Hb' as -> ->.
    assert (HR : 1 <= Nat.max (length N) (length D)).
    { destruct SN as [PN _]. destruct SD as [PD _]. apply Permutation_length in PN, PD. rewrite app_length in PN, PD. clear - I0 PN PD. destruct in_den; [destruct S1; [contradiction|]|destruct T1; [contradiction|]]; cbn [length] in *; lia. }
    assert (Hx : poly_value n (over F D) (ray_point y no_shift (repeat 1 (n - 1)) t0) <> f0) by (apply (Lpole 1 0); [unfold rays; clear - HR; lia|exact Lpos]).
    assert (Hv : poly_value n (over F N) (ray_point y no_shift (repeat 1 (n - 1)) t0) = fmul v (poly_value n (over F D) (ray_point y no_shift (repeat 1 (n - 1)) t0))).
    { unfold v, bb. rewrite Lval. symmetry. apply (div_mul (HK F)). exact Hx. }
    assert (Hopen : qr_nsn g <> [] \/ qr_nsd g <> []).
    { assert (X : T2 <> [] \/ S2 <> []).
      { destruct T2 as [|t2 l2]; [|left; discriminate]. destruct S2 as [|s2 l2]; [|right; discriminate]. exfalso.
        destruct (qcheck_complete ord Ho c F y no_shift N D FN FD M (fed g) T1 [] S1 [] HM Hcp SN SD t0 v Lfirst w eq_refl Hx Hv) as [g' [w' [X _]]]; [intros u []|]. rewrite Ec in X. discriminate. }
      destruct X as [X|X]; [left|right]; intros Y.
      - destruct SN as [_ [_ [_ [[_ [_ C]] _]]]]. rewrite Y in C. destruct T2 as [|t2 l2]; [contradiction|]. exact (C (fst t2) (or_introl eq_refl)).
      - destruct SD as [_ [_ [_ [[_ [_ C]] _]]]]. rewrite Y in C. destruct S2 as [|s2 l2]; [contradiction|]. exact (C (fst s2) (or_introl eq_refl)). }
    match goal with |- context [if qw_eqn F (qbuild_row ord c F y ?w1 t0 v) =? _ then _ else Ret (QMore F ?g1 _)] => set (wa := w1); set (ga := g1) end.
    assert (Start : forall T gm co ns A B, T = N \/ T = D -> qpart M T gm co ns A B ->
      sinv c F y (over F A) (over F B) ns (fun _ => 0) (set_solved F (side_start F ns) (qsolved_polys ord c F gm)) /\ small_degs F (set_solved F (side_start F ns) (qsolved_polys ord c F gm))).
    { intros T gm co ns A B ET Q. destruct (part_facts c F y N D FN FD M Lapart T gm co ns A B ET Q) as [Q1 [Q2 [Q3 _]]].
      assert (PE : Permutation (map (fun e : list Z * rn => (fst e, to_ff F (snd e))) gm) (over F A)) by (rewrite <- entry_over; apply Permutation_map; apply Q).
      split; [exact (start_ok ord Ho c Hn F y _ _ ns Q1 Q2 Q3 gm PE)|]. unfold small_degs. cbn [set_solved qs_solved]. apply (qsolved_ok ord Ho c Hn F _ _ Q1 Q2 gm PE). }
    assert (W : winv ord c F y N D bb (ms_ts s) ga T1 T2 S1 S2 0 0 0 wa).
    { destruct (Start N _ _ _ _ _ (or_introl eq_refl) SN) as [A1 A2]. destruct (Start D _ _ _ _ _ (or_intror eq_refl) SD) as [B1 B2].
      constructor; unfold wa; cbn [qw_num qw_den qw_order qw_eqn qw_rows qw_subs]; try assumption; try reflexivity.
      - clear. lia.
      - rewrite He. clear - Hopen. destruct (qr_nsn g), (qr_nsd g); cbn [length]; try lia. destruct Hopen as [X|X]; congruence. }
    assert (Step := row_step_ok ord Ho c Hn F y N D in_den m FN FD Hlow alone_m Hsize M bb (ms_ts s) HM Lfin Lpr Lval Lenough Lpole Lanch Lapart Limp Lreg ga T1 T2 S1 S2 Hcp SN SD I0 eq_refl Hzc H300 Hopen 0 0 0 wa W).
    assert (Later := drive_later ord Ho c Hn F y N D in_den m FN FD Hlow alone_m Hsize M bb (ms_ts s) HM Lfin Lpr Lval Lenough Lpole Lanch Lapart Limp Lreg ga T1 T2 S1 S2 Hcp SN SD I0 eq_refl Hzc H300 Hopen eq_refl eq_refl).
    change (ti F (ms_ts s) 0 0) with t0 in Step. change (vi c F bb (ms_ts s) 0 0 0) with v in Step. unfold row_step in Step.
    destruct Step as [[g' [E H]]|[j' [b' [k' [w2 [E [W2 Sk]]]]]]].
    - rewrite E. cbn [obind]. exists g'. split; [reflexivity|exact H].
    - rewrite E. cbn [obind]. change 1 with (S (0 + 0)). rewrite <- Sk. exact (Later _ j' b' k' w2 W2 eq_refl).
  Qed.

  (** a prime whose first value is zero is not used *)
  Lemma zero_ok M s g : ms_ts s <> [] -> first_val n s = f0 -> qinv M g -> (qr_prime_number g + 1 < 300)%Z ->
    exists g', drive s g = Ret (QNext (ms_F s) g') /\ qinv M g' /\ qr_prime_number g' = (qr_prime_number g + 1)%Z.
  Proof.
    intros Ht Hz I H300. pose proof I as [Hnp [Hff [Hd [Hcp [Hzc [He [HM X]]]]]]]. rewrite (start_points s) by (destruct (ms_ts s); [contradiction|cbn; lia]). cbn [qdrive].
    change (qw_order (ms_F s) (work_start (ms_F s) g)) with 1. change (ms_bb s (repeat 1 (n - 1)) (pt s 0)) with (first_val n s). rewrite Hz. unfold qfeed. rewrite Hd, Hff.
    replace (feqb (@f0 (fld (ms_F s))) f0) with true by (symmetry; apply (fl_eqb _ (HK (ms_F s))); reflexivity). unfold qfeed_zero.
    destruct (Z.eqb_spec (qr_zero_counter g + 1) (qr_prime_number g + 1)) as [Y|_]; [clear - Y Hzc; lia|]. destruct (Z.eqb_spec (qr_prime_number g + 1) 300) as [Y|_]; [clear - Y H300; lia|].
    replace ((qr_zero_counter g + 1 =? 3) && (qr_prime_number g + 1 =? 3))%Z with false by (symmetry; apply andb_false_iff; destruct (Z.eqb_spec (qr_zero_counter g + 1) 3); [right; apply Z.eqb_neq; clear - Hzc e; lia|left; reflexivity]).
    cbn [obind]. eexists. split; [reflexivity|]. split; [|reflexivity]. unfold RatMultiQRays.qinv. cbn [qr_prime_number qr_new_prime qr_first_feed qr_zero_counter qr_done qr_combined_prime qr_cni qr_cdi qr_gni qr_gdi qr_nsn qr_nsd qr_eqn].
    do 2 (split; [assumption || reflexivity|]). split; [exact Hd|]. split; [exact Hcp|]. split; [clear - Hzc; lia|]. split; [exact He|]. split; [exact HM|exact X].
  Qed.

  Lemma run_ok M l M' : good_sessions n N D in_den m M l M' -> forall g, qinv M g -> (qr_prime_number g + Z.of_nat (length l) < 300)%Z ->
    (exists g', qrun ord c g l = Ret (QRunning g') /\ qinv M' g' /\ qr_prime_number g' = (qr_prime_number g + Z.of_nat (length l))%Z) \/ (exists g', qrun ord c g l = Ret (QComplete g') /\ found g').
  Proof.
    induction 1 as [M|M s l M' H1 H2 _ IH|M s l M' H _ IH]; intros g I HP.
    - left. exists g. split; [reflexivity|]. split; [exact I|cbn; lia].
    - cbn [length] in HP. destruct (zero_ok M s g H1 H2 I) as [g' [E [I' P']]]; [clear - HP; lia|]. cbn [qrun]. rewrite E. cbn [obind]. destruct (IH g' I') as [[g2 [A [B C]]]|X]; [clear - HP P'; lia| |right; exact X].
      left. exists g2. split; [exact A|]. split; [exact B|]. cbn [length]. clear - C P'. lia.
    - cbn [length] in HP. cbn [qrun]. destruct (later_ok M s g H I) as [[g' [E [I' P']]]|[g' [E X]]]; [clear - HP; lia| |].
      + rewrite E. cbn [obind]. destruct (IH g' I') as [[g2 [A [B C]]]|X]; [clear - HP P'; lia| |right; exact X]. left. exists g2. split; [exact A|]. split; [exact B|]. cbn [length]. clear - C P'. lia.
      + rewrite E. cbn [obind]. right. exists g'. split; [reflexivity|exact X].
  Qed.
  Lemma run_app g l s : qrun ord c g (l ++ [s]) = do r <- qrun ord c g l; match r with QRunning g' => qrun ord c g' [s] | _ => Ret r end.
  Proof.
    revert g. induction l as [|s' l IH]; intros g; [reflexivity|]. cbn [app qrun]. destruct (qdrive ord c (ms_F s') (ms_y s') (ms_bb s') (ms_ts s') g (work_start (ms_F s') g)) as [f| | | |]; try reflexivity. cbn [obind]. destruct f; [reflexivity|apply IH|reflexivity].
  Qed.

  (** one more probe when every coefficient is within the bound *)
  Lemma last_probe M s g : one_probe n N D s -> all_within M (N ++ D) -> qinv M g -> exists g', qrun ord c g [s] = Ret (QComplete g') /\ found g'.
  Proof.
    intros [Hfin [Hval [Hts [Hx Hv]]]] HW I. pose proof I as [Hnp [Hff [Hd [Hcp [Hzc [He [HM [T1 [T2 [S1 [S2 [SN [SD I0]]]]]]]]]]]]]. cbn [qrun].
    rewrite (start_points s) by (destruct (ms_ts s); [contradiction|cbn; lia]). cbn [qdrive]. change (qw_order (ms_F s) (work_start (ms_F s) g)) with 1. change (ms_bb s (repeat 1 (n - 1)) (pt s 0)) with (first_val n s).
    rewrite (feed_first _ _ g _ _ _ M I Hv). unfold qinterpolate. change (qr_new_prime (fed g)) with (qr_new_prime g). change (fun _ : nat => @f0 (fld (ms_F s))) with (@no_shift (fld (ms_F s))). rewrite Hnp.
    destruct (qcheck_complete ord Ho c (ms_F s) (ms_y s) no_shift N D FN FD M (fed g) T1 T2 S1 S2 HM Hcp SN SD (pt s 0) (first_val n s) Hv (work_start (ms_F s) g) eq_refl Hx) as [g' [w' [E H]]].
    - unfold first_val. rewrite Hval. symmetry. apply (div_mul (HK (ms_F s))). exact Hx.
    - intros u Hu. apply HW. destruct SN as [P1 _]. destruct SD as [P2 _]. apply in_app_or in Hu as [Hu|Hu]; apply in_or_app; [left; apply (Permutation_in _ (Permutation_sym P1))|right; apply (Permutation_in _ (Permutation_sym P2))]; apply in_or_app; right; exact Hu.
    - rewrite E. cbn [obind]. exists g'. split; [reflexivity|exact H].
  Qed.
End Run.

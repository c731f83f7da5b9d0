(** Property theorems C31: random field elements. *)
From Coq Require Import Znumtheory.
From Verif Require Import Machine FFInt FFIntProofs Prng PrngProofs PrngProofs2.
Open Scope Z_scope.

Lemma ctor_mod p v : 1 < p -> 0 <= v -> ff_ctor p v = v mod p.
Proof. intros Hp Hv. apply ff_ctor_nonneg; lia. Qed.
Lemma pcg_out_nonneg x : u64 x -> 0 <= pcg_out x.
Proof.
  intros Hx. unfold pcg_out, rotr32. apply Z.lor_nonneg. split; [apply Z.shiftr_nonneg; apply wrap32_range|apply wrap32_range].
Qed.
Lemma rand32_some fuel p g v g' : get_rand_32 fuel p g = Some (v, g') -> 1 < p -> rng_ok g -> 0 < v < p /\ rng_ok g' /\ ws g' = ws g.
Proof.
  revert g. induction fuel as [|f IH]; intros g H Hp G; [discriminate|]. cbn [get_rand_32 pcg32] in H.
  assert (G' : rng_ok (mk_rng (pcg_next (pcg_st g)) (sm_st g) (x0 g) (x1 g) (x2 g) (x3 g))) by (destruct G; constructor; try assumption; apply u64_wrap).
  rewrite ctor_mod in H by (try apply pcg_out_nonneg; try apply (ok_p g G); lia). unfold ff_eqb in H. destruct (Z.eqb_spec (pcg_out (pcg_st g) mod p) 0) as [E|E].
  - apply (IH _ H Hp G').
  - injection H as <- <-. split; [pose proof (Z.mod_pos_bound (pcg_out (pcg_st g)) p); lia|]. split; [exact G'|reflexivity].
Qed.
Lemma rand64_some fuel p g v g' : get_rand_64 fuel p g = Some (v, g') -> 1 < p -> rng_ok g ->
  0 < v < p /\ rng_ok g' /\ exists n, g' = xo_iter n g.
Proof.
  revert g. induction fuel as [|f IH]; intros g H Hp G; [discriminate|]. cbn [get_rand_64 xoshiro256ss] in H.
  rewrite ctor_mod in H by (try apply u64_out; lia). unfold ff_eqb in H. destruct (Z.eqb_spec (xo_out g mod p) 0) as [E|E].
  - destruct (IH _ H Hp (xo_next_ok g G)) as [I1 [I2 [n I3]]]. split; [exact I1|]. split; [exact I2|]. exists (S n). rewrite I3. apply xo_iter_next.
  - injection H as <- <-. split; [pose proof (Z.mod_pos_bound (xo_out g) p); lia|]. split; [apply xo_next_ok; exact G|]. exists 1%nat. reflexivity.
Qed.
Lemma zero_ws g : xo_zero g <-> ws g = w0.
Proof. unfold xo_zero, ws, w0. split; [intros [-> [-> [-> ->]]]; reflexivity|intros H; injection H; auto]. Qed.
Lemma history_ok h g : rng_history h g -> rng_ok g /\ (existsb is_seed h = true -> ~ xo_zero g) /\ (existsb is_seed h = false -> xo_zero g).
Proof.
  intros H. induction H as [|h c g g' H [G [S0 S1]] St].
  - split; [constructor; cbn; unfold u64, two64; lia|]. split; [discriminate|]. intros _. repeat split; reflexivity.
  - rewrite existsb_app. cbn [existsb]. rewrite orb_false_r. destruct c as [seed| |p|p]; cbn [is_seed rng_step] in *.
    + destruct St as [_ ->]. split; [apply seeded_ok|]. split; [intros _; apply seeded_nonzero|rewrite orb_true_r; discriminate].
    + subst g'. rewrite orb_false_r. split; [destruct G; constructor; try assumption; cbn; unfold u64, two64; lia|]. split; assumption.
    + destruct St as [Hp [f [v St]]]. destruct (rand32_some _ _ _ _ _ St ltac:(lia) G) as [_ [G' W]]. rewrite orb_false_r, !zero_ws, W, <- !zero_ws.
      split; [exact G'|]. split; assumption.
    + destruct St as [Hp [f [v St]]]. destruct (rand64_some _ _ _ _ _ St ltac:(lia) G) as [_ [G' [n ->]]]. rewrite orb_false_r.
      split; [exact G'|]. split; [intros E; apply xo_iter_nonzero; auto|]. intros E. specialize (S1 E). clear - S1. induction n as [|n IH]; [exact S1|].
      rewrite xo_iter_S. apply zero_ws. rewrite ws_next, (proj1 (zero_ws _) IH). reflexivity.
Qed.

(** Whatever calls were made before, a returned random number is a non-zero field element. *)
Theorem C31_values_are_nonzero_field_elements : forall h g p fuel v g', rng_history h g -> 1 < p < 2 ^ 63 ->
  (get_rand_32 fuel p g = Some (v, g') -> 0 < v < p) /\ (get_rand_64 fuel p g = Some (v, g') -> 0 < v < p).
Proof.
  intros h g p fuel v g' H Hp. destruct (history_ok h g H) as [G _]. split; intros E; [apply (rand32_some _ _ _ _ _ E ltac:(lia) G)|apply (rand64_some _ _ _ _ _ E ltac:(lia) G)].
Qed.
Print Assumptions C31_values_are_nonzero_field_elements.

(** The 32-bit generator always returns, for every modulus. *)
Theorem C31_get_rand_32_returns : forall h g p, rng_history h g -> 1 < p < 2 ^ 63 -> exists fuel r, Z.of_nat fuel <= 2 ^ 64 /\ get_rand_32 fuel p g = Some r.
Proof.
  intros h g p H Hp. destruct (history_ok h g H) as [G _]. destruct (pcg_reach (pcg_st g) (2 ^ 27) (ok_p g G)) as [n [Hn E]]; [unfold u64; split; reflexivity || discriminate|].
  exists (S n). rewrite two64_pow in Hn. assert (B : Z.of_nat (S n) <= 2 ^ 64) by lia. clear H Hn. cut (exists r, get_rand_32 (S n) p g = Some r); [intros [r R]; exists r; auto|]. clear B.
  revert g G E. induction n as [|n IH]; intros g G E.
  - cbn [pcg_iter] in E. cbn [get_rand_32 pcg32]. rewrite E. change (pcg_out (2 ^ 27)) with 1. rewrite ctor_mod by lia. rewrite Z.mod_small by lia. eexists. reflexivity.
  - remember (S n) as m. cbn [get_rand_32 pcg32]. destruct (ff_eqb _ 0); [|eexists; reflexivity]. subst m. apply IH; [|exact E].
    destruct G; constructor; try assumption. apply u64_wrap.
Qed.
Print Assumptions C31_get_rand_32_returns.

(** After set_seed the 64-bit generator returns within 85 draws, for every 63-bit modulus above 2^64/3 (all of FireFly's primes are), in every later state. *)
Theorem C31_get_rand_64_returns_after_seeding : forall h g p, rng_history h g -> existsb is_seed h = true -> 2 ^ 64 < 3 * p -> p < 2 ^ 63 ->
  exists r, get_rand_64 85 p g = Some r.
Proof.
  intros h g p H Hs Hp Hp2. destruct (history_ok h g H) as [G [N _]]. specialize (N Hs). destruct (draws_85 p g Hp G N) as [n [Hn E]].
  change (2 ^ 64) with 18446744073709551616 in Hp. change (2 ^ 63) with 9223372036854775808 in Hp2. revert Hn E. generalize 85%nat. clear H Hs N. revert g G.
  induction n as [|n IH]; intros g G [|f] Hn E; try lia; cbn [get_rand_64 xoshiro256ss]; rewrite ctor_mod by (try apply u64_out; lia); unfold ff_eqb.
  - destruct (Z.eqb_spec (xo_out g mod p) 0) as [F|_]; [elim (E F)|]. eexists. reflexivity.
  - destruct (Z.eqb_spec (xo_out g mod p) 0) as [F|F]; [|eexists; reflexivity]. apply IH; [apply xo_next_ok; exact G|lia|]. rewrite xo_iter_next. exact E.
Qed.
Print Assumptions C31_get_rand_64_returns_after_seeding.

(** seeding makes both generators reproducible: the state no longer depends on the past *)
Theorem C31_seed_determines_the_state : forall seed g g', set_seed seed g = set_seed seed g'.
Proof. reflexivity. Qed.
Print Assumptions C31_seed_determines_the_state.
Theorem C31_different_seeds_differ : forall s s' g, 0 <= s < 2 ^ 64 -> 0 <= s' < 2 ^ 64 -> set_seed s g = set_seed s' g -> s = s'.
Proof.
  intros s s' g Hs Hs' H. apply (f_equal x0) in H. cbn in H. apply sm_out_inj in H; [|apply u64_wrap|apply u64_wrap]. unfold wrap64 in H.
  apply (f_equal (fun z => (z - increment) mod two64)) in H. rewrite !Zminus_mod_idemp_l in H. replace (s + increment - increment) with s in H by lia.
  replace (s' + increment - increment) with s' in H by lia. rewrite !Z.mod_small in H by (rewrite two64_pow; assumption). exact H.
Qed.
Print Assumptions C31_different_seeds_differ.

(** Without set_seed get_rand_64 never returns, whatever else was called before. *)
Theorem C31_unseeded_get_rand_64_refuted : forall h g p fuel, rng_history h g -> existsb is_seed h = false -> 1 < p < 2 ^ 63 -> get_rand_64 fuel p g = None.
Proof.
  intros h g p fuel H Hs Hp. destruct (history_ok h g H) as [_ [_ Z]]. specialize (Z Hs). clear H Hs. revert g Z. induction fuel as [|f IH]; intros g Z; [reflexivity|].
  cbn [get_rand_64 xoshiro256ss]. assert (E : xo_out g = 0) by (unfold xo_out; destruct Z as [_ [-> _]]; reflexivity). rewrite E, ctor_mod by lia. rewrite Z.mod_0_l by lia.
  apply IH. apply zero_ws. rewrite ws_next, (proj1 (zero_ws g) Z). reflexivity.
Qed.
Print Assumptions C31_unseeded_get_rand_64_refuted.

(** reset() does not restart the 64-bit generator: two programs that both call reset() get different numbers. *)
Theorem C31_reset_does_not_reset_refuted : exists h1 h2 g1 g2 p v1 v2, rng_history (h1 ++ [CallReset]) g1 /\ rng_history (h2 ++ [CallReset]) g2 /\
  existsb is_seed h1 = true /\ existsb is_seed h2 = true /\
  option_map fst (get_rand_64 1 p g1) = Some v1 /\ option_map fst (get_rand_64 1 p g2) = Some v2 /\ v1 <> v2.
Proof.
  assert (R : forall s, 0 <= s < two64 -> rng_history (([] ++ [CallSeed s]) ++ [CallReset]) (reset (set_seed s rng_start))).
  { intros s Hs. eapply rng_snoc; [eapply rng_snoc; [apply rng_nil|]|]; [split; [exact Hs|reflexivity]|reflexivity]. }
  exists [CallSeed 1], [CallSeed 2], (reset (set_seed 1 rng_start)), (reset (set_seed 2 rng_start)), 9223372036854775783. eexists _, _.
  split; [apply (R 1); unfold two64; lia|]. split; [apply (R 2); unfold two64; lia|]. split; [reflexivity|]. split; [reflexivity|].
  split; [vm_compute; reflexivity|]. split; [vm_compute; reflexivity|]. discriminate.
Qed.
Print Assumptions C31_reset_does_not_reset_refuted.

Example C31_hypotheses_met : rng_history ([CallSeed 7] ++ [CallRand64 9223372036854775783]) (xo_next (set_seed 7 rng_start)) /\
  2 ^ 64 < 3 * 9223372036854775783 /\ 9223372036854775783 < 2 ^ 63.
Proof.
  split; [|split; reflexivity]. change [CallSeed 7] with ([] ++ [CallSeed 7]).
  eapply rng_snoc; [eapply rng_snoc; [apply rng_nil|split; [unfold two64; lia|reflexivity]]|]. split; [unfold two63; lia|].
  exists 1%nat. eexists. vm_compute. reflexivity.
Qed.

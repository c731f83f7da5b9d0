(** Proofs about the pseudo random number generators *)
From Coq Require Import Znumtheory Zpow_facts.
From Verif Require Import Machine FFInt FFIntProofs Prng.
Open Scope Z_scope.

Definition u64 (x : Z) : Prop := 0 <= x < two64.

Lemma testbit_high x n k : 0 <= x < 2 ^ n -> 0 <= n <= k -> Z.testbit x k = false.
Proof.
  intros Hx Hk. destruct (Z.eq_dec x 0) as [->|N]; [apply Z.bits_0|]. apply Z.bits_above_log2; [lia|]. apply Z.log2_lt_pow2; [lia|].
  apply Z.lt_le_trans with (2 ^ n); [lia|]. apply Z.pow_le_mono_r; lia.
Qed.
Lemma lt_of_bits x n : 0 <= x -> 0 <= n -> (forall k, n <= k -> Z.testbit x k = false) -> x < 2 ^ n.
Proof.
  intros H0 Hn H. destruct (Z.eq_dec x 0) as [->|N]; [apply Z.pow_pos_nonneg; lia|]. apply Z.log2_lt_pow2; [lia|].
  destruct (Z.lt_ge_cases (Z.log2 x) n) as [|G]; [assumption|]. specialize (H _ G). rewrite Z.bit_log2 in H by lia. discriminate.
Qed.
Lemma u64_lxor x y : u64 x -> u64 y -> u64 (Z.lxor x y).
Proof.
  unfold u64. rewrite two64_pow. intros Hx Hy. assert (0 <= Z.lxor x y) by (apply Z.lxor_nonneg; lia). split; [assumption|].
  apply lt_of_bits; [assumption|lia|]. intros k Hk. rewrite Z.lxor_spec, (testbit_high x 64 k), (testbit_high y 64 k) by lia. reflexivity.
Qed.
Lemma u64_shiftr x k : u64 x -> 0 <= k -> u64 (Z.shiftr x k).
Proof.
  unfold u64. intros Hx Hk. rewrite Z.shiftr_div_pow2 by lia. assert (0 < 2 ^ k) by (apply Z.pow_pos_nonneg; lia).
  split; [apply Z.div_pos; lia|]. apply Z.le_lt_trans with x; [|lia]. apply Z.div_le_upper_bound; [lia|]. nia.
Qed.
Lemma u64_lor x y : u64 x -> u64 y -> u64 (Z.lor x y).
Proof.
  unfold u64. rewrite two64_pow. intros Hx Hy. assert (0 <= Z.lor x y) by (apply Z.lor_nonneg; lia). split; [assumption|].
  apply lt_of_bits; [assumption|lia|]. intros k Hk. rewrite Z.lor_spec, (testbit_high x 64 k), (testbit_high y 64 k) by lia. reflexivity.
Qed.
Lemma u64_wrap x : u64 (wrap64 x).
Proof. apply wrap64_range. Qed.
Lemma u64_rol x k : u64 x -> 0 <= k <= 64 -> u64 (rol64 x k).
Proof. intros Hx Hk. apply u64_lor; [apply u64_wrap|apply u64_shiftr; [exact Hx|lia]]. Qed.

Lemma odd_cancel m x : Z.odd m = true -> wrap64 (x * m) = 0 -> u64 x -> x = 0.
Proof.
  intros Hm H Hx. unfold wrap64 in H. apply Z.mod_divide in H; [|discriminate].
  assert (R : rel_prime two64 m).
  { rewrite two64_pow. apply rel_prime_sym. apply rel_prime_Zpower_r; [lia|]. apply rel_prime_sym. apply prime_rel_prime; [exact prime_2|].
    intros [q E]. subst m. rewrite Z.odd_mul in Hm. rewrite andb_false_r in Hm. discriminate. }
  destruct (Gauss two64 m x) as [q E]; [rewrite Z.mul_comm; exact H|exact R|]. unfold u64, two64 in *. lia.
Qed.
Lemma odd_cancel_eq m x y : Z.odd m = true -> wrap64 (x * m) = wrap64 (y * m) -> u64 x -> u64 y -> x = y.
Proof.
  intros Hm H Hx Hy. assert (E : wrap64 (wrap64 (x - y) * m) = 0).
  { unfold wrap64 in *. rewrite Z.mul_mod_idemp_l by discriminate. rewrite Z.mul_sub_distr_r. rewrite Zminus_mod, H, Z.sub_diag. reflexivity. }
  apply (odd_cancel m _ Hm) in E; [|apply u64_wrap]. unfold wrap64 in E. apply Z.mod_divide in E; [|discriminate]. destruct E as [q E]. unfold u64, two64 in *. lia.
Qed.
Lemma xorshift_inj k x y : 0 < k -> u64 x -> u64 y -> Z.lxor x (Z.shiftr x k) = Z.lxor y (Z.shiftr y k) -> x = y.
Proof.
  intros Hk Hx Hy H. apply Z.lxor_eq. set (d := Z.lxor x y).
  assert (E : d = Z.shiftr d k).
  { unfold d. rewrite Z.shiftr_lxor. apply Z.bits_inj'. intros n Hn. apply (f_equal (fun z => Z.testbit z n)) in H. rewrite !Z.lxor_spec in *.
    destruct (Z.testbit x n), (Z.testbit y n), (Z.testbit (Z.shiftr x k) n), (Z.testbit (Z.shiftr y k) n); cbn in *; congruence. }
  assert (D : u64 d) by (apply u64_lxor; assumption). rewrite Z.shiftr_div_pow2 in E by lia.
  assert (P : 2 <= 2 ^ k) by (change 2 with (2 ^ 1) at 1; apply Z.pow_le_mono_r; lia). destruct (Z.eq_dec d 0) as [|N]; [assumption|].
  pose proof (Z.div_lt d (2 ^ k)). unfold u64 in D. lia.
Qed.
Lemma sm_out_inj x y : u64 x -> u64 y -> sm_out x = sm_out y -> x = y.
Proof.
  intros Hx Hy H. unfold sm_out in H.
  apply xorshift_inj in H; [|lia|apply u64_wrap|apply u64_wrap].
  apply odd_cancel_eq in H; [|reflexivity|apply u64_lxor; [apply u64_wrap|apply u64_shiftr; [apply u64_wrap|lia]]|apply u64_lxor; [apply u64_wrap|apply u64_shiftr; [apply u64_wrap|lia]]].
  apply xorshift_inj in H; [|lia|apply u64_wrap|apply u64_wrap].
  apply odd_cancel_eq in H; [|reflexivity|apply u64_lxor; [exact Hx|apply u64_shiftr; [exact Hx|lia]]|apply u64_lxor; [exact Hy|apply u64_shiftr; [exact Hy|lia]]].
  apply xorshift_inj in H; [exact H|lia|exact Hx|exact Hy].
Qed.
Lemma u64_sm_out x : u64 (sm_out x).
Proof. unfold sm_out. apply u64_lxor; [apply u64_wrap|apply u64_shiftr; [apply u64_wrap|lia]]. Qed.

Record rng_ok (g : rng) : Prop := { ok_p : u64 (pcg_st g); ok_0 : u64 (x0 g); ok_1 : u64 (x1 g); ok_2 : u64 (x2 g); ok_3 : u64 (x3 g) }.
Definition xo_zero (g : rng) : Prop := x0 g = 0 /\ x1 g = 0 /\ x2 g = 0 /\ x3 g = 0.

Lemma seeded_nonzero seed g : ~ xo_zero (set_seed seed g).
Proof.
  intros [H0 [H1 _]]. cbn in H0, H1. rewrite <- H1 in H0. apply sm_out_inj in H0; [|apply u64_wrap|apply u64_wrap].
  set (a := wrap64 (seed + increment)) in *. unfold sm_next, wrap64 in H0. assert (Ha : u64 a) by apply u64_wrap.
  assert (E : (a + 0x9E3779B97f4A7C15) mod two64 = a mod two64) by (rewrite <- H0 at 1; symmetry; apply Z.mod_small; exact Ha).
  apply (f_equal (fun z => (z - a) mod two64)) in E. rewrite !Zminus_mod_idemp_l in E. rewrite Z.sub_diag in E. replace (a + 0x9E3779B97f4A7C15 - a) with 0x9E3779B97f4A7C15 in E by lia.
  vm_compute in E. discriminate.
Qed.
Lemma seeded_ok seed g : rng_ok (set_seed seed g).
Proof. constructor; cbn; try apply u64_sm_out. apply u64_wrap. Qed.

Lemma rol_zero x k : u64 x -> 0 <= k <= 64 -> rol64 x k = 0 -> x = 0.
Proof.
  intros Hx Hk H. unfold rol64 in H. apply Z.lor_eq_0_iff in H as [H1 H2]. rewrite Z.shiftr_div_pow2 in H2 by lia. rewrite Z.shiftl_mul_pow2 in H1 by lia.
  assert (P : 0 < 2 ^ (64 - k)) by (apply Z.pow_pos_nonneg; lia). assert (P2 : 0 < 2 ^ k) by (apply Z.pow_pos_nonneg; lia).
  assert (x < 2 ^ (64 - k)). { apply Z.div_small_iff in H2; [|lia]. unfold u64 in Hx. lia. }
  assert (x * 2 ^ k < two64). { rewrite two64_pow. replace 64 with ((64 - k) + k) at 1 by lia. rewrite Z.pow_add_r by lia. apply Z.mul_lt_mono_pos_r; lia. }
  rewrite wrap64_small in H1; [|unfold u64 in Hx; split; [apply Z.mul_nonneg_nonneg; lia|assumption]]. apply Z.mul_eq_0 in H1. lia.
Qed.
Lemma xo_out_zero g : rng_ok g -> xo_out g = 0 <-> x1 g = 0.
Proof.
  intros G. split.
  - intros H. unfold xo_out in H. apply odd_cancel in H; [|reflexivity|apply u64_rol; [apply u64_wrap|lia]].
    apply rol_zero in H; [|apply u64_wrap|lia]. apply odd_cancel in H; [exact H|reflexivity|apply (ok_1 g G)].
  - intros H. unfold xo_out. rewrite H. reflexivity.
Qed.
Lemma xo_next_ok g : rng_ok g -> rng_ok (xo_next g).
Proof.
  intros [P A B C D]. constructor; cbn [xo_next x0 x1 x2 x3 pcg_st]; auto using u64_lxor, u64_wrap.
  apply u64_rol; [apply u64_lxor; assumption|lia].
Qed.
Lemma xo_next_nonzero g : rng_ok g -> ~ xo_zero g -> ~ xo_zero (xo_next g).
Proof.
  intros [P A B C D] N [H0 [H1 [H2 H3]]]. apply N. cbn [xo_next x0 x1 x2 x3] in H0, H1, H2, H3.
  apply rol_zero in H3; [|apply u64_lxor; assumption|lia]. rewrite H3, Z.lxor_0_r in H0.
  apply Z.lxor_eq in H1. rewrite <- H1 in H2. apply Z.lxor_eq in H2.
  assert (Z1 : x1 g = 0).
  { rewrite Z.shiftl_mul_pow2 in H2 by lia. apply (odd_cancel (2 ^ 17 - 1)); [reflexivity| |exact B]. unfold wrap64 in *.
    replace (x1 g * (2 ^ 17 - 1)) with (x1 g * 2 ^ 17 - x1 g) by lia. rewrite Zminus_mod, <- H2. rewrite (Z.mod_small (x1 g)) by exact B. rewrite Z.sub_diag. reflexivity. }
  rewrite Z1 in *. rewrite H0 in *. rewrite Z.lxor_0_r in *. repeat split; congruence.
Qed.

(** four vanishing outputs in a row mean that the state vanishes *)
Lemma four_zeros g : rng_ok g -> x1 g = 0 -> x1 (xo_next g) = 0 -> x1 (xo_next (xo_next g)) = 0 -> x1 (xo_next (xo_next (xo_next g))) = 0 -> xo_zero g.
Proof.
  intros G Z0. pose proof G as [P A B C D]. cbn [xo_next x0 x1 x2 x3]. rewrite Z0. change (wrap64 (Z.shiftl 0 17)) with 0. rewrite !Z.lxor_0_r, !Z.lxor_0_l.
  intros Z1. apply Z.lxor_eq in Z1. rewrite Z1, !Z.lxor_nilpotent, !Z.lxor_0_l, ?Z.lxor_0_r. change (wrap64 (Z.shiftl 0 17)) with 0. rewrite ?Z.lxor_0_r, ?Z.lxor_0_l.
  intros Z2. rewrite Z2. change (wrap64 (Z.shiftl 0 17)) with 0. rewrite ?Z.lxor_0_r, ?Z.lxor_0_l. intros Z3.
  apply rol_zero in Z3; [|exact D|lia]. rewrite Z3, Z.lxor_0_r in Z2. repeat split; congruence.
Qed.

(** ** the linear congruential generator visits every state *)
Fixpoint lcg (n : nat) (x : Z) : Z := match n with O => x | S m => lcg m (x * multiplier + increment) end.
Lemma lcg_app m n x : lcg (m + n) x = lcg n (lcg m x).
Proof. revert x. induction m as [|m IH]; intros x; [reflexivity|]. cbn. apply IH. Qed.
Fixpoint pcg_iter (n : nat) (x : Z) : Z := match n with O => x | S m => pcg_iter m (pcg_next x) end.
Lemma pcg_iter_lcg n x : u64 x -> pcg_iter n x = wrap64 (lcg n x).
Proof.
  assert (M : forall n x y, x mod two64 = y mod two64 -> lcg n x mod two64 = lcg n y mod two64).
  { clear. induction n as [|n IH]; intros x y H; [exact H|]. cbn. apply IH. rewrite (Z.add_mod (x * _)), (Z.mul_mod x), H, <- Z.mul_mod, <- Z.add_mod by discriminate. reflexivity. }
  revert x. induction n as [|n IH]; intros x Hx; cbn; [symmetry; apply wrap64_small; exact Hx|]. rewrite IH by apply u64_wrap. unfold wrap64. apply M.
  unfold pcg_next, wrap64. apply Z.mod_mod. discriminate.
Qed.
(** after 2^k steps: multiplier 1 mod 2^(k+2), increment 2^k * odd *)
Lemma lcg_pow k : exists a c, (forall x, lcg (2 ^ k) x = (1 + 2 ^ (Z.of_nat k + 2) * a) * x + 2 ^ Z.of_nat k * (2 * c + 1)).
Proof.
  induction k as [|k [a [c IH]]].
  - exists ((multiplier - 1) / 4), ((increment - 1) / 2). intros x. cbn [Nat.pow lcg]. change (2 ^ (Z.of_nat 0 + 2)) with 4. change (2 ^ Z.of_nat 0) with 1.
    change (1 + 4 * ((multiplier - 1) / 4)) with multiplier. change (1 * (2 * ((increment - 1) / 2) + 1)) with increment. ring.
  - replace (2 ^ S k)%nat with (2 ^ k + 2 ^ k)%nat by (cbn; lia).
    set (u := 2 ^ Z.of_nat k) in *. assert (E2 : 2 ^ (Z.of_nat k + 2) = 4 * u) by (unfold u; rewrite Z.pow_add_r by lia; lia).
    assert (E1 : 2 ^ Z.of_nat (S k) = 2 * u) by (unfold u; rewrite Nat2Z.inj_succ, Z.pow_succ_r by lia; reflexivity).
    assert (E3 : 2 ^ (Z.of_nat (S k) + 2) = 8 * u) by (rewrite Z.pow_add_r by lia; rewrite E1; lia).
    exists (a + 2 * u * a * a), (c + u * a * (2 * c + 1)). intros x. rewrite lcg_app, !IH, E1, E2, E3. ring.
Qed.
(** every state is reached *)
Lemma lcg_reach k : forall x y, exists n, (n < 2 ^ k)%nat /\ (lcg n x) mod 2 ^ Z.of_nat k = y mod 2 ^ Z.of_nat k.
Proof.
  induction k as [|k IH]; intros x y.
  - exists 0%nat. split; [cbn; lia|]. change (2 ^ Z.of_nat 0) with 1. rewrite !Z.mod_1_r. reflexivity.
  - destruct (IH x y) as [n [Hn E]]. set (u := 2 ^ Z.of_nat k) in *. assert (U : 0 < u) by (apply Z.pow_pos_nonneg; lia).
    assert (E1 : 2 ^ Z.of_nat (S k) = 2 * u) by (unfold u; rewrite Nat2Z.inj_succ, Z.pow_succ_r by lia; reflexivity). rewrite E1.
    assert (D : exists q, lcg n x = y + u * q). { exists ((lcg n x) / u - y / u). pose proof (Z.div_mod (lcg n x) u ltac:(lia)). pose proof (Z.div_mod y u ltac:(lia)). lia. }
    destruct D as [q D]. assert (C : Z.even q = true \/ Z.odd q = true) by (rewrite <- Z.negb_even; destruct (Z.even q); auto). destruct C as [C|C].
    + exists n. split; [cbn; lia|]. apply Z.even_spec in C as [r ->]. rewrite D. replace (y + u * (2 * r)) with (y + r * (2 * u)) by ring. apply Z.mod_add. lia.
    + exists (n + 2 ^ k)%nat. split; [cbn; lia|]. apply Z.odd_spec in C as [r ->]. rewrite lcg_app. destruct (lcg_pow k) as [a [c P]]. rewrite P, D.
      fold u. assert (E2 : 2 ^ (Z.of_nat k + 2) = 4 * u) by (unfold u; rewrite Z.pow_add_r by lia; lia). rewrite E2.
      replace ((1 + 4 * u * a) * (y + u * (2 * r + 1)) + u * (2 * c + 1)) with (y + (r + c + 1 + 2 * a * (y + u * (2 * r + 1))) * (2 * u)) by ring. apply Z.mod_add. lia.
Qed.
Lemma pcg_reach x y : u64 x -> u64 y -> exists n, (Z.of_nat n < two64) /\ pcg_iter n x = y.
Proof.
  intros Hx Hy. destruct (lcg_reach 64 x y) as [n [Hn E]]. exists n. split.
  - apply Nat2Z.inj_lt in Hn. rewrite Nat2Z.inj_pow in Hn. exact Hn.
  - rewrite pcg_iter_lcg by exact Hx. unfold wrap64. rewrite two64_pow. change 64 with (Z.of_nat 64). rewrite E. change (2 ^ Z.of_nat 64) with two64. apply Z.mod_small. exact Hy.
Qed.

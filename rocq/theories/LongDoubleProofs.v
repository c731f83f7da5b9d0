(** Error bounds for the [long double] model and correctness of the quotient
    estimate in [mod_mul]. *)
From Verif Require Import Machine LongDouble.

Lemma rne_div_bound N D : 0 < D -> - D <= 2 * (rne_div N D * D - N) <= D.
Proof.
  intros HD. unfold rne_div; cbv zeta.
  pose proof (Z.div_mod N D ltac:(lia)) as E.
  pose proof (Z.mod_pos_bound N D HD) as B.
  destruct (2 * (N mod D) <? D) eqn:C1; [nia|].
  destruct (D <? 2 * (N mod D)) eqn:C2; [nia|].
  destruct (Z.even (N / D)); nia.
Qed.

Lemma pow2_pos x : 0 <= x -> 0 < 2 ^ x.
Proof. intros H; apply Z.pow_pos_nonneg; lia. Qed.

Definition E_pos (e : Z) : Z := 2 ^ Z.max 0 e.
Definition E_neg (e : Z) : Z := 2 ^ Z.max 0 (- e).

Lemma E_pos_pos e : 0 < E_pos e. Proof. apply pow2_pos; lia. Qed.
Lemma E_neg_pos e : 0 < E_neg e. Proof. apply pow2_pos; lia. Qed.

Lemma ld_exp_spec N D : 0 < N -> 0 < D ->
  2 ^ 63 * scale_den D (ld_exp N D) <= scale_num N (ld_exp N D)
  < 2 ^ 64 * scale_den D (ld_exp N D).
Proof.
  intros HN HD.
  pose proof (Z.log2_spec N HN) as [N1 N2].
  pose proof (Z.log2_spec D HD) as [D1 D2].
  pose proof (Z.log2_nonneg N) as LN. pose proof (Z.log2_nonneg D) as LD.
  set (n := Z.log2 N) in *. set (d := Z.log2 D) in *.
  rewrite Z.pow_succ_r in N2, D2 by lia.
  (* for e = n - d - 63 : quotient in (2^62, 2^64) *)
  assert (K : let e := n - d - 63 in
              2 ^ 62 * scale_den D e < scale_num N e /\ scale_num N e < 2 ^ 64 * scale_den D e).
  { cbv zeta. unfold scale_num, scale_den.
    set (e := n - d - 63).
    assert (En : 2 ^ n * 2 ^ Z.max 0 (- e) = 2 ^ 63 * (2 ^ d * 2 ^ Z.max 0 e)).
    { rewrite <- !Z.pow_add_r by lia. f_equal. lia. }
    pose proof (pow2_pos (Z.max 0 (-e)) ltac:(lia)). pose proof (pow2_pos (Z.max 0 e) ltac:(lia)).
    set (A := 2 ^ Z.max 0 (- e)) in *. set (B := 2 ^ Z.max 0 e) in *.
    split.
    - apply Z.lt_le_trans with (2 ^ n * A); [|nia]. rewrite En.
      change (2 ^ 63) with (2 ^ 62 * 2). nia.
    - apply Z.lt_le_trans with (2 * 2 ^ n * A); [nia|].
      replace (2 * 2 ^ n * A) with (2 * (2 ^ n * A)) by lia. rewrite En.
      change (2 ^ 64) with (2 ^ 63 * 2). nia. }
  cbv zeta in K. unfold ld_exp. fold n d. cbv zeta.
  destruct (scale_num N (n - d - 63) <? 2 ^ 63 * scale_den D (n - d - 63)) eqn:C.
  - set (e := n - d - 63) in *. unfold scale_num, scale_den in *.
    destruct (Z_le_gt_dec e 0) as [He|He].
    + replace (Z.max 0 (- (e - 1))) with (Z.max 0 (- e) + 1) by lia.
      replace (Z.max 0 (e - 1)) with (Z.max 0 e) by lia.
      rewrite Z.pow_add_r by lia. change (2 ^ 1) with 2.
      change (2 ^ 64) with (2 ^ 63 * 2) in *. change (2 ^ 63) with (2 ^ 62 * 2) in *.
      set (A := 2 ^ Z.max 0 (- e)) in *. set (B := 2 ^ Z.max 0 e) in *. lia.
    + replace (Z.max 0 (- (e - 1))) with (Z.max 0 (- e)) by lia.
      replace (Z.max 0 e) with (Z.max 0 (e - 1) + 1) in * by lia.
      rewrite Z.pow_add_r in * by lia. change (2 ^ 1) with 2 in *.
      change (2 ^ 64) with (2 ^ 63 * 2) in *. change (2 ^ 63) with (2 ^ 62 * 2) in *.
      set (A := 2 ^ Z.max 0 (- e)) in *. set (B := 2 ^ Z.max 0 (e - 1)) in *. lia.
  - lia.
Qed.

(** Rounding is specified up to scaling of the fraction. *)
Lemma ld_round_spec N D N' D' : 0 < N -> 0 < D -> 0 < D' -> N * D' = N' * D ->
  let '(m, e) := ld_round N D in
  2 ^ 63 * (D' * E_pos e) <= N' * E_neg e < 2 ^ 64 * (D' * E_pos e) /\
  - (D' * E_pos e) <= 2 * (m * (D' * E_pos e) - N' * E_neg e) <= D' * E_pos e.
Proof.
  intros HN HD HD' HE. unfold ld_round.
  destruct (N =? 0) eqn:Z0; [lia|].
  pose proof (ld_exp_spec N D HN HD) as S.
  set (e := ld_exp N D) in *.
  pose proof (rne_div_bound (scale_num N e) (scale_den D e)) as R.
  unfold scale_num, scale_den in *. fold (E_pos e) in *. fold (E_neg e) in *.
  pose proof (E_pos_pos e). pose proof (E_neg_pos e).
  set (A := E_pos e) in *. set (B := E_neg e) in *.
  specialize (R ltac:(nia)). set (m := rne_div (N * B) (D * A)) in *.
  assert (Q : N' * B * D = N * B * D') by nia.
  assert (X : 0 < D) by lia.
  split; [split|split].
  - apply (Z.mul_le_mono_pos_r _ _ D X). rewrite Q.
    replace (2 ^ 63 * (D' * A) * D) with (2 ^ 63 * (D * A) * D') by ring. nia.
  - apply (Z.mul_lt_mono_pos_r D _ _ X). rewrite Q.
    replace (2 ^ 64 * (D' * A) * D) with (2 ^ 64 * (D * A) * D') by ring. nia.
  - apply (Z.mul_le_mono_pos_r _ _ D X).
    replace (2 * (m * (D' * A) - N' * B) * D) with (2 * (m * (D * A) * D' - N' * B * D)) by ring.
    rewrite Q. replace (- (D' * A) * D) with (- (D * A) * D') by ring. nia.
  - apply (Z.mul_le_mono_pos_r _ _ D X).
    replace (2 * (m * (D' * A) - N' * B) * D) with (2 * (m * (D * A) * D' - N' * B * D)) by ring.
    rewrite Q. replace ((D' * A) * D) with ((D * A) * D') by ring. nia.
Qed.

Lemma E_cases e : (e <= 0 /\ E_pos e = 1 /\ E_neg e = 2 ^ (- e)) \/
                  (0 < e /\ E_neg e = 1 /\ E_pos e = 2 ^ e).
Proof.
  unfold E_pos, E_neg. destruct (Z_le_gt_dec e 0) as [H|H].
  - left. rewrite (Z.max_l 0 e) by lia. rewrite (Z.max_r 0 (- e)) by lia. auto.
  - right. rewrite (Z.max_r 0 e) by lia. rewrite (Z.max_l 0 (- e)) by lia. split; [lia|auto].
Qed.

(** uint64 values are represented exactly. *)
Lemma ld_of_u64_exact n : 0 < n < two64 ->
  exists e, 0 <= e /\ ld_of_u64 n = (n * 2 ^ e, - e).
Proof.
  intros [H1 H2]. unfold ld_of_u64.
  pose proof (ld_round_spec n 1 n 1 ltac:(lia) ltac:(lia) ltac:(lia) ltac:(lia)) as S.
  destruct (ld_round n 1) as [m e] eqn:E.
  destruct S as [[S1 S2] [S3 S4]].
  destruct (E_cases e) as [[C1 [C2 C3]]|[C1 [C2 C3]]]; rewrite C2, C3 in *.
  - exists (- e). split; [lia|]. rewrite Z.opp_involutive.
    clear E. set (A := 2 ^ (- e)) in *. clearbody A. f_equal. lia.
  - exfalso. assert (2 <= 2 ^ e).
    { change 2 with (2 ^ 1) at 1. apply Z.pow_le_mono_r; lia. }
    unfold two64 in H2. change (2 ^ 63) with 9223372036854775808 in S1. nia.
Qed.

(** Product of two representable integers: the exact product or, when it needs
    more than 64 bits, an integer within half a unit [U] in the last place. *)
Lemma ld_mul_spec a b : 0 < a < two63 -> 0 < b < two63 ->
  exists P i pm pe, ld_mul (ld_of_u64 a) (ld_of_u64 b) = (pm, pe) /\ 0 <= i /\
    pm * E_pos pe = P * E_neg pe /\ 0 < P /\
    ((P = a * b) \/
     (2 ^ 63 * 2 ^ i <= a * b /\ 2 ^ 63 * 2 ^ i <= P /\
      - 2 ^ i <= 2 * (P - a * b) <= 2 ^ i)).
Proof.
  intros Ha Hb. unfold two63 in *.
  destruct (ld_of_u64_exact a) as [ea [Ea1 Ea2]]; [unfold two64; lia|].
  destruct (ld_of_u64_exact b) as [eb [Eb1 Eb2]]; [unfold two64; lia|].
  rewrite Ea2, Eb2. unfold ld_mul; cbn [fst snd].
  assert (X1 : Z.max 0 (- ea + - eb) = 0) by lia.
  assert (X2 : Z.max 0 (- (- ea + - eb)) = ea + eb) by lia.
  rewrite X1, X2. change (2 ^ 0) with 1. rewrite Z.mul_1_r.
  pose proof (pow2_pos ea Ea1). pose proof (pow2_pos eb Eb1).
  assert (AB : 0 < a * b) by nia.
  assert (NP : 0 < a * 2 ^ ea * (b * 2 ^ eb)) by (apply Z.mul_pos_pos; nia).
  pose proof (ld_round_spec (a * 2 ^ ea * (b * 2 ^ eb)) (2 ^ (ea + eb)) (a * b) 1
                NP ltac:(apply pow2_pos; lia) ltac:(lia)) as S.
  rewrite Z.pow_add_r in S by lia.
  specialize (S ltac:(ring)).
  rewrite Z.pow_add_r by lia.
  destruct (ld_round (a * 2 ^ ea * (b * 2 ^ eb)) (2 ^ ea * 2 ^ eb)) as [pm pe].
  destruct S as [[S1 S2] [S3 S4]].
  destruct (E_cases pe) as [[C1 [C2 C3]]|[C1 [C2 C3]]].
  - exists (a * b), 0, pm, pe. rewrite C2, C3 in *.
    set (F := 2 ^ (- pe)) in *.
    split; [reflexivity|]. split; [lia|]. split; [lia|]. split; [lia|]. left; reflexivity.
  - exists (pm * 2 ^ pe), pe, pm, pe. rewrite C2, C3 in *.
    pose proof (pow2_pos pe ltac:(lia)) as HP. set (U := 2 ^ pe) in *.
    rewrite Z.mul_1_l, !Z.mul_1_r in *.
    change (2 ^ 63) with 9223372036854775808 in *. change (2 ^ 64) with 18446744073709551616 in *.
    assert (Q : 9223372036854775808 <= pm).
    { assert (2 * pm * U >= 2 * 9223372036854775808 * U - U) by lia.
      destruct (Z_le_gt_dec 9223372036854775808 pm); [lia|].
      assert (pm <= 9223372036854775807) by lia. exfalso. nia. }
    split; [reflexivity|]. split; [lia|]. split; [lia|]. split; [nia|].
    right. split; [lia|]. split; [nia|]. lia.
Qed.

(** The truncated quotient computed by mod_mul. *)
Definition quot_est (a b m : Z) : Z :=
  ld_trunc (ld_div (ld_mul (ld_of_u64 a) (ld_of_u64 b)) (ld_of_u64 m)).

Lemma ld_round_zero D : ld_round 0 D = (0, 0).
Proof. reflexivity. Qed.

Lemma quot_est_zero a b m : a * b = 0 -> quot_est a b m = 0.
Proof.
  intros H. unfold quot_est.
  assert (Z0 : ld_mul (ld_of_u64 a) (ld_of_u64 b) = (0, 0)).
  { assert (H' : a = 0 \/ b = 0) by nia. destruct H' as [-> | ->].
    - change (ld_of_u64 0) with (0, 0). unfold ld_mul. cbn [fst snd].
      rewrite Z.mul_0_l. reflexivity.
    - change (ld_of_u64 0) with (0, 0). unfold ld_mul. cbn [fst snd].
      rewrite Z.mul_0_r. reflexivity. }
  rewrite Z0. unfold ld_div. cbn [fst snd]. rewrite Z.mul_0_l, ld_round_zero.
  reflexivity.
Qed.

Lemma quot_est_spec a b m : 0 < m < two63 -> 0 <= a < m -> 0 <= b < m ->
  let k := a * b / m in let s := (a * b) mod m in let c := quot_est a b m in
  c = k \/ c = k + 1 \/ (c = k - 1 /\ s + m < two63).
Proof.
  intros Hm Ha Hb. cbv zeta.
  destruct (Z.eq_dec (a * b) 0) as [Z0|NZ].
  { rewrite (quot_est_zero a b m Z0), Z0. rewrite Z.div_0_l by lia. left; reflexivity. }
  assert (Ha' : 0 < a < two63) by nia. assert (Hb' : 0 < b < two63) by nia.
  unfold quot_est.
  destruct (ld_mul_spec a b Ha' Hb') as (P & i & pm & pe & EM & Hi & EP & HP & HC).
  rewrite EM.
  destruct (ld_of_u64_exact m) as [em [Em1 Em2]]; [unfold two63, two64 in *; lia|].
  rewrite Em2. unfold ld_div; cbn [fst snd].
  pose proof (E_pos_pos pe) as PP. pose proof (E_neg_pos pe) as PN.
  pose proof (pow2_pos em Em1) as PM.
  set (e := pe - - em) in *.
  assert (pm0 : 0 < pm) by nia.
  pose proof (ld_round_spec (pm * 2 ^ Z.max 0 e) (m * 2 ^ em * 2 ^ Z.max 0 (- e)) P m) as S.
  assert (B1 : 0 < 2 ^ Z.max 0 e) by (apply pow2_pos; lia).
  assert (B2 : 0 < 2 ^ Z.max 0 (- e)) by (apply pow2_pos; lia).
  assert (XE : E_neg pe * 2 ^ Z.max 0 e = E_pos pe * 2 ^ em * 2 ^ Z.max 0 (- e)).
  { unfold E_neg, E_pos. rewrite <- !Z.pow_add_r by lia. f_equal. unfold e. lia. }
  assert (XX : pm * 2 ^ Z.max 0 e = P * (2 ^ em * 2 ^ Z.max 0 (- e))).
  { apply (Z.mul_reg_r _ _ (E_pos pe * E_neg pe)); [nia|].
    replace (pm * 2 ^ Z.max 0 e * (E_pos pe * E_neg pe)) with
      ((pm * E_pos pe) * (E_neg pe * 2 ^ Z.max 0 e)) by ring.
    rewrite EP, XE. ring. }
  assert (Y1 : 0 < pm * 2 ^ Z.max 0 e) by nia.
  assert (Y2 : 0 < m * 2 ^ em * 2 ^ Z.max 0 (- e)).
  { apply Z.mul_pos_pos; [apply Z.mul_pos_pos; lia|lia]. }
  specialize (S Y1 Y2 ltac:(lia)).
  rewrite XX in S at 1. specialize (S ltac:(ring)).
  destruct (ld_round (pm * 2 ^ Z.max 0 e) (m * 2 ^ em * 2 ^ Z.max 0 (- e))) as [Q0 e2].
  destruct S as [[S1 S2] [S3 S4]].
  (* clean up *)
  clear XX XE Y1 Y2 B1 B2 Em2 PM EM EP PP PN pm0 e em Em1 pm pe.
  unfold two63 in *. change (2 ^ 63) with 9223372036854775808 in *.
  change (2 ^ 64) with 18446744073709551616 in *.
  pose proof (Z.div_mod (a * b) m ltac:(lia)) as DM.
  pose proof (Z.mod_pos_bound (a * b) m ltac:(lia)) as SB.
  set (k := a * b / m) in *. set (s := (a * b) mod m) in *.
  assert (AB : a * b <= (m - 1) * (m - 1)) by nia.
  set (ab := a * b) in *.
  assert (AB2 : (m - 1) * (m - 1) <= 9223372036854775808 * (m - 1)) by nia.
  assert (PB : 2 * P <= 2 * ab + m /\ 2 * P >= 2 * ab - m).
  { destruct HC as [-> | (HC1 & HC2 & HC3)]; [lia|]. lia. }
  destruct PB as (PB1 & PB2).
  assert (PB3 : P < m * m) by lia.
  unfold ld_trunc; cbn [fst snd]. fold (E_pos e2) (E_neg e2).
  assert (MM : m * m <= 9223372036854775807 * m) by (apply Z.mul_le_mono_nonneg_r; lia).
  destruct (E_cases e2) as [[C1 [C2 C3]]|[C1 [C2 C3]]].
  2:{ exfalso. rewrite C2 in S1.
      assert (1 <= E_pos e2) by (pose proof (E_pos_pos e2); lia).
      assert (m * 1 <= m * E_pos e2) by (apply Z.mul_le_mono_nonneg_l; lia). lia. }
  rewrite C2, C3 in *. rewrite !Z.mul_1_r in *.
  assert (HF : 2 <= 2 ^ (- e2)).
  { destruct (Z.eq_dec e2 0) as [->|Hne].
    - exfalso. change (2 ^ (- 0)) with 1 in *. lia.
    - change 2 with (2 ^ 1) at 1. apply Z.pow_le_mono_r; lia. }
  assert (Efpow : exists f, 0 <= f /\ 2 ^ (- e2) = 2 ^ f) by (exists (- e2); split; [lia|reflexivity]).
  set (F := 2 ^ (- e2)) in *. clearbody F k s. clear C1 C2 C3.
  assert (T3 : ab * F = k * m * F + s * F) by (rewrite DM; ring).
  assert (T4 : 0 <= s * F) by (apply Z.mul_nonneg_nonneg; lia).
  assert (T4' : s * F <= (m - 1) * F) by (apply Z.mul_le_mono_nonneg_r; lia).
  assert (T5 : m * 2 <= m * F) by (apply Z.mul_le_mono_nonneg_l; lia).
  assert (T6 : (2 * P) * F <= (2 * ab + m) * F) by (apply Z.mul_le_mono_nonneg_r; lia).
  assert (T7 : (2 * ab - m) * F <= (2 * P) * F) by (apply Z.mul_le_mono_nonneg_r; lia).
  assert (L : k - 1 <= Q0 / F).
  { apply Z.div_le_lower_bound; [lia|].
    apply Z.mul_le_mono_pos_r with m; [lia|].
    replace (F * (k - 1) * m) with (k * m * F - m * F) by ring. lia. }
  assert (H : Q0 / F < k + 2).
  { apply Z.div_lt_upper_bound; [lia|].
    apply Z.mul_lt_mono_pos_r with m; [lia|].
    replace (F * (k + 2) * m) with (k * m * F + 2 * (m * F)) by ring. lia. }
  assert (CC : Q0 / F = k \/ Q0 / F = k + 1 \/ Q0 / F = k - 1) by lia.
  destruct CC as [G|[G|G]]; [left; lia | right; left; lia | right; right].
  split; [exact G|].
  assert (Q1 : Q0 <= k * F - 1).
  { assert (Q0 < F * k); [|lia].
    destruct (Z_lt_le_dec Q0 (F * k)) as [J|J]; [exact J|].
    exfalso. assert (k <= Q0 / F) by (apply Z.div_le_lower_bound; lia). lia. }
  assert (Q2 : Q0 * m <= (k * F - 1) * m) by (apply Z.mul_le_mono_nonneg_r; lia).
  replace ((k * F - 1) * m) with (k * m * F - m) in Q2 by ring.
  destruct HC as [HC | (HC1 & HC2 & HC3)].
  { exfalso. subst P. lia. }
  assert (UF : 2 ^ i * F <= 9223372036854775808).
  { destruct Efpow as [f [Hf Ef]]. rewrite Ef in *.
    assert (LT : 2 ^ i * 2 ^ f < 18446744073709551616).
    { assert (X : 9223372036854775808 * 2 ^ i * 2 ^ f <= P * 2 ^ f).
      { apply Z.mul_le_mono_nonneg_r; [|lia]. apply Z.pow_nonneg; lia. }
      rewrite <- Z.mul_assoc in X. lia. }
    rewrite <- Z.pow_add_r in * by lia.
    change 18446744073709551616 with (2 ^ 64) in LT.
    apply Z.pow_lt_mono_r_iff in LT; [|lia|lia].
    change 9223372036854775808 with (2 ^ 63). apply Z.pow_le_mono_r; lia. }
  assert (X : (2 * ab - 2 ^ i) * F <= (2 * P) * F) by (apply Z.mul_le_mono_nonneg_r; lia).
  assert (Y : s * 2 <= s * F) by (apply Z.mul_le_mono_nonneg_l; lia).
  replace ((2 * ab - 2 ^ i) * F) with (2 * (ab * F) - 2 ^ i * F) in X by ring.
  lia.
Qed.

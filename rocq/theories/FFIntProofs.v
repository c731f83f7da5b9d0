(** Correctness of the FFInt model. *)
From Coq Require Import String Ascii Znumtheory Zpow_facts.
From Verif Require Import Machine LongDouble LongDoubleProofs FFInt NumTheory Spec.

(** ** mod_mul *)

Lemma rem_small_pos r m : 0 <= r < m -> Z.rem r m = r.
Proof. intros H. apply Z.rem_small; exact H. Qed.

Lemma mod_mul_correct a0 b0 m : 0 < m < two63 -> 0 <= a0 < two64 -> 0 <= b0 < two64 ->
  mod_mul a0 b0 m = (a0 * b0) mod m.
Proof.
  intros Hm Ha0 Hb0. unfold mod_mul; cbv zeta.
  assert (EA : (if m <=? a0 then a0 mod m else a0) = a0 mod m).
  { destruct (m <=? a0) eqn:C; [reflexivity|]. rewrite Z.mod_small; lia. }
  assert (EB : (if m <=? b0 then b0 mod m else b0) = b0 mod m).
  { destruct (m <=? b0) eqn:C; [reflexivity|]. rewrite Z.mod_small; lia. }
  rewrite EA, EB. rewrite (Zmult_mod a0 b0).
  pose proof (Z.mod_pos_bound a0 m ltac:(lia)) as Ha.
  pose proof (Z.mod_pos_bound b0 m ltac:(lia)) as Hb.
  set (a := a0 mod m) in *. set (b := b0 mod m) in *. clearbody a b. clear EA EB.
  pose proof (quot_est_spec a b m Hm Ha Hb) as Q. cbv zeta in Q. unfold quot_est in Q.
  set (c := ld_trunc (ld_div (ld_mul (ld_of_u64 a) (ld_of_u64 b)) (ld_of_u64 m))) in *.
  pose proof (Z.div_mod (a * b) m ltac:(lia)) as DM.
  pose proof (Z.mod_pos_bound (a * b) m ltac:(lia)) as SB.
  set (k := a * b / m) in *. set (s := (a * b) mod m) in *.
  rewrite (sint64_small m) by (unfold two63 in *; lia).
  assert (W : wrap64 (wrap64 (a * b) - wrap64 (c * m)) = wrap64 (a * b - c * m)).
  { destruct (wrap64_eqm (a * b)) as [x Hx]. destruct (wrap64_eqm (c * m)) as [y Hy].
    rewrite Hx, Hy. replace (a * b + x * two64 - (c * m + y * two64)) with
      (a * b - c * m + (x - y) * two64) by ring. apply wrap64_add_mul. }
  rewrite W, sint64_wrap.
  destruct Q as [Q|[Q|[Q QB]]]; rewrite Q.
  - replace (a * b - k * m) with s by lia.
    rewrite sint64_small by (unfold two63 in *; lia). rewrite rem_small_pos by lia.
    destruct (s <? 0) eqn:C; [lia|]. apply wrap64_small. unfold two63, two64 in *; lia.
  - replace (a * b - (k + 1) * m) with (s - m) by lia.
    rewrite sint64_small by (unfold two63 in *; lia).
    destruct (Z.eq_dec s 0) as [S0|S0].
    + rewrite S0. replace (0 - m) with (- m) by lia.
      rewrite Z.rem_opp_l by lia. rewrite Z.rem_same by lia. reflexivity.
    + replace (s - m) with (- (m - s)) by lia. rewrite Z.rem_opp_l by lia.
      rewrite rem_small_pos by lia.
      destruct (- (m - s) <? 0) eqn:C; [|lia].
      destruct (wrap64_eqm (- (m - s))) as [x Hx]. rewrite Hx.
      replace (- (m - s) + x * two64 + m) with (s + x * two64) by lia.
      rewrite wrap64_add_mul. apply wrap64_small. unfold two63, two64 in *; lia.
  - replace (a * b - (k - 1) * m) with (s + m) by lia.
    rewrite sint64_small by (unfold two63 in *; lia).
    replace (s + m) with (s + 1 * m) by lia.
    rewrite Z.rem_add by nia. rewrite rem_small_pos by lia.
    destruct (s <? 0) eqn:C; [lia|]. apply wrap64_small. unfold two63, two64 in *; lia.
Qed.

(** ** mod_pow *)

Lemma mod_pow_loop_correct e : forall res base m, 1 < m < two63 -> 0 <= res < two64 -> 0 <= base < two64 ->
  mod_pow_loop res base e m = (res * base ^ Zpos e) mod m.
Proof.
  induction e as [e IH|e IH|]; intros res base m Hm Hr Hb; cbn [mod_pow_loop];
    rewrite !mod_mul_correct by (unfold two63, two64 in *; lia).
  - rewrite IH; try (pose proof (Z.mod_pos_bound (res * base) m ltac:(lia));
      pose proof (Z.mod_pos_bound (base * base) m ltac:(lia)); unfold two63, two64 in *; lia).
    rewrite Zmult_mod, Z.mod_mod, mod_pow_mod, <- Zmult_mod by lia.
    f_equal. rewrite Pos2Z.inj_xI. rewrite Z.pow_add_r, Z.pow_mul_r by lia.
    rewrite Z.pow_1_r, Z.pow_2_r. ring.
  - rewrite IH; try (pose proof (Z.mod_pos_bound (base * base) m ltac:(lia)); unfold two63, two64 in *; lia).
    rewrite Zmult_mod, mod_pow_mod, <- Zmult_mod by lia.
    f_equal. rewrite Pos2Z.inj_xO. rewrite Z.pow_mul_r by lia. rewrite Z.pow_2_r. ring.
  - rewrite Z.pow_1_r. reflexivity.
Qed.

Lemma mod_pow_correct base e m : 1 < m < two63 -> 0 <= base < two64 -> 0 <= e ->
  mod_pow base e m = base ^ e mod m.
Proof.
  intros Hm Hb He. unfold mod_pow. destruct e as [|e|e]; [|..|lia].
  - rewrite Z.pow_0_r, Z.mod_small; lia.
  - rewrite mod_pow_loop_correct; [f_equal; ring|exact Hm|unfold two64; lia|exact Hb].
Qed.

(** ** mod_inv *)

Definition inv_state (a m t newt r newr : Z) : Prop :=
  0 <= newr < r /\ r <= m /\ - m <= t <= m /\
  (r - t * a) mod m = 0 /\ (newr - newt * a) mod m = 0 /\
  exists sg, (sg = 1 \/ sg = -1) /\ 0 <= sg * newt /\ 0 <= - sg * t /\
             sg * newt * r + - sg * t * newr = m.

Lemma inv_state_bounds a m t newt r newr : 0 < m -> inv_state a m t newt r newr -> - m <= newt <= m.
Proof.
  intros Hm (H1 & H2 & _ & _ & _ & sg & S1 & S2 & S3 & S4).
  assert (0 <= - sg * t * newr) by (apply Z.mul_nonneg_nonneg; lia).
  assert (sg * newt * 1 <= sg * newt * r) by (apply Z.mul_le_mono_nonneg_l; lia).
  destruct S1; subst sg; lia.
Qed.

Lemma inv_state_step a m t newt r newr : 0 < m < two63 -> 0 < newr ->
  inv_state a m t newt r newr ->
  inv_state a m newt (sint64 (wrap64 t - wrap64 (r / newr * wrap64 newt)))
            newr (wrap64 (r - wrap64 (r / newr * newr))).
Proof.
  intros Hm Hn HI.
  pose proof (Z.div_mod r newr ltac:(lia)) as DM.
  pose proof (Z.mod_pos_bound r newr ltac:(lia)) as MB.
  set (q := r / newr) in *.
  assert (Hr : 0 <= newr < r /\ r <= m) by (destruct HI as (? & ? & _); lia).
  assert (R1 : wrap64 (r - wrap64 (q * newr)) = r - q * newr).
  { rewrite (wrap64_small (q * newr)) by (unfold two63, two64 in *; nia).
    apply wrap64_small. unfold two63, two64 in *. nia. }
  rewrite R1.
  pose proof (inv_state_bounds a m t newt r newr ltac:(lia) HI) as NB.
  assert (NI : inv_state a m newt (t - q * newt) newr (r - q * newr)).
  { destruct HI as (H1 & H2 & HT & C1 & C2 & sg & S1 & S2 & S3 & S4).
    split; [lia|]. split; [lia|]. split; [exact NB|]. split; [exact C2|]. split.
    - replace (r - q * newr - (t - q * newt) * a) with ((r - t * a) - q * (newr - newt * a)) by ring.
      rewrite Zminus_mod, C1, Zmult_mod, C2, Z.mul_0_r, Z.mod_0_l by lia.
      reflexivity.
    - exists (- sg). assert (Q0 : 0 <= q) by (apply Z.div_pos; lia).
      assert (0 <= q * (sg * newt)) by (apply Z.mul_nonneg_nonneg; lia).
      split; [lia|]. split; [lia|]. split; [lia|]. lia. }
  assert (B : - m <= t - q * newt <= m) by (apply (inv_state_bounds a m newt _ newr (r - q * newr)); [lia|exact NI]).
  assert (T1 : sint64 (wrap64 t - wrap64 (q * wrap64 newt)) = t - q * newt).
  { rewrite <- sint64_wrap.
    assert (W : wrap64 (wrap64 t - wrap64 (q * wrap64 newt)) = wrap64 (t - q * newt)).
    { destruct (wrap64_eqm t) as [x Hx]. destruct (wrap64_eqm newt) as [y Hy].
      destruct (wrap64_eqm (q * wrap64 newt)) as [z Hz]. rewrite Hz, Hy, Hx.
      replace (t + x * two64 - (q * (newt + y * two64) + z * two64)) with
        (t - q * newt + (x - q * y - z) * two64) by ring. apply wrap64_add_mul. }
    rewrite W, sint64_wrap. apply sint64_small. lia. }
  rewrite T1. exact NI.
Qed.

Lemma mod_inv_loop_spec a m : 0 < m < two63 -> forall fuel t newt r newr,
  inv_state a m t newt r newr -> r * newr < 2 ^ Z.of_nat fuel ->
  exists t' newt' r', mod_inv_loop fuel t newt r newr = Some (t', r') /\ inv_state a m t' newt' r' 0 /\
    Z.gcd r newr = r'.
Proof.
  intros Hm. induction fuel as [|f IH]; intros t newt r newr HI HF.
  - cbn [mod_inv_loop]. assert (newr = 0).
    { destruct HI as (H1 & H2 & _). change (2 ^ Z.of_nat 0) with 1 in HF. nia. }
    subst newr. exists t, newt, r. rewrite Z.eqb_refl. split; [reflexivity|]. split; [exact HI|].
    rewrite Z.gcd_0_r. destruct HI; lia.
  - cbn [mod_inv_loop]. destruct (newr =? 0) eqn:C.
    + apply Z.eqb_eq in C. subst newr. exists t, newt, r.
      split; [reflexivity|]. split; [exact HI|]. rewrite Z.gcd_0_r. destruct HI; lia.
    + assert (Hn : 0 < newr) by (destruct HI; lia).
      pose proof (inv_state_step a m t newt r newr Hm Hn HI) as NI.
      destruct (IH _ _ _ _ NI) as (t' & newt' & r' & E & I & G).
      * pose proof (Z.div_mod r newr ltac:(lia)) as DM.
        pose proof (Z.mod_pos_bound r newr ltac:(lia)) as MB.
        assert (Hr : 0 <= newr < r /\ r <= m) by (destruct HI as (? & ? & _); lia).
        assert (Q1 : 1 <= r / newr) by (apply Z.div_le_lower_bound; lia).
        rewrite (wrap64_small (r / newr * newr)) by (unfold two63, two64 in *; nia).
        rewrite wrap64_small by (unfold two63, two64 in *; nia).
        rewrite Nat2Z.inj_succ, Z.pow_succ_r in HF by lia.
        replace (r - r / newr * newr) with (r mod newr) by lia.
        assert (2 * (r mod newr) < r) by nia. nia.
      * exists t', newt', r'. split; [exact E|]. split; [exact I|].
        rewrite <- G. 
        assert (Hr : 0 <= newr < r /\ r <= m) by (destruct HI as (? & ? & _); lia).
        pose proof (Z.div_mod r newr ltac:(lia)) as DM.
        pose proof (Z.mod_pos_bound r newr ltac:(lia)) as MB.
        assert (Q1 : 0 <= r / newr) by (apply Z.div_pos; lia).
        rewrite (wrap64_small (r / newr * newr)) by (unfold two63, two64 in *; nia).
        rewrite wrap64_small by (unfold two63, two64 in *; nia).
        replace (r - r / newr * newr) with (r mod newr) by lia.
        rewrite (Z.gcd_comm newr), Z.gcd_mod by lia. apply Z.gcd_comm.
Qed.

Lemma mod_inv_some a m : 1 < m < two63 -> 0 <= a < m ->
  exists t newt, mod_inv_loop mod_inv_fuel 0 1 m a = Some (t, Z.gcd m a) /\ inv_state a m t newt (Z.gcd m a) 0.
Proof.
  intros Hm Ha. destruct (mod_inv_loop_spec a m ltac:(lia) mod_inv_fuel 0 1 m a) as (t & nt & r & E & I & G).
  - split; [lia|]. split; [lia|]. split; [lia|]. split; [rewrite Z.sub_0_r; apply Z.mod_same; lia|].
    split; [replace (a - 1 * a) with 0 by lia; apply Z.mod_0_l; lia|].
    exists 1. lia.
  - apply Z.lt_trans with (two63 * two63); [nia|reflexivity].
  - exists t, nt. rewrite G. split; [exact E|exact I].
Qed.

Lemma mod_inv_zero m : 0 < m -> mod_inv 0 m = 0.
Proof. intros _. reflexivity. Qed.

Lemma mod_inv_correct a m : 1 < m < two63 -> 0 < a < m -> Z.gcd m a = 1 ->
  0 <= mod_inv a m < m /\ (mod_inv a m * a) mod m = 1.
Proof.
  intros Hm Ha HG. destruct (mod_inv_some a m Hm ltac:(lia)) as (t & nt & E & I).
  rewrite HG in *. unfold mod_inv. rewrite E.
  destruct I as (_ & _ & TB & C1 & _).
  assert (TA : (t * a) mod m = 1).
  { apply Z.mod_divide in C1; [|lia]. destruct C1 as [k Hk].
    replace (t * a) with (1 + (- k) * m) by lia. rewrite Z.mod_add by lia. apply Z.mod_small; lia. }
  assert (NT : - m < t < m).
  { assert (t <> m /\ t <> - m); [|lia]. split; intros ->.
    - rewrite Z.mul_comm, Z.mod_mul in TA; lia.
    - replace (- m * a) with (- a * m) in TA by ring. rewrite Z.mod_mul in TA; lia. }
  destruct (t <? 0) eqn:C.
  - destruct (wrap64_eqm t) as [x Hx]. rewrite Hx.
    replace (t + x * two64 + m) with (t + m + x * two64) by lia.
    rewrite wrap64_add_mul, wrap64_small by (unfold two63, two64 in *; lia).
    split; [lia|]. replace ((t + m) * a) with (t * a + a * m) by ring.
    rewrite Z.mod_add by lia. exact TA.
  - rewrite wrap64_small by (unfold two63, two64 in *; lia). split; [lia|exact TA].
Qed.

#[global] Opaque mod_inv mod_mul mod_pow mod_inv_fuel.

Lemma mod_inv_range a m : 1 < m < two63 -> 0 <= a < m -> prime m -> 0 <= mod_inv a m < m.
Proof.
  intros Hm Ha Hp. destruct (Z.eq_dec a 0) as [->|Hz].
  - rewrite mod_inv_zero by lia. lia.
  - apply mod_inv_correct; try lia. apply Zgcd_1_rel_prime. apply prime_rel_prime; [exact Hp|].
    intros D. apply Z.mod_divide in D; [|lia]. rewrite Z.mod_small in D; lia.
Qed.

Lemma prime_gcd p a : prime p -> 0 < a < p -> Z.gcd p a = 1.
Proof.
  intros Hp Ha. apply Zgcd_1_rel_prime. apply prime_rel_prime; [exact Hp|].
  intros D. apply Z.mod_divide in D; [|lia]. rewrite Z.mod_small in D; lia.
Qed.

(** ** Constructors *)

Lemma ff_ctor_nonneg p n0 : 0 < p -> 0 <= n0 -> ff_ctor p n0 = n0 mod p.
Proof.
  intros Hp Hn. unfold ff_ctor. destruct (0 <=? n0) eqn:C1; [|lia].
  destruct (n0 <? p) eqn:C2; [|reflexivity]. rewrite Z.mod_small; lia.
Qed.

Lemma ff_ctor_canon p n : 0 <= n < p -> ff_ctor p n = n.
Proof. intros H. rewrite ff_ctor_nonneg by lia. apply Z.mod_small; lia. Qed.

Lemma ff_ctor_neg p n0 : 0 < p < two63 -> - two63 < n0 < 0 -> n0 mod p <> 0 -> ff_ctor p n0 = n0 mod p.
Proof.
  intros Hp Hn Hz. unfold ff_ctor. destruct (0 <=? n0) eqn:C1; [lia|].
  rewrite (wrap64_small (- n0)) by (unfold two63, two64 in *; lia).
  assert (M : (- n0) mod p = p - n0 mod p) by (rewrite Z.mod_opp_l_nz; lia).
  pose proof (Z.mod_pos_bound n0 p ltac:(lia)).
  rewrite M. replace (p - (p - n0 mod p)) with (n0 mod p) by lia.
  apply wrap64_small. unfold two63, two64 in *; lia.
Qed.

Lemma ff_ctor_neg_multiple p n0 : 0 < p < two63 -> - two63 < n0 < 0 -> n0 mod p = 0 -> ff_ctor p n0 = p.
Proof.
  intros Hp Hn Hz. unfold ff_ctor. destruct (0 <=? n0) eqn:C1; [lia|].
  rewrite (wrap64_small (- n0)) by (unfold two63, two64 in *; lia).
  rewrite Z.mod_opp_l_z by lia. rewrite Z.sub_0_r. apply wrap64_small. unfold two63, two64 in *; lia.
Qed.

Lemma ff_ctor_mpz_correct p z : 0 < p -> ff_ctor_mpz p z = z mod p.
Proof.
  intros Hp. unfold ff_ctor_mpz; cbv zeta.
  pose proof (Z.quot_rem' z p) as QR.
  assert (B : - p < Z.rem z p < p).
  { pose proof (Z.rem_bound_abs z p ltac:(lia)). lia. }
  destruct (Z.rem z p <? 0) eqn:C.
  - apply Z.mod_unique with (Z.quot z p - 1); [left; lia|]. lia.
  - apply Z.mod_unique with (Z.quot z p); [left; lia|]. lia.
Qed.

(** ** Addition, subtraction, negation *)

Lemma ff_add_assign_correct p a b : 0 < p < two63 -> 0 <= a < p -> 0 <= b < p ->
  ff_add_assign p a b = (a + b) mod p.
Proof.
  intros Hp Ha Hb. unfold ff_add_assign. unfold two63, two64 in *.
  rewrite (wrap64_small (p - b)) by (unfold two64; lia).
  rewrite (wrap64_small (a + b)) by (unfold two64; lia).
  destruct (a <? p - b) eqn:C.
  - rewrite Z.mod_small; lia.
  - rewrite wrap64_small by (unfold two64; lia). apply Z.mod_unique with 1; [left; lia|lia].
Qed.

Lemma ff_sub_assign_correct p a b : 0 < p < two63 -> 0 <= a < p -> 0 <= b < p ->
  ff_sub_assign p a b = (a - b) mod p.
Proof.
  intros Hp Ha Hb. unfold ff_sub_assign. unfold two63 in *.
  destruct (a <? b) eqn:C.
  - destruct (wrap64_eqm (a - b)) as [x Hx]. rewrite Hx.
    replace (a - b + x * two64 + p) with (a - b + p + x * two64) by lia.
    rewrite wrap64_add_mul, wrap64_small by (unfold two64; lia).
    apply Z.mod_unique with (-1); [left; lia|lia].
  - rewrite wrap64_small by (unfold two64; lia). rewrite Z.mod_small; lia.
Qed.

Lemma ctor_mod p z : 0 < p -> ff_ctor p (z mod p) = z mod p.
Proof. intros Hp. apply ff_ctor_canon. apply Z.mod_pos_bound; lia. Qed.

Lemma ff_add_correct p a b : 0 < p < two63 -> 0 <= a < p -> 0 <= b < p -> ff_add p a b = (a + b) mod p.
Proof. intros Hp Ha Hb. unfold ff_add. rewrite ff_add_assign_correct by assumption. apply ctor_mod; lia. Qed.

Lemma ff_sub_correct p a b : 0 < p < two63 -> 0 <= a < p -> 0 <= b < p -> ff_sub p a b = (a - b) mod p.
Proof. intros Hp Ha Hb. unfold ff_sub. rewrite ff_sub_assign_correct by assumption. apply ctor_mod; lia. Qed.

Lemma ff_mul_correct p a b : 0 < p < two63 -> 0 <= a < p -> 0 <= b < p -> ff_mul p a b = (a * b) mod p.
Proof.
  intros Hp Ha Hb. unfold ff_mul. rewrite mod_mul_correct by (unfold two63, two64 in *; lia).
  apply ctor_mod; lia.
Qed.

Lemma ff_mul_assign_correct p a b : 0 < p < two63 -> 0 <= a < p -> 0 <= b < p -> ff_mul_assign p a b = (a * b) mod p.
Proof. intros Hp Ha Hb. unfold ff_mul_assign. apply mod_mul_correct; unfold two63, two64 in *; lia. Qed.

Lemma ff_opp_correct p a : 0 < p < two63 -> 0 <= a < p -> ff_opp p a = (- a) mod p.
Proof.
  intros Hp Ha. unfold ff_opp. rewrite wrap64_small by (unfold two63, two64 in *; lia).
  rewrite ff_ctor_nonneg by lia. replace (p - a) with (- a + 1 * p) by lia. apply Z.mod_add; lia.
Qed.

(** ** Division *)

Lemma ff_div_correct p a b : prime p -> p < two63 -> 0 <= a < p -> 0 < b < p ->
  0 <= ff_div p a b < p /\ (ff_div p a b * b) mod p = a.
Proof.
  intros Hp Hp' Ha Hb. assert (P1 : 1 < p) by (destruct Hp; lia).
  unfold ff_div. destruct (b =? 0) eqn:C; [lia|].
  pose proof (mod_inv_correct b p ltac:(lia) Hb (prime_gcd p b Hp Hb)) as [I1 I2].
  rewrite mod_mul_correct by (unfold two63, two64 in *; lia).
  rewrite ctor_mod by lia. split; [apply Z.mod_pos_bound; lia|].
  rewrite Zmult_mod_idemp_l.
  replace (a * mod_inv b p * b) with (a * (mod_inv b p * b)) by ring.
  rewrite Zmult_mod, I2, Z.mul_1_r, Z.mod_mod by lia. apply Z.mod_small; lia.
Qed.

Lemma ff_div_assign_eq p a b : prime p -> p < two63 -> 0 <= a < p -> 0 <= b < p ->
  ff_div_assign p a b = ff_div p a b.
Proof.
  intros Hp Hp' Ha Hb. assert (P1 : 1 < p) by (destruct Hp; lia).
  unfold ff_div, ff_div_assign. destruct (b =? 0) eqn:C; [rewrite ff_ctor_canon; lia|].
  pose proof (mod_inv_correct b p ltac:(lia) ltac:(lia) (prime_gcd p b Hp ltac:(lia))) as [I1 I2].
  rewrite mod_mul_correct by (unfold two63, two64 in *; lia).
  rewrite ctor_mod by lia. reflexivity.
Qed.

Lemma ff_div_zero p a : 0 < p -> ff_div p a 0 = 0.
Proof. intros Hp. unfold ff_div. rewrite Z.eqb_refl. apply ff_ctor_canon; lia. Qed.

Lemma ff_div_unique p a b c : prime p -> p < two63 -> 0 <= a < p -> 0 < b < p ->
  0 <= c < p -> (c * b) mod p = a -> c = ff_div p a b.
Proof.
  intros Hp Hp' Ha Hb Hc HC.
  destruct (ff_div_correct p a b Hp Hp' Ha Hb) as [D1 D2].
  assert (E : (b * c) mod p = (b * ff_div p a b) mod p).
  { rewrite (Z.mul_comm b c), (Z.mul_comm b (ff_div p a b)). lia. }
  apply mod_mul_cancel in E; [|exact Hp|rewrite Z.mod_small; lia].
  rewrite !Z.mod_small in E; lia.
Qed.

(** ** Powers *)

Lemma ff_pow_int_nonneg p x k : prime p -> p < two63 -> 0 <= x < p -> 0 <= k < two64 ->
  ff_pow_int p x k = x ^ k mod p.
Proof.
  intros Hp Hp' Hx Hk. assert (P1 : 1 < p) by (destruct Hp; lia).
  unfold ff_pow_int. destruct (k =? 2) eqn:C.
  - apply Z.eqb_eq in C. subst k. rewrite mod_mul_correct by (unfold two63, two64 in *; lia).
    rewrite ctor_mod by lia. f_equal. lia.
  - destruct (0 <=? k) eqn:C2; [|lia]. rewrite wrap64_small by lia.
    apply mod_pow_correct; unfold two63, two64 in *; lia.
Qed.

Lemma ff_pow_int_neg p x k : prime p -> p < two63 -> 0 <= x < p -> - two63 < k < 0 ->
  ff_pow_int p x k = (ff_div p 1 x) ^ (- k) mod p.
Proof.
  intros Hp Hp' Hx Hk. assert (P1 : 1 < p) by (destruct Hp; lia).
  unfold ff_pow_int. destruct (k =? 2) eqn:C; [lia|]. destruct (0 <=? k) eqn:C2; [lia|].
  rewrite wrap64_small by (unfold two63, two64 in *; lia).
  pose proof (mod_inv_range x p ltac:(lia) Hx Hp) as IR.
  rewrite mod_pow_correct by (unfold two63, two64 in *; lia).
  f_equal. f_equal. unfold ff_div. destruct (x =? 0) eqn:C3.
  - apply Z.eqb_eq in C3. subst x. rewrite mod_inv_zero, ff_ctor_canon by lia. reflexivity.
  - rewrite mod_mul_correct by (unfold two63, two64 in *; lia).
    rewrite ctor_mod, Z.mul_1_l, Z.mod_small by lia. reflexivity.
Qed.

Lemma pow_inv_mod p x y n : 0 < p -> 0 <= n -> (y * x) mod p = 1 -> (y ^ n * x ^ n) mod p = 1.
Proof.
  intros Hp Hn H. rewrite <- Z.pow_mul_l. rewrite Zpower_mod by lia. rewrite H, Z.pow_1_l by lia.
  assert (1 < p). { destruct (Z.eq_dec p 1) as [->|]; [rewrite Z.mod_1_r in H; lia|lia]. }
  apply Z.mod_small; lia.
Qed.

Lemma ff_pow_correct p x e : prime p -> p < two63 -> 0 < x < p -> 0 <= e < p ->
  ff_pow p x e = x ^ e mod p.
Proof.
  intros Hp Hp' Hx He. assert (P1 : 1 < p) by (destruct Hp; lia).
  unfold ff_pow. destruct (e =? 2) eqn:C.
  - apply Z.eqb_eq in C. subst e. rewrite mod_mul_correct by (unfold two63, two64 in *; lia).
    rewrite ctor_mod by lia. f_equal. lia.
  - destruct (e <? Z.shiftr p 1) eqn:C2.
    + apply mod_pow_correct; unfold two63, two64 in *; lia.
    + pose proof (mod_inv_correct x p ltac:(lia) Hx (prime_gcd p x Hp Hx)) as [I1 I2].
      rewrite (wrap64_small (p - e)) by (unfold two63, two64 in *; lia).
      rewrite wrap64_small by (unfold two63, two64 in *; lia).
      rewrite mod_pow_correct by (unfold two63, two64 in *; lia).
      (* x^(p-1-e) * inv^(p-1-e) = 1 = x^(p-1-e) * x^e *)
      set (k := p - e - 1). assert (K0 : 0 <= k) by lia.
      assert (N : x ^ k mod p <> 0).
      { intros Z0. pose proof (pow_inv_mod p x (mod_inv x p) k ltac:(lia) K0 I2) as R.
        rewrite Zmult_mod, Z0, Z.mul_0_r, Z.mod_0_l in R; lia. }
      apply (mod_mul_cancel p (x ^ k) _ _ Hp N).
      rewrite <- Z.pow_add_r by lia. replace (k + e) with (p - 1) by lia.
      rewrite fermat; [|exact Hp|rewrite Z.mod_small; lia].
      rewrite Z.mul_comm. apply pow_inv_mod; [lia|lia|exact I2].
Qed.

(** base zero *)
Lemma ff_pow_zero p e : prime p -> p < two63 -> 0 <= e < p ->
  ff_pow p 0 e = if (e =? 0) || ((e =? p - 1) && negb (p =? 3)) then 1 else 0.
Proof.
  intros Hp Hp' He. assert (P1 : 1 < p) by (destruct Hp; lia).
  unfold ff_pow. destruct (e =? 2) eqn:C.
  - apply Z.eqb_eq in C. subst e. rewrite mod_mul_correct by (unfold two63, two64 in *; lia).
    rewrite ctor_mod by lia. rewrite Z.mul_0_r, Z.mod_0_l by lia.
    change (2 =? 0) with false. rewrite orb_false_l.
    destruct (2 =? p - 1) eqn:C1; [|reflexivity].
    replace p with 3 by lia. reflexivity.
  - destruct (e <? Z.shiftr p 1) eqn:C2.
    + rewrite Z.shiftr_div_pow2 in C2 by lia. change (2 ^ 1) with 2 in C2.
      pose proof (Z.mul_div_le p 2 ltac:(lia)).
      rewrite mod_pow_correct by (unfold two63, two64 in *; lia).
      destruct (e =? 0) eqn:C3.
      * apply Z.eqb_eq in C3. subst e. cbn [orb]. rewrite Z.pow_0_r. apply Z.mod_small; lia.
      * rewrite Z.pow_0_l, Z.mod_0_l by lia. destruct (e =? p - 1) eqn:C4; [lia|]. reflexivity.
    + rewrite mod_inv_zero by lia.
      rewrite Z.shiftr_div_pow2 in C2 by lia. change (2 ^ 1) with 2 in C2.
      rewrite (wrap64_small (p - e)) by (unfold two63, two64 in *; lia).
      rewrite wrap64_small by (unfold two63, two64 in *; lia).
      rewrite mod_pow_correct by (unfold two63, two64 in *; lia).
      assert (1 <= p / 2) by (apply Z.div_le_lower_bound; lia).
      destruct (e =? 0) eqn:C3; [lia|]. cbn [orb].
      destruct (e =? p - 1) eqn:C4.
      * replace (p - e - 1) with 0 by lia. rewrite Z.pow_0_r, Z.mod_small by lia.
        destruct (p =? 3) eqn:C5; [lia|reflexivity].
      * rewrite Z.pow_0_l, Z.mod_0_l by lia. reflexivity.
Qed.

(** ** Strings *)

Lemma is_digit_iff c : is_digit c = true <-> decimal_digit c.
Proof.
  unfold is_digit, decimal_digit. rewrite andb_true_iff, !Nat.leb_le.
  unfold nat_of_ascii. split; lia.
Qed.

Lemma digit_val_spec c : digit_val c = Z.of_N (N_of_ascii c) - 48.
Proof. unfold digit_val, nat_of_ascii. lia. Qed.

Lemma digit_val_range c : is_digit c = true -> 0 <= digit_val c <= 9.
Proof. unfold is_digit, digit_val. rewrite andb_true_iff, !Nat.leb_le. lia. Qed.

Definition dval (acc : Z) (s : chars) : Z := fold_left (fun a c => 10 * a + digit_val c) s acc.

Lemma dval_app acc s t : dval acc (s ++ t) = dval (dval acc s) t.
Proof. unfold dval. apply fold_left_app. Qed.

Lemma dval_acc s : forall acc, dval acc s = acc * 10 ^ Z.of_nat (length s) + dval 0 s.
Proof.
  induction s as [|c s IH]; intros acc.
  - unfold dval; cbn [fold_left length]. change (10 ^ Z.of_nat 0) with 1. lia.
  - unfold dval in *. cbn [fold_left length]. rewrite IH, (IH (10 * 0 + digit_val c)).
    rewrite Nat2Z.inj_succ, Z.pow_succ_r by lia. ring.
Qed.

Lemma dval_range s : Forall (fun c => is_digit c = true) s -> 0 <= dval 0 s < 10 ^ Z.of_nat (length s).
Proof.
  induction s as [|c s IH]; intros H.
  - unfold dval; cbn [fold_left length]. change (10 ^ Z.of_nat 0) with 1. lia.
  - inversion_clear H as [|? ? Hc Hs]. specialize (IH Hs). apply digit_val_range in Hc.
    change (dval 0 (c :: s)) with (dval (10 * 0 + digit_val c) s). rewrite dval_acc.
    cbn [length]. rewrite Nat2Z.inj_succ, Z.pow_succ_r by lia. nia.
Qed.

Lemma scan_digits_all s : forall acc, Forall (fun c => is_digit c = true) s ->
  scan_digits acc s = (dval acc s, []).
Proof.
  induction s as [|c s IH]; intros acc H; [reflexivity|].
  inversion_clear H as [|? ? Hc Hs]. cbn [scan_digits]. rewrite Hc. rewrite IH by exact Hs. reflexivity.
Qed.

Lemma digit_not_special c : is_digit c = true ->
  is_space c = false /\ is_alpha c = false /\ c <> "+"%char /\ c <> "-"%char.
Proof.
  intros H. repeat split.
  - unfold is_digit, is_space in *. destruct (nat_of_ascii c) eqn:E; lia.
  - unfold is_digit, is_alpha in *. lia.
  - intros ->. discriminate.
  - intros ->. discriminate.
Qed.

Lemma stream_u64_digits c s : Forall (fun c => is_digit c = true) (c :: s) ->
  stream_u64 (c :: s) = if dval 0 (c :: s) <? two64 then Some (dval 0 (c :: s), []) else None.
Proof.
  intros H. inversion_clear H as [|? ? Hc Hs].
  destruct (digit_not_special c Hc) as (N1 & _ & N3 & N4).
  unfold stream_u64. cbn [skip_space]. rewrite N1.
  cbn [split_sign]. apply Ascii.eqb_neq in N3, N4. rewrite N3, N4. rewrite Hc. rewrite scan_digits_all by (constructor; assumption). reflexivity.
Qed.

Lemma forallb_digits s : Forall (fun c => is_digit c = true) s -> forallb is_digit s = true.
Proof. intros H. apply forallb_forall. intros x Hx. rewrite Forall_forall in H. auto. Qed.

Lemma Forall_firstn' {A} (P : A -> Prop) n l : Forall P l -> Forall P (firstn n l).
Proof. revert n. induction l as [|x l IH]; intros [|n] H; cbn [firstn]; auto. inversion_clear H; auto. Qed.
Lemma Forall_skipn' {A} (P : A -> Prop) n l : Forall P l -> Forall P (skipn n l).
Proof. revert n. induction l as [|x l IH]; intros [|n] H; cbn [skipn]; auto. inversion_clear H; auto. Qed.

Lemma longint_loop_correct p : 1 < p < two63 -> forall fuel result len s k,
  0 <= result < p -> (0 < len <= 18)%nat -> (length s <= fuel)%nat ->
  (result = 0 \/ len = 18%nat) ->
  (s = [] \/ length s = len + 18 * k)%nat ->
  Forall (fun c => is_digit c = true) s ->
  longint_loop fuel p result len s = (result * 10 ^ Z.of_nat (length s) + dval 0 s) mod p.
Proof.
  intros Hp. induction fuel as [|f IH]; intros result len s k Hr Hl Hf Hz Hk Hd.
  - destruct s; [|cbn [length] in Hf; lia]. cbn [longint_loop length].
    change (10 ^ Z.of_nat 0) with 1. change (dval 0 []) with 0.
    rewrite Z.mul_1_r, Z.add_0_r, Z.mod_small; lia.
  - destruct s as [|c s'].
    { cbn [longint_loop length]. change (10 ^ Z.of_nat 0) with 1. change (dval 0 []) with 0.
      rewrite Z.mul_1_r, Z.add_0_r, Z.mod_small; lia. }
    cbn [longint_loop]. destruct Hk as [Hk|Hk]; [discriminate|].
    set (s := c :: s') in *.
    assert (SPL : s = firstn len s ++ skipn len s) by (symmetry; apply firstn_skipn).
    assert (FL : length (firstn len s) = len) by (apply firstn_length_le; lia).
    assert (SL : length (skipn len s) = (18 * k)%nat) by (rewrite skipn_length; lia).
    pose proof (Forall_firstn' _ len s Hd) as FD. pose proof (Forall_skipn' _ len s Hd) as SD.
    set (ch := firstn len s) in *. set (re := skipn len s) in *.
    assert (DR : 0 <= dval 0 ch < 10 ^ 18).
    { pose proof (dval_range ch FD) as D. rewrite FL in D. split; [lia|].
      apply Z.lt_le_trans with (10 ^ Z.of_nat len); [lia|]. apply Z.pow_le_mono_r; lia. }
    assert (SU : match stream_u64 ch with Some (v, _) => v | None => 0 end = dval 0 ch).
    { destruct ch as [|c0 ch'] eqn:Ech; [cbn [length] in FL; lia|].
      rewrite stream_u64_digits by exact FD.
      destruct (dval 0 (c0 :: ch') <? two64) eqn:C; [reflexivity|].
      change (10 ^ 18) with 1000000000000000000 in DR. unfold two64 in C. lia. }
    rewrite SU.
    set (r1 := if result =? 0 then result else ff_mul p (ff_ctor p result) (ff_ctor p 1000000000000000000)).
    assert (R1 : 0 <= r1 < p /\ r1 = (result * 10 ^ Z.of_nat len) mod p).
    { unfold r1. destruct (result =? 0) eqn:C.
      - assert (result = 0) by lia. subst result. rewrite Z.mul_0_l, Z.mod_0_l by lia. lia.
      - destruct Hz as [Hz|Hz]; [lia|]. rewrite Hz.
        rewrite !ff_ctor_nonneg by lia.
        rewrite ff_mul_correct; [|lia|apply Z.mod_pos_bound; lia|apply Z.mod_pos_bound; lia].
        rewrite <- Zmult_mod. change (10 ^ Z.of_nat 18) with 1000000000000000000.
        split; [apply Z.mod_pos_bound; lia|reflexivity]. }
    destruct R1 as [R1 R2].
    rewrite (ff_ctor_canon p r1 R1), ff_ctor_nonneg by lia.
    rewrite ff_add_correct; [|lia|exact R1|apply Z.mod_pos_bound; lia].
    rewrite (IH _ 18%nat re (k - 1)%nat); try lia.
    + rewrite SL.
      destruct (mod_ex (result * 10 ^ Z.of_nat len) p ltac:(lia)) as [x Hx]. rewrite Hx in R2.
      destruct (mod_ex (dval 0 ch) p ltac:(lia)) as [y Hy]. rewrite Hy.
      destruct (mod_ex (r1 + (dval 0 ch + y * p)) p ltac:(lia)) as [z Hz']. rewrite Hz', R2.
      rewrite Hk. rewrite SPL, dval_app, (dval_acc re (dval 0 ch)), SL.
      rewrite Nat2Z.inj_add, Z.pow_add_r by lia.
      apply mod_eq_ex with ((x + y + z) * 10 ^ Z.of_nat (18 * k)); [lia|]. ring.
    + apply Z.mod_pos_bound; lia.
    + destruct k as [|k']; [left; apply length_zero_iff_nil; rewrite SL; lia|right; rewrite SL; lia].
    + exact SD.
Qed.

Lemma parse_longint_digits p c s : 1 < p < two63 -> Forall (fun c => is_digit c = true) (c :: s) ->
  parse_longint p (c :: s) = Ret (dval 0 (c :: s) mod p).
Proof.
  intros Hp Hd. unfold parse_longint. rewrite forallb_digits by exact Hd. f_equal.
  set (n := length (c :: s)).
  assert (N1 : (1 <= n)%nat) by (unfold n; cbn [length]; lia).
  pose proof (Nat.mod_upper_bound (n - 1) 18 ltac:(lia)) as MB.
  pose proof (Nat.div_mod (n - 1) 18 ltac:(lia)) as DM.
  rewrite (longint_loop_correct p Hp n 0 _ (c :: s) ((n - 1) / 18)%nat);
    try (fold n; lia); try exact Hd.
  f_equal. 
Qed.

Lemma digits_Forall str : all_digits str -> Forall (fun c => is_digit c = true) (list_ascii_of_string str).
Proof. unfold all_digits. intros H. eapply Forall_impl; [|exact H]. intros c Hc. apply is_digit_iff; exact Hc. Qed.

Lemma dval_decimal_value str : dval 0 (list_ascii_of_string str) = decimal_value str.
Proof.
  unfold dval, decimal_value. generalize (list_ascii_of_string str). intros l.
  assert (G : forall l a, fold_left (fun a c => 10 * a + digit_val c) l a =
     fold_left (fun acc c => 10 * acc + (Z.of_N (N_of_ascii c) - 48)) l a).
  { clear l. induction l as [|c l IH]; intros a; [reflexivity|]. cbn [fold_left].
    rewrite IH, digit_val_spec. reflexivity. }
  apply G.
Qed.

Lemma ff_ctor_string_digits p str repl : 1 < p < two63 -> str <> EmptyString -> all_digits str ->
  find_replacement str repl = None ->
  ff_ctor_string p str repl = Ret (decimal_value str mod p).
Proof.
  intros Hp Hne Hd Hr. unfold ff_ctor_string. rewrite Hr.
  apply digits_Forall in Hd. rewrite <- dval_decimal_value.
  destruct str as [|c0 str']; [congruence|]. cbn [list_ascii_of_string] in *.
  set (s := list_ascii_of_string str') in *.
  pose proof Hd as Hd'. inversion_clear Hd' as [|? ? Hc Hs].
  destruct (digit_not_special c0 Hc) as (_ & N2 & _ & N4).
  assert (CE : Ascii.eqb c0 "-"%char = false) by (apply Ascii.eqb_neq; exact N4).
  rewrite CE, stream_u64_digits, N2 by exact Hd.
  pose proof (dval_range (c0 :: s) Hd) as DR.
  destruct (dval 0 (c0 :: s) <? two64) eqn:C.
  - destruct (p <=? dval 0 (c0 :: s)) eqn:C2; [reflexivity|]. rewrite Z.mod_small by lia. reflexivity.
  - apply parse_longint_digits; assumption.
Qed.

(** Every string without white space, sign or letters at the front that is not
    all digits is rejected. *)
Lemma scan_digits_rest s : forall acc v rest, scan_digits acc s = (v, rest) ->
  rest = [] -> Forall (fun c => is_digit c = true) s.
Proof.
  induction s as [|c s IH]; intros acc v rest H Hr; [constructor|].
  cbn [scan_digits] in H. destruct (is_digit c) eqn:C.
  - constructor; [exact C|]. eapply IH; eassumption.
  - inversion H; subst. discriminate.
Qed.

Lemma ff_ctor_string_reject p c0 str repl :
  find_replacement (String c0 str) repl = None -> is_space c0 = false -> c0 <> "+"%char ->
  ~ all_digits (String c0 str) -> ff_ctor_string p (String c0 str) repl = Throw.
Proof.
  intros Hr Hsp Hpl Hnd. unfold ff_ctor_string. rewrite Hr. cbn [list_ascii_of_string].
  destruct (Ascii.eqb c0 "-"%char) eqn:CE; [reflexivity|]. apply Ascii.eqb_neq in CE.
  set (s := list_ascii_of_string str) in *.
  assert (ND : ~ Forall (fun c => is_digit c = true) (c0 :: s)).
  { intros F. apply Hnd. unfold all_digits. cbn [list_ascii_of_string]. fold s.
    eapply Forall_impl; [|exact F]. intros c Hc. apply is_digit_iff; exact Hc. }
  assert (PL : parse_longint p (c0 :: s) = Throw).
  { unfold parse_longint. destruct (forallb is_digit (c0 :: s)) eqn:F; [|reflexivity].
    exfalso. apply ND. apply Forall_forall. intros x Hx. rewrite forallb_forall in F. auto. }
  rewrite PL.
  assert (SU : forall v, stream_u64 (c0 :: s) <> Some (v, [])).
  { intros v E. unfold stream_u64 in E. cbn [skip_space] in E. rewrite Hsp in E.
    cbn [split_sign] in E. apply Ascii.eqb_neq in Hpl, CE. rewrite Hpl, CE in E. destruct (is_digit c0); [|discriminate].
    destruct (scan_digits 0 (c0 :: s)) as [v' rest] eqn:SD.
    destruct (v' <? two64); [|discriminate]. inversion E; subst.
    apply ND. eapply scan_digits_rest; [exact SD|reflexivity]. }
  destruct (stream_u64 (c0 :: s)) as [[v [|r rest]]|].
  - exfalso. apply (SU v). reflexivity.
  - destruct (is_alpha c0); reflexivity.
  - destruct (is_alpha c0); reflexivity.
Qed.

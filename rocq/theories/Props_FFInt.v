(** Property theorems C01-C06: FFInt. *)
From Coq Require Import String Ascii Znumtheory.
From Verif Require Import Machine FFInt FFIntProofs Spec NumTheory.
Local Open Scope string_scope.
Local Open Scope Z_scope.

(** C01. Ring operations on canonical elements are exact modular arithmetic. *)
Theorem C01_ffint_ring_operations_exact : forall p a b : Z,
  0 < p < 2 ^ 63 -> 0 <= a < p -> 0 <= b < p ->
  ff_add p a b = (a + b) mod p /\ ff_add_assign p a b = (a + b) mod p /\
  ff_sub p a b = (a - b) mod p /\ ff_sub_assign p a b = (a - b) mod p /\
  ff_mul p a b = (a * b) mod p /\ ff_mul_assign p a b = (a * b) mod p /\
  ff_opp p a = (- a) mod p /\ ff_uplus p a = a.
Proof.
  exact (fun p a b Hp Ha Hb =>
    conj (ff_add_correct p a b Hp Ha Hb) (conj (ff_add_assign_correct p a b Hp Ha Hb)
    (conj (ff_sub_correct p a b Hp Ha Hb) (conj (ff_sub_assign_correct p a b Hp Ha Hb)
    (conj (ff_mul_correct p a b Hp Ha Hb) (conj (ff_mul_assign_correct p a b Hp Ha Hb)
    (conj (ff_opp_correct p a Hp Ha) (ff_ctor_canon p a Ha)))))))).
Qed.
Print Assumptions C01_ffint_ring_operations_exact.

Example C01_hypotheses_met :
  let p := 9223372036854775783 in let a := 9223372036854775000 in let b := 9223372036854774999 in
  0 < p < 2 ^ 63 /\ 0 <= a < p /\ 0 <= b < p /\ ff_mul p a b = 613872.
Proof. vm_compute. repeat split; intros H; discriminate H. Qed.

(** C01, helper mod_mul: exact for all uint64 arguments and every modulus below 2^63. *)
Theorem C01_mod_mul_exact_for_all_uint64 : forall a b m : Z,
  0 < m < 2 ^ 63 -> 0 <= a < 2 ^ 64 -> 0 <= b < 2 ^ 64 -> mod_mul a b m = (a * b) mod m.
Proof. exact mod_mul_correct. Qed.
Print Assumptions C01_mod_mul_exact_for_all_uint64.

(** C02. Division. *)
Theorem C02_ffint_division_is_field_division : forall p a b : Z,
  prime p -> p < 2 ^ 63 -> 0 <= a < p -> 0 < b < p ->
  (0 <= ff_div p a b < p /\ (ff_div p a b * b) mod p = a) /\
  (forall c, 0 <= c < p -> (c * b) mod p = a -> c = ff_div p a b).
Proof.
  exact (fun p a b Hp Hp' Ha Hb => conj (ff_div_correct p a b Hp Hp' Ha Hb)
    (fun c Hc H => ff_div_unique p a b c Hp Hp' Ha Hb Hc H)).
Qed.
Print Assumptions C02_ffint_division_is_field_division.

Theorem C02_ffint_division_assign_agrees : forall p a b : Z,
  prime p -> p < 2 ^ 63 -> 0 <= a < p -> 0 <= b < p -> ff_div_assign p a b = ff_div p a b.
Proof. exact ff_div_assign_eq. Qed.
Print Assumptions C02_ffint_division_assign_agrees.

Theorem C02_ffint_division_by_zero_is_zero : forall p a : Z, 0 < p -> ff_div p a 0 = 0.
Proof. exact ff_div_zero. Qed.
Print Assumptions C02_ffint_division_by_zero_is_zero.

Example C02_hypotheses_met : prime 7 /\ 7 < 2 ^ 63 /\ 0 <= 5 < 7 /\ 0 < 3 < 7 /\ ff_div 7 5 3 = 4.
Proof.
  split; [|vm_compute; repeat split; intros H; discriminate H].
  apply prime_intro; [lia|]. intros n Hn.
  assert (n = 1 \/ n = 2 \/ n = 3 \/ n = 4 \/ n = 5 \/ n = 6) as C by lia.
  destruct C as [->|[->|[->|[->|[->| ->]]]]]; apply Zgcd_1_rel_prime; reflexivity.
Qed.

(** C03. Powers. *)
Theorem C03_pow_integer_exponent : forall p x k : Z,
  prime p -> p < 2 ^ 63 -> 0 <= x < p -> 0 <= k < 2 ^ 64 -> ff_pow_int p x k = x ^ k mod p.
Proof. exact ff_pow_int_nonneg. Qed.
Print Assumptions C03_pow_integer_exponent.

Theorem C03_pow_negative_integer_exponent : forall p x k : Z,
  prime p -> p < 2 ^ 63 -> 0 <= x < p -> - 2 ^ 63 < k < 0 ->
  ff_pow_int p x k = (ff_div p 1 x) ^ (- k) mod p.
Proof. exact ff_pow_int_neg. Qed.
Print Assumptions C03_pow_negative_integer_exponent.

Theorem C03_pow_field_exponent : forall p x e : Z,
  prime p -> p < 2 ^ 63 -> 0 < x < p -> 0 <= e < p -> ff_pow p x e = x ^ e mod p.
Proof. exact ff_pow_correct. Qed.
Print Assumptions C03_pow_field_exponent.

(** For base zero the FFInt-exponent overload is wrong at exactly e = p-1 (p <> 3). *)
Theorem C03_pow_field_exponent_zero_base : forall p e : Z,
  prime p -> p < 2 ^ 63 -> 0 <= e < p ->
  (ff_pow p 0 e = 0 ^ e mod p <-> ~ (e = p - 1 /\ p <> 3)).
Proof.
  intros p e Hp Hp' He. rewrite (ff_pow_zero p e Hp Hp' He).
  assert (P1 : 1 < p) by (destruct Hp; lia).
  destruct (Z.eq_dec e 0) as [->|E0].
  - rewrite Z.pow_0_r, Z.mod_small by lia. cbn [Z.eqb orb]. split; [intros _; lia|reflexivity].
  - rewrite Z.pow_0_l, Z.mod_0_l by lia.
    destruct (e =? 0) eqn:C; [lia|]. cbn [orb].
    destruct (e =? p - 1) eqn:C1, (p =? 3) eqn:C2; cbn [andb negb]; split; intros H; lia.
Qed.
Print Assumptions C03_pow_field_exponent_zero_base.

Theorem C03_pow_zero_base_refuted : exists p e, prime p /\ 0 <= e < p /\ ff_pow p 0 e <> 0 ^ e mod p.
Proof.
  exists 2, 1. split; [exact prime_2|]. split; [lia|]. vm_compute. discriminate.
Qed.
Print Assumptions C03_pow_zero_base_refuted.

Example C03_hypotheses_met : ff_pow 9223372036854775783 12345 9223372036854775780 =
  ff_div 9223372036854775783 1 (ff_pow_int 9223372036854775783 12345 2).
Proof. vm_compute. reflexivity. Qed.

(** C04. Constructors. *)
Theorem C04_integer_constructor_nonnegative : forall p n : Z,
  0 < p -> 0 <= n < 2 ^ 64 -> ff_ctor p n = n mod p.
Proof. exact (fun p n Hp Hn => ff_ctor_nonneg p n Hp (proj1 Hn)). Qed.
Print Assumptions C04_integer_constructor_nonnegative.

Theorem C04_integer_constructor_negative : forall p n : Z,
  0 < p < 2 ^ 63 -> - 2 ^ 63 < n < 0 -> n mod p <> 0 -> ff_ctor p n = n mod p.
Proof. exact ff_ctor_neg. Qed.
Print Assumptions C04_integer_constructor_negative.

(** Negative multiples of p are stored as the non-canonical value p. *)
Theorem C04_integer_constructor_negative_multiple : forall p n : Z,
  0 < p < 2 ^ 63 -> - 2 ^ 63 < n < 0 -> n mod p = 0 -> ff_ctor p n = p.
Proof. exact ff_ctor_neg_multiple. Qed.
Print Assumptions C04_integer_constructor_negative_multiple.

Theorem C04_integer_constructor_refuted : exists p n : Z,
  0 < p < 2 ^ 63 /\ - 2 ^ 63 < n < 0 /\ ff_ctor p n <> n mod p /\
  ff_eqb (ff_ctor p n) (ff_ctor p 0) = false.
Proof. exists 9223372036854775783, (-9223372036854775783). vm_compute. repeat split; discriminate. Qed.
Print Assumptions C04_integer_constructor_refuted.

Theorem C04_mpz_constructor : forall p z : Z, 0 < p -> ff_ctor_mpz p z = z mod p.
Proof. exact ff_ctor_mpz_correct. Qed.
Print Assumptions C04_mpz_constructor.

Theorem C04_replacement_constructor : forall p s v repl,
  0 < p -> find_replacement s repl = Some v -> 0 <= v -> v <> p ->
  ff_ctor_string p s repl = Ret (v mod p).
Proof.
  intros p s v repl Hp Hf Hv Hn. unfold ff_ctor_string. rewrite Hf.
  destruct (p <? v) eqn:C; [reflexivity|]. rewrite Z.mod_small by lia. reflexivity.
Qed.
Print Assumptions C04_replacement_constructor.

Theorem C04_replacement_constructor_refuted : exists p s repl n,
  0 < p < 2 ^ 63 /\ ff_ctor_string p s repl = Ret n /\ ~ (0 <= n < p).
Proof.
  exists 7, "x"%string, [("x"%string, 7)], 7. split; [lia|]. split; [reflexivity|lia].
Qed.
Print Assumptions C04_replacement_constructor_refuted.

(** C05. Increment / decrement never change the operand, and the postfix forms
    return the changed value. *)
Theorem C05_increment_does_not_modify_refuted : forall p x : Z,
  1 < p < 2 ^ 63 -> 0 <= x < p ->
  (snd (ff_preincr p x) = x /\ snd (ff_postincr p x) = x /\ snd (ff_predecr p x) = x /\ snd (ff_postdecr p x) = x) /\
  x <> (x + 1) mod p /\ x <> (x - 1) mod p.
Proof.
  intros p x Hp Hx. split; [repeat split|]. split; intros E.
  - destruct (Z.eq_dec x (p - 1)) as [->|].
    + replace (p - 1 + 1) with p in E by lia. rewrite Z.mod_same in E; lia.
    + rewrite Z.mod_small in E; lia.
  - destruct (Z.eq_dec x 0) as [->|].
    + replace (0 - 1) with (-1) in E by lia.
      replace (-1) with (p - 1 + (-1) * p) in E by lia. rewrite Z.mod_add, Z.mod_small in E by lia. lia.
    + rewrite Z.mod_small in E; lia.
Qed.
Print Assumptions C05_increment_does_not_modify_refuted.

Theorem C05_increment_returned_values : forall p x : Z,
  1 < p < 2 ^ 63 -> 0 <= x < p ->
  fst (ff_preincr p x) = (x + 1) mod p /\ fst (ff_postincr p x) = (x + 1) mod p /\
  fst (ff_predecr p x) = (x - 1) mod p /\ fst (ff_postdecr p x) = (x - 1) mod p.
Proof.
  intros p x Hp Hx. unfold ff_preincr, ff_postincr, ff_predecr, ff_postdecr. cbn [fst].
  rewrite (ff_ctor_canon p x Hx), (ff_ctor_canon p 1) by lia.
  rewrite ff_add_assign_correct, ff_sub_assign_correct by (change two63 with (2 ^ 63); lia).
  repeat split.
Qed.
Print Assumptions C05_increment_returned_values.

(** C06. Decimal strings of any length. *)
Theorem C06_decimal_string_constructor : forall p str repl,
  1 < p < 2 ^ 63 -> str <> EmptyString -> all_digits str ->
  (forall v, ~ In (str, v) repl) ->
  ff_ctor_string p str repl = Ret (decimal_value str mod p).
Proof.
  intros p str repl Hp Hne Hd Hr. apply ff_ctor_string_digits; try assumption.
  induction repl as [|[s v] r IH]; [reflexivity|]. cbn [find_replacement].
  destruct (String.eqb s str) eqn:E.
  - apply String.eqb_eq in E. subst s. exfalso. apply (Hr v). left; reflexivity.
  - apply IH. intros v' Hv'. apply (Hr v'). right; exact Hv'.
Qed.
Print Assumptions C06_decimal_string_constructor.

Theorem C06_other_strings_rejected : forall p c0 str repl,
  (forall v, ~ In (String c0 str, v) repl) -> is_space c0 = false -> c0 <> "+"%char ->
  ~ all_digits (String c0 str) ->
  ff_ctor_string p (String c0 str) repl = Throw.
Proof.
  intros p c0 str repl Hr. apply ff_ctor_string_reject.
  induction repl as [|[s v] r IH]; [reflexivity|]. cbn [find_replacement].
  destruct (String.eqb s (String c0 str)) eqn:E.
  - apply String.eqb_eq in E. subst s. exfalso. apply (Hr v). left; reflexivity.
  - apply IH. intros v' Hv'. apply (Hr v'). right; exact Hv'.
Qed.
Print Assumptions C06_other_strings_rejected.

(** A leading blank defeats the sign test: the string " -5" is accepted and means 2^64 - 5. *)
Theorem C06_blank_minus_refuted : exists p n, ff_ctor_string p " -5" [] = Ret n /\ n <> (-5) mod p.
Proof.
  exists 9223372036854775783, 45. vm_compute. split; [reflexivity|discriminate].
Qed.
Print Assumptions C06_blank_minus_refuted.

Example C06_hypotheses_met : exists n,
  ff_ctor_string 9223372036854775783 "123456789012345678901234567890123456789012345678901234567890" [] = Ret n
  /\ n = 123456789012345678901234567890123456789012345678901234567890 mod 9223372036854775783.
Proof. eexists. split; vm_compute; reflexivity. Qed.

(** Property theorems C08-C11 and C40: Chinese remainder, rational reconstruction, RationalNumber. *)
From Coq Require Import Znumtheory QArith.
From Verif Require Import Machine NumTheory RatNum RatNumProofs Modular ModularProofs MqrrProofs.
Open Scope Z_scope.

(** C08 *)
Theorem C08_chinese_remainder : forall a1 m1 a2 m2 : Z,
  0 < m1 -> 0 < m2 -> Z.gcd m1 m2 = 1 -> 0 <= a1 -> 0 <= a2 ->
  exists a, run_chinese_remainder (a1, m1) (a2, m2) = Some (a, m1 * m2) /\
    0 <= a < m1 * m2 /\ a mod m1 = a1 mod m1 /\ a mod m2 = a2 mod m2.
Proof. exact crt_spec. Qed.
Print Assumptions C08_chinese_remainder.

Theorem C08_chinese_remainder_unique : forall m1 m2 x y : Z,
  0 < m1 -> 0 < m2 -> Z.gcd m1 m2 = 1 -> 0 <= x < m1 * m2 -> 0 <= y < m1 * m2 ->
  x mod m1 = y mod m1 -> x mod m2 = y mod m2 -> x = y.
Proof. exact crt_unique. Qed.
Print Assumptions C08_chinese_remainder_unique.

Example C08_hypotheses_met :
  Z.gcd (9223372036854775783 * 9223372036854775643) 9223372036854775549 = 1 /\
  run_chinese_remainder (5, 9223372036854775783) (7, 9223372036854775643) <> None.
Proof. vm_compute. split; [reflexivity|discriminate]. Qed.

(** For a negative first residue the result can be negative (outside [0, m1*m2)). *)
Theorem C08_negative_residue_refuted : exists a1 m1 a2 m2 a n,
  Z.gcd m1 m2 = 1 /\ 0 < m1 /\ 0 < m2 /\
  run_chinese_remainder (a1, m1) (a2, m2) = Some (a, n) /\ a < 0.
Proof. exists (-1), 3, 0, 5, (-10), 15. vm_compute. repeat split. Qed.
Print Assumptions C08_negative_residue_refuted.

(** C09 *)
Theorem C09_rational_reconstruction_sound : forall a p r, 0 <= a < p ->
  get_rational_coef a p = Some (true, r) ->
  0 < den r /\ Z.gcd (num r) (den r) = 1 /\ (num r - a * den r) mod p = 0 /\
  2 * (num r * num r) <= p /\ 2 * (den r * den r) <= p.
Proof. exact get_rational_coef_sound. Qed.
Print Assumptions C09_rational_reconstruction_sound.

Theorem C09_rational_reconstruction_complete : forall a p n d, 2 < p -> 0 <= a < p ->
  0 < d -> Z.gcd n d = 1 -> 2 * (n * n) <= p -> 2 * (d * d) <= p -> (n - a * d) mod p = 0 ->
  get_rational_coef a p = Some (true, mk_rn n d).
Proof. exact get_rational_coef_complete. Qed.
Print Assumptions C09_rational_reconstruction_complete.

Theorem C09_rational_reconstruction_total : forall a p, 0 <= a < p ->
  exists b r, get_rational_coef a p = Some (b, r).
Proof. exact get_rational_coef_total. Qed.
Print Assumptions C09_rational_reconstruction_total.

(** Uniqueness of the answer, as a statement about fractions only. *)
Theorem C09_reconstructed_fraction_unique : forall a p n d n' d', 2 < p -> 0 <= a < p ->
  0 < d -> Z.gcd n d = 1 -> 2 * (n * n) <= p -> 2 * (d * d) <= p -> (n - a * d) mod p = 0 ->
  0 < d' -> Z.gcd n' d' = 1 -> 2 * (n' * n') <= p -> 2 * (d' * d') <= p -> (n' - a * d') mod p = 0 ->
  n = n' /\ d = d'.
Proof.
  intros a p n d n' d' Hp Ha H1 H2 H3 H4 H5 H1' H2' H3' H4' H5'.
  pose proof (get_rational_coef_complete a p n d Hp Ha H1 H2 H3 H4 H5) as E.
  pose proof (get_rational_coef_complete a p n' d' Hp Ha H1' H2' H3' H4' H5') as E'.
  rewrite E in E'. inversion E'. split; reflexivity.
Qed.
Print Assumptions C09_reconstructed_fraction_unique.

Example C09_hypotheses_met : (* -22/7 modulo 9223372036854775783 *)
  let p := 9223372036854775783 in let a := 2635249153387078792 in
  2 < p /\ 0 <= a < p /\ Z.gcd (-22) 7 = 1 /\ 2 * (-22 * -22) <= p /\ 2 * (7 * 7) <= p /\
  (-22 - a * 7) mod p = 0 /\ get_rational_coef a p = Some (true, mk_rn (-22) 7).
Proof. vm_compute. repeat split; discriminate. Qed.

(** C10 *)
Theorem C10_mqrr_sound : forall u p r, 0 <= u < p ->
  get_rational_coef_mqrr u p = Some (true, r) ->
  0 < den r /\ Z.gcd (num r) (den r) = 1 /\ (num r - u * den r) mod p = 0 /\
  Z.abs (num r) * den r * (1024 * (Z.log2 p + 1)) < p.
Proof. exact mqrr_sound. Qed.
Print Assumptions C10_mqrr_sound.

Theorem C10_mqrr_complete : forall u p n d, 0 <= u < p -> n <> 0 -> 0 < d ->
  Z.gcd n d = 1 -> (n - u * d) mod p = 0 ->
  Z.abs n * d * (Z.max (1024 * (Z.log2 p + 1)) (Z.max (Z.abs n) d) + 2) <= p ->
  get_rational_coef_mqrr u p = Some (true, mk_rn n d).
Proof. exact mqrr_complete. Qed.
Print Assumptions C10_mqrr_complete.

Theorem C10_mqrr_zero : forall p, 1024 * (Z.log2 p + 1) < p ->
  get_rational_coef_mqrr 0 p = Some (true, mk_rn 0 1).
Proof.
  intros p H. unfold get_rational_coef_mqrr. rewrite Z.eqb_refl.
  unfold mqrr_threshold, sizeinbase2. destruct (1024 * (Z.log2 p + 1) <? p) eqn:C; [reflexivity|lia].
Qed.
Print Assumptions C10_mqrr_zero.

Theorem C10_mqrr_total : forall u p, 0 <= u < p -> exists b r, get_rational_coef_mqrr u p = Some (b, r).
Proof. exact mqrr_total. Qed.
Print Assumptions C10_mqrr_total.

Example C10_hypotheses_met :
  let p := 9223372036854775783 in
  Z.abs (-22) * 7 * (Z.max (1024 * (Z.log2 p + 1)) (Z.max (Z.abs (-22)) 7) + 2) <= p /\
  get_rational_coef_mqrr 2635249153387078792 p = Some (true, mk_rn (-22) 7).
Proof. vm_compute. split; [discriminate|reflexivity]. Qed.

(** C11 *)
Theorem C11_constructor : forall n d, d <> 0 -> exists r, rn_make n d = Some r /\
  (0 < den r /\ Z.gcd (num r) (den r) = 1) /\
  (Qmake (num r) (Z.to_pos (den r)) == inject_Z n / inject_Z d)%Q.
Proof. exact rn_make_val. Qed.
Print Assumptions C11_constructor.

Theorem C11_operators_exact_on_every_history : forall os a,
  (0 < den a /\ Z.gcd (num a) (den a) = 1) -> Forall op_wf os ->
  exists r, rn_run a os = Some r /\ (0 < den r /\ Z.gcd (num r) (den r) = 1) /\
    (Qmake (num r) (Z.to_pos (den r)) == fold_left op_val os (Qmake (num a) (Z.to_pos (den a))))%Q.
Proof. exact rn_run_ok. Qed.
Print Assumptions C11_operators_exact_on_every_history.

Theorem C11_equality_is_value_equality : forall a b,
  (0 < den a /\ Z.gcd (num a) (den a) = 1) -> (0 < den b /\ Z.gcd (num b) (den b) = 1) ->
  rn_eqb a b = true <-> (Qmake (num a) (Z.to_pos (den a)) == Qmake (num b) (Z.to_pos (den b)))%Q.
Proof. exact rn_eqb_ok. Qed.
Print Assumptions C11_equality_is_value_equality.

Theorem C11_gcd_of_rationals : forall a b, rn_wf a -> rn_wf b -> (num a <> 0 \/ num b <> 0) ->
  exists r x y, rn_gcd a b = Some r /\ rn_wf r /\ 0 < num r /\
   (rn_val a == inject_Z x * rn_val r)%Q /\ (rn_val b == inject_Z y * rn_val r)%Q /\ Z.gcd x y = 1.
Proof. exact rn_gcd_ok. Qed.
Print Assumptions C11_gcd_of_rationals.

(** Zero denominators: 0/0 divides by zero, n/0 with n <> 0 is silently stored, and
    arithmetic with a default-constructed number divides by zero. *)
Theorem C11_zero_denominator_refuted :
  rn_make 0 0 = None /\ (exists r, rn_make 5 0 = Some r /\ den r = 0) /\
  rn_add_assign rn_default (mk_rn 1 2) = None /\ rn_mul_assign rn_default (mk_rn 1 2) = None.
Proof. vm_compute. repeat split. eauto. Qed.
Print Assumptions C11_zero_denominator_refuted.

(** operator* changes its left operand. *)
Theorem C11_binary_multiplication_modifies_operand_refuted : exists a b r a',
  rn_wf a /\ rn_wf b /\ rn_mul a b = Some (r, a') /\ a' <> a.
Proof.
  exists (mk_rn 1 2), (mk_rn 1 3), (mk_rn 1 6), (mk_rn 1 6). unfold rn_wf.
  vm_compute. repeat split; discriminate.
Qed.
Print Assumptions C11_binary_multiplication_modifies_operand_refuted.

Example C11_hypotheses_met :
  rn_run (mk_rn 1 2) [OpAdd (mk_rn (-2) 3); OpMul (mk_rn 6 5); OpSub (mk_rn (-1) 5); OpNeg] = Some (mk_rn 0 1).
Proof. reflexivity. Qed.

(** C40 *)
Theorem C40_rational_number_recovered_from_several_primes : forall n d m0 l images,
  0 < d -> Z.gcd n d = 1 ->
  Forall (fun m => 0 < m) (m0 :: l) -> ForallOrdPairs (fun m m' => Z.gcd m m' = 1) (m0 :: l) ->
  (forall m, In m (m0 :: l) -> Z.gcd d m = 1) ->
  2 < zprod (m0 :: l) -> 2 * (n * n) <= zprod (m0 :: l) -> 2 * (d * d) <= zprod (m0 :: l) ->
  (forall m, In m (m0 :: l) -> 0 <= images m < m /\ (images m * d) mod m = n mod m) ->
  exists a, crt_fold (images m0, m0) (map (fun m => (images m, m)) l) = Some (a, zprod (m0 :: l)) /\
    get_rational_coef a (zprod (m0 :: l)) = Some (true, mk_rn n d).
Proof. exact multi_prime_reconstruction. Qed.
Print Assumptions C40_rational_number_recovered_from_several_primes.

Example C40_hypotheses_met : (* 5/3 from its images modulo 7, 11, 13 *)
  crt_fold (4, 7) [(9, 11); (6, 13)] = Some (669, 1001) /\
  get_rational_coef 669 1001 = Some (true, mk_rn 5 3).
Proof. vm_compute. split; reflexivity. Qed.

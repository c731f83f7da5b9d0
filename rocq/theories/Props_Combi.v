(** Property theorems C12-C15: comparators, shift enumeration, bunch sizes. *)
From Coq Require Import Permutation Sorted.
From Verif Require Import Machine Combi CombiProofs CombiProofs2.
Open Scope Z_scope.

(** C12. [colex_gt a b]: at the last position where a and b differ a is larger;
    [lex_lt a b]: at the first position where they differ a is smaller (both in CombiProofs.v). *)
Theorem C12_a_grt_b_is_colexicographic : forall a b, length a = length b ->
  exists r, a_grt_b a b = Some r /\
   (r = true <-> exists i, (i < length a)%nat /\ nth i b 0 < nth i a 0 /\
                   forall j, (i < j < length a)%nat -> nth j a 0 = nth j b 0).
Proof. exact a_grt_b_spec. Qed.
Print Assumptions C12_a_grt_b_is_colexicographic.

Theorem C12_a_grt_b_strict_total_order :
  (forall a, a_grt_b a a = Some false) /\
  (forall a b c, length a = length b -> length b = length c ->
     a_grt_b a b = Some true -> a_grt_b b c = Some true -> a_grt_b a c = Some true) /\
  (forall a b, length a = length b -> a <> b ->
     (a_grt_b a b = Some true /\ a_grt_b b a = Some false) \/ (a_grt_b a b = Some false /\ a_grt_b b a = Some true)).
Proof.
  split; [|split].
  - intros a. destruct (a_grt_b_spec a a eq_refl) as [r [E H]]. rewrite E. destruct r; [|reflexivity].
    destruct (colex_irrefl a). apply H. reflexivity.
  - intros a b c H1 H2 A B.
    destruct (a_grt_b_spec a b H1) as [r1 [E1 S1]]. destruct (a_grt_b_spec b c H2) as [r2 [E2 S2]].
    destruct (a_grt_b_spec a c ltac:(lia)) as [r3 [E3 S3]]. rewrite E1 in A. rewrite E2 in B.
    injection A as ->. injection B as ->. rewrite E3. f_equal. apply S3.
    apply (colex_trans a b c H1 H2); [apply S1|apply S2]; reflexivity.
  - intros a b H Hne. destruct (a_grt_b_spec a b H) as [r1 [E1 S1]].
    destruct (a_grt_b_spec b a (eq_sym H)) as [r2 [E2 S2]]. rewrite E1, E2.
    destruct (colex_total a b H) as [D|[D|D]]; [left|right|contradiction].
    + assert (r1 = true) by (apply S1; exact D). subst r1. split; [reflexivity|]. destruct r2; [|reflexivity].
      exfalso. apply (colex_irrefl a). apply (colex_trans a b a H (eq_sym H)); [exact D|apply S2; reflexivity].
    + assert (r2 = true) by (apply S2; exact D). subst r2. split; [|reflexivity]. destruct r1; [|reflexivity].
      exfalso. apply (colex_irrefl a). apply (colex_trans a b a H (eq_sym H)); [apply S1; reflexivity|exact D].
Qed.
Print Assumptions C12_a_grt_b_strict_total_order.

Theorem C12_a_eq_b_is_equality : forall a b, length a = length b ->
  exists r, a_eq_b a b = Some r /\ (r = true <-> a = b).
Proof. exact a_eq_b_spec. Qed.
Print Assumptions C12_a_eq_b_is_equality.

Theorem C12_a_grt_b_s_strict_total_order :
  (forall a, a_grt_b_s a a = Some false) /\
  (forall a b c, length a = length b -> length b = length c ->
     a_grt_b_s a b = Some true -> a_grt_b_s b c = Some true -> a_grt_b_s a c = Some true) /\
  (forall a b, length a = length b -> a <> b ->
     (a_grt_b_s a b = Some true /\ a_grt_b_s b a = Some false) \/ (a_grt_b_s a b = Some false /\ a_grt_b_s b a = Some true)).
Proof.
  split; [|split].
  - intros a. destruct (a_grt_b_s_spec a a eq_refl) as [r [E H]]. rewrite E. destruct r; [|reflexivity].
    destruct (graded_irrefl a). apply H. reflexivity.
  - intros a b c H1 H2 A B.
    destruct (a_grt_b_s_spec a b H1) as [r1 [E1 S1]]. destruct (a_grt_b_s_spec b c H2) as [r2 [E2 S2]].
    destruct (a_grt_b_s_spec a c ltac:(lia)) as [r3 [E3 S3]]. rewrite E1 in A. rewrite E2 in B.
    injection A as ->. injection B as ->. rewrite E3. f_equal. apply S3.
    apply (graded_trans a b c H1 H2); [apply S1|apply S2]; reflexivity.
  - intros a b H Hne. destruct (a_grt_b_s_spec a b H) as [r1 [E1 S1]].
    destruct (a_grt_b_s_spec b a (eq_sym H)) as [r2 [E2 S2]]. rewrite E1, E2.
    destruct (graded_total a b H) as [D|[D|D]]; [left|right|contradiction].
    + assert (r1 = true) by (apply S1; exact D). subst r1. split; [reflexivity|]. destruct r2; [|reflexivity].
      exfalso. apply (graded_irrefl a). apply (graded_trans a b a H (eq_sym H)); [exact D|apply S2; reflexivity].
    + assert (r2 = true) by (apply S2; exact D). subst r2. split; [|reflexivity]. destruct r1; [|reflexivity].
      exfalso. apply (graded_irrefl a). apply (graded_trans a b a H (eq_sym H)); [apply S1; reflexivity|exact D].
Qed.
Print Assumptions C12_a_grt_b_s_strict_total_order.

(** Degree first, as long as the total degrees fit in uint32_t. *)
Theorem C12_a_grt_b_s_degree_first : forall a b, length a = length b ->
  0 <= fold_right Z.add 0 a < two32 -> 0 <= fold_right Z.add 0 b < two32 ->
  exists r, a_grt_b_s a b = Some r /\
   (r = true <-> fold_right Z.add 0 b < fold_right Z.add 0 a \/
                 (fold_right Z.add 0 a = fold_right Z.add 0 b /\ colex_gt b a)).
Proof.
  intros a b H Ha Hb. destruct (a_grt_b_s_spec a b H) as [r [E S]]. exists r. split; [exact E|].
  rewrite S. unfold graded_gt. rewrite !deg32_small by assumption. reflexivity.
Qed.
Print Assumptions C12_a_grt_b_s_degree_first.

Theorem C12_monomial_orders :
  (forall a b, length a = length b -> exists r, monomial_lt a b = Some r /\
     (r = true <-> deg32 a < deg32 b \/ (deg32 a = deg32 b /\ lex_lt b a))) /\
  (forall a b, length a = length b -> monomial_gt a b = monomial_lt b a) /\
  (forall a, monomial_lt a a = Some false) /\
  (forall a b c, length a = length b -> length b = length c ->
     monomial_lt a b = Some true -> monomial_lt b c = Some true -> monomial_lt a c = Some true) /\
  (forall a b, length a = length b -> a <> b -> monomial_lt a b = Some true \/ monomial_lt b a = Some true).
Proof.
  split; [exact monomial_lt_spec|]. split; [exact monomial_gt_lt|]. split; [|split].
  - intros a. destruct (monomial_lt_spec a a eq_refl) as [r [E H]]. rewrite E. destruct r; [|reflexivity].
    destruct (mono_irrefl a). apply H. reflexivity.
  - intros a b c H1 H2 A B.
    destruct (monomial_lt_spec a b H1) as [r1 [E1 S1]]. destruct (monomial_lt_spec b c H2) as [r2 [E2 S2]].
    destruct (monomial_lt_spec a c ltac:(lia)) as [r3 [E3 S3]]. rewrite E1 in A. rewrite E2 in B.
    injection A as ->. injection B as ->. rewrite E3. f_equal. apply S3.
    apply (mono_trans a b c H1 H2); [apply S1|apply S2]; reflexivity.
  - intros a b H Hne. destruct (monomial_lt_spec a b H) as [r1 [E1 S1]].
    destruct (monomial_lt_spec b a (eq_sym H)) as [r2 [E2 S2]]. rewrite E1, E2.
    destruct (mono_total a b H) as [D|[D|D]]; [left; f_equal; apply S1; exact D|right; f_equal; apply S2; exact D|contradiction].
Qed.
Print Assumptions C12_monomial_orders.

Example C12_hypotheses_met : a_grt_b [1; 2; 3] [5; 2; 1] = Some true /\ a_grt_b_s [1; 2; 3] [5; 2; 1] = Some false /\
  monomial_lt [0; 0; 1] [0; 1; 0] = Some false /\ monomial_lt [0; 1; 0] [0; 0; 1] = Some true.
Proof. vm_compute. repeat split. Qed.

(** C13 *)
Theorem C13_enumerates_every_tuple_once : forall n f, (2 ^ n <= f)%nat ->
  let visited := visit f (repeat 0 n) in
  NoDup visited /\ length visited = (2 ^ n)%nat /\
  forall t, In t visited <-> length t = n /\ Forall (fun x => x = 0 \/ x = 1) t.
Proof. exact visit_all. Qed.
Print Assumptions C13_enumerates_every_tuple_once.

Theorem C13_order_of_enumeration : forall n f, (2 ^ n <= f)%nat ->
  StronglySorted (fun a b => (num_of_ones a < num_of_ones b)%nat \/ (num_of_ones a = num_of_ones b /\ lex_lt a b))
    (visit f (repeat 0 n)) /\ last (visit f (repeat 0 n)) [] = repeat 1 n.
Proof. exact visit_sorted. Qed.
Print Assumptions C13_order_of_enumeration.

Theorem C13_stops_exactly_at_all_ones : forall t, Forall (fun x => x = 0 \/ x = 1) t ->
  (fst (generate_next_permutation t) = false <-> t = repeat 1 (length t)).
Proof. exact gnp_false_iff. Qed.
Print Assumptions C13_stops_exactly_at_all_ones.

Example C13_hypotheses_met : visit 8 [0; 0; 0] =
  [[0;0;0]; [0;0;1]; [0;1;0]; [1;0;0]; [0;1;1]; [1;0;1]; [1;1;0]; [1;1;1]].
Proof. reflexivity. Qed.

(** C14 *)
Theorem C14_all_shifts_listed_once_sorted : forall r, (1 <= r <= 32)%nat ->
  exists l, generate_possible_shifts r = Ret l /\ NoDup l /\
    (forall t, In t l <-> length t = r /\ Forall (fun x => x = 0 \/ x = 1) t /\ t <> repeat 1 r) /\
    StronglySorted (fun a b => (num_of_ones a < num_of_ones b)%nat \/ (num_of_ones a = num_of_ones b /\ colex_gt a b)) l /\
    (* whatever (correct) sorting algorithm is used, the result is this list *)
    (forall l', Permutation l l' ->
       StronglySorted (fun a b => (num_of_ones a < num_of_ones b)%nat \/ (num_of_ones a = num_of_ones b /\ colex_gt a b)) l' ->
       l' = l).
Proof. exact generate_possible_shifts_ok. Qed.
Print Assumptions C14_all_shifts_listed_once_sorted.

(** More than 32 variables: the uint32_t counter never reaches size-1 (endless loop), from 64 on the
    reservation throws. *)
Theorem C14_more_than_32_variables_refuted : forall r, (32 < r)%nat -> Z.of_nat r < two32 ->
  generate_possible_shifts r = if (r <? 64)%nat then Diverge else Throw.
Proof. exact generate_possible_shifts_big. Qed.
Print Assumptions C14_more_than_32_variables_refuted.

Example C14_hypotheses_met : generate_possible_shifts 3 =
  Ret [[0;0;0]; [0;0;1]; [0;1;0]; [1;0;0]; [0;1;1]; [1;0;1]; [1;1;0]].
Proof. vm_compute. reflexivity. Qed.

(** C15 *)
Theorem C15_bunch_size_bounds : forall q thr mx,
  0 <= q < two32 -> 1 <= thr < two32 -> 1 <= mx < two32 -> q / thr < two31 ->
  exists b, compute_bunch_size q thr mx = Some b /\ 1 <= b <= mx /\ (1 <= q -> b <= q) /\
    (b = mx \/ exists k, 0 <= k /\ b = 2 ^ k) /\
    (b < mx -> 2 <= thr -> q <= b * thr).
Proof. exact compute_bunch_size_ok. Qed.
Print Assumptions C15_bunch_size_bounds.

Theorem C15_job_number_bounds : forall q th total mx,
  1 <= q < two32 -> 0 <= th < two32 -> 1 <= total < two32 -> 1 <= mx < two32 -> q / total < two31 ->
  exists n, compute_job_number q th total mx = Some n /\ 0 <= n <= q /\ (n = q \/ th <= n) /\ n <= th * mx.
Proof. exact compute_job_number_ok. Qed.
Print Assumptions C15_job_number_bounds.

(** An empty queue makes compute_job_number underflow; 2^31 queued probes per thread give bunch size 0. *)
Theorem C15_empty_queue_refuted : exists th total mx n, 1 <= th /\ 1 <= total /\ 1 <= mx /\
  compute_job_number 0 th total mx = Some n /\ 0 < n.
Proof. exists 3, 4, 8, 17. vm_compute. repeat split; discriminate. Qed.
Print Assumptions C15_empty_queue_refuted.

Theorem C15_huge_queue_refuted : exists q mx, two31 <= q < two32 /\ 1 <= mx /\ compute_bunch_size q 1 mx = Some 0.
Proof. exists 2147483648, 8. vm_compute. repeat split; discriminate. Qed.
Print Assumptions C15_huge_queue_refuted.

Example C15_hypotheses_met : compute_bunch_size 100 4 128 = Some 32 /\ compute_job_number 100 4 4 128 = Some 88.
Proof. vm_compute. split; reflexivity. Qed.

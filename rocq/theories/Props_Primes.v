(** Property theorems C36: the built-in primes. *)
From Coq Require Import ZArith Znumtheory List Lia Bool Sorting.Sorted.
From Verif Require Import Machine FFInt FFIntProofs NumTheory RatNum Modular ModularProofs Spec Primes PrimeCheck Props_Modular.
Import ListNotations.
Open Scope Z_scope.

Theorem C36_every_entry_is_prime : forall p, In p primes -> prime p.
Proof. exact (proj1 (Forall_forall _ _) primes_prime). Qed.
Print Assumptions C36_every_entry_is_prime.

Fixpoint decreasing (l : list Z) : bool := match l with x :: (y :: _) as r => (y <? x) && decreasing r | _ => true end.
Lemma decreasing_sorted l : decreasing l = true -> StronglySorted (fun x y => y < x) l.
Proof.
  intros H. apply Sorted_StronglySorted; [intros x y z; lia|]. induction l as [|x l IH]; [constructor|]. cbn [decreasing] in H. destruct l as [|y l]; [repeat constructor|].
  apply andb_prop in H as [H1 H2]. apply Z.ltb_lt in H1. constructor; [apply IH; exact H2|constructor; exact H1].
Qed.
Theorem C36_three_hundred_strictly_decreasing : length primes = 300%nat /\ StronglySorted (fun x y => y < x) primes.
Proof. split; [reflexivity|]. apply decreasing_sorted. vm_compute. reflexivity. Qed.
Print Assumptions C36_three_hundred_strictly_decreasing.

Theorem C36_every_entry_fits_63_bits : forall p, In p primes -> 2 ^ 62 < p < 2 ^ 63.
Proof.
  assert (F : forallb (fun p => (2 ^ 62 <? p) && (p <? 2 ^ 63)) primes = true) by (vm_compute; reflexivity).
  intros p Hp. rewrite forallb_forall in F. specialize (F p Hp). apply andb_prop in F as [A B]. apply Z.ltb_lt in A, B. exact (conj A B).
Qed.
Print Assumptions C36_every_entry_fits_63_bits.

(** no larger prime below 2^63 is missing *)
Theorem C36_the_largest_63_bit_primes : forall n, prime n -> n < 2 ^ 63 -> In n primes \/ (forall p, In p primes -> n < p).
Proof.
  intros n Pn Hn. destruct (Z.lt_ge_cases n 9223372036854762011) as [L|L]; [right|left; apply primes_complete; [exact Pn|lia]].
  assert (F : forallb (fun p => 9223372036854762011 <=? p) primes = true) by (vm_compute; reflexivity).
  intros p Hp. rewrite forallb_forall in F. specialize (F p Hp). apply Z.leb_le in F. lia.
Qed.
Print Assumptions C36_the_largest_63_bit_primes.

(** Consequence: whichever entry set_new_prime is called with, division by every non-zero element is exact. *)
Theorem C36_field_for_every_entry : forall i p a b, nth_error primes i = Some p -> 0 <= a < p -> 0 < b < p ->
  0 <= ff_div p a b < p /\ (ff_div p a b * b) mod p = a.
Proof.
  intros i p a b H Ha Hb. apply nth_error_In in H. apply ff_div_correct; [apply C36_every_entry_is_prime; exact H|apply C36_every_entry_fits_63_bits; exact H|exact Ha|exact Hb].
Qed.
Print Assumptions C36_field_for_every_entry.

Lemma sorted_coprime l : StronglySorted (fun x y => y < x) l -> (forall p, In p l -> prime p) -> ForallOrdPairs (fun m m' => Z.gcd m m' = 1) l.
Proof.
  induction 1 as [|x l S IH F]; intros P; constructor; [|apply IH; intros p Hp; apply P; right; exact Hp].
  rewrite Forall_forall in *. intros y Hy. apply Zgcd_1_rel_prime. apply prime_rel_prime; [apply P; left; reflexivity|]. intros D.
  assert (E : x = y) by (apply prime_div_prime; [apply P; left; reflexivity|apply P; right; exact Hy|exact D]). specialize (F y Hy). lia.
Qed.
Lemma firstn_sorted {A} (R : A -> A -> Prop) k l : StronglySorted R l -> StronglySorted R (firstn k l).
Proof.
  intros S. revert k. induction S as [|x l S IH F]; intros [|k]; cbn; constructor; [apply IH|]. rewrite Forall_forall in *. intros y Hy. apply F.
  clear -Hy. revert k Hy. induction l as [|z l IH]; intros [|k] Hy; cbn in Hy; try contradiction. destruct Hy as [->|Hy]; [left; reflexivity|right; apply (IH k); exact Hy].
Qed.
(** Consequence: a rational number is recovered from its images modulo the first k entries as soon as their product is large enough. *)
Theorem C36_rational_number_recovered_from_the_first_primes : forall k n d images, (0 < k)%nat ->
  let ms := firstn k primes in
  0 < d -> Z.gcd n d = 1 -> (forall m, In m ms -> ~ (m | d)) -> 2 * (n * n) <= zprod ms -> 2 * (d * d) <= zprod ms ->
  (forall m, In m ms -> 0 <= images m < m /\ (images m * d) mod m = n mod m) ->
  exists a, crt_fold (images (hd 0 ms), hd 0 ms) (map (fun m => (images m, m)) (tl ms)) = Some (a, zprod ms) /\
    get_rational_coef a (zprod ms) = Some (true, mk_rn n d).
Proof.
  intros k n d images Hk ms Hd G Nd Bn Bd Im. assert (I : forall m, In m ms -> In m primes). { intros m Hm. rewrite <- (firstn_skipn k primes). apply in_or_app. left. exact Hm. }
  assert (E : ms = hd 0 ms :: tl ms). { unfold ms. destruct k; [lia|]. reflexivity. }
  assert (S : StronglySorted (fun x y => y < x) ms) by (apply firstn_sorted; apply C36_three_hundred_strictly_decreasing).
  assert (Pm : forall m, In m ms -> prime m) by (intros m Hm; apply C36_every_entry_is_prime, I, Hm). clearbody ms.
  assert (P2 : 2 < zprod ms).
  { assert (Q : forall l, (forall m, In m l -> 2 < m) -> l <> [] -> 2 < zprod l).
    { induction l as [|x l IH]; intros H N; [elim (N eq_refl)|]. change (zprod (x :: l)) with (x * zprod l). pose proof (H x (or_introl eq_refl)).
      destruct l as [|y l]; [cbn; lia|]. assert (2 < zprod (y :: l)) by (apply IH; [intros m Hm; apply H; right; exact Hm|discriminate]). nia. }
    apply Q; [|rewrite E; discriminate]. intros m Hm. pose proof (C36_every_entry_fits_63_bits m (I m Hm)). lia. }
  pose proof (sorted_coprime ms S Pm) as CP. remember (hd 0 ms) as m0. remember (tl ms) as l. clear Heqm0 Heql. subst ms.
  apply C40_rational_number_recovered_from_several_primes; try assumption.
  - apply Forall_forall. intros m Hm. destruct (Pm m Hm). lia.
  - intros m Hm. rewrite Z.gcd_comm. apply Zgcd_1_rel_prime. apply prime_rel_prime; [apply Pm; exact Hm|apply Nd; exact Hm].
Qed.
Print Assumptions C36_rational_number_recovered_from_the_first_primes.

Example C36_hypotheses_met : In 9223372036854775507 primes /\ nth_error primes 299 = Some 9223372036854762011 /\
  crt_fold (hd 0 (map (fun m => ff_div m (m - 5) 3) (firstn 2 primes)), hd 0 primes) (map (fun m => (ff_div m (m - 5) 3, m)) (tl (firstn 2 primes)))
    = Some (28356863910078204704467654951844884488, 85070591730234614113402964855534653469) /\
  get_rational_coef 28356863910078204704467654951844884488 85070591730234614113402964855534653469 = Some (true, mk_rn (-5) 3).
Proof. split; [right; right; right; left; reflexivity|]. split; [reflexivity|]. split; vm_compute; reflexivity. Qed.

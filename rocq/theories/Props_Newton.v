(** Property theorems C24: univariate Newton interpolation of PolyReconst over every field satisfying the FFInt laws.
    The i-th probe is taken at the (i+1)-st power of the anchor point z. *)
From Coq Require Import Permutation.
From Verif Require Import Machine FField FSum LinAlg LinAlgProofs FPoly Vandermonde PolyFF PolySpec PolyFFProofs PolyFFProofs2 Thiele ThieleSpec ThieleProofs Newton NewtonProofs Props_LinAlg Props_PolyFF Props_Thiele.
Open Scope nat_scope.

(** the points at which the probes are taken *)
Definition anchor_power {K : fops} (z : K) (i : nat) : K := pw z (S i).
(** feeding the values f 0, ..., f (m-1) finishes the interpolation after [used] of them; the result has the coefficients [p] *)
Definition newton_run {K : fops} (ord : pmap K -> pmap K) (bound : option nat) (z : K) (f : nat -> K) (m used : nat) (p : pmap K) : Prop :=
  exists a, newton_feed bound z newton_init (map f (seq 0 m)) = Some (a, S used) /\ p = newton_canonical ord 1 z a.
Definition map_value {K : fops} (p : pmap K) (x : K) : K := poly_value 1 p (fun _ => x).

Section Helpers.
  Context {K : fops} (HK : flaws K).
  Add Field KF : (fl_field K HK).
  Lemma zero_term (a : K) : (f0 * a + f0)%K = f0. Proof. ring. Qed.
  Lemma sub_same (a : K) : (a - a)%K = f0. Proof. ring. Qed.
  Lemma quadratic_function (b : K) : polynomial_function 2 (fun x => fadd (fmul x x) (fmul b x)).
  Proof. exists (fun i => match i with O => f0 | 1 => b | _ => f1 end). intros x. unfold ueval. cbn. ring. Qed.
End Helpers.

Lemma newton_run_spec {K : fops} (HK : flaws K) ord (Ho : any_order ord) bound (z : K) f m used p :
  (Z.of_nat m < 2 ^ 32)%Z -> distinct m (anchor_power z) -> newton_run ord bound z f m used p ->
  0 < used <= m /\ poly_ok 1 p /\ (forall k, In k (map fst p) -> (nth 0 k 0 <= Z.of_nat (used - 1))%Z) /\
  polyfun used (map_value p) /\ (forall i, i < used -> map_value p (anchor_power z i) = f i).
Proof.
  intros H32 Hd [a [H ->]]. change (@newton_init K) with (sess z f 0) in H. apply (newton_feed_spec HK) in H; [|lia].
  destruct H as [k [Hk [Hj [[Hz Hs]|[Hz [Hb Hs]]]]]]; injection Hs as -> ->.
  - split; [lia|]. destruct (Nat.eq_dec k 0) as [->|N].
    + assert (V : forall x, map_value (newton_canonical ord 1 z (dlist z f 0)) x = f0).
      { intros x. unfold map_value. cbn. apply (zero_term HK). }
      split; [split; [cbn; constructor; [intros []|constructor]|constructor; [split; [reflexivity|repeat constructor; lia]|constructor]]|].
      split; [intros k [<-|[]]; cbn; lia|]. split.
      * apply (polyfun_ext 1 (fun _ => f0)); [intros x; symmetry; apply V|apply (polyfun_const HK)].
      * intros i Hi. replace i with 0 by lia. rewrite V. symmetry. exact Hz.
    + pose proof (newton_canonical_ok HK z f ord Ho k ltac:(lia) ltac:(lia) 1) as [_ [U2 [U3 U4]]]. cbn [pf_coefs] in *.
      assert (V : forall x, map_value (newton_canonical ord 1 z (dlist z f k)) x = tail z f 0 (k - 1) x) by (intros x; apply U4).
      split; [exact U2|]. split; [intros j Hj'; apply U3 in Hj'; lia|]. split.
      * apply (polyfun_ext _ (tail z f 0 (k - 1))); [intros x; symmetry; apply V|]. apply (polyfun_le HK (S (k - 1))); [lia|]. apply (tail_polyfun HK).
      * intros i Hi. rewrite V. change (anchor_power z i) with (ypt z i). destruct (Nat.eq_dec i k) as [->|Ni].
        -- apply (dd_zero HK); [|lia|exact Hz]. intros u v Hu Hv. apply Hd; lia.
        -- apply (tail_fed HK z f k); try lia. intros u v Hu Hv. apply Hd; lia.
  - split; [lia|]. pose proof (newton_canonical_ok HK z f ord Ho (S k) ltac:(lia) ltac:(lia) 1) as [_ [U2 [U3 U4]]]. cbn [pf_coefs] in *.
    assert (V : forall x, map_value (newton_canonical ord 1 z (dlist z f (S k))) x = tail z f 0 k x) by (intros x; unfold map_value; rewrite (U4 (fun _ => x)); replace (S k - 1) with k by lia; reflexivity).
    split; [exact U2|]. split; [exact U3|]. split.
    + apply (polyfun_ext _ (tail z f 0 k)); [intros x; symmetry; apply V|]. apply (tail_polyfun HK).
    + intros i Hi. rewrite V. apply (tail_fed HK z f (S k)); try lia. intros u v Hu Hv. apply Hd; lia.
Qed.

(** every value used is taken by the result, whose degree is below their number *)
Theorem C24_newton_takes_every_value : forall (K : fops), flaws K -> forall ord, any_order ord ->
  forall bound (z : K) f m used p, (Z.of_nat m < 2 ^ 32)%Z -> distinct m (anchor_power z) ->
  newton_run ord bound z f m used p ->
  0 < used <= m /\ poly_ok 1 p /\ (forall k, In k (map fst p) -> (nth 0 k 0 < Z.of_nat used)%Z) /\
  forall i, i < used -> map_value p (anchor_power z i) = f i.
Proof.
  intros K HK ord Ho bound z f m used p H32 Hd H. destruct (newton_run_spec HK ord Ho bound z f m used p H32 Hd H) as [H1 [H2 [H3 [_ H4]]]].
  split; [exact H1|]. split; [exact H2|]. split; [|exact H4]. intros k Hk. apply H3 in Hk. lia.
Qed.
Print Assumptions C24_newton_takes_every_value.

(** a black box that is a polynomial of degree at most d is recovered whenever at least d+1 values were used *)
Theorem C24_newton_recovers_the_polynomial : forall (K : fops), flaws K -> forall ord, any_order ord ->
  forall bound (z : K) (g : K -> K) d m used p, (Z.of_nat m < 2 ^ 32)%Z -> distinct m (anchor_power z) ->
  polynomial_function d g -> newton_run ord bound z (fun i => g (anchor_power z i)) m used p -> d < used ->
  forall x, map_value p x = g x.
Proof.
  intros K HK ord Ho bound z g d m used p H32 Hd Hg H Hu x.
  destruct (newton_run_spec HK ord Ho bound z _ m used p H32 Hd H) as [H1 [_ [_ [H3 H4]]]].
  apply (fsub_0 HK). apply (polyfun_zero HK used (fun x => fsub (map_value p x) (g x)) (anchor_power z)).
  - apply (polyfun_sub HK); [exact H3|]. apply (polyfun_le HK (S d)); [lia|exact Hg].
  - intros u v Hu' Hv. apply Hd; lia.
  - intros i Hi. rewrite H4 by exact Hi. apply (sub_same HK).
Qed.
Print Assumptions C24_newton_recovers_the_polynomial.

(** it finishes after at most d+2 probes (d+1 with the degree as bound) *)
Theorem C24_newton_terminates : forall (K : fops), flaws K -> forall ord, any_order ord ->
  forall (z : K) (g : K -> K) d, (Z.of_nat d + 2 < 2 ^ 32)%Z -> distinct (d + 2) (anchor_power z) -> polynomial_function d g ->
  (forall bound, exists used p, newton_run ord bound z (fun i => g (anchor_power z i)) (d + 2) used p) /\
  (exists used p, newton_run ord (Some d) z (fun i => g (anchor_power z i)) (d + 1) used p).
Proof.
  intros K HK ord Ho z g d H32 Hd Hg.
  assert (G : forall bound m, 0 < m -> (Z.of_nat m < 2 ^ 32)%Z ->
    ~ (forall j, 0 <= j < 0 + m -> dd z (fun i => g (anchor_power z i)) j j <> f0 /\ bound <> Some j) ->
    exists used p, newton_run ord bound z (fun i => g (anchor_power z i)) m used p).
  { intros bound m Hm H Hn. set (f := fun i => g (anchor_power z i)) in *.
    destruct (newton_feed bound z newton_init (map f (seq 0 m))) as [[a u]|] eqn:E.
    - pose proof E as E'. change (@newton_init K) with (sess z f 0) in E'. apply (newton_feed_spec HK) in E'; [|lia].
      destruct E' as [k [_ [_ [[_ Hs]|[_ [_ Hs]]]]]]; injection Hs as -> ->; (exists (S k) || exists k); eexists; eexists; (split; [exact E|reflexivity]).
    - exfalso. apply Hn. change (@newton_init K) with (sess z f 0) in E. apply (newton_feed_none HK z f bound m 0); [lia|exact E]. }
  split.
  - intros bound. apply G; [lia|lia|]. intros H. destruct (H (S d) ltac:(lia)) as [N _]. apply N. apply (dd_zero HK).
    + intros u v Hu Hv. apply Hd; lia.
    + lia.
    + apply (tail_of_poly HK z _ (S d) g); [intros u v Hu Hv; apply Hd; lia|lia|exact Hg|reflexivity].
  - apply G; [lia|lia|]. intros H. destruct (H d ltac:(lia)) as [_ N]. apply N. reflexivity.
Qed.
Print Assumptions C24_newton_terminates.

(** x^2 + 1 over F7 with anchor 3: points 3, 2, 6, 4; differences 3, 5, 1, 0 *)
Definition square_plus_1 (x : F7) : F7 := fadd (fmul x x) f1.
Definition newton7 (bound : option nat) (z : F7) (g : F7 -> F7) (m : nat) : option (nat * list (list Z * Z)) :=
  match newton_feed bound z newton_init (map (fun i => g (anchor_power z i)) (seq 0 m)) with
  | Some (a, u) => Some (u - 1, map (fun kc => (fst kc, v7 (snd kc))) (newton_canonical (fun m => m) 1 z a))
  | None => None
  end.
Example C24_hypotheses_met : newton7 None (z7 3) square_plus_1 4 = Some (4, [([0], 1); ([2], 1)]%Z).
Proof. vm_compute. reflexivity. Qed.
Example C24_points_distinct : distinct 4 (anchor_power (z7 3)).
Proof. intros [|[|[|[|i]]]] [|[|[|[|j]]]] Hi Hj E; try lia; apply (f_equal v7) in E; vm_compute in E; discriminate. Qed.

(** The interpolation ends at the first vanishing difference; a polynomial with an accidental zero there is not recovered:
    x^2 + 2x has the same value at 3 and 2. *)
Definition unlucky (x : F7) : F7 := fadd (fmul x x) (fmul (z7 2) x).
Theorem C24_early_termination_refuted : exists (K : fops) (z : K) (g : K -> K) m used p x, flaws K /\ distinct m (anchor_power z) /\
  polynomial_function 2 g /\ newton_run (fun m => m) None z (fun i => g (anchor_power z i)) m used p /\ map_value p x <> g x.
Proof.
  exists F7, (z7 3), unlucky, 4, 2.
  assert (E : exists a, newton_feed None (z7 3) newton_init (map (fun i => unlucky (anchor_power (z7 3) i)) (seq 0 4)) = Some (a, 3) /\ map v7 a = [1]%Z).
  { destruct (newton_feed None (z7 3) newton_init (map (fun i => unlucky (anchor_power (z7 3) i)) (seq 0 4))) as [[a u]|] eqn:E.
    - assert (C : option_map (fun s : list F7 * nat => (map v7 (fst s), snd s)) (Some (a, u)) = Some ([1]%Z, 3)) by (rewrite <- E; vm_compute; reflexivity).
      cbn in C. injection C as C1 C2. exists a. subst u. split; [reflexivity|exact C1].
    - assert (C : option_map snd (@None (list F7 * nat)) = Some 3) by (rewrite <- E; vm_compute; reflexivity). discriminate. }
  destruct E as [a [E1 E2]]. exists (newton_canonical (fun m => m) 1 (z7 3) a), f0. split; [exact F7_laws|]. split; [exact C24_points_distinct|]. split; [|split].
  - apply (quadratic_function F7_laws).
  - exists a. split; [exact E1|reflexivity].
  - assert (Ha : a = [f1]) by (clear E1; destruct a as [|a0 [|a1 a]]; [discriminate E2|injection E2 as E2; f_equal; apply v7_inj; exact E2|discriminate E2]).
    clear E1. rewrite Ha. intros E. apply (f_equal v7) in E. vm_compute in E. discriminate.
Qed.
Print Assumptions C24_early_termination_refuted.

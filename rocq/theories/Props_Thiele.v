(** Property theorems C23: Thiele interpolation (FFThieleInterpolator.cpp) over every field satisfying the FFInt laws and
    for every iteration order of the coefficient maps. *)
From Coq Require Import Permutation.
From Verif Require Import Machine FField FSum LinAlg LinAlgProofs FPoly Vandermonde PolyFF PolySpec PolyFFProofs PolyFFProofs2 Thiele ThieleSpec ThieleProofs Props_LinAlg Props_PolyFF.
Open Scope nat_scope.

(** n points were accepted without the interpolation being reported as finished *)
Definition accepted {K : fops} (y f : nat -> K) (n : nat) (s : thiele K) : Prop :=
  exists flags, feed_points thiele_init (point_list y f n) = Ret (flags, s) /\ Forall (fun b => b = false) flags.
(** the value of a returned polynomial in one variable *)
Definition value1 {K : fops} (a : polyff K) (x : K) : K := poly_value 1 (pf_coefs a) (fun _ => x).
(** a polynomial in one variable of degree at most d *)
Definition univariate {K : fops} (a : polyff K) (d : nat) : Prop :=
  pf_n a = 1 /\ poly_ok 1 (pf_coefs a) /\ forall k, In k (map fst (pf_coefs a)) -> (nth 0 k 0 <= Z.of_nat d)%Z.

(** the result is available after n accepted points, or after n accepted points and a final one that ended the interpolation *)
Definition finished_from {K : fops} (y f : nat -> K) (n : nat) (s s' : thiele K) : Prop :=
  accepted y f n s /\ (s' = s \/ add_point s (f n) (y n) = Ret (true, s')).

Lemma finished_result {K : fops} (HK : flaws K) ord (Ho : any_order ord) (y f : nat -> K) n s s' :
  0 < n -> (Z.of_nat n < 2 ^ 32)%Z -> finished_from y f n s s' ->
  exists num den, get_result ord s' = Ret (num, den) /\ uni num (n / 2) (P y f n 0) /\ uni den ((n - 1) / 2) (P y f n 1).
Proof.
  intros Hn H32 [[bs [H Hb]] Hs]. pose proof (feed_state HK y f n bs s H Hb) as E. subst s.
  assert (G : exists m, n - 1 <= m /\ s' = mk_thiele (alist y f n) (tlist y (S m))).
  { destruct Hs as [->|Hs].
    - exists (n - 1). split; [lia|]. replace (S (n - 1)) with n by lia. reflexivity.
    - rewrite (add_point_spec HK) in Hs. destruct (Nat.eqb_spec n 0); [lia|]. destruct (feqb _ _); [|discriminate]. injection Hs as <-.
      exists n. split; [lia|reflexivity]. }
  destruct G as [m [Hm ->]]. unfold get_result. cbn [th_t th_a].
  destruct (tlist y (S m)) as [|t0 tl] eqn:Et; [apply (f_equal (@length _)) in Et; rewrite tlist_len in Et; discriminate|].
  rewrite <- Et. clear Hs t0 tl Et. rewrite tlist_S, removelast_last.
  pose proof (canonical_ok HK y f ord Ho n Hn H32 m Hm) as C. destruct (thiele_canonical ord (alist y f n) (tlist y m)) as [num den]. cbn zeta in C. cbn [fst snd] in C.
  exists num, den. split; [reflexivity|exact C].
Qed.

(** every fed value is reproduced: num(y_i) = f_i * den(y_i); at the last accepted point the denominator does not vanish *)
Theorem C23_result_interpolates : forall (K : fops), flaws K -> forall ord, any_order ord ->
  forall (y f : nat -> K) n s s', 0 < n -> (Z.of_nat n < 2 ^ 32)%Z ->
  distinct n y -> no_breakdown y f n -> finished_from y f n s s' ->
  exists num den, get_result ord s' = Ret (num, den) /\ univariate num (n / 2) /\ univariate den ((n - 1) / 2) /\
    (forall i, i < n -> value1 num (y i) = fmul (f i) (value1 den (y i))) /\ value1 den (y (n - 1)) <> f0.
Proof.
  intros K HK ord Ho y f n s s' Hn H32 Hd Hb Hf. destruct (finished_result HK ord Ho y f n s s' Hn H32 Hf) as [num [den [H [A B]]]].
  exists num, den. split; [exact H|]. destruct A as [A1 [A2 [A3 A4]]], B as [B1 [B2 [B3 B4]]].
  split; [repeat split; assumption || apply A2|]. split; [repeat split; assumption || apply B2|]. unfold value1.
  split; [intros i Hi; rewrite A4, B4; apply (P_fed HK y f n Hn Hd Hb i Hi)|]. rewrite B4. apply (P_last HK y f n Hn Hd Hb).
Qed.
Print Assumptions C23_result_interpolates.

(** completeness: the result equals every rational function of matching degrees through the accepted points *)
Theorem C23_result_is_the_function : forall (K : fops), flaws K -> forall ord, any_order ord ->
  forall (y f : nat -> K) n s s', 0 < n -> (Z.of_nat n < 2 ^ 32)%Z ->
  distinct n y -> no_breakdown y f n -> finished_from y f n s s' ->
  forall (p q : K -> K), polynomial_function (n / 2) p -> polynomial_function ((n - 1) / 2) q ->
  (forall i, i < n -> fmul (f i) (q (y i)) = p (y i)) ->
  exists num den, get_result ord s' = Ret (num, den) /\
    (exists x, value1 den x <> f0) /\
    forall x, fmul (value1 num x) (q x) = fmul (p x) (value1 den x).
Proof.
  intros K HK ord Ho y f n s s' Hn H32 Hd Hb Hf p q Hp Hq Hi. destruct (finished_result HK ord Ho y f n s s' Hn H32 Hf) as [num [den [H [A B]]]].
  exists num, den. split; [exact H|]. destruct A as [_ [_ [_ A4]]], B as [_ [_ [_ B4]]]. unfold value1. split.
  - exists (y (n - 1)). rewrite B4. apply (P_last HK y f n Hn Hd Hb).
  - intros x. rewrite A4, B4. apply (P_complete HK y f n Hn Hd Hb p q Hp Hq Hi).
Qed.
Print Assumptions C23_result_is_the_function.

(** the termination test: the next point ends the interpolation exactly if the continued fraction through the accepted
    points predicts its value; the call never fails while the interpolation is not finished *)
Theorem C23_termination_test : forall (K : fops), flaws K ->
  forall (y f : nat -> K) n s, 0 < n -> accepted y f n s ->
  exists b s', add_point s (f n) (y n) = Ret (b, s') /\ (b = true <-> continued_fraction y f 0 (n - 1) (y n) = f n).
Proof.
  intros K HK y f n s Hn [bs [H Hb]]. pose proof (feed_state HK y f n bs s H Hb) as E. subst s. rewrite (add_point_spec HK).
  destruct (Nat.eqb_spec n 0); [lia|]. destruct (feqb (f n) _) eqn:E.
  - exists true. eexists. split; [reflexivity|]. apply (fl_eqb K HK) in E. split; [intros _; symmetry; exact E|reflexivity].
  - exists false. eexists. split; [reflexivity|]. apply (feqb_neq HK) in E. split; [discriminate|intros E'; congruence].
Qed.
Print Assumptions C23_termination_test.

(** the prediction is right at every accepted point *)
Theorem C23_prediction_reproduces_fed_values : forall (K : fops), flaws K ->
  forall (y f : nat -> K) n, 0 < n -> distinct n y -> no_breakdown y f n ->
  forall i, i < n -> continued_fraction y f 0 (n - 1) (y i) = f i.
Proof.
  intros K HK y f n Hn Hd Hb i Hi. pose proof (cf_fed HK y f n Hn Hd Hb i i Hi (le_n i) (n - 1 - i)) as E.
  rewrite Nat.sub_diag in E. replace (i + (n - 1 - i)) with (n - 1) in E by lia. exact E.
Qed.
Print Assumptions C23_prediction_reproduces_fed_values.

(** when the interpolation ends, the returned function takes the last value too, provided no tail of the continued fraction
    vanishes at the last point *)
Theorem C23_last_value : forall (K : fops), flaws K -> forall ord, any_order ord ->
  forall (y f : nat -> K) n s s', 0 < n -> (Z.of_nat n < 2 ^ 32)%Z ->
  accepted y f n s -> add_point s (f n) (y n) = Ret (true, s') ->
  (forall k, 0 < k < n -> continued_fraction y f k (n - 1 - k) (y n) <> f0) ->
  exists num den, get_result ord s' = Ret (num, den) /\
    value1 den (y n) <> f0 /\ value1 num (y n) = fmul (f n) (value1 den (y n)).
Proof.
  intros K HK ord Ho y f n s s' Hn H32 Ha Hp Ht. destruct (finished_result HK ord Ho y f n s s' Hn H32) as [num [den [H [A B]]]].
  { split; [exact Ha|right; exact Hp]. }
  exists num, den. split; [exact H|]. destruct A as [_ [_ [_ A4]]], B as [_ [_ [_ B4]]]. unfold value1. rewrite A4, B4.
  destruct (P_prediction HK y f n Hn (y n) Ht) as [E N]. split; [exact N|]. rewrite E. f_equal.
  destruct (C23_termination_test K HK y f n s Hn Ha) as [b [s2 [H1 H2]]]. rewrite Hp in H1. injection H1 as <- <-. apply H2. reflexivity.
Qed.
Print Assumptions C23_last_value.

(** The interpolator must not be used past its end: a further point reads a coefficient that does not exist; the result of a
    fresh interpolator pops from an empty vector. *)
Theorem C23_misuse_is_undefined_refuted : forall (K : fops), flaws K -> forall ord,
  get_result ord (@thiele_init K) = UB /\
  forall (y f : nat -> K) n s s' g z, 0 < n -> accepted y f n s -> add_point s (f n) (y n) = Ret (true, s') -> add_point s' g z = UB.
Proof.
  intros K HK ord. split; [reflexivity|]. intros y f n s s' g z Hn [bs [H Hb]] Hp. pose proof (feed_state HK y f n bs s H Hb) as E. subst s.
  rewrite (add_point_spec HK) in Hp. destruct (Nat.eqb_spec n 0); [lia|]. destruct (feqb _ _); [|discriminate]. injection Hp as <-.
  unfold add_point. cbn [th_a th_t]. rewrite app_length, tlist_len, alist_len. cbn [length].
  replace (S n + 1 - 1) with (S n) by lia. replace (S n - 1) with n by lia. cbn [Nat.eqb]. rewrite Nat.leb_refl. reflexivity.
Qed.
Print Assumptions C23_misuse_is_undefined_refuted.

Lemma linear_function {K : fops} (HK : flaws K) (c : K) : polynomial_function 1 (fun x => fadd x c).
Proof.
  apply (polyfun_add HK 2 (fun x => x) (fun _ => c)).
  - apply (polyfun_ext 2 (fun x => fmul x f1)); [|apply (polyfun_x HK 1); apply (polyfun_const HK)].
    intros x. rewrite (Ring_theory.Rmul_comm (Field_theory.F_R (fl_field K HK))). apply (Ring_theory.Rmul_1_l (Field_theory.F_R (fl_field K HK))).
  - apply (polyfun_le HK 1); [lia|apply (polyfun_const HK)].
Qed.
Definition l7 (l : list Z) (i : nat) : F7 := z7 (nth i l 0%Z).
Definition run7 (ys fs : list Z) : outcome (list bool * list (list Z * Z) * list (list Z * Z)) :=
  match feed_points thiele_init (point_list (l7 ys) (l7 fs) (length ys)) with
  | Ret (bs, s) => match get_result (fun m => m) s with
      | Ret (a, b) => Ret (bs, map (fun kc => (fst kc, v7 (snd kc))) (pf_coefs a), map (fun kc => (fst kc, v7 (snd kc))) (pf_coefs b))
      | _ => UB end
  | _ => UB
  end.

(** (x+1)/(x+2) from the points 0..3: accepted three times, finished by the fourth *)
Example C23_hypotheses_met :
  run7 [0;1;2;3]%Z [4;3;6;5]%Z = Ret ([false; false; false; true], [([0], 1); ([1], 1)], [([0], 2); ([1], 1)])%Z /\
  distinct 3 (l7 [0;1;2;3]%Z) /\ no_breakdown (l7 [0;1;2;3]%Z) (l7 [4;3;6;5]%Z) 3.
Proof.
  split; [vm_compute; reflexivity|]. split.
  - intros [|[|[|i]]] [|[|[|j]]] Hi Hj E; try lia; apply (f_equal v7) in E; vm_compute in E; discriminate.
  - intros [|[|[|i]]] [|[|[|j]]] Hij Hi E; try lia; apply (f_equal v7) in E; vm_compute in E; discriminate.
Qed.
Example C23_completeness_hypotheses_met :
  polynomial_function (3 / 2) (fun x : F7 => fadd x (z7 1)) /\ polynomial_function ((3 - 1) / 2) (fun x : F7 => fadd x (z7 2)) /\
  forall i, i < 3 -> fmul (l7 [4;3;6;5]%Z i) (fadd (l7 [0;1;2;3]%Z i) (z7 2)) = fadd (l7 [0;1;2;3]%Z i) (z7 1).
Proof.
  split; [apply linear_function; exact F7_laws|]. split; [apply linear_function; exact F7_laws|].
  intros [|[|[|i]]] Hi; try lia; apply v7_inj; vm_compute; reflexivity.
Qed.

(** run the interpolator and look at the values of the result at one point *)
Definition probe7 (y f : nat -> F7) (n i : nat) : option (list bool * Z * Z) :=
  match feed_points thiele_init (point_list y f n) with
  | Ret (bs, s) => match get_result (fun m => m) s with
      | Ret (a, b) => Some (bs, v7 (value1 a (y i)), v7 (value1 b (y i))) | _ => None end
  | _ => None
  end.
Lemma probe7_run y f n i bs u v : probe7 y f n i = Some (bs, u, v) -> exists s num den,
  feed_points thiele_init (point_list y f n) = Ret (bs, s) /\ get_result (fun m => m) s = Ret (num, den) /\
  v7 (value1 num (y i)) = u /\ v7 (value1 den (y i)) = v.
Proof.
  unfold probe7. destruct (feed_points thiele_init (point_list y f n)) as [[bs' s]| | | |]; try discriminate.
  destruct (get_result (fun m => m) s) as [[a b]| | | |] eqn:E; try discriminate. intros H. injection H as <- <- <-. exists s, a, b. auto.
Qed.

(** If an inverse difference breaks down, the division by zero silently yields zero and the result need not take the fed values. *)
Theorem C23_breakdown_refuted : exists (K : fops) (y f : nat -> K) n s num den, flaws K /\ distinct n y /\
  accepted y f n s /\ get_result (fun m => m) s = Ret (num, den) /\
  exists i, i < n /\ value1 num (y i) <> fmul (f i) (value1 den (y i)).
Proof.
  set (y := l7 [0;1;2]%Z). set (f := l7 [1;2;1]%Z).
  assert (E : probe7 y f 3 2 = Some ([false; false; false], 5%Z, 0%Z)) by (vm_compute; reflexivity). apply probe7_run in E.
  destruct E as [s [num [den [E1 [E2 [E3 E4]]]]]]. exists F7, y, f, 3, s, num, den. split; [exact F7_laws|]. split; [|split; [|split; [exact E2|]]].
  - intros [|[|[|i]]] [|[|[|j]]] Hi Hj E; try lia; apply (f_equal v7) in E; vm_compute in E; discriminate.
  - eexists. split; [exact E1|repeat constructor].
  - exists 2. split; [lia|]. intros E. apply (f_equal v7) in E. rewrite E3 in E. change (f 2) with (@f1 F7) in E.
    rewrite (Ring_theory.Rmul_1_l (Field_theory.F_R (fl_field F7 F7_laws))), E4 in E. discriminate.
Qed.
Print Assumptions C23_breakdown_refuted.

(** Even without a breakdown the returned denominator can vanish at a fed point (then the numerator does too): 0, 1, 1 at
    0, 1, 2 gives x / x. *)
Theorem C23_common_root_refuted : exists (K : fops) (y f : nat -> K) n s num den, flaws K /\ distinct n y /\ no_breakdown y f n /\
  accepted y f n s /\ get_result (fun m => m) s = Ret (num, den) /\ exists i, i < n /\ value1 den (y i) = f0.
Proof.
  set (y := l7 [0;1;2]%Z). set (f := l7 [0;1;1]%Z).
  assert (E : probe7 y f 3 0 = Some ([false; false; false], 0%Z, 0%Z)) by (vm_compute; reflexivity). apply probe7_run in E.
  destruct E as [s [num [den [E1 [E2 [_ E3]]]]]]. exists F7, y, f, 3, s, num, den. split; [exact F7_laws|]. split; [|split; [|split; [|split; [exact E2|]]]].
  - intros [|[|[|i]]] [|[|[|j]]] Hi Hj E; try lia; apply (f_equal v7) in E; vm_compute in E; discriminate.
  - intros [|[|[|i]]] [|[|[|j]]] Hij Hi E; try lia; apply (f_equal v7) in E; vm_compute in E; discriminate.
  - eexists. split; [exact E1|repeat constructor].
  - exists 0. split; [lia|]. apply v7_inj. exact E3.
Qed.
Print Assumptions C23_common_root_refuted.

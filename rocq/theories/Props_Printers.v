(** Property theorems C37: printed polynomials, Horner forms and rational functions parse back to the same function.
    [reads_as], [poly_val], [ratfun_val] and the admissible inputs are defined in PrintSpec.v; the parser is that of
    SYObj.v. *)
From Coq Require Import Ascii String ZArith Znumtheory Lia.
From Verif Require Import Machine FFInt RatNum SYGrammar SYObj DecPrint Printers PrintSpec PrintProofs PrintReads Primes Props_Primes Props_Parser.
From Coq Require Import List.
Import ListNotations.
Open Scope Z_scope.

Definition abc : list chars := [lit "x"; lit "y"; lit "z"].
Lemma abc_ok : names_ok abc.
Proof.
  split.
  - repeat (apply Forall_cons; [split; [split; [discriminate|reflexivity]|split; [cbn; lia|intros [_ H]; discriminate H]]|]). apply Forall_nil.
  - repeat (constructor; [intros H; repeat (destruct H as [H|H]; [discriminate H|]); destruct H|]). constructor.
Qed.
Lemma P0_ok : prime_ok 100 P0. Proof. split; [exact P0_prime|]. split; [apply P0_range|reflexivity]. Qed.
Lemma P1_ok : prime_ok 100 P1. Proof. split; [exact P1_prime|]. split; [apply P1_range|reflexivity]. Qed.
Definition all_le (n : nat) (b : Z) {C} (m : pmap C) : bool := forallb (fun e => (length (fst e) =? n)%nat && forallb (fun z => (0 <=? z) && (z <=? b)) (fst e)) m.
Fixpoint distinct (l : list (list Z)) : bool := match l with [] => true | k :: r => negb (existsb (keq k) r) && distinct r end.
Lemma keys_check n b {C} (m : pmap C) : all_le n b m = true -> distinct (map fst m) = true -> keys_ok n b m.
Proof.
  intros H D. split.
  - apply Forall_forall. intros e I. unfold all_le in H. rewrite forallb_forall in H. specialize (H e I). apply andb_true_iff in H. destruct H as [H1 H2]. apply Nat.eqb_eq in H1. split; [exact H1|].
    apply Forall_forall. intros z Z. rewrite forallb_forall in H2. specialize (H2 z Z). lia.
  - induction (map fst m) as [|k r IH]; [constructor|]. cbn [distinct] in D. apply andb_true_iff in D. destruct D as [D1 D2]. constructor; [|apply IH; exact D2].
    intros I. apply negb_true_iff in D1. rewrite <- Bool.not_true_iff_false in D1. apply D1. apply existsb_exists. exists k. split; [exact I|]. apply keq_iff. reflexivity.
Qed.

(** ---- sums of monomials ---- *)
(** PolynomialFF::to_string *)
Theorem C37_polynomialff_to_string : forall p ps b vars m, Forall (prime_ok b) (p :: ps) -> names_ok vars -> keys_ok (length vars) b m -> Forall (fun e => 0 <= snd e) m ->
  exists s, ff_to_string (length vars) m vars = Ret s /\ reads_as p ps vars s (fun _ => poly_val (fun c => c) m).
Proof.
  intros p ps b vars m Hp HV K N. unfold ff_to_string. destruct m as [|e m].
  - exists (lit "0"). split; [reflexivity|].
    refine (expr_reads p ps b vars Hp HV true _ _ _ (or_introl eq_refl) (E_term _ _ _ _ _ (T_fac _ _ _ _ _ (F_num _ _ _ HV 0 ltac:(lia)))) _). reflexivity.
  - rewrite Nat.eqb_refl. cbn [negb].
    destruct (monos_ok (fun q => In q (p :: ps)) (b + 1) vars true (PS_ok p ps b Hp) HV print (Z.eqb 1) (fun _ c => c) (fun c => 0 <= c) (fun c H => ff_term _ _ HV _ c H) (fun c H Q q _ => ff_one c H Q) b
      ltac:(lia) vars (e :: m) (vars_in vars)) as [s [S1 S2]]; [|discriminate|].
    + destruct K as [K _]. rewrite Forall_forall in K, N. apply Forall_forall. intros y Y. split; [exact (N y Y)|]. split; [rewrite (proj1 (K y Y)); lia|apply (K y Y)].
    + exists s. split; [exact S1|]. refine (expr_reads p ps b vars Hp HV true _ _ _ (or_introl eq_refl) S2 _). reflexivity.
Qed.
Print Assumptions C37_polynomialff_to_string.
Definition ex_ff : pmap Z := [([2; 0; 1], 1); ([0; 0; 0], 7); ([0; 13; 2], 5); ([1; 0; 0], 1)].
Example C37_ff_hypotheses_met : Forall (prime_ok 100) [P0; P1] /\ names_ok abc /\ keys_ok (length abc) 100 ex_ff /\ Forall (fun e => 0 <= snd e) ex_ff /\
  ff_to_string 3 ex_ff abc = Ret (lit "x^2*z+7+5*y^13*z^2+x").
Proof.
  split; [constructor; [exact P0_ok|constructor; [exact P1_ok|constructor]]|]. split; [exact abc_ok|]. split; [apply keys_check; vm_compute; reflexivity|].
  split; [repeat (apply Forall_cons; [cbn; lia|]); apply Forall_nil|]. vm_compute. reflexivity.
Qed.
(** Polynomial::to_string *)
Theorem C37_polynomial_to_string : forall p ps b vars q, Forall (prime_ok b) (p :: ps) -> names_ok vars -> poly_ok (length vars) b q ->
  exists s, poly_to_string q vars = Ret s /\ reads_as p ps vars s (fun p xs => poly_at p q xs).
Proof.
  intros p ps b vars q Hp HV Hq. destruct (poly_string_ok (fun q => In q (p :: ps)) (b + 1) vars true (PS_ok p ps b Hp) HV b ltac:(lia) (length vars) q vars Hq eq_refl (vars_in vars)) as [s [S1 S2]].
  exists s. split; [exact S1|]. refine (expr_reads p ps b vars Hp HV true _ _ _ (or_introl eq_refl) S2 _). reflexivity.
Qed.
Print Assumptions C37_polynomial_to_string.
Definition ex_poly : poly := mk_poly [([2; 0; 1], mk_rn 1 1); ([0; 0; 0], mk_rn (-7) 3); ([0; 13; 2], mk_rn 5 2); ([1; 0; 0], mk_rn (-1) 1)] 3 (-1).
Definition ex_fac : poly := mk_poly [([1], mk_rn 1 1); ([0], mk_rn (-1) 2)] 1 1.
Lemma ex_poly_ok : poly_ok (length abc) 100 ex_poly.
Proof.
  split; [repeat (apply Forall_cons; [split; [cbn; lia|reflexivity]|]); apply Forall_nil|]. left. split; [reflexivity|]. split; [reflexivity|]. apply keys_check; vm_compute; reflexivity.
Qed.
Lemma ex_fac_ok : poly_ok (length abc) 100 ex_fac.
Proof.
  split; [repeat (apply Forall_cons; [split; [cbn; lia|reflexivity]|]); apply Forall_nil|]. right. split; [cbn; lia|]. apply keys_check; vm_compute; reflexivity.
Qed.
Example C37_polynomial_hypotheses_met : Forall (prime_ok 100) [P0; P1] /\ names_ok abc /\ poly_ok (length abc) 100 ex_poly /\ poly_ok (length abc) 100 ex_fac /\
  poly_to_string ex_poly abc = Ret (lit "x^2*z+(-7/3)+5/2*y^13*z^2+(-1)*x") /\ poly_to_string ex_fac abc = Ret (lit "y+(-1/2)").
Proof.
  split; [constructor; [exact P0_ok|constructor; [exact P1_ok|constructor]]|]. split; [exact abc_ok|]. split; [exact ex_poly_ok|]. split; [exact ex_fac_ok|].
  split; [vm_compute; reflexivity|vm_compute; reflexivity].
Qed.

(** ---- Horner forms ---- *)
Lemma key_length_ok n b {C} (m : pmap C) : keys_ok n b m -> m <> [] -> key_length m = n.
Proof. intros [K _] N. destruct m as [|[e c] m]; [congruence|]. inversion K as [|? ? [Q _] _]. exact Q. Qed.
(** HornerGenerator: generate_horner_ff *)
Theorem C37_horner_ff : forall p ps b vars m, Forall (prime_ok b) (p :: ps) -> names_ok vars -> keys_ok (length vars) b m -> Forall (fun e => 0 <= snd e) m ->
  reads_as p ps vars (generate_horner_ff m vars) (fun _ => poly_val (fun c => c) m).
Proof.
  intros p ps b vars m Hp HV K N. destruct m as [|e m0].
  - refine (expr_reads p ps b vars Hp HV true _ _ _ (or_introl eq_refl) (E_term _ _ _ _ _ (T_fac _ _ _ _ _ (F_num _ _ _ HV 0 ltac:(lia)))) _). reflexivity.
  - set (m := e :: m0) in *. change (generate_horner_ff m vars) with (horner_d print (Z.eqb 1) (key_length m) vars m). rewrite (key_length_ok _ _ m K) by discriminate.
    refine (expr_reads p ps b vars Hp HV true _ _ _ (or_introl eq_refl) (horner_form_ok (fun q => In q (p :: ps)) (b + 1) vars true (PS_ok p ps b Hp) HV print (Z.eqb 1) (fun _ c => c) (fun c => 0 <= c)
      (fun c H => ff_term _ _ HV _ c H) (fun c H Q q _ => ff_one c H Q) b ltac:(lia) true (fun _ c H => F_num _ _ _ HV c H) (length vars) vars m ltac:(discriminate) K N (le_n _) (vars_in vars)) _). reflexivity.
Qed.
Print Assumptions C37_horner_ff.
Example C37_horner_ff_hypotheses_met : keys_ok (length abc) 100 ex_ff /\ Forall (fun e => 0 <= snd e) ex_ff /\
  generate_horner_ff [([2; 3; 0], 4); ([0; 1; 1], 5); ([1; 0; 0], 1); ([2; 0; 0], 1)] abc = lit "(x*(((y*(4))*y)*y+1)+1)*x+y*(z*5)".
Proof. split; [apply keys_check; vm_compute; reflexivity|]. split; [repeat (apply Forall_cons; [cbn; lia|]); apply Forall_nil|]. vm_compute. reflexivity. Qed.
(** HornerGenerator: generate_horner_rn and generate_horner_mon *)
Theorem C37_horner_rn : forall p ps b vars m, Forall (prime_ok b) (p :: ps) -> names_ok vars -> keys_ok (length vars) b m -> Forall (fun e => rn_ok (snd e)) m ->
  reads_as p ps vars (generate_horner_rn m vars) (fun p => poly_val (rn_val p) m) /\ reads_as p ps vars (generate_horner_mon m vars) (fun p => poly_val (rn_val p) m).
Proof.
  intros p ps b vars m Hp HV K N. split.
  - refine (expr_reads p ps b vars Hp HV true _ _ _ (or_introl eq_refl) (horner_rn_ok (fun q => In q (p :: ps)) (b + 1) vars true (PS_ok p ps b Hp) HV b ltac:(lia) (length vars) m vars K N (le_n _) (vars_in vars)) _). reflexivity.
  - refine (expr_reads p ps b vars Hp HV true _ _ _ (or_introl eq_refl) (horner_mon_ok (fun q => In q (p :: ps)) (b + 1) vars true (PS_ok p ps b Hp) HV b ltac:(lia) (length vars) m vars K N (le_n _) (vars_in vars)) _). reflexivity.
Qed.
Print Assumptions C37_horner_rn.
(** Polynomial::generate_horner *)
Theorem C37_polynomial_horner : forall p ps b vars q, Forall (prime_ok b) (p :: ps) -> names_ok vars -> poly_ok (length vars) b q ->
  exists s, poly_horner q vars = Ret s /\ reads_as p ps vars s (fun p xs => poly_at p q xs).
Proof.
  intros p ps b vars q Hp HV Hq. destruct (poly_horner_ok (fun q => In q (p :: ps)) (b + 1) vars true (PS_ok p ps b Hp) HV b ltac:(lia) (length vars) q vars Hq eq_refl (vars_in vars)) as [s [S1 S2]].
  exists s. split; [exact S1|]. refine (expr_reads p ps b vars Hp HV true _ _ _ (or_introl eq_refl) S2 _). reflexivity.
Qed.
Print Assumptions C37_polynomial_horner.
Example C37_horner_rn_hypotheses_met : keys_ok (length abc) 100 (coefs ex_poly) /\ Forall (fun e => rn_ok (snd e)) (coefs ex_poly) /\
  poly_horner ex_poly abc = Ret (lit "((z)*x+(-1))*x+(5/2*z^2)*y^13+(-7/3)").
Proof. split; [apply keys_check; vm_compute; reflexivity|]. split; [apply ex_poly_ok|]. vm_compute. reflexivity. Qed.

(** ---- rational functions ---- *)
Theorem C37_rational_function_to_string : forall p b vars f, prime_ok b p -> names_ok vars -> ratfun_ok (length vars) b f ->
  exists s, ratfun_string poly_to_string f vars = Ret s /\ reads_as p [] vars s (fun p xs => ratfun_val p f xs).
Proof.
  intros p b vars f Hp HV Hf. assert (Hps : Forall (prime_ok b) [p]) by (constructor; [exact Hp|constructor]).
  destruct (ratfun_string_ok (fun q => In q [p]) (b + 1) vars false (PS_ok p [] b Hps) HV b eq_refl poly_to_string (length vars)
    (fun q vs Hq Hl I => poly_string_ok _ (b + 1) vars false (PS_ok p [] b Hps) HV b ltac:(lia) (length vars) q vs Hq Hl I) f vars Hf eq_refl (vars_in vars)) as [s [S1 S2]].
  exists s. split; [exact S1|]. refine (expr_reads p [] b vars Hps HV false _ _ _ (or_intror eq_refl) S2 _). reflexivity.
Qed.
Print Assumptions C37_rational_function_to_string.
Theorem C37_rational_function_horner : forall p b vars f, prime_ok b p -> names_ok vars -> ratfun_ok (length vars) b f ->
  exists s, ratfun_string poly_horner f vars = Ret s /\ reads_as p [] vars s (fun p xs => ratfun_val p f xs).
Proof.
  intros p b vars f Hp HV Hf. assert (Hps : Forall (prime_ok b) [p]) by (constructor; [exact Hp|constructor]).
  destruct (ratfun_string_ok (fun q => In q [p]) (b + 1) vars false (PS_ok p [] b Hps) HV b eq_refl poly_horner (length vars)
    (fun q vs Hq Hl I => poly_horner_ok _ (b + 1) vars false (PS_ok p [] b Hps) HV b ltac:(lia) (length vars) q vs Hq Hl I) f vars Hf eq_refl (vars_in vars)) as [s [S1 S2]].
  exists s. split; [exact S1|]. refine (expr_reads p [] b vars Hps HV false _ _ _ (or_intror eq_refl) S2 _). reflexivity.
Qed.
Print Assumptions C37_rational_function_horner.
Definition ex_rf : ratfun := mk_ratfun ex_poly (mk_poly [] 3 (-1)) [(ex_fac, mk_poly [] 1 1); (mk_poly [] 1 1, ex_fac)] [(0, 2); (2, 0); (1, 1)]%nat.
Lemma ex_empty_ok : poly_ok (length abc) 100 (mk_poly [] 3 (-1)).
Proof. split; [constructor|]. left. split; [reflexivity|]. split; [reflexivity|]. split; constructor. Qed.
Example C37_rational_function_hypotheses_met : prime_ok 100 P0 /\ ratfun_ok (length abc) 100 ex_rf /\
  ratfun_string poly_to_string ex_rf abc = Ret (lit "((y+(-1/2))*(z^2*x+(-7/3)+5/2*y^13*x^2+(-1)*z))/((y+(-1/2))*(1))").
Proof.
  split; [exact P0_ok|]. split; [|vm_compute; reflexivity]. split; [exact ex_poly_ok|]. split; [exact ex_empty_ok|].
  assert (Em : poly_ok (length abc) 100 (mk_poly [] 1 1)) by (split; [constructor|]; right; split; [cbn; lia|split; constructor]).
  split; [repeat (apply Forall_cons; [split; [first [exact ex_fac_ok|exact Em]|first [exact ex_fac_ok|exact Em]]|]); apply Forall_nil|]. right.
  split; [repeat (constructor; [intros H; repeat (destruct H as [H|H]; [discriminate H|]); destruct H|]); constructor|]. split.
  - intros i. cbn. lia.
  - repeat (apply Forall_cons; [cbn; lia|]). apply Forall_nil.
Qed.
(** Refuted for a change of the prime: the denominator 3/4 makes a quotient in parentheses, and the parser then divides by 3. *)
Definition ex_const : ratfun := mk_ratfun (mk_poly [([1], mk_rn 1 1)] 1 (-1)) (mk_poly [([0], mk_rn 3 4)] 1 (-1)) [] [].
Theorem C37_constant_denominator_prime_change_refuted : exists s o, ratfun_ok 1 100 ex_const /\ ratfun_string poly_to_string ex_const [lit "x"] = Ret s /\ s = lit "(x)/(3/4)" /\
  obind (construct P0 P1 [s] [lit "x"] false false [] []) (change_primes [P1]) = Ret o /\ evaluate_pre P1 o [3] = Ret [1] /\ ratfun_val P1 ex_const [3] mod P1 = 4.
Proof.
  assert (Ok : ratfun_ok 1 100 ex_const).
  { split; [|split; [|split; [constructor|left; reflexivity]]]; (split; [repeat (apply Forall_cons; [split; [cbn; lia|reflexivity]|]); apply Forall_nil|left; split; [reflexivity|split; [reflexivity|apply keys_check; vm_compute; reflexivity]]]). }
  assert (Vx : names_ok [lit "x"]).
  { split; [|constructor; [intros []|constructor]]. apply Forall_cons; [|apply Forall_nil]. split; [split; [discriminate|reflexivity]|split; [cbn; lia|intros [_ H]; discriminate H]]. }
  destruct (C37_rational_function_to_string P1 100 [lit "x"] ex_const P1_ok Vx Ok) as [s [S1 S2]]. assert (Es : s = lit "(x)/(3/4)") by (apply (f_equal (fun o => match o with Ret s => s | _ => [] end)) in S1; vm_compute in S1; exact (eq_sym S1)).
  exists s. subst s. eexists. split; [exact Ok|]. split; [exact S1|]. split; [reflexivity|]. split; [vm_compute; reflexivity|]. split; [vm_compute; reflexivity|].
  destruct (S2 false P0 [] []) as [o [O1 O2]]. assert (Q : evaluate_pre P1 o [3] = Ret [4]) by (vm_compute in O1; injection O1 as <-; vm_compute; reflexivity).
  specialize (O2 [3] eq_refl ltac:(constructor; [split; [discriminate|reflexivity]|constructor])). change (last [] P1) with P1 in O2. rewrite Q in O2. clear - O2. revert O2. generalize (ratfun_val P1 ex_const [3] mod P1). intros z O2. injection O2 as O2. exact (eq_sym O2).
Qed.
Print Assumptions C37_constant_denominator_prime_change_refuted.

(** ---- the Horner shortcut of PolynomialFF::calc_n_m_1 (more than 50 terms) ---- *)
(** It returns the value with the first variable set to one. *)
Theorem C37_calc_n_m_1_horner : forall p b k m, prime_ok b p -> Z.of_nat k <= 2 ^ 15 -> keys_ok (S k) b m -> m <> [] -> Forall (fun e => 0 <= snd e < p) m ->
  forall xs, length xs = k -> Forall (fun x => 0 <= x < p) xs -> calc_horner p (S k) m xs = Ret (poly_val (fun c => c) m (1 :: xs) mod p).
Proof. exact calc_horner_ok. Qed.
Print Assumptions C37_calc_n_m_1_horner.
Definition ex_big : pmap Z := flat_map (fun i => map (fun j => ([Z.of_nat i; Z.of_nat j; Z.of_nat (i + 2 * j)], Z.of_nat (i + j + 1))) (seq 0 8)) (seq 0 8).
Example C37_calc_hypotheses_met : keys_ok 3 100 ex_big /\ length ex_big = 64%nat /\ Forall (fun e => 0 <= snd e < P0) ex_big /\ calc_horner P0 3 ex_big [2; 3] = Ret (poly_val (fun c => c) ex_big [1; 2; 3] mod P0).
Proof.
  split; [apply keys_check; vm_compute; reflexivity|]. split; [reflexivity|]. split.
  - apply Forall_forall. intros e I. assert (H : forallb (fun e => (0 <=? snd e) && (snd e <? P0)) ex_big = true) by (vm_compute; reflexivity). rewrite forallb_forall in H. specialize (H e I). lia.
  - vm_compute. reflexivity.
Qed.
(** For every history of changes (operators += -= *= /=) and evaluations of one object, each evaluation returns the
    value of the current polynomial: the cached Horner form is never stale. *)
Theorem C37_calc_n_m_1_history : forall p b k m ops, prime_ok b p -> b < 2 ^ 32 -> Z.of_nat k <= 2 ^ 15 -> ff_map_ok p (S k) b m -> Forall (hop_ok p (S k) b) ops ->
  run_hops p (S k) (new_hobj m) ops = Ret (hop_values p m ops).
Proof. intros p b k m ops Hp Hb Hk M F. apply (run_hops_ok p b k Hp Hk Hb ops (new_hobj m)); [exact M|discriminate|exact F]. Qed.
Print Assumptions C37_calc_n_m_1_history.
Example C37_history_hypotheses_met : Forall (hop_ok P0 3 100) [Calc [2; 3]; Change ex_ff; Calc [2; 3]; Change ex_big; Calc [5; 1]; Calc [7; 1]] /\
  exists a c d, run_hops P0 3 (new_hobj ex_big) [Calc [2; 3]; Change ex_ff; Calc [2; 3]; Change ex_big; Calc [5; 1]; Calc [7; 1]] = Ret [a; 368651; c; d].
Proof.
  assert (X : forall m : pmap Z, all_le 3 100 m = true -> distinct (map fst m) = true -> forallb (fun e => (0 <=? snd e) && (snd e <? P0)) m = true -> ff_map_ok P0 3 100 m).
  { intros m A B C. split; [apply keys_check; assumption|]. apply Forall_forall. intros e I. rewrite forallb_forall in C. specialize (C e I). lia. }
  assert (Y : forall x, length x = 2%nat -> forallb (fun v => (0 <=? v) && (v <? P0)) x = true -> hop_ok P0 3 100 (Calc x)).
  { intros x L C. split; [rewrite L; reflexivity|]. apply Forall_forall. intros e I. rewrite forallb_forall in C. specialize (C e I). lia. }
  split.
  - repeat (apply Forall_cons; [first [apply Y; vm_compute; reflexivity|apply X; vm_compute; reflexivity]|]). apply Forall_nil.
  - eexists _, _, _. vm_compute. reflexivity.
Qed.

(** A concrete case of C57: (2 x + 3 y) / (x - 2 y), shifted by (5, 2), over the primes 101, 107 and 113. *)
From Coq Require Import Znumtheory Permutation.
From Verif Require Import Machine NumTheory FFInt FField FSum FPoly PolyFF PolySpec PolyFFProofs Thiele ThieleSpec ThieleProofs RatNum Modular Primes PField RatUni RatUniSpec RatUniProofs Newton PolyRec PolyRecSpec PolyRatSpec PolyRecMath PolyRecChecks BM BMSpec BTProofs RatMulti RatMultiSpec RatMultiRunSpec RatMultiMath RatMultiRun Field101 Props_RatMulti RatMultiQ RatMultiQSpec RatMultiQEx RatUniMisled Props_RatMultiQ RatSing RatSingSpec RatSingEx Props_RatSingEx RatSingRun RatSingRunSpec Props_RatSingRun.
Open Scope nat_scope.

Definition sr_N : list qterm := [([1; 0], (2, 1)); ([0; 1], (3, 1))]%Z.
Definition sr_D : list qterm := [([1; 0], (1, 1)); ([0; 1], (-2, 1))]%Z.
Definition sr_A : list (list Z) := [[1; 0]; [0; 1]; [0; 0]]%Z.
Definition sr_y (F : pfield) : nat -> fld F := fun _ => kint 2.
Definition sr_s (F : pfield) : nat -> fld F := fun i => nth i [kint 5; kint 2] f0.
Definition sr_ts (F : pfield) (len : nat) : list (fld F) := map (fun i => kint (Z.of_nat (2 + Nat.modulo i 18))) (seq 0 len).
Definition sr_session (F : pfield) (len : nat) : msession := mk_msession F (sr_y F) (sr_s F) (ray_value 2 (over F sr_N) (over F sr_D) (sr_y F) (sr_s F)) (sr_ts F len).
Definition sr_first : msession := sr_session Q101 76.

Lemma sr_length F len : length (sr_ts F len) = len. Proof. unfold sr_ts. rewrite map_length. apply seq_length. Qed.
Lemma sr_point F len i : i < len -> nth i (sr_ts F len) f0 = kint (Z.of_nat (2 + Nat.modulo i 18)).
Proof. intros H. unfold sr_ts. rewrite (nth_indep _ f0 (kint (Z.of_nat (2 + Nat.modulo 0 18)))) by (rewrite map_length, seq_length; exact H). rewrite (map_nth (fun j => @kint (fld F) (Z.of_nat (2 + Nat.modulo j 18)))), seq_nth by exact H. reflexivity. Qed.
(** numerator and denominator at the point t of a ray *)
Definition zN (o : nat) (t : Z) : Z := (2 * 5 + 3 * 2 + (2 + 3 * 2 ^ Z.of_nat o) * t)%Z.
Definition zD (o : nat) (t : Z) : Z := (5 + (-2) * 2 + (1 + (-2) * 2 ^ Z.of_nat o) * t)%Z.
Section Values.
  Variable F : pfield.
  Local Notation K := (fld F).
  Add Field KSRV : (fl_field K (HK F)).
  Lemma kpow2 o : @kint K (2 ^ Z.of_nat o) = pw (kint 2) o.
  Proof. induction o as [|o IH]; [apply (kint_1 F)|]. rewrite Nat2Z.inj_succ, Z.pow_succ_r, (kint_mul F), IH by lia. reflexivity. Qed.
  Lemma sr_num o t : poly_value 2 (over F sr_N) (ray_point (sr_y F) (sr_s F) [o] (kint t)) = kint (zN o t).
  Proof.
    unfold zN, poly_value, over, sr_N, ray_point, sr_y, sr_s. cbn [map fold_right fst snd monomial_value nth]. rewrite !(krat_int F), !(kint_plus F), !(kint_mul F), !(kint_plus F), !(kint_mul F), kpow2. change (Z.to_nat 0) with 0. change (Z.to_nat 1) with 1. cbn [pw]. ring.
  Qed.
  Lemma sr_den o t : poly_value 2 (over F sr_D) (ray_point (sr_y F) (sr_s F) [o] (kint t)) = kint (zD o t).
  Proof.
    unfold zD, poly_value, over, sr_D, ray_point, sr_y, sr_s. cbn [map fold_right fst snd monomial_value nth]. rewrite !(krat_int F), !(kint_plus F), !(kint_mul F), !(kint_plus F), !(kint_mul F), kpow2, (kint_1 F). change (Z.to_nat 0) with 0. change (Z.to_nat 1) with 1. cbn [pw]. ring.
  Qed.
  Lemma kint_mod z : (z mod pf_mod F <> 0)%Z -> @kint K z <> f0.
  Proof. intros H E. apply H. apply (kint_0 F) in E. apply Z.mod_divide; [|exact E]. intros Z. rewrite Z, Zmod_0_r in H. destruct E as [q E]. rewrite Z in E. lia. Qed.
  Lemma kint_diff a b : ((a - b) mod pf_mod F <> 0)%Z -> @kint K a <> kint b.
  Proof. intros H E. apply (kint_mod _ H). rewrite (kint_sub F), E. ring. Qed.
  (** two points of a ray where the values differ *)
  Lemma sr_differ o t t' : (zD o t mod pf_mod F <> 0)%Z -> (zD o t' mod pf_mod F <> 0)%Z -> ((zN o t * zD o t' - zN o t' * zD o t) mod pf_mod F <> 0)%Z -> @fdiv K (kint (zN o t)) (kint (zD o t)) <> fdiv (kint (zN o t')) (kint (zD o t')).
  Proof.
    intros H1 H2 H E. apply kint_mod in H1. apply kint_mod in H2. apply (kint_diff _ _ H). rewrite !(kint_mul F). clear H. revert H1 H2 E. generalize (@kint K (zN o t)) (@kint K (zD o t)) (@kint K (zN o t')) (@kint K (zD o t')). intros a b a' b' H1 H2 E.
    transitivity (fmul (fmul (fdiv a b) b) b'); [field; exact H1|]. rewrite E. field. exact H2.
  Qed.
End Values.
Section Table.
  Context {K : fops}.
  Lemma inverse_difference_table (y f y' f' : nat -> K) n : (forall i, i < n -> y i = y' i /\ f i = f' i) -> forall j i, i < n -> j < n -> inverse_difference y f i j = inverse_difference y' f' i j.
  Proof.
    intros H. induction j as [|j IH]; intros i Hi Hj; cbn [inverse_difference]; [apply H; exact Hi|]. rewrite !IH by lia. rewrite (proj1 (H i Hi)), (proj1 (H j ltac:(lia))). reflexivity.
  Qed.
  Lemma continued_fraction_table (y f y' f' : nat -> K) n x : (forall i, i < n -> y i = y' i /\ f i = f' i) -> forall l k, k + l < n -> continued_fraction y f k l x = continued_fraction y' f' k l x.
  Proof.
    intros H. induction l as [|l IH]; intros k Hk; cbn [continued_fraction]; rewrite (inverse_difference_table y f y' f' n H) by lia; [reflexivity|]. rewrite IH by lia. rewrite (proj1 (H k ltac:(lia))). reflexivity.
  Qed.
End Table.
Section Quotient.
  Context {K : fops} (HK : flaws K).
  Add Field KSRQ : (fl_field K HK).
  Lemma ex_quot (a b : K) : b <> f0 -> fdiv a b = f0 -> a = f0.
  Proof. intros Hb E. transitivity (fmul (fdiv a b) b); [field; exact Hb|rewrite E; ring]. Qed.
End Quotient.

(** the numbers modulo 101 *)
Notation G := (fld Q101).
Definition q1 (k : Z) : G := kint k.
Definition qv (x : G) : Z := proj1_sig (x : ffint 101).
Lemma qv_inj (a b : G) : qv a = qv b -> a = b. Proof. apply ffint_eq. Qed.
Ltac neq1 := let E := fresh in intros E; apply (f_equal qv) in E; vm_compute in E; discriminate E.
Ltac eqq1 := apply qv_inj; vm_compute; reflexivity.
Lemma q1_one : q1 1 = @f1 G. Proof. eqq1. Qed.
Add Field KQ101 : (fl_field G (HK Q101)).
Definition sm_N : list (list Z * G) := [([1; 0]%Z, q1 2); ([0; 1]%Z, q1 3)].
Definition sm_D : list (list Z * G) := [([1; 0]%Z, q1 1); ([0; 1]%Z, q1 (-2))].
Definition sm_Ns : list (list Z * G) := [([1; 0]%Z, q1 2); ([0; 1]%Z, q1 3); ([0; 0]%Z, q1 16)].
Definition sm_Ds : list (list Z * G) := [([1; 0]%Z, q1 1); ([0; 1]%Z, q1 (-2)); ([0; 0]%Z, q1 1)].
Lemma sm_over : times f1 (over Q101 sr_N) = sm_N /\ times f1 (over Q101 sr_D) = sm_D.
Proof. split; unfold times, over, sr_N, sr_D, sm_N, sm_D; cbn [map fst snd]; repeat f_equal; eqq1. Qed.
Lemma sm_over' : over Q101 sr_N = sm_N /\ over Q101 sr_D = sm_D.
Proof. split; unfold over, sr_N, sr_D, sm_N, sm_D; cbn [map fst snd]; repeat f_equal; eqq1. Qed.
Lemma sm_poly (P : list (list Z * G)) : In P [sm_N; sm_D; sm_Ns; sm_Ds] -> polynomial 2 1 P /\ tdegree P = 1 /\ hom 1 P <> [] /\ forall d, hom d P <> [] -> d <= 1.
Proof.
  intros I. split; [|split; [|split]].
  - split; [destruct I as [<-|[<-|[<-|[<-|[]]]]]; discriminate|]. split; [destruct I as [<-|[<-|[<-|[<-|[]]]]]; repeat constructor; cbn; intuition discriminate|].
    intros e a J. assert (A : a <> f0 /\ (e = [0; 0]%Z \/ e = [1; 0]%Z \/ e = [0; 1]%Z)).
    { destruct I as [<-|[<-|[<-|[<-|[]]]]]; cbn [In sm_N sm_D sm_Ns sm_Ds] in J; cases; injection J as <- <-; (split; [neq1|tauto]). }
    destruct A as [A [->|[->| ->]]]; (split; [exact A|split; [reflexivity|split; [|reflexivity]]]); intros [|[|[|i]]]; cbn; lia.
  - destruct I as [<-|[<-|[<-|[<-|[]]]]]; reflexivity.
  - destruct I as [<-|[<-|[<-|[<-|[]]]]]; discriminate.
  - intros d H. destruct (hom d P) as [|[e a] l] eqn:E; [contradiction|]. assert (J : In (e, a) (hom d P)) by (rewrite E; left; reflexivity). apply in_hom in J as [J T].
    destruct I as [<-|[<-|[<-|[<-|[]]]]]; cbn [In sm_N sm_D sm_Ns sm_Ds] in J; cases; injection J as <- <-; cbn [total fold_right] in T; lia.
Qed.
Lemma sm_translated : translated 2 (sr_s Q101) sm_N sm_Ns /\ translated 2 (sr_s Q101) sm_D sm_Ds.
Proof.
  assert (V : forall x : nat -> G, poly_value 2 sm_Ns x = poly_value 2 sm_N (fun i => x i + sr_s Q101 i)%K /\ poly_value 2 sm_Ds x = poly_value 2 sm_D (fun i => x i + sr_s Q101 i)%K).
  { intros x. unfold poly_value, sm_N, sm_Ns, sm_D, sm_Ds, sr_s. cbn [fold_right fst snd monomial_value nth]. change (Z.to_nat 0) with 0. change (Z.to_nat 1) with 1. cbn [pw]. split.
    - replace (q1 16) with (q1 2 * kint 5 + q1 3 * kint 2)%K by eqq1. ring.
    - transitivity (q1 1 * x 0%nat + q1 (-2) * x 1%nat + (q1 1 * kint 5 + q1 (-2) * kint 2))%K; [|ring]. replace (q1 1 * kint 5 + q1 (-2) * kint 2)%K with (q1 1) by eqq1. ring. }
  split; (split; [|split; [reflexivity|apply V]]); (apply sm_poly; cbn; tauto).
Qed.
Lemma sm_suitable (a b : G) : a <> f0 -> b <> f0 -> (a + b * q1 2)%K <> f0 -> (a + b)%K <> f0 -> forall P, P = [([0]%Z, a); ([1]%Z, b)] -> suitable true true 1 1 P (sr_y Q101).
Proof.
  intros Ha Hb Hab Hab' P ->.
  assert (Sl : forall e t, slice 1 (sr_y Q101) [([0]%Z, a); ([1]%Z, b)] 0 (firstn 0 e) t = (a + b * t)%K).
  { intros e t. unfold slice, part. cbn [firstn filter fst]. destruct (list_eq_dec Z.eq_dec [] []) as [_|X]; [|contradiction]. unfold poly_value. cbn [fold_right fst snd monomial_value nth Nat.ltb Nat.leb Nat.eqb].
    change (Z.to_nat 1) with 1. change (Z.to_nat 0) with 0. cbn [pw]. ring. }
  assert (Hd : distinct 3 (pw (q1 2))).
  { intros i k Hi Hk E. apply (f_equal qv) in E. destruct i as [|[|[|i]]]; destruct k as [|[|[|k]]]; try lia; vm_compute in E; discriminate E. }
  constructor.
  - intros j Hj. split; [neq1|exact Hd].
  - intros j e Hj [<-|[<-|[]]]; unfold coefficient, part; destruct j as [|[|j]]; try lia; cbn [firstn filter fst];
    repeat (destruct (list_eq_dec Z.eq_dec _ _) as [E|E]; try discriminate E; try (exfalso; apply E; reflexivity); clear E); unfold poly_value; cbn [fold_right fst snd monomial_value nth Nat.ltb Nat.leb];
    change (Z.to_nat 1) with 1; change (Z.to_nat 0) with 0; cbn [pw]; intros Z.
    + apply Hab. rewrite <- Z. unfold sr_y, q1. ring.
    + apply Ha. rewrite <- Z. ring.
    + apply Hab. rewrite <- Z. unfold sr_y, q1. ring.
    + apply Hb. rewrite <- Z. ring.
  - intros j e e' Hj I I' _. assert (j = 0) by lia. subst j. reflexivity.
  - intros _ j e Hj I k h Hk [g Hg] Hh. assert (j = 0) by lia. subst j. exfalso. pose proof (Hh 0 ltac:(lia)) as H0. rewrite Sl, Hg in H0. destruct k as [|[|k]]; [| |lia].
    + apply Hab. unfold ueval in H0. cbn [fsum pw] in H0. symmetry. rewrite H0. change (sr_y Q101 0) with (q1 2). ring.
    + pose proof (Hh 1 ltac:(lia)) as H1. rewrite Sl, Hg in H1. unfold ueval in H0, H1. cbn [fsum pw] in H0, H1. change (sr_y Q101 0) with (q1 2) in *.
      assert (X : (b * (q1 2 * q1 2 - q1 2))%K = f0) by (transitivity ((a + b * (q1 2 * (q1 2 * f1))) - (a + b * (q1 2 * f1)))%K; [ring|rewrite <- H0, <- H1; ring]).
      apply (fmul_0 (HK Q101)) in X as [X|X]; [contradiction|]. revert X. neq1.
  - intros _ j e Hj I. assert (j = 0) by lia. subst j.
    apply (recurrence_check (HK Q101) 2 (fun i => nth i [a; b] f0) (fun i => nth i [q1 1; q1 2] f0)).
    + lia.
    + intros i k Hi Hk E. apply (f_equal qv) in E. destruct i as [|[|i]]; destruct k as [|[|k]]; try lia; vm_compute in E; discriminate E.
    + intros [|[|i]] Hi; try lia; neq1.
    + intros [|[|i]] Hi; try lia; assumption.
    + intros k. rewrite Sl. unfold exponential_sum. cbn [fsum nth]. rewrite q1_one, (pw_1 (HK Q101)). change (sr_y Q101 0) with (q1 2). ring.
    + intros L g HL. destruct L as [|[|L]]; [| |lia].
      * apply (no_rec_0 (HK Q101)). rewrite Sl. cbn [pw]. change (sr_y Q101 0) with (q1 2). intros Z. apply Hab. rewrite <- Z. ring.
      * apply (no_rec_1 (HK Q101)). rewrite !Sl. cbn [pw]. change (sr_y Q101 0) with (q1 2). intros Z.
        assert (X : (a * b * (q1 2 * (q1 2 - f1) * (q1 2 - f1)))%K = f0). { match type of Z with ?l = ?r => transitivity (r - l)%K; [ring|rewrite Z; ring] end. }
        apply (fmul_0 (HK Q101)) in X as [X|X]; [apply (fmul_0 (HK Q101)) in X as [X|X]; contradiction|]. revert X. neq1.
Qed.
Lemma sm_order o : probe_order 1 (max_terms sm_N sm_D sm_Ns sm_Ds) (max_degree sm_N sm_D) o -> o = [1] \/ o = [2].
Proof.
  intros [z [i [k [Hz [_ [Hk ->]]]]]]. assert (z = 0) by lia. subst z. cbn [seq map Nat.ltb Nat.leb Nat.eqb]. change (max_degree sm_N sm_D) with 1 in Hk. assert (k = 1 \/ k = 2) as [->| ->] by lia; auto.
Qed.
Notation sm_ts := (sr_ts Q101 76).
Definition sm_check (o : nat) (r : nat) : bool :=
  let t := Z.of_nat (2 + r) in let t' := Z.of_nat (2 + Nat.modulo (S r) 18) in
  (negb (zD o t mod 101 =? 0) && negb (zN o t mod 101 =? 0) && negb (t mod 101 =? 0) && negb ((zN o t * zD o t' - zN o t' * zD o t) mod 101 =? 0))%Z.
Lemma sm_check_ok : forallb (fun o => forallb (sm_check o) (seq 0 18)) [1; 2] = true. Proof. vm_compute. reflexivity. Qed.
Notation sm_val o i := (ray_value 2 sm_N sm_D (sr_y Q101) (sr_s Q101) o (point sm_ts i)).
Lemma sm_val_eq o i : i < 76 -> sm_val [o] i = fdiv (kint (zN o (Z.of_nat (2 + Nat.modulo i 18)))) (kint (zD o (Z.of_nat (2 + Nat.modulo i 18)))).
Proof. intros H. unfold point. rewrite sr_point by exact H. unfold ray_value. destruct sm_over' as [E1 E2]. rewrite <- E1, <- E2, (sr_num Q101), (sr_den Q101). reflexivity. Qed.
Lemma sm_checked o' i : o' = [1] \/ o' = [2] -> i < 76 -> poly_value 2 sm_D (ray_point (sr_y Q101) (sr_s Q101) o' (point sm_ts i)) <> f0 /\ sm_val o' i <> f0 /\ point sm_ts i <> f0 /\ (S i < 76 -> sm_val o' i <> sm_val o' (S i)).
Proof.
  intros Ho Hi. assert (X : exists o, o' = [o] /\ In o [1; 2]) by (destruct Ho as [->| ->]; [exists 1|exists 2]; cbn; auto). destruct X as [o [-> Io]]. clear Ho.
  pose proof sm_check_ok as C0. rewrite forallb_forall in C0. specialize (C0 o Io). rewrite forallb_forall in C0.
  assert (C : forall i, i < 76 -> sm_check o (Nat.modulo i 18) = true) by (intros k _; apply C0; apply in_seq; pose proof (Nat.mod_upper_bound k 18 ltac:(lia)); lia).
  assert (D : forall i, i < 76 -> (zD o (Z.of_nat (2 + Nat.modulo i 18)) mod 101 <> 0 /\ zN o (Z.of_nat (2 + Nat.modulo i 18)) mod 101 <> 0 /\ Z.of_nat (2 + Nat.modulo i 18) mod 101 <> 0)%Z).
  { intros k Hk. specialize (C k Hk). unfold sm_check in C. cbv zeta in C. apply Bool.andb_true_iff in C as [C _]. apply Bool.andb_true_iff in C as [C C3]. apply Bool.andb_true_iff in C as [C1 C2].
    apply Bool.negb_true_iff, Z.eqb_neq in C1, C2, C3. auto. }
  destruct (D i Hi) as [D1 [D2 D3]]. assert (E2 : sm_D = over Q101 sr_D) by (symmetry; apply sm_over').
  split; [|split; [|split]].
  - unfold point. rewrite sr_point by exact Hi. rewrite E2, (sr_den Q101). apply kint_mod. exact D1.
  - rewrite sm_val_eq by exact Hi. apply (kint_mod Q101) in D1. apply (kint_mod Q101) in D2. intros Z. apply D2. transitivity (fdiv (@kint G (zN o (Z.of_nat (2 + i mod 18)))) (kint (zD o (Z.of_nat (2 + i mod 18)))) * kint (zD o (Z.of_nat (2 + i mod 18))))%K; [field; exact D1|rewrite Z; ring].
  - unfold point. rewrite sr_point by exact Hi. apply kint_mod. exact D3.
  - intros L. rewrite !sm_val_eq by assumption. destruct (D (S i) L) as [D4 _]. apply sr_differ; [exact D1|exact D4|].
    assert (M : (S i mod 18) = (S (i mod 18)) mod 18) by (rewrite <- (Nat.add_1_r i), <- (Nat.add_1_r (i mod 18)), Nat.add_mod_idemp_l by lia; reflexivity). rewrite M.
    specialize (C i Hi). unfold sm_check in C. cbv zeta in C. apply Bool.andb_true_iff in C as [_ C]. apply Bool.negb_true_iff, Z.eqb_neq in C. exact C.
Qed.
Lemma sm_length : length sm_ts = 76. Proof. apply sr_length. Qed.
(** the first four points and values *)
Definition sm_tp (i : nat) : G := q1 (nth i [2; 3; 4; 5] 0)%Z.
Definition sm_tv (i : nat) : G := q1 (nth i [34; 96; 14; 97] 0)%Z.
Lemma sm_table i : i < 4 -> point sm_ts i = sm_tp i /\ first_value 2 sm_N sm_D (sr_y Q101) (sr_s Q101) sm_ts i = sm_tv i.
Proof.
  intros H. split; [unfold point; rewrite sr_point by lia; destruct i as [|[|[|[|i]]]]; try lia; reflexivity|]. unfold first_value, ones. cbn [Nat.sub repeat]. rewrite sm_val_eq by lia.
  destruct i as [|[|[|[|i]]]]; try lia; cbn [Nat.modulo Nat.divmod Nat.sub Nat.add snd fst]; eqq1.
Qed.
Lemma sm_regular o i SN SD : o = [1] \/ o = [2] -> NoDup SN -> NoDup SD -> (forall d, In d SN -> d = 1) -> (forall d, In d SD -> d = 1) -> i + (length SN + length SD) <= 76 ->
  determined SN SD (fun j => point sm_ts (i + j)) (fun j => sm_val o (i + j)) (length SN + length SD).
Proof.
  intros Ho NN ND HN HD L a b H. destruct (ones_list SN NN HN) as [->| ->]; destruct (ones_list SD ND HD) as [->| ->]; cbn [length Nat.add] in *.
  - split; intros e [].
  - destruct (sm_checked o i Ho ltac:(lia)) as [_ [U [P _]]]. split; [intros e []|]. intros e [<-|[]]. specialize (H 0 ltac:(lia)). cbn [fold_right pw] in H. rewrite Nat.add_0_r in H.
    assert (X : (sm_val o i * point sm_ts i * b 1%nat)%K = f0) by (rewrite H; ring). apply (fmul_0 (HK Q101)) in X as [X|X]; [|exact X]. apply (fmul_0 (HK Q101)) in X as [X|X]; contradiction.
  - destruct (sm_checked o i Ho ltac:(lia)) as [_ [U [P _]]]. split; [|intros e []]. intros e [<-|[]]. specialize (H 0 ltac:(lia)). cbn [fold_right pw] in H. rewrite Nat.add_0_r in H.
    assert (X : (point sm_ts i * a 1%nat)%K = f0) by (transitivity (a 1%nat * (point sm_ts i * f1) + f0)%K; [ring|rewrite H; ring]). apply (fmul_0 (HK Q101)) in X as [X|X]; [contradiction|exact X].
  - destruct (sm_checked o i Ho ltac:(lia)) as [_ [U [P Q]]]. specialize (Q ltac:(lia)). destruct (sm_checked o (S i) Ho ltac:(lia)) as [_ [_ [P' _]]].
    pose proof (H 0 ltac:(lia)) as H0. pose proof (H 1 ltac:(lia)) as H1. cbn [fold_right pw] in H0, H1. rewrite Nat.add_0_r in H0. replace (i + 1) with (S i) in H1 by lia.
    set (u := sm_val o i) in *. set (u' := sm_val o (S i)) in *. set (t := point sm_ts i) in *. set (t' := point sm_ts (S i)) in *.
    assert (A0 : (t * (a 1%nat - u * b 1%nat))%K = f0) by (transitivity ((a 1%nat * (t * f1) + f0) - u * (b 1%nat * (t * f1) + f0))%K; [ring|rewrite H0; ring]).
    assert (A1 : (t' * (a 1%nat - u' * b 1%nat))%K = f0) by (transitivity ((a 1%nat * (t' * f1) + f0) - u' * (b 1%nat * (t' * f1) + f0))%K; [ring|rewrite H1; ring]).
    apply (fmul_0 (HK Q101)) in A0 as [A0|A0]; [contradiction|]. apply (fmul_0 (HK Q101)) in A1 as [A1|A1]; [contradiction|].
    assert (B : ((u - u') * b 1%nat)%K = f0) by (transitivity ((a 1%nat - u' * b 1%nat) - (a 1%nat - u * b 1%nat))%K; [ring|rewrite A0, A1; ring]). apply (fmul_0 (HK Q101)) in B as [B|B]; [apply (fsub_0 (HK Q101)) in B; contradiction|].
    split; intros e [<-|[]]; [|exact B]. rewrite B in A0. rewrite <- A0. ring.
Qed.
Lemma sm_interpolable : interpolable 2 true true sm_N sm_D sm_Ns sm_Ds (sr_y Q101) (sr_s Q101) sm_ts.
Proof.
  constructor.
  - apply le_n.
  - apply sm_poly; cbn; tauto.
  - apply sm_poly; cbn; tauto.
  - apply sm_translated.
  - apply sm_translated.
  - eqq1.
  - assert (X : forall d P Ps, In P [sm_N; sm_D] -> In Ps [sm_Ns; sm_Ds] -> hom d P <> [] -> hom d Ps <> []).
    { intros d P Ps I J H. assert (E : d = 1). { pose proof (proj2 (proj2 (proj2 (sm_poly P ltac:(cbn in *; tauto)))) d H) as L. destruct d as [|[|d]]; [|reflexivity|clear - L; lia]. exfalso. apply H. cbn in I. cases; subst P; reflexivity. }
      subst d. apply sm_poly. cbn in *. tauto. }
    intros d. split; apply X; cbn; tauto.
  - intros P d I Hd H. pose proof (proj2 (proj2 (proj2 (sm_poly P I))) d H) as L. assert (d = 1) by lia. subst d. cbn [Nat.sub].
    destruct I as [<-|[<-|[<-|[<-|[]]]]]; (eapply sm_suitable; [| | | |reflexivity]); neq1.
  - exists (fun i => q1 (Z.of_nat i)). intros i j Hi Hj E. apply (f_equal qv) in E. change (3 * (tdegree sm_N + tdegree sm_D) + 3) with 9 in Hi, Hj.
    do 9 (destruct i as [|i]; [do 9 (destruct j as [|j]; [try reflexivity; vm_compute in E; discriminate E|]); lia|]). lia.
  - intros j Hj E. change (max_degree sm_N sm_D) with 1 in Hj. assert (j = 1) by lia. subst j. revert E. neq1.
  - exists (fun _ => q1 3 / q1 56)%K, (fun _ => q1 8 / q1 56)%K. change (tdegree sm_D) with 1. change (tdegree sm_N) with 1. split; [|split].
    + exists (fun i => if i =? 0 then (q1 3 / q1 56)%K else f0). intros x. unfold ueval. cbn [fsum Nat.eqb pw]. ring.
    + exists (fun i => if i =? 0 then (q1 8 / q1 56)%K else f0). intros x. unfold ueval. cbn [fsum Nat.eqb pw]. ring.
    + intros t. assert (EN : poly_value 2 sm_N (ray_point (sr_y Q101) (sr_s Q101) (ones 2) t) = (q1 16 + q1 8 * t)%K).
      { unfold poly_value, sm_N, ray_point, ones, sr_y, sr_s. cbn [Nat.sub repeat fold_right fst snd monomial_value nth]. change (Z.to_nat 0) with 0. change (Z.to_nat 1) with 1. cbn [pw].
        transitivity ((q1 2 * kint 5 + q1 3 * kint 2) + (q1 2 + q1 3 * kint 2) * t)%K; [ring|]. f_equal; [eqq1|]. f_equal. eqq1. }
      assert (ED : poly_value 2 sm_D (ray_point (sr_y Q101) (sr_s Q101) (ones 2) t) = (q1 1 + q1 (-3) * t)%K).
      { unfold poly_value, sm_D, ray_point, ones, sr_y, sr_s. cbn [Nat.sub repeat fold_right fst snd monomial_value nth]. change (Z.to_nat 0) with 0. change (Z.to_nat 1) with 1. cbn [pw].
        transitivity ((q1 1 * kint 5 + q1 (-2) * kint 2) + (q1 1 + q1 (-2) * kint 2) * t)%K; [ring|]. f_equal; [eqq1|]. f_equal. eqq1. }
      rewrite EN, ED. transitivity ((q1 3 / q1 56 * q1 16 + q1 8 / q1 56 * q1 1) + (q1 3 / q1 56 * q1 8 + q1 8 / q1 56 * q1 (-3)) * t)%K; [ring|].
      replace (q1 3 / q1 56 * q1 16 + q1 8 / q1 56 * q1 1)%K with (@f1 G) by eqq1. replace (q1 3 / q1 56 * q1 8 + q1 8 / q1 56 * q1 (-3))%K with (@f0 G) by eqq1. ring.
  - rewrite sm_length. vm_compute. lia.
  - rewrite (proj2 (sm_table 0 ltac:(lia))). neq1.
  - change (first_points sm_N sm_D) with 3. intros i j Hi Hj E. rewrite (proj1 (sm_table i Hi)), (proj1 (sm_table j Hj)) in E. apply (f_equal qv) in E. destruct i as [|[|[|[|i]]]]; destruct j as [|[|[|[|j]]]]; try lia; vm_compute in E; discriminate E.
  - intros i Hi. change (first_points sm_N sm_D) with 3 in Hi. refine (proj1 (proj2 (proj2 (sm_checked [1] i _ _)))); [auto|lia].
  - change (first_points sm_N sm_D) with 3. intros i j Hj Hi E. rewrite !(inverse_difference_table _ _ _ _ 4 sm_table) in E by lia. apply (f_equal qv) in E. destruct i as [|[|[|i]]]; destruct j as [|[|[|j]]]; try lia; vm_compute in E; discriminate E.
  - change (first_points sm_N sm_D) with 3. intros k Hk. rewrite (proj1 (sm_table 3 ltac:(lia))), (continued_fraction_table _ _ _ _ 4 _ sm_table) by lia. destruct k as [|[|[|k]]]; try lia; neq1.
  - intros o i Ho Hi. rewrite sm_length in Hi. exact (proj1 (sm_checked o i (sm_order o Ho) Hi)).
  - intros o i SN SD Ho NN ND HN HD L. rewrite sm_length in L. refine (sm_regular o i SN SD (sm_order o Ho) NN ND _ _ L).
    + intros d I. destruct (HN d I) as [A B]. apply sm_poly in B; [lia|cbn; tauto].
    + intros d I. destruct (HD d I) as [A B]. apply sm_poly in B; [lia|cbn; tauto].
Qed.
Lemma sr_first_ok : first_session rm_c sr_N sr_D sr_first.
Proof.
  split; [reflexivity|]. exists f1, sm_Ns, sm_Ds. cbn [ms_F sr_first sr_session ms_y ms_s ms_ts mc_n mc_norm_den mc_bt rm_c]. destruct sm_over as [E1 E2]. rewrite E1, E2. split; [exact sm_interpolable|]. split.
  - constructor.
    + vm_compute; lia.
    + vm_compute; lia.
    + reflexivity.
    + reflexivity.
    + reflexivity.
    + discriminate.
    + discriminate.
  - rewrite sm_length. vm_compute. lia.
Qed.

(** the function *)
Lemma sr_function : rational_function_n 2 sr_N sr_D.
Proof.
  constructor; try discriminate; try reflexivity; [nodup|nodup|].
  intros t I. cbn in I. cases; subst t; cbn [fst snd]; (split; [lia|]); (split; [split; [cbn; lia|reflexivity]|]); (split; [reflexivity|]); (split; [|reflexivity]); nonneg.
Qed.
Lemma sr_none m' T : map fst T = [[1; 0]; [0; 1]]%Z -> ~ @alone G m' T.
Proof.
  intros E [I H]. rewrite E in *. cbn in I. cases; subst m'.
  - specialize (H [0; 1]%Z (or_intror (or_introl eq_refl)) eq_refl). discriminate H.
  - specialize (H [1; 0]%Z (or_introl eq_refl) eq_refl). discriminate H.
Qed.
Lemma sr_normalisable : normalised_by 2 true (over Q101 sr_N) (over Q101 sr_D) true [1; 0]%Z true.
Proof.
  unfold normalised_by. destruct (in_dec _ _ _) as [I|_]; [exfalso; cbn in I; cases; discriminate|]. right. right. split; [intros m'; apply sr_none; reflexivity|]. split; [intros m'; apply sr_none; reflexivity|]. split; [reflexivity|]. split; [|reflexivity].
  split; [left; reflexivity|]. intros m' I. cbn in I. cases; subst m'; [left; reflexivity|]. right. exists 1. split; [cbn; lia|]. split; [cbn; lia|]. intros j Hj. cbn in Hj. lia.
Qed.
Lemma sr_divided T T' : (forall t, In t T -> lowest (snd t) /\ (0 < snd (snd t))%Z) -> divided (1, 1)%Z T T' -> T' = T.
Proof.
  intros H DV. induction DV as [|t t' T T' [E [L X]] DV IH]; [reflexivity|]. f_equal; [|apply IH; intros t0 I; apply H; right; exact I].
  destruct (H t (or_introl eq_refl)) as [L0 P0]. destruct t as [k q], t' as [k' q']. cbn [fst snd] in *. subst k'. f_equal. apply lowest_unique; try assumption. rewrite !Z.mul_1_r in X. exact X.
Qed.
Lemma sr_normalised c in_den m N1 D1 : mc_n c = 2 -> mc_norm_den c = true -> singular_normalisation c Q101 sr_N sr_D in_den m N1 D1 -> in_den = true /\ m = [1; 0]%Z /\ N1 = sr_N /\ D1 = sr_D.
Proof.
  intros Hn Hd [a [NB [Ia [DN DD]]]]. rewrite Hn, Hd in NB. unfold normalised_by in NB. destruct (in_dec _ _ _) as [I|_]; [exfalso; cbn in I; cases; discriminate|].
  destruct NB as [[_ [_ X]]|[[_ [_ [_ X]]]|[_ [_ [-> [[Im L] _]]]]]]; try discriminate X.
  assert (m = [1; 0]%Z) as ->.
  { cbn in Im. cases; subst m; [reflexivity|]. exfalso. destruct (L [1; 0]%Z (or_introl eq_refl)) as [X|[i [Li [B1 B2]]]]; [discriminate X|]. destruct i as [|[|i]]; cbn in *; try lia. specialize (B2 1 ltac:(lia)). cbn in B2. lia. }
  cbn in Ia. destruct Ia as [Ia|[Ia|[]]]; [|discriminate Ia]. injection Ia as <-. split; [reflexivity|]. split; [reflexivity|].
  split; (eapply sr_divided; [|eassumption]); intros t I; cbn in I; cases; subst t; (split; [split; [cbn; lia|reflexivity]|reflexivity]).
Qed.
Lemma sr_after : monomials_after 2 Q101 (sr_s Q101) sr_N sr_A /\ monomials_after 2 Q101 (sr_s Q101) sr_D sr_A.
Proof. destruct sm_over' as [E1 E2]. destruct sm_translated as [T1 T2]. split; [exists sm_Ns|exists sm_Ds]; rewrite ?E1, ?E2; (split; [assumption|]); intros e; reflexivity. Qed.
Lemma sr_unknown : unknown_degrees false sr_N sr_A [0; 1] /\ unknown_degrees true sr_D sr_A [1].
Proof.
  assert (H1 : forall d, has_degree d [[1; 0]; [0; 1]]%Z <-> d = 1). { intros d. split; [intros [k [I E]]; cbn in I; cases; subst k; cbn [total fold_right] in E; lia|]. intros ->. exists [1; 0]%Z. split; [left; reflexivity|reflexivity]. }
  assert (H2 : forall d, has_degree d sr_A <-> d = 1 \/ d = 0). { intros d. split; [intros [k [I E]]; cbn in I; cases; subst k; cbn [total fold_right] in E; lia|]. intros [->| ->]; [exists [1; 0]%Z|exists [0; 0]%Z]; (split; [cbn; tauto|reflexivity]). }
  split; (split; [nodup|]); intros d; change (map fst sr_N) with [[1; 0]; [0; 1]]%Z; change (map fst sr_D) with [[1; 0]; [0; 1]]%Z; rewrite H1, H2; cbn [In]; split; intros X.
  - cases; subst; [right; split; [discriminate|auto]|left; reflexivity].
  - destruct X as [->|[_ [->| ->]]]; auto.
  - cases; subst. left. reflexivity.
  - destruct X as [->|[Y [->| ->]]]; auto; exfalso; apply Y; reflexivity.
Qed.

(** equations with integer coefficients *)
Fixpoint zsum (n : nat) (f : nat -> Z) : Z := match n with O => 0%Z | S m => (zsum m f + f m)%Z end.
Definition zsign (j : nat) : Z := if Nat.even j then 1%Z else (-1)%Z.
Definition zskip (j b : nat) : nat := if b <? j then b else S b.
Fixpoint zdet (n : nat) (M : nat -> nat -> Z) : Z := match n with O => 1%Z | S k => zsum (S k) (fun j => Z.mul (Z.mul (zsign j) (M 0 j)) (zdet k (fun a b => M (S a) (zskip j b)))) end.
Definition zcof (n : nat) (M : nat -> nat -> Z) (r m : nat) : Z := Z.mul (zsign (r + m)) (zdet (pred n) (fun i j => M (zskip m i) (zskip r j))).
Definition zmat (SN SD : list nat) (t N D : nat -> Z) (m c : nat) : Z :=
  if c <? length SN then (D m * t m ^ Z.of_nat (nth c SN 0%nat))%Z else (- N m * t m ^ Z.of_nat (nth (c - length SN)%nat SD 0%nat))%Z.
Definition zcheck (p : Z) (SN SD : list nat) (t N D : nat -> Z) : bool :=
  let n := length SN + length SD in let M := zmat SN SD t N D in
  negb (zdet n M mod p =? 0)%Z && forallb (fun m => negb (D m mod p =? 0)%Z) (seq 0 n) &&
  forallb (fun r => forallb (fun c => (zsum n (fun m => zcof n M r m * M m c) =? if Nat.eqb r c then zdet n M else 0)%Z) (seq 0 n)) (seq 0 n).
Section ZCheck.
  Variable F : pfield.
  Local Notation K := (fld F).
  Add Field KSRZ : (fl_field K (HK F)).
  Lemma kpow t o : @kint K (t ^ Z.of_nat o) = pw (kint t) o.
  Proof. induction o as [|o IH]; [apply (kint_1 F)|]. rewrite Nat2Z.inj_succ, Z.pow_succ_r, (kint_mul F), IH by lia. reflexivity. Qed.
  Lemma kzero : @kint K 0 = f0. Proof. apply (kint_0 F). exists 0%Z. reflexivity. Qed.
  Lemma kzsum n f : @kint K (zsum n f) = fsum n (fun m => kint (f m)).
  Proof. induction n as [|n IH]; [apply kzero|]. cbn [zsum fsum]. rewrite (kint_plus F), IH. reflexivity. Qed.
  Lemma zcheck_ok SN SD t N D : zcheck (pf_mod F) SN SD t N D = true ->
    determined SN SD (fun m => @kint K (t m)) (fun m => fdiv (kint (N m)) (kint (D m))) (length SN + length SD).
  Proof.
    unfold zcheck. cbv zeta. intros H. apply Bool.andb_true_iff in H as [H H3]. apply Bool.andb_true_iff in H as [H1 H2]. set (n := length SN + length SD) in *. set (M := zmat SN SD t N D) in *.
    apply Bool.negb_true_iff, Z.eqb_neq in H1. rewrite forallb_forall in H2, H3.
    apply (determined_inverse (HK F) SN SD _ _ n (kint (zdet n M)) (fun r m => fmul (kint (zcof n M r m)) (kint (D m))) eq_refl (kint_mod F _ H1)).
    intros r c Hr Hc. specialize (H3 r ltac:(apply in_seq; lia)). rewrite forallb_forall in H3. specialize (H3 c ltac:(apply in_seq; lia)). apply Z.eqb_eq in H3.
    transitivity (fsum n (fun m => @kint K (zcof n M r m * M m c))).
    - apply (fsum_ext (K := K)). intros m Hm. specialize (H2 m ltac:(apply in_seq; lia)). apply Bool.negb_true_iff, Z.eqb_neq in H2. apply (kint_mod F) in H2. rewrite (kint_mul F). unfold d_mat, M, zmat. destruct (c <? length SN).
      + rewrite (kint_mul F), kpow. ring.
      + rewrite (kint_mul F), kpow. replace (- N m)%Z with (0 - N m)%Z by lia. rewrite (kint_sub F), kzero. generalize dependent (@kint K (D m)). generalize (@kint K (N m)) (@kint K (zcof n (zmat SN SD t N D) r m)). intros a b d Hd. field. exact Hd.
    - rewrite <- kzsum, H3. destruct (r =? c); [reflexivity|apply kzero].
  Qed.
End ZCheck.

(** a further prime *)
Definition sr_later (F : pfield) : msession := sr_session F 6.
Definition sr_lists : list (list nat) := [[]; [1]].
Definition sr_test (p : Z) (i : nat) (VN VD : list nat) (j : nat) : bool :=
  let t k := Z.of_nat (2 + Nat.modulo (j + k) 18) in
  (6 <? j + (length VN + length VD)) || zcheck p VN VD t (fun k => zN i (t k)) (fun k => zD i (t k)).
Definition sr_all (p : Z) : bool := forallb (fun i => forallb (fun VN => forallb (fun VD => forallb (sr_test p i VN VD) (seq 0 7)) sr_lists) (sg_lists 0 1)) [1; 2].
Lemma sr_all_107 : sr_all 107 = true. Proof. vm_compute. reflexivity. Qed.
Section Later.
  Variable F : pfield.
  Local Notation K := (fld F).
  Add Field KSRL : (fl_field K (HK F)).
  Definition sn_Ns : list (list Z * K) := [([1; 0]%Z, kint 2); ([0; 1]%Z, kint 3); ([0; 0]%Z, kint 16)].
  Definition sn_Ds : list (list Z * K) := [([1; 0]%Z, kint 1); ([0; 1]%Z, kint (-2)); ([0; 0]%Z, kint (1 * 5 + (-2) * 2)%Z)].
  Lemma sn_over : over F sr_N = [([1; 0]%Z, @kint K 2); ([0; 1]%Z, kint 3)] /\ over F sr_D = [([1; 0]%Z, @kint K 1); ([0; 1]%Z, kint (-2))].
  Proof. split; unfold over, sr_N, sr_D; cbn [map fst snd]; rewrite !(krat_int F); reflexivity. Qed.
  Lemma sn_times (P : list (list Z * K)) : times f1 P = P.
  Proof. unfold times. rewrite <- (map_id P) at 2. apply map_ext. intros [k a]. cbn [fst snd]. f_equal. ring. Qed.
  Lemma sn_polynomial (P : list (list Z * K)) : P <> [] -> NoDup (map fst P) -> (forall e a, In (e, a) P -> a <> f0 /\ In e sr_A) -> polynomial 2 1 P.
  Proof.
    intros H1 H2 H3. split; [exact H1|]. split; [exact H2|]. intros e a I. destruct (H3 e a I) as [Na Ie]. split; [exact Na|]. cbn in Ie. cases; subst e; (split; [reflexivity|split; [|reflexivity]]); intros [|[|[|i]]]; cbn; lia.
  Qed.
  Hypothesis nz : @kint K 1 <> f0 /\ @kint K 2 <> f0 /\ @kint K 3 <> f0 /\ @kint K 16 <> f0 /\ @kint K (-2) <> f0.
  Lemma sn_polys P : In P [over F sr_N; over F sr_D; sn_Ns; sn_Ds] -> polynomial 2 1 P.
  Proof.
    destruct sn_over as [-> ->]. destruct nz as [N1 [N2 [N3 [N4 N5]]]]. intros I. cbn [In] in I. cases; subst P; (apply sn_polynomial; [discriminate|unfold sn_Ns, sn_Ds; cbn [map fst]; nodup|]); intros e a I; unfold sn_Ns, sn_Ds in I; cbn [In] in I; cases; injection I as <- <-; (split; [assumption|cbn; tauto]).
  Qed.
  Lemma sn_translated : translated 2 (sr_s F) (times f1 (over F sr_N)) sn_Ns /\ translated 2 (sr_s F) (times f1 (over F sr_D)) sn_Ds.
  Proof.
    rewrite !sn_times. split.
    - split; [apply (sn_polys sn_Ns); cbn; tauto|]. split; [reflexivity|]. intros x. rewrite (proj1 sn_over). unfold poly_value, sn_Ns, sr_s. cbn [fold_right fst snd monomial_value nth]. change (Z.to_nat 0) with 0. change (Z.to_nat 1) with 1. cbn [pw].
      change 16%Z with (2 * 5 + 3 * 2)%Z. rewrite (kint_plus F), !(kint_mul F). ring.
    - split; [apply (sn_polys sn_Ds); cbn; tauto|]. split; [reflexivity|]. intros x. rewrite (proj2 sn_over). unfold poly_value, sn_Ds, sr_s. cbn [fold_right fst snd monomial_value nth]. change (Z.to_nat 0) with 0. change (Z.to_nat 1) with 1. cbn [pw].
      rewrite (kint_plus F), !(kint_mul F). ring.
  Qed.
  Lemma sn_shift_ok : shift_ok 2 true sr_N sr_D sr_A sr_A F (sr_s F) f1 sn_Ns sn_Ds.
  Proof.
    assert (V : exists v : nat -> K, distinct 2 v).
    { exists (fun i => if i =? 0 then f0 else f1). pose proof (F_1_neq_0 (fl_field K (HK F))) as H1. intros [|[|i]] [|[|j]] Hi Hj E; cbn in *; try lia; exfalso; apply H1; congruence. }
    assert (C : characteristic_above K 1). { intros j Hj E. assert (j = 1) by lia. subst j. apply (F_1_neq_0 (fl_field K (HK F))). rewrite <- E. change (@nsum K 1) with (@kint K 1). symmetry. apply (kint_1 F). }
    split; [|split].
    - rewrite (proj2 sn_over). unfold poly_value, sr_s. cbn [fold_right fst snd monomial_value nth]. change (Z.to_nat 0) with 0. change (Z.to_nat 1) with 1. cbn [pw].
      transitivity (@kint K (1 * 5 + (-2) * 2)%Z); [rewrite (kint_plus F), !(kint_mul F); ring|]. apply (kint_1 F).
    - split; [apply (sn_polys (over F sr_N)); cbn; tauto|]. split; [apply sn_translated|]. split; [intros e; reflexivity|]. split; assumption.
    - split; [apply (sn_polys (over F sr_D)); cbn; tauto|]. split; [apply sn_translated|]. split; [intros e; reflexivity|]. split; assumption.
  Qed.
  (** the first value *)
  Lemma sn_point0 len : 0 < len -> pt (sr_session F len) 0 = @kint K 2.
  Proof. intros H. unfold pt. cbn [ms_ts sr_session]. rewrite sr_point by exact H. reflexivity. Qed.
  Lemma sn_first len : 0 < len -> first_val 2 (sr_session F len) = @fdiv K (kint 32) (kint (-5)).
  Proof.
    intros H. unfold first_val. rewrite sn_point0 by exact H. cbn [ms_bb sr_session Nat.sub repeat]. unfold ray_value. rewrite (sr_num F), (sr_den F). reflexivity.
  Qed.
  Lemma sn_variant len q1 q2 : 0 < len -> poly_value 2 (over F [([1; 0]%Z, q1); ([0; 1]%Z, q2)]) (shifted_point 2 (sr_session F len)) = fadd (fmul (krat q1) (@kint K 7)) (fmul (krat q2) (kint 6)).
  Proof.
    intros H. unfold shifted_point. rewrite sn_point0 by exact H. unfold poly_value, over, ray_point, sr_session, sr_y, sr_s. cbn [ms_y ms_s ms_F map fold_right fst snd monomial_value nth Nat.sub repeat]. change (Z.to_nat 0) with 0. change (Z.to_nat 1) with 1. cbn [pw].
    change 7%Z with (2 + 5)%Z. change 6%Z with (2 * 2 + 2)%Z. rewrite !(kint_plus F), (kint_mul F). ring.
  Qed.
  Lemma sn_cross n1 d1 n2 d2 n3 d3 : @kint K d1 <> f0 -> @kint K d2 <> f0 -> @kint K d3 <> f0 -> @kint K (-5) <> f0 ->
    fadd (fmul (krat (n1, d1)) (@kint K 7)) (fmul (krat (n2, d2)) (kint 6)) = fmul (fdiv (kint 32) (kint (-5))) (fadd (fmul (krat (1, 1)%Z) (kint 7)) (fmul (krat (n3, d3)) (kint 6))) ->
    @kint K ((n1 * d2 * 7 + n2 * d1 * 6) * d3 * (-5) - 32 * (d3 * 7 + n3 * 6) * d1 * d2)%Z = f0.
  Proof.
    intros H1 H2 H3 H5. rewrite (krat_int F). unfold krat. cbn [fst snd]. rewrite (kint_sub F), !(kint_mul F), !(kint_plus F), !(kint_mul F), (kint_1 F).
    generalize dependent (@kint K d1). generalize dependent (@kint K d2). generalize dependent (@kint K d3). generalize dependent (@kint K (-5)). generalize (@kint K n1) (@kint K n2) (@kint K n3) (@kint K 7) (@kint K 6) (@kint K 32).
    intros a1 a2 a3 c7 c6 c32 m5 H5 b3 H3 b2 H2 b1 H1 E.
    assert (X : fmul (fmul (fmul b1 b2) (fmul b3 m5)) (fadd (fmul (fdiv a1 b1) c7) (fmul (fdiv a2 b2) c6)) = fmul (fmul (fmul b1 b2) (fmul b3 m5)) (fmul (fdiv c32 m5) (fadd (fmul f1 c7) (fmul (fdiv a3 b3) c6)))) by (rewrite E; reflexivity).
    transitivity (fsub (fmul (fmul (fmul b1 b2) (fmul b3 m5)) (fadd (fmul (fdiv a1 b1) c7) (fmul (fdiv a2 b2) c6))) (fmul (fmul (fmul b1 b2) (fmul b3 m5)) (fmul (fdiv c32 m5) (fadd (fmul f1 c7) (fmul (fdiv a3 b3) c6))))); [field; auto|rewrite X; ring].
  Qed.
End Later.

(** only the right fractions take the first value modulo 107 *)
Definition sr_excluded (q1 q2 q3 : Z * Z) : bool :=
  (negb (((fst q1 * snd q2 * 7 + fst q2 * snd q1 * 6) * snd q3 * (-5) - 32 * (snd q3 * 7 + fst q3 * 6) * snd q1 * snd q2) mod 107 =? 0) ||
  ((fst q1 =? 2) && (snd q1 =? 1) && (fst q2 =? 3) && (snd q2 =? 1) && (fst q3 =? -2) && (snd q3 =? 1)))%Z.
Definition sr_check (l1 l2 l3 : list (Z * Z)) : bool := forallb (fun q1 => forallb (fun q2 => forallb (sr_excluded q1 q2) l3) l2) l1.
Lemma sr_check_all l1 l2 l3 : sr_check l1 l2 l3 = true -> forall q1 q2 q3, In q1 l1 -> In q2 l2 -> In q3 l3 -> sr_excluded q1 q2 q3 = true.
Proof. unfold sr_check. intros H q1 q2 q3 I1 I2 I3. rewrite forallb_forall in H. specialize (H q1 I1). rewrite forallb_forall in H. specialize (H q2 I2). rewrite forallb_forall in H. exact (H q3 I3). Qed.
Lemma sr_candidates_checked : sr_check (candidates (2, 1)%Z) (candidates (3, 1)%Z) (candidates (-2, 1)%Z) = true.
Proof. vm_compute. reflexivity. Qed.
Lemma sr_not_misled N' D' : qvariant 101 sr_N N' -> qvariant 101 sr_D D' -> In ([1; 0]%Z, (1, 1)%Z) D' ->
  poly_value 2 (over Q107 N') (shifted_point 2 (sr_later Q107)) = fmul (first_val 2 (sr_later Q107)) (poly_value 2 (over Q107 D') (shifted_point 2 (sr_later Q107))) -> N' = sr_N /\ D' = sr_D.
Proof.
  intros VN VD I1 E.
  inversion VN as [|? t1 ? T1 [X1 [G1 A1]] VN1]; subst. inversion VN1 as [|? t2 ? T2 [X2 [G2 A2]] VN2]; subst. inversion VN2; subst.
  inversion VD as [|? t3 ? T3 [X3 [G3 A3]] VD1]; subst. inversion VD1 as [|? t4 ? T4 [X4 [G4 A4]] VD2]; subst. inversion VD2; subst.
  destruct t1 as [e1 p1], t2 as [e2 p2], t3 as [e3 p3], t4 as [e4 p4]. cbn [fst snd] in *. subst e1 e2 e3 e4.
  destruct I1 as [I1|[I1|[]]]; [|discriminate I1]. injection I1 as ->.
  unfold sr_later in E. rewrite !(sn_variant Q107), (sn_first Q107) in E by lia.
  pose proof (candidates_all _ _ G1 A1) as C1. pose proof (candidates_all _ _ G2 A2) as C2. pose proof (candidates_all _ _ G4 A4) as C4.
  pose proof (sr_check_all _ _ _ sr_candidates_checked p1 p2 p4 C1 C2 C4) as CK. clear C1 C2 C4. unfold sr_excluded in CK.
  destruct p1 as [n1 d1], p2 as [n2 d2], p4 as [n4 d4]. cbn [fst snd] in *. apply orb_true_iff in CK as [CK|CK].
  - exfalso. apply negb_true_iff, Z.eqb_neq in CK. apply CK.
    assert (Nd : forall q, guessable 101 q -> @kint (fld Q107) (snd q) <> f0). { intros q [[L1 L2] Gq] Z. apply (kint_0 Q107) in Z. change (pf_mod Q107) with 107%Z in Z. apply Z.divide_pos_le in Z; [|exact L1]. destruct (Z.eq_dec (fst q) 0) as [Y|Y]; [rewrite Y, Z.gcd_0_l in L2; lia|]. clear - L1 Gq Z Y. nia. }
    apply Z.mod_divide; [lia|]. apply (kint_0 Q107). apply sn_cross; [apply (Nd _ G1)|apply (Nd _ G2)|apply (Nd _ G4)| |exact E]. apply (kint_mod Q107). vm_compute. discriminate.
  - repeat apply andb_true_iff in CK as [CK ?]. repeat match goal with H : (_ =? _)%Z = true |- _ => apply Z.eqb_eq in H end. subst. split; reflexivity.
Qed.
Lemma sr_nz_107 : let K := fld Q107 in @kint K 1 <> f0 /\ @kint K 2 <> f0 /\ @kint K 3 <> f0 /\ @kint K 16 <> f0 /\ @kint K (-2) <> f0.
Proof. repeat split; apply (kint_mod Q107); vm_compute; discriminate. Qed.
Definition sr_pole_check : bool := forallb (fun i => forallb (fun j => negb (zD i (Z.of_nat (2 + Nat.modulo j 18)) mod 107 =? 0)%Z) (seq 0 6)) [1; 2].
Lemma sr_pole_ok : sr_pole_check = true. Proof. vm_compute. reflexivity. Qed.
Lemma sr_no_pole i j : 1 <= i <= 2 -> j < 6 -> (zD i (Z.of_nat (2 + Nat.modulo j 18)) mod 107 <> 0)%Z.
Proof. intros Hi Hj. pose proof sr_pole_ok as C. unfold sr_pole_check in C. rewrite forallb_forall in C. specialize (C i ltac:(cbn [In]; clear - Hi; lia)). rewrite forallb_forall in C. specialize (C j ltac:(apply in_seq; lia)). apply Bool.negb_true_iff, Z.eqb_neq in C. exact C. Qed.
Lemma sr_val F len i j : j < len -> ray_value 2 (over F sr_N) (over F sr_D) (sr_y F) (sr_s F) [i] (nth j (sr_ts F len) f0) = fdiv (kint (zN i (Z.of_nat (2 + Nat.modulo j 18)))) (kint (zD i (Z.of_nat (2 + Nat.modulo j 18)))).
Proof. intros H. rewrite sr_point by exact H. unfold ray_value. rewrite (sr_num F), (sr_den F). reflexivity. Qed.
Lemma sr_finite F t : (1 < pf_mod F)%Z -> In t (sr_N ++ sr_D) -> ~ (pf_mod F | snd (snd t))%Z.
Proof. intros H I D. cbn [sr_N sr_D app In] in I. cases; subst t; cbn [snd] in D; apply Z.divide_pos_le in D; lia. Qed.
Lemma sr_later_ok : shifted_session 2 true sr_N sr_D sr_A sr_A true [1; 0]%Z [0; 1] [1] 101 (sr_later Q107).
Proof.
  constructor.
  - intros t. apply (sr_finite Q107). reflexivity.
  - change (pf_mod (ms_F (sr_later Q107))) with 107%Z. intros H. apply Z.divide_pos_le in H; lia.
  - intros o t. reflexivity.
  - exists f1, (sn_Ns Q107), (sn_Ds Q107). apply sn_shift_ok. exact sr_nz_107.
  - cbn [sr_later sr_session ms_ts]. rewrite sr_length. cbn. lia.
  - unfold sr_later. rewrite (sn_first Q107) by lia. assert (A : @kint (fld Q107) 32 <> f0) by (apply (kint_mod Q107); vm_compute; discriminate). assert (B : @kint (fld Q107) (-5) <> f0) by (apply (kint_mod Q107); vm_compute; discriminate).
    intros Z. apply A. exact (ex_quot (HK Q107) _ _ B Z).
  - intros i j Hi Hj. change (rays sr_N sr_D) with 2 in Hi. cbn [sr_later sr_session ms_ts] in Hj. rewrite sr_length in Hj. unfold pt. cbn [sr_later sr_session ms_ts ms_y ms_s ms_F Nat.sub repeat]. rewrite sr_point by exact Hj. rewrite (sr_den Q107). apply (kint_mod Q107). apply sr_no_pole; assumption.
  - intros i _. apply (kint_mod Q107). vm_compute. discriminate.
  - intros T k k' HT I I' Et E. assert (X : In k sr_A /\ In k' sr_A) by (destruct HT as [->| ->]; apply in_app_or in I; apply in_app_or in I'; cbn in *; tauto). destruct X as [J J']. clear HT I I'.
    assert (M : @monomial_value (fld Q107) 1 [0]%Z (sr_y Q107) <> monomial_value 1 [1]%Z (sr_y Q107)).
    { cbn [monomial_value nth]. change (Z.to_nat 0) with 0. change (Z.to_nat 1) with 1. cbn [pw]. unfold sr_y. intros X. assert (Y : (1 = 2)%Z); [|discriminate Y]. apply (kint_inj Q107 eq_refl); [lia|lia|]. rewrite (kint_1 Q107). exact (ex_ring3 (HK Q107) _ X). }
    cbn in J, J'. cases; subst k k'; cbn in Et; try discriminate Et; try reflexivity; cbn [tl] in E; exfalso; apply M; first [exact E|symmetry; exact E].
  - intros t It. apply small_no_impostor; [lia| |]; cbn [sr_N sr_D app In] in It; cases; subst t; cbn [fst snd]; try (cbn; lia); (split; [cbn; lia|reflexivity]).
  - intros N' D' VN VD I1 _ E. exact (sr_not_misled N' D' VN VD I1 E).
  - intros i j VN VD Hi NN ND IN ID Hj. change (rays sr_N sr_D) with 2 in Hi. cbn [sr_later sr_session ms_ts] in Hj. rewrite sr_length in Hj.
    destruct (sorted_list 0 1 VN (two_sublists 0 1 VN NN IN)) as [VN' [JN PN]]. assert (JD : In VD sr_lists) by (destruct (ones_list VD ND) as [->| ->]; [intros d I; destruct (ID d I) as [<-|[]]; reflexivity| |]; cbn; auto).
    apply (determined_perm (HK Q107) VN' VN VD VD); [exact PN|apply Permutation_refl|]. assert (LL : length VN = length VN') by (rewrite (Permutation_length PN); reflexivity). rewrite LL in *.
    pose proof sr_all_107 as R. unfold sr_all in R. rewrite forallb_forall in R. specialize (R i ltac:(cbn [In]; clear - Hi; lia)). rewrite forallb_forall in R. specialize (R VN' JN). rewrite forallb_forall in R. specialize (R VD JD). rewrite forallb_forall in R. specialize (R j ltac:(apply in_seq; clear - Hj; lia)).
    unfold sr_test in R. cbv zeta in R. apply Bool.orb_true_iff in R as [R|R]; [apply Nat.ltb_lt in R; clear - R Hj; lia|]. apply (zcheck_ok Q107) in R.
    intros a b E. apply (R a b). intros m Hm. specialize (E m Hm). assert (L6 : j + m < 6) by (clear - Hm Hj; lia). revert E. unfold pt. cbn [sr_later sr_session ms_ts ms_bb ms_F Nat.sub repeat]. rewrite (sr_val Q107), sr_point by exact L6. intros E. exact E.
Qed.
Lemma sr_probe_ok : shifted_probe 2 sr_N sr_D (sr_later Q113).
Proof.
  assert (B : @kint (fld Q113) (-5) <> f0) by (apply (kint_mod Q113); vm_compute; discriminate).
  split; [intros t; apply (sr_finite Q113); reflexivity|]. split; [intros o t; reflexivity|]. split; [discriminate|]. split.
  - unfold shifted_point, sr_later. rewrite sn_point0 by lia. cbn [sr_session ms_y ms_s ms_F Nat.sub repeat]. rewrite (sr_den Q113). exact B.
  - unfold sr_later. rewrite (sn_first Q113) by lia. assert (A : @kint (fld Q113) 32 <> f0) by (apply (kint_mod Q113); vm_compute; discriminate). intros Z. apply A. exact (ex_quot (HK Q113) _ _ B Z).
Qed.

(** All hypotheses of the theorems hold for it. *)
Example C57_hypotheses_met : rational_function_n (mc_n rm_c) sr_N sr_D /\ first_session rm_c sr_N sr_D sr_first /\
  (exists in_den m, normalised_by (mc_n rm_c) (mc_norm_den rm_c) (over (ms_F sr_first) sr_N) (over (ms_F sr_first) sr_D) in_den m true) /\
  ~ In (zeros (mc_n rm_c)) (map fst (sr_N ++ sr_D)) /\
  monomials_after (mc_n rm_c) (ms_F sr_first) (ms_s sr_first) sr_N sr_A /\ monomials_after (mc_n rm_c) (ms_F sr_first) (ms_s sr_first) sr_D sr_A /\
  unknown_degrees (negb (mc_norm_den rm_c)) sr_N sr_A [0; 1] /\ unknown_degrees (mc_norm_den rm_c) sr_D sr_A [1] /\
  forall in_den m N1 D1, singular_normalisation rm_c (ms_F sr_first) sr_N sr_D in_den m N1 D1 ->
    shifted_probe (mc_n rm_c) N1 D1 (sr_later Q113) /\
    exists M', shifted_sessions (mc_n rm_c) (mc_norm_den rm_c) N1 D1 sr_A sr_A in_den m [0; 1] [1] (pf_mod (ms_F sr_first)) [sr_later Q107] M' /\ all_within M' (N1 ++ D1).
Proof.
  split; [exact sr_function|]. split; [exact sr_first_ok|]. split; [exists true, [1; 0]%Z; exact sr_normalisable|]. split; [cbn; intros I; cases; discriminate|].
  split; [exact (proj1 sr_after)|]. split; [exact (proj2 sr_after)|]. split; [exact (proj1 sr_unknown)|]. split; [exact (proj2 sr_unknown)|].
  intros in_den m N1 D1 H. destruct (sr_normalised rm_c _ _ _ _ eq_refl eq_refl H) as [-> [-> [-> ->]]]. split; [exact sr_probe_ok|].
  exists (101 * 107)%Z. split; [apply hs_later; [exact sr_later_ok|apply hs_nil]|].
  intros t I. cbn [sr_N sr_D app In] in I. cases; subst t; (split; [split; [cbn; lia|reflexivity]|]); cbn; lia.
Qed.
(** The run with these primes ends with the function. *)
Example C57_example_ends : exists g, sing_reconstruct (fun A l => l) rm_c sr_first [sr_later Q107; sr_later Q113] = Ret (SComplete g) /\ is_polynomial (qr_gni g) sr_N /\ is_polynomial (qr_gdi g) sr_D.
Proof.
  destruct C57_hypotheses_met as [H1 [H2 [H3 [H4 [H5 [H6 [H7 [H8 H9]]]]]]]].
  destruct (C57_shifted_run_ends (fun A l => l) (fun A l => Permutation_refl l) rm_c sr_N sr_D sr_first [sr_later Q107] (sr_later Q113) sr_A sr_A [0; 1] [1] H1 H2 H3 H4 H5 H6 H7 H8 H9 ltac:(cbn; lia)) as [in_den [m [N1 [D1 [g [HN [E [_ [X Y]]]]]]]]].
  destruct (sr_normalised rm_c _ _ _ _ eq_refl eq_refl HN) as [_ [_ [-> ->]]]. exists g. auto.
Qed.

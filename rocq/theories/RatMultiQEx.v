(** A linear function of two variables: the conditions of the interpolation over one prime (RatMultiSpec.v) hold for it. *)
From Coq Require Import Permutation.
From Verif Require Import Machine FField FSum LinAlg LinAlgProofs FPoly PolyFF PolySpec PolyFFProofs Thiele ThieleSpec ThieleProofs RatUni RatUniSpec Newton NewtonProofs BM BMSpec BTProofs PolyRec PolyRecSpec PolyRecRunSpec PolyRecMath PolyRecChecks RatMulti RatMultiSpec RatMultiRunSpec RatMultiMath.
Open Scope nat_scope.

Section Linear.
  Context {K : fops} (HK : flaws K).
  Add Field KLI : (fl_field K HK).
  Variables (a b z s0 s1 : K) (ts : list K).
  Definition li_N : list (list Z * K) := [([1; 0]%Z, a); ([0; 1]%Z, b)].
  Definition li_D : list (list Z * K) := [([0; 0]%Z, f1)].
  Definition li_Ns : list (list Z * K) := [([0; 0]%Z, fadd (fmul a s0) (fmul b s1)); ([1; 0]%Z, a); ([0; 1]%Z, b)].
  Definition li_s (i : nat) : K := nth i [s0; s1] f0.
  Definition li_y (i : nat) : K := z.
  Local Notation al := (fadd (fmul a s0) (fmul b s1)).
  Local Notation be := (fadd a (fmul b z)).
  Hypothesis (Ha : a <> f0) (Hb : b <> f0) (Hbe : be <> f0) (Hal : al <> f0) (Hz : z <> f0).
  Hypothesis Hpz : distinct 3 (pw z).
  Hypothesis Lts : length ts = 24.
  Hypothesis Hts : forall i, i < 24 -> point ts i <> f0.
  Hypothesis Dts : distinct 3 (point ts).
  Hypothesis H0 : fadd al (fmul be (point ts 0)) <> f0.
  Hypothesis Hfield : exists v : nat -> K, distinct 6 v.

  Lemma one_nz : @f1 K <> f0. Proof. apply (F_1_neq_0 (fl_field K HK)). Qed.
  Lemma li_suitable : suitable true true 1 1 [([0]%Z, a); ([1]%Z, b)] li_y.
  Proof.
    assert (Sl : forall e t, slice 1 li_y [([0]%Z, a); ([1]%Z, b)] 0 (firstn 0 e) t = (a + b * t)%K).
    { intros e t. unfold slice, part. cbn [firstn filter fst]. destruct (list_eq_dec Z.eq_dec [] []) as [_|X]; [|contradiction]. unfold poly_value. cbn [fold_right fst snd monomial_value nth Nat.ltb Nat.leb Nat.eqb].
      change (Z.to_nat 1) with 1. change (Z.to_nat 0) with 0. cbn [pw]. ring. }
    assert (Hz1 : z <> f1). { intros E. assert (X : 0 = 1) by (apply Hpz; [lia|lia|]; cbn [pw]; rewrite E; ring). discriminate X. }
    constructor.
    - intros j Hj. split; [exact Hz|exact Hpz].
    - intros j e Hj [<-|[<-|[]]]; unfold coefficient, part; destruct j as [|[|j]]; try lia; cbn [firstn filter fst];
      repeat (destruct (list_eq_dec Z.eq_dec _ _) as [E|E]; try discriminate E; try (exfalso; apply E; reflexivity); clear E); unfold poly_value; cbn [fold_right fst snd monomial_value nth Nat.ltb Nat.leb];
      change (Z.to_nat 1) with 1; change (Z.to_nat 0) with 0; cbn [pw]; intros Z.
      + apply Hbe. rewrite <- Z. unfold li_y. ring.
      + apply Ha. rewrite <- Z. ring.
      + apply Hbe. rewrite <- Z. unfold li_y. ring.
      + apply Hb. rewrite <- Z. ring.
    - intros j e e' Hj I I' _. assert (j = 0) by lia. subst j. reflexivity.
    - intros _ j e Hj I k h Hk [g Hg] Hh. assert (j = 0) by lia. subst j. exfalso. pose proof (Hh 0 ltac:(lia)) as Q0. rewrite Sl, Hg in Q0. destruct k as [|[|k]]; [| |lia].
      + apply Hbe. unfold ueval in Q0. cbn [fsum pw] in Q0. symmetry. rewrite Q0. change (li_y 0) with z. ring.
      + pose proof (Hh 1 ltac:(lia)) as Q1. rewrite Sl, Hg in Q1. unfold ueval in Q0, Q1. cbn [fsum pw] in Q0, Q1. change (li_y 0) with z in *.
        assert (X : (b * (z * (z - f1)))%K = f0) by (transitivity ((a + b * (z * (z * f1))) - (a + b * (z * f1)))%K; [ring|rewrite <- Q0, <- Q1; ring]).
        apply (fmul_0 HK) in X as [X|X]; [contradiction|]. apply (fmul_0 HK) in X as [X|X]; [contradiction|]. apply (fsub_0 HK) in X. contradiction.
    - intros _ j e Hj I. assert (j = 0) by lia. subst j.
      apply (recurrence_check HK 2 (fun i => nth i [a; b] f0) (fun i => nth i [f1; z] f0)).
      + lia.
      + intros i k Hi Hk E. destruct i as [|[|i]]; destruct k as [|[|k]]; try lia; cbn [nth] in E; [symmetry in E|]; contradiction.
      + intros [|[|i]] Hi; try lia; [exact one_nz|exact Hz].
      + intros [|[|i]] Hi; try lia; [exact Ha|exact Hb].
      + intros k. rewrite Sl. unfold exponential_sum. cbn [fsum nth]. rewrite (pw_1 HK). change (li_y 0) with z. cbn [pw]. ring.
      + intros L g HL. destruct L as [|[|L]]; [| |lia].
        * apply (no_rec_0 HK). rewrite Sl. cbn [pw]. change (li_y 0) with z. intros Z. apply Hbe. rewrite <- Z. ring.
        * apply (no_rec_1 HK). rewrite !Sl. cbn [pw]. change (li_y 0) with z. intros Z.
          assert (X : (a * b * (z * (z - f1) * (z - f1)))%K = f0). { match type of Z with ?l = ?r => transitivity (r - l)%K; [ring|rewrite Z; ring] end. }
          apply (fmul_0 HK) in X as [X|X]; [apply (fmul_0 HK) in X as [X|X]; contradiction|]. apply (fmul_0 HK) in X as [X|X]; [apply (fmul_0 HK) in X as [X|X]; [contradiction|]|]; apply (fsub_0 HK) in X; contradiction.
  Qed.
  Lemma li_num x : poly_value 2 li_N x = (a * x 0%nat + b * x 1%nat)%K.
  Proof. unfold poly_value, li_N. cbn [fold_right fst snd monomial_value nth]. change (Z.to_nat 0) with 0. change (Z.to_nat 1) with 1. cbn [pw]. ring. Qed.
  Lemma li_nums x : poly_value 2 li_Ns x = (al + a * x 0%nat + b * x 1%nat)%K.
  Proof. unfold poly_value, li_Ns. cbn [fold_right fst snd monomial_value nth]. change (Z.to_nat 0) with 0. change (Z.to_nat 1) with 1. cbn [pw]. ring. Qed.
  Lemma li_den x : poly_value 2 li_D x = f1.
  Proof. unfold poly_value, li_D. cbn [fold_right fst snd monomial_value nth]. change (Z.to_nat 0) with 0. cbn [pw]. ring. Qed.
  Lemma div_one (x : K) : fdiv x f1 = x. Proof. field. exact one_nz. Qed.
  Lemma li_value o t : ray_value 2 li_N li_D li_y li_s o t = (al + (a + b * pw z (nth 0 o 0%nat)) * t)%K.
  Proof. unfold ray_value. rewrite li_num, li_den, div_one. unfold ray_point, li_s, li_y. cbn [nth]. ring. Qed.
  Lemma li_first i : first_value 2 li_N li_D li_y li_s ts i = (al + be * point ts i)%K.
  Proof. unfold first_value, ones. rewrite li_value. cbn [repeat Nat.sub nth pw]. ring. Qed.
  Lemma li_diff i j : i < 3 -> j < 3 -> i <> j -> (first_value 2 li_N li_D li_y li_s ts i - first_value 2 li_N li_D li_y li_s ts j)%K = (be * (point ts i - point ts j))%K /\ (point ts i - point ts j)%K <> f0.
  Proof. intros Hi Hj N. rewrite !li_first. split; [ring|]. intros E. apply (fsub_0 HK) in E. apply N. apply Dts; assumption. Qed.
  Lemma li_poly (P : list (list Z * K)) : In P [li_N; li_Ns] -> polynomial 2 1 P /\ tdegree P = 1 /\ hom 1 P = [([1; 0]%Z, a); ([0; 1]%Z, b)] /\ forall d, 1 < d -> hom d P = [].
  Proof.
    intros I. split; [|split; [|split]].
    - split; [destruct I as [<-|[<-|[]]]; discriminate|]. split; [destruct I as [<-|[<-|[]]]; repeat constructor; cbn; intuition discriminate|].
      intros e q J. assert (A : q <> f0 /\ (e = [0; 0]%Z \/ e = [1; 0]%Z \/ e = [0; 1]%Z)).
      { destruct I as [<-|[<-|[]]]; [destruct J as [J|[J|[]]]|destruct J as [J|[J|[J|[]]]]]; injection J as <- <-; auto. }
      destruct A as [A [->|[->| ->]]]; (split; [exact A|split; [reflexivity|split; [|reflexivity]]]); intros [|[|[|i]]]; cbn; lia.
    - destruct I as [<-|[<-|[]]]; reflexivity.
    - destruct I as [<-|[<-|[]]]; reflexivity.
    - intros d Hd. destruct (hom d P) as [|[e q] l] eqn:E; [reflexivity|]. assert (J : In (e, q) (hom d P)) by (rewrite E; left; reflexivity). apply in_hom in J as [J T].
      destruct I as [<-|[<-|[]]]; [destruct J as [J|[J|[]]]|destruct J as [J|[J|[J|[]]]]]; injection J as <- <-; cbn [total fold_right] in T; lia.
  Qed.
  Lemma li_den_poly : polynomial 2 0 li_D /\ tdegree li_D = 0 /\ forall d, 0 < d -> hom d li_D = [].
  Proof.
    split; [|split; [reflexivity|]].
    - split; [discriminate|]. split; [repeat constructor; intros []|]. intros e q [J|[]]. injection J as <- <-. split; [exact one_nz|]. split; [reflexivity|]. split; [|reflexivity]. intros [|[|[|i]]]; cbn; lia.
    - intros d Hd. unfold hom, li_D. cbn [filter fst total fold_right]. destruct d; [lia|]. reflexivity.
  Qed.
  Lemma inv_be (u : K) : u <> f0 -> fdiv u (fmul be u) = fdiv f1 be. Proof. intros H. field. split; assumption. Qed.

  Lemma li_interpolable : interpolable 2 true true li_N li_D li_Ns li_D li_y li_s ts.
  Proof.
    destruct (li_poly li_N) as [PN [GN [HN1 HN]]]; [left; reflexivity|]. destruct (li_poly li_Ns) as [PS [GS [HS1 HS]]]; [right; left; reflexivity|]. destruct li_den_poly as [PD [GD HD]].
    constructor.
    - apply le_n.
    - rewrite GN. exact PN.
    - rewrite GD. exact PD.
    - split; [rewrite GN; exact PS|]. split; [reflexivity|]. intros x. rewrite li_nums, li_num. unfold li_s. cbn [nth]. ring.
    - split; [rewrite GD; exact PD|]. split; [reflexivity|]. intros x. rewrite !li_den. reflexivity.
    - apply li_den.
    - intros d. split; [|tauto]. intros H. destruct d as [|[|d]]; [discriminate| |rewrite HN in H by lia; contradiction]. rewrite HS1. discriminate.
    - intros P d I Hd H. assert (E : layer 1 li_N = [([0]%Z, a); ([1]%Z, b)] /\ layer 1 li_Ns = [([0]%Z, a); ([1]%Z, b)]) by (unfold layer; rewrite HN1, HS1; split; reflexivity). destruct E as [E1 E2].
      assert (d = 1 /\ (P = li_N \/ P = li_Ns)) as [-> [->| ->]].
      { destruct I as [<-|[<-|[<-|[<-|[]]]]].
        - destruct d as [|[|d]]; [lia|auto|]. rewrite HN in H by lia. contradiction.
        - rewrite HD in H by exact Hd. contradiction.
        - destruct d as [|[|d]]; [lia|auto|]. rewrite HS in H by lia. contradiction.
        - rewrite HD in H by exact Hd. contradiction. }
      + rewrite E1. apply li_suitable.
      + rewrite E2. apply li_suitable.
    - rewrite GN, GD. exact Hfield.
    - intros j Hj E. unfold max_degree in Hj. rewrite GN, GD in Hj. assert (j = 1) by lia. subst j. cbn [nsum] in E. apply one_nz. rewrite <- E. ring.
    - exists (fun _ => f0), (fun _ => f1). rewrite GN, GD. split; [|split].
      + exists (fun _ => f0). intros x. unfold ueval. cbn [fsum pw]. ring.
      + exists (fun i => if i =? 0 then f1 else f0). intros x. unfold ueval. cbn [fsum pw Nat.eqb]. ring.
      + intros t. rewrite li_den. ring.
    - rewrite Lts. unfold first_points. rewrite GN, GD. cbn. lia.
    - rewrite li_first. exact H0.
    - unfold first_points. rewrite GN, GD. exact Dts.
    - unfold first_points. rewrite GN, GD. intros i Hi. cbn in Hi. apply Hts. lia.
    - unfold first_points. rewrite GN, GD. intros i j Hj Hi E. cbn in Hi. assert (i = 1 /\ j = 0) as [-> ->] by lia. cbn [inverse_difference] in E. destruct (li_diff 1 0 ltac:(lia) ltac:(lia) ltac:(lia)) as [X Y].
      rewrite E in X. apply Y. assert (W : (be * (point ts 1 - point ts 0))%K = f0) by (rewrite <- X; ring). apply (fmul_0 HK) in W as [W|W]; [contradiction|exact W].
    - unfold first_points. rewrite GN, GD. intros k Hk. cbn in Hk. assert (k = 1) by lia. subst k. cbn [continued_fraction inverse_difference Nat.sub Nat.max Nat.mul Nat.add]. destruct (li_diff 1 0 ltac:(lia) ltac:(lia) ltac:(lia)) as [X Y]. rewrite X, inv_be by exact Y.
      intros E. apply one_nz. transitivity (be * (f1 / be))%K; [field; exact Hbe|rewrite E; ring].
    - intros o i _ _. rewrite li_den. exact one_nz.
    - intros o i SN SD _ NN ND HSN HSD L p q E. assert (SD = []) as ->. { destruct SD as [|d SD]; [reflexivity|]. destruct (HSD d (or_introl eq_refl)) as [A B]. rewrite HD in B by exact A. contradiction. }
      assert (ON : forall d, In d SN -> d = 1). { intros d I. destruct (HSN d I) as [A B]. destruct d as [|[|d]]; [lia|reflexivity|]. rewrite HS in B by lia. contradiction. }
      split; [|intros e []]. destruct SN as [|d SN]; [intros e []|]. pose proof (ON d (or_introl eq_refl)). subst d. assert (SN = []) as ->. { destruct SN as [|d SN]; [reflexivity|]. inversion NN as [|? ? N1 _]. exfalso. apply N1. left. apply (ON d). right. left. reflexivity. }
      intros e [<-|[]]. specialize (E 0 ltac:(cbn; lia)). cbn [fold_right pw] in E. rewrite Nat.add_0_r in E. rewrite Lts in L. cbn [length] in L.
      assert (X : (point ts i * p 1%nat)%K = f0) by (transitivity (p 1%nat * (point ts i * f1) + f0)%K; [ring|rewrite E; ring]). apply (fmul_0 HK) in X as [X|X]; [|exact X]. exfalso. apply (Hts i); [lia|exact X].
  Qed.
  Definition li_c : mcfg := mk_mcfg 2 true true 1 None None 20 100.
  Lemma li_fits : mconfig_fits li_c li_N li_D li_Ns li_D /\ max_probes 2 li_N li_D li_Ns li_D <= 24.
  Proof. split; [|vm_compute; lia]. constructor; try discriminate; try reflexivity; vm_compute; lia. Qed.
End Linear.

Section Rings.
  Context {K : fops} (HK : flaws K).
  Add Field KRI : (fl_field K HK).
  Lemma ex_ring1 (q1 q2 two eight five : K) : five <> f0 ->
    (q1 * (f1 * ((f1 + f0) * f1) * f1) + (q2 * (f1 * f1 * ((f1 * (two * f1) + f0) * f1)) + f0))%K = (f1 / five * eight * f1)%K -> (q1 + two * q2)%K = (eight / five)%K.
  Proof. intros H E. cbn [pw] in E. transitivity (f1 / five * eight * f1)%K; [rewrite <- E; ring|field; exact H]. Qed.
  Lemma ex_ring2 (n1 d1 n2 d2 two eight five : K) : d1 <> f0 -> d2 <> f0 -> five <> f0 -> (n1 / d1 + two * (n2 / d2))%K = (eight / five)%K ->
    (five * (n1 * d2 + two * n2 * d1))%K = (eight * d1 * d2)%K.
  Proof. intros H1 H2 H5 E. transitivity (five * d1 * d2 * (n1 / d1 + two * (n2 / d2)))%K; [field; auto|]. rewrite E. field. exact H5. Qed.
  Lemma ex_ring3 (two : K) : (@f1 K * f1)%K = (f1 * (two * f1))%K -> @f1 K = two. Proof. intros E. transitivity (@f1 K * f1)%K; [ring|]. rewrite E. ring. Qed.
  Lemma ex_ring4 (p t v : K) : (p * (t * f1) + f0)%K = (v * f0)%K -> (t * p)%K = f0. Proof. intros E. transitivity (p * (t * f1) + f0)%K; [ring|]. rewrite E. ring. Qed.
  Lemma ex_ring5 (two three five y : K) : five <> f0 -> ((two * (f0 + f0) + three * (f0 * y + f0)) / five)%K = f0. Proof. intros H. field. exact H. Qed.
  Lemma ex_ring6 (x y : K) : x = y -> (x - y)%K = f0. Proof. intros ->. ring. Qed.
End Rings.

(** Proofs for RatReconst in several variables: Thiele's interpolation along the first ray *)
From Coq Require Import Permutation.
From Verif Require Import Machine FField FSum LinAlg LinAlgProofs FPoly PolyFF PolySpec PolyFFProofs PolyFFProofs2 Thiele ThieleSpec ThieleProofs RatUniThiele.
Open Scope nat_scope.

Section Thiele.
  Context {K : fops} (HK : flaws K).
  Add Field KTH : (fl_field K HK).
  Variable ord : pmap K -> pmap K.
  Hypothesis Ho : any_order ord.
  Definition terms_ok (T : list (nat * K)) (g : nat) : Prop :=
    NoDup (map fst T) /\ In g (map fst T) /\ forall t, In t T -> fst t <= g /\ snd t <> f0.
  Lemma tval_polyfun T g : terms_ok T g -> polyfun (S g) (tval T).
  Proof. intros [_ [_ H]]. exists (tcoef T). intros x. apply (tval_ueval HK). intros t Ht. apply H. exact Ht. Qed.
  Lemma tval_lead T g : terms_ok T g -> exists (c : K) h, c <> f0 /\ polyfun g h /\ forall x, tval T x = fadd (h x) (fmul c (pw x g)).
  Proof.
    intros [N [I H]]. exists (tcoef T g), (ueval g (tcoef T)). split; [|split].
    - apply in_map_iff in I as [[e a] [E I]]. cbn [fst] in E. subst e. rewrite (tcoef_in HK T g a N I). apply (H _ I).
    - exists (tcoef T). reflexivity.
    - intros x. rewrite (tval_ueval HK _ g); [apply ueval_S|]. intros t Ht. apply H. exact Ht.
  Qed.
  Definition scaled (w : K) (T : list (nat * K)) : list (nat * K) := map (fun t => (fst t, fmul w (snd t))) T.
  Lemma scaled_value w T x : tval (scaled w T) x = fmul w (tval T x).
  Proof.
    induction T as [|[e c] T IH]; [symmetry; apply (fmul_zero_r HK)|]. change (tval (scaled w ((e, c) :: T)) x) with (fadd (fmul (fmul w c) (pw x e)) (tval (scaled w T) x)).
    rewrite IH. change (tval ((e, c) :: T) x) with (fadd (fmul c (pw x e)) (tval T x)). ring.
  Qed.
  Lemma scale_back w T (m : polyff K) : w <> f0 -> Permutation (pf_coefs m) (as_map (scaled w T)) ->
    Permutation (pf_coefs (pscale m (fdiv f1 w))) (as_map T).
  Proof.
    intros Hw H. cbn [pscale pf_coefs].
    assert (E : as_map T = map (fun kc => (fst kc, fmul (snd kc) (fdiv f1 w))) (as_map (scaled w T))).
    { unfold as_map, scaled. rewrite !map_map. apply map_ext. intros t. cbn [fst snd]. f_equal. field. exact Hw. }
    rewrite E. apply Permutation_map. exact H.
  Qed.

  Variables (N D : list (nat * K)) (gN gD : nat).
  Hypothesis (HN : terms_ok N gN) (HD : terms_ok D gD).
  Variables (y f : nat -> K).
  Let n := Nat.max (2 * gN) (2 * gD + 1).
  Hypothesis n_bound : (Z.of_nat n < 2 ^ 32)%Z.
  Variable pts : nat -> K.
  Hypothesis Hpts : distinct (3 * (gN + gD) + 3) pts.
  Hypothesis Hcop : exists U V : K -> K, polynomial_function gD U /\ polynomial_function gN V /\ forall t, fadd (fmul (U t) (tval N t)) (fmul (V t) (tval D t)) = f1.
  Hypothesis Hprobe : forall i, i <= n -> tval D (y i) <> f0 /\ fmul (f i) (tval D (y i)) = tval N (y i).
  Hypothesis Hfirst : f 0 <> f0.
  Hypothesis Hdist : distinct (S n) y.
  Hypothesis Hnz : forall i, i <= n -> y i <> f0.
  Hypothesis nobreak : no_breakdown y f n.
  Hypothesis Hfrac : forall k, 0 < k < n -> continued_fraction y f k (n - 1 - k) (y n) <> f0.

  Lemma n_pos : 0 < n. Proof. unfold n. lia. Qed.
  Lemma dist_n : distinct n y. Proof. intros i j Hi Hj E. apply Hdist; [lia|lia|exact E]. Qed.
  Lemma half_n : (gN <= n / 2 <= Nat.max gN gD) /\ (gD <= (n - 1) / 2 <= Nat.max gN gD) /\ ((n / 2 <= gN) \/ ((n - 1) / 2 <= gD)).
  Proof.
    unfold n. clear. destruct (Nat.le_gt_cases gN gD) as [L|L].
    - rewrite Nat.max_r by lia. assert (E1 : ((2 * gD + 1) / 2 = gD)%nat) by (symmetry; apply (Nat.div_unique _ 2 gD 1); lia).
      replace (2 * gD + 1 - 1)%nat with (2 * gD)%nat by lia. assert (E2 : (2 * gD / 2 = gD)%nat) by (symmetry; apply (Nat.div_unique _ 2 gD 0); lia).
      rewrite E1, E2. lia.
    - rewrite Nat.max_l by lia. assert (E2 : (2 * gN / 2 = gN)%nat) by (symmetry; apply (Nat.div_unique _ 2 gN 0); lia).
      assert (E1 : ((2 * gN - 1) / 2 = gN - 1)%nat) by (symmetry; apply (Nat.div_unique _ 2 (gN - 1) 1); lia). rewrite E1, E2. lia.
  Qed.
  Lemma pts_le k : k <= 3 * (gN + gD) + 3 -> distinct k pts.
  Proof. intros H i j Hi Hj E. apply Hpts; [lia|lia|exact E]. Qed.

  Lemma thiele_result : exists w : K, w <> f0 /\ (forall x, P y f n 0 x = fmul w (tval N x)) /\ (forall x, P y f n 1 x = fmul w (tval D x)).
  Proof.
    destruct half_n as [[A1 A2] [[B1 B2] AB]]. destruct Hcop as [U [V [HU [HV UV]]]].
    assert (C : forall x, fmul (P y f n 0 x) (tval D x) = fmul (tval N x) (P y f n 1 x)).
    { apply (P_complete HK y f n n_pos dist_n nobreak).
      - apply (polyfun_le HK (S gN)); [lia|apply tval_polyfun; exact HN].
      - apply (polyfun_le HK (S gD)); [lia|apply tval_polyfun; exact HD].
      - intros i Hi. apply Hprobe. lia. }
    set (W := fun x => fadd (fmul (U x) (P y f n 0 x)) (fmul (V x) (P y f n 1 x))).
    assert (E0 : forall x, P y f n 0 x = fmul (tval N x) (W x)).
    { intros x. transitivity (fmul (P y f n 0 x) (fadd (fmul (U x) (tval N x)) (fmul (V x) (tval D x)))); [rewrite UV; ring|].
      transitivity (fadd (fmul (fmul (U x) (tval N x)) (P y f n 0 x)) (fmul (V x) (fmul (P y f n 0 x) (tval D x)))); [ring|]. rewrite C. unfold W. ring. }
    assert (E1 : forall x, P y f n 1 x = fmul (tval D x) (W x)).
    { intros x. transitivity (fmul (P y f n 1 x) (fadd (fmul (U x) (tval N x)) (fmul (V x) (tval D x)))); [rewrite UV; ring|].
      transitivity (fadd (fmul (U x) (fmul (tval N x) (P y f n 1 x))) (fmul (fmul (V x) (tval D x)) (P y f n 1 x))); [ring|]. rewrite <- C. unfold W. ring. }
    set (w := gN + gD + Nat.max gN gD + 1).
    assert (HW : polyfun (S w) W).
    { pose proof (P_polyfun HK y f n n_pos 0) as P0. rewrite Nat.sub_0_r in P0. pose proof (P_polyfun HK y f n n_pos 1) as P1. apply (polyfun_add HK).
      - apply (polyfun_le HK (gD + S (n / 2))); [unfold w; lia|]. apply (polyfun_mul HK); [exact HU|exact P0].
      - apply (polyfun_le HK (gN + S ((n - 1) / 2))); [unfold w; lia|]. apply (polyfun_mul HK); [exact HV|exact P1]. }
    assert (HC : exists k, forall x, W x = k).
    { destruct AB as [AB|AB].
      - destruct (tval_lead N gN HN) as [c [h [Hc [Hh Eh]]]].
        apply (constant_factor HK gN c h (P y f n 0) pts w W Hc Hh).
        + pose proof (P_polyfun HK y f n n_pos 0) as P0. rewrite Nat.sub_0_r in P0. apply (polyfun_le HK (S (n / 2))); [lia|exact P0].
        + exact HW.
        + apply pts_le. unfold w. lia.
        + intros x. rewrite <- Eh. symmetry. apply E0.
      - destruct (tval_lead D gD HD) as [c [h [Hc [Hh Eh]]]].
        apply (constant_factor HK gD c h (P y f n 1) pts w W Hc Hh).
        + pose proof (P_polyfun HK y f n n_pos 1) as P1. apply (polyfun_le HK (S ((n - 1) / 2))); [lia|exact P1].
        + exact HW.
        + apply pts_le. unfold w. lia.
        + intros x. rewrite <- Eh. symmetry. apply E1. }
    destruct HC as [k Hk]. exists k. split; [|split].
    - intros Z. apply (P_last HK y f n n_pos dist_n nobreak). rewrite E1, Hk, Z. ring.
    - intros x. rewrite E0, Hk. ring.
    - intros x. rewrite E1, Hk. ring.
  Qed.

  Lemma scaled_unique w T g (a : polyff K) d h : w <> f0 -> terms_ok T g -> g <= d -> uniz a d h -> d <= Nat.max gN gD -> (forall x, h x = fmul w (tval T x)) ->
    Permutation (pf_coefs a) (as_map (scaled w T)).
  Proof.
    intros Hw [ND [_ HT]] Hg HU Hp HG. apply (map_unique HK (pf_coefs a) d h _ pts).
    - destruct HU as [[H1 H2] H3]. split; [split; [reflexivity|exact H2]|exact H3].
    - apply pts_le. lia.
    - unfold scaled. rewrite map_map. exact ND.
    - intros t Ht. unfold scaled in Ht. apply in_map_iff in Ht as [u [<- Hu]]. cbn [fst snd]. destruct (HT u Hu). split; [lia|]. apply (fmul_neq0 HK); assumption.
    - intros x. rewrite HG, scaled_value. reflexivity.
  Qed.
  Lemma thiele_maps m : n - 1 <= m -> exists w nu de, w <> f0 /\ thiele_canonical ord (alist y f n) (tlist y m) = (nu, de) /\
    Permutation (pf_coefs nu) (as_map (scaled w N)) /\ Permutation (pf_coefs de) (as_map (scaled w D)).
  Proof.
    intros Hm. destruct thiele_result as [w [Hw [E0 E1]]].
    pose proof (canonicalz HK ord Ho y f n n_pos n_bound dist_n nobreak) as C. specialize (C ltac:(intros i Hi; apply Hnz; lia) Hfirst m Hm).
    cbn zeta in C. destruct (thiele_canonical ord (alist y f n) (tlist y m)) as [nu de]. cbn [fst snd] in C. destruct C as [C0 C1].
    destruct half_n as [[A1 A2] [[B1 B2] AB]].
    exists w, nu, de. split; [exact Hw|]. split; [reflexivity|]. split.
    - apply (scaled_unique w N gN nu (n / 2) (P y f n 0)); assumption.
    - apply (scaled_unique w D gD de ((n - 1) / 2) (P y f n 1)); assumption.
  Qed.
  Lemma last_point : continued_fraction y f 0 (n - 1) (y n) = f n.
  Proof.
    destruct thiele_result as [w [Hw [E0 E1]]]. destruct (Hprobe n (le_n _)) as [Z E].
    destruct (P_prediction HK y f n n_pos (y n)) as [E2 NZ]; [exact Hfrac|]. rewrite E0, <- E, E1 in E2. rewrite E1 in NZ.
    apply (fmul_cancel HK (fmul w (tval D (y n)))); [exact NZ|].
    transitivity (fmul (continued_fraction y f 0 (n - 1) (y n)) (fmul w (tval D (y n)))); [ring|]. rewrite <- E2. ring.
  Qed.
  Lemma thiele_step k : k <= n -> add_point (st y f k) (f k) (y k) =
    Ret (if Nat.eqb k n then (true, mk_thiele (alist y f n) (tlist y (S n))) else (false, st y f (S k))).
  Proof.
    intros L. rewrite (add_point_spec HK).
    destruct (Nat.eqb_spec k 0) as [->|Z]; [destruct (Nat.eqb_spec 0 n) as [E|_]; [pose proof n_pos; lia|reflexivity]|].
    destruct (Nat.eqb_spec k n) as [->|Z'].
    - rewrite last_point, (feqb_refl HK). reflexivity.
    - assert (E : feqb (f k) (continued_fraction y f 0 (k - 1) (y k)) = false).
      { apply (feqb_neq HK). intros E. symmetry in E. revert E. apply (no_early_stop HK y f n k dist_n nobreak); lia. }
      rewrite E. reflexivity.
  Qed.
End Thiele.

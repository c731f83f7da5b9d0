(** Proofs for RatReconst in several variables, part 4: the runs of the PolyReconst objects for the degrees of one side. *)
From Coq Require Import Permutation.
From Verif Require Import Machine FField FSum LinAlg FPoly PolyFF PolySpec PolyFFProofs PolyFFProofs2 RatUni PolyRec PolyRecSpec PolyRecRunSpec PolyRecMath PolyRecFile PolyRecStage PolyRecMain RatMulti RatMultiSpec RatMultiMath RatMultiShift Props_PolyRec.
Open Scope nat_scope.

Lemma drive_snoc {K : fops} ord c y (bb : list nat -> K) j : forall s st, drive ord c y bb j s = Ret (PMore st) -> drive ord c y bb (S j) s = pfeed ord c y st (bb (ps_order st)) (ps_order st).
Proof.
  induction j as [|j IH]; intros s st E.
  - cbn [drive] in *. injection E as ->. destruct (pfeed _ _ _ _ _ _) as [[|]| | | |]; reflexivity.
  - cbn [drive] in E. remember (S j) as j' eqn:Ej. cbn [drive]. destruct (pfeed ord c y s (bb (ps_order s)) (ps_order s)) as [[s'|r]| | | |]; try discriminate E. cbn [obind] in *. subst j'. apply IH. exact E.
Qed.

Section Traj.
  Context {K : fops} (HK : flaws K).
  Variable ord : forall A : Type, list A -> list A.
  Hypothesis Ho : forall A (l : list A), Permutation (ord A l) l.
  Variable c : mcfg.
  Local Notation n := (mc_n c).
  Variables (y : nat -> K) (is_num : bool).
  Variables (G : nat) (P Ps : list (list Z * K)).
  Hypothesis Hn : 2 <= n.
  Hypothesis HP : polynomial n G P.
  Hypothesis HPs : polynomial n G Ps.
  Hypothesis Hsu : forall Q d, In Q [P; Ps] -> 0 < d -> hom d Q <> [] -> suitable true (mc_bt c) (n - 1) d (layer d Q) y.
  Hypothesis HG : (Z.of_nat G < 2 ^ 31)%Z.
  Hypothesis Hfuel : S G < mc_fuel c.
  Hypothesis Hthr : (Z.of_nat (mc_thr c) < 2 ^ 62)%Z.
  Hypothesis Hlen : forall Q, In Q [P; Ps] -> (Z.of_nat (length Q) + 1 < 2 ^ 62)%Z.
  Hypothesis Hbounds : forall Q b, In Q [P; Ps] -> (if is_num then mc_bn c else mc_bd c) = Some b -> forall e i, In e (map fst Q) -> S i < n -> (nth (S i) e 0 <= nth i b 0)%Z.

  Definition source (dense : bool) : list (list Z * K) := if dense then Ps else P.
  Definition target (d : nat) (dense : bool) : list (list Z * K) := layer d (source dense).
  Definition traj (d : nat) (dense : bool) (j : nat) (st : pst K) : Prop :=
    drive ord (poly_cfg c is_num d) y (black_box (n - 1) (target d dense) y) j (ps_start (poly_cfg c is_num d)) = Ret (PMore st).
  Definition steps (d : nat) (dense : bool) : nat := match target d dense with [] => 1 | l => (n - 1) * (d + 2) * length l end.

  Lemma source_in dense : In (source dense) [P; Ps]. Proof. destruct dense; cbn; auto. Qed.
  Lemma source_poly dense : polynomial n G (source dense). Proof. destruct dense; assumption. Qed.
  Lemma target_nil d dense : target d dense = [] <-> hom d (source dense) = [].
  Proof. unfold target, layer. split; intros E; [apply map_eq_nil in E; exact E|rewrite E; reflexivity]. Qed.
  Lemma Sn : S (n - 1) = n. Proof. lia. Qed.
  Lemma target_poly d dense : target d dense <> [] -> polynomial (n - 1) d (target d dense).
  Proof. intros N. unfold target. apply (layer_polynomial (n - 1) G); [rewrite Sn; apply source_poly|]. intros E. apply N. apply target_nil. exact E. Qed.
  Lemma target_len d dense : length (target d dense) <= length (source dense).
  Proof. unfold target, layer. rewrite map_length. unfold hom. induction (source dense) as [|t l IH]; [apply le_n|]. cbn [filter]. destruct (_ =? _)%Z; cbn [length]; lia. Qed.
  Lemma target_fits d dense : 0 < d <= G -> target d dense <> [] -> config_fits (poly_cfg c is_num d) d (target d dense) y.
  Proof.
    intros Ld N. unfold config_fits. cbn [poly_cfg pc_newton pc_bt pc_n pc_deg pc_bounds pc_fuel pc_thr].
    assert (Q : forall e a, In (e, a) (source dense) -> length e = S (n - 1) /\ forall i, (0 <= nth i e 0)%Z) by (intros e a I; destruct (source_poly dense) as [_ [_ X]]; destruct (X e a I) as [_ [L [B _]]]; split; [lia|intros i; apply B]).
    split; [reflexivity|]. split; [lia|]. split; [right; split; [lia|]|]. 2: split; [|split; [lia|split; [lia|split; [|split; [exact Hthr|]]]]].
    - intros e I. apply in_map_iff in I as [[e' a] [<- I]]. cbn [fst]. apply (layer_total d (source dense) (n - 1) e' a Q) in I. lia.
    - intros b Eb e i I Hi. apply in_map_iff in I as [[e' a] [<- I]]. cbn [fst]. destruct (layer_total d (source dense) (n - 1) e' a Q I) as [_ [_ [_ J]]]. apply in_hom in J as [J _].
      apply (Hbounds (source dense) b (source_in dense) Eb ((Z.of_nat d - total e')%Z :: e') i); [|lia]. apply in_map_iff. eexists. split; [|exact J]. reflexivity.
    - pose proof (target_len d dense). pose proof (Hlen (source dense) (source_in dense)). lia.
    - intros _ j Hj. exists (S d). split; [lia|]. right. lia.
  Qed.
  Lemma target_suitable d dense : 0 < d -> target d dense <> [] -> suitable true (mc_bt c) (n - 1) d (target d dense) y.
  Proof. intros Ld N. apply Hsu; [apply source_in|exact Ld|]. intros E. apply N. apply target_nil. exact E. Qed.

  Lemma traj_start d dense : traj d dense 0 (ps_start (poly_cfg c is_num d)). Proof. reflexivity. Qed.
  Lemma zero_run d dense : target d dense = [] -> pfeed ord (poly_cfg c is_num d) y (ps_start (poly_cfg c is_num d)) (black_box (n - 1) [] y (repeat 1 (n - 1))) (repeat 1 (n - 1)) = Ret (PPoly []).
  Proof.
    intros E. pose proof (C46_zero_polynomial K HK ord Ho (poly_cfg c is_num d) y (black_box (n - 1) [] y) eq_refl) as Z. cbn [poly_cfg pc_n] in Z.
    specialize (Z ltac:(lia) eq_refl). cbn [drive] in Z. unfold ps_start at 2 3 in Z. cbn [ps_order pc_n poly_cfg] in Z.
    destruct (pfeed _ _ _ _ _ _) as [[st|r]| | | |]; cbn [obind] in Z; try discriminate Z. exact Z.
  Qed.
  Lemma traj_zero d dense j st : target d dense = [] -> traj d dense j st -> j = 0 /\ st = ps_start (poly_cfg c is_num d).
  Proof.
    intros E T. unfold traj in T. rewrite E in T. destruct j as [|j]; [cbn [drive] in T; injection T as <-; auto|]. exfalso. cbn [drive] in T. unfold ps_start at 2 3 in T. cbn [ps_order pc_n poly_cfg] in T.
    rewrite (zero_run d dense E) in T. cbn [obind] in T. discriminate T.
  Qed.
  Lemma steps_bound d dense : target d dense <> [] -> (n - 1) * depth (poly_cfg c is_num d) d (target d dense) * length (target d dense) <= steps d dense.
  Proof.
    intros N. unfold steps. assert (D : depth (poly_cfg c is_num d) d (target d dense) <= d + 2) by (unfold depth; cbn [poly_cfg pc_newton pc_bt pc_thr]; destruct (mc_bt c); lia).
    destruct (target d dense) eqn:E; [contradiction|]. rewrite <- E in *. apply Nat.mul_le_mono_r. apply Nat.mul_le_mono_l. exact D.
  Qed.
  Lemma traj_bound d dense j st : 0 < d <= G -> traj d dense j st -> j < steps d dense.
  Proof.
    intros Ld T. destruct (target d dense) as [|t l] eqn:E.
    - destruct (traj_zero d dense j st E T) as [-> _]. unfold steps. rewrite E. lia.
    - assert (N : target d dense <> []) by (rewrite E; discriminate). destruct (C46_polynomial_recovered K HK ord Ho (poly_cfg c is_num d) d (target d dense) y (target_poly d dense N) (target_fits d dense Ld N) (target_suitable d dense (proj1 Ld) N) j) as [out [X Y]].
      unfold traj in T. cbn [poly_cfg pc_n] in X. rewrite T in X. injection X as <-. pose proof (steps_bound d dense N). cbn [poly_cfg pc_n] in Y. lia.
  Qed.
  Lemma traj_shape d dense j st : 0 < d <= G -> traj d dense j st ->
    exists z i k, z < n - 1 /\ ps_zi st = S z /\ ps_order st = order_at (poly_cfg c is_num d) z (S i) (S k) /\ i < Nat.max 1 (length (source dense)) /\ k <= d.
  Proof.
    intros Ld T. destruct (target d dense) as [|t l] eqn:E.
    - destruct (traj_zero d dense j st E T) as [-> ->]. exists 0, 0, 0. split; [lia|]. split; [reflexivity|]. split; [|split; lia].
      unfold ps_start. cbn [ps_order]. apply (start_order (poly_cfg c is_num d)).
    - assert (N : target d dense <> []) by (rewrite E; discriminate).
      destruct (run_state HK ord Ho (poly_cfg c is_num d) d (target d dense) y (target_poly d dense N) (target_fits d dense Ld N) (target_suitable d dense (proj1 Ld) N) j st T) as [z [i [k [Hz [Ez [Eo [Hi Hw]]]]]]].
      exists z, i, k. split; [exact Hz|]. split; [exact Ez|]. split; [exact Eo|]. pose proof (target_len d dense). split; [lia|].
      destruct Hw as [Hw _]. cbn [poly_cfg pc_newton pc_deg] in Hw. destruct (Hw eq_refl) as [_ W]. lia.
  Qed.
  Lemma traj_step d dense j st : 0 < d <= G -> traj d dense j st ->
    exists out, pfeed ord (poly_cfg c is_num d) y st (black_box (n - 1) (target d dense) y (ps_order st)) (ps_order st) = Ret out /\
      match out with PMore st' => traj d dense (S j) st' | PPoly m => Permutation m (target d dense) end.
  Proof.
    intros Ld T. destruct (target d dense) as [|t l] eqn:E.
    - destruct (traj_zero d dense j st E T) as [-> ->]. exists (PPoly []). split; [|constructor]. unfold ps_start at 2 3. cbn [ps_order pc_n poly_cfg]. apply (zero_run d dense E).
    - rewrite <- E in *. assert (N : target d dense <> []) by (rewrite E; discriminate).
      destruct (C46_polynomial_recovered K HK ord Ho (poly_cfg c is_num d) d (target d dense) y (target_poly d dense N) (target_fits d dense Ld N) (target_suitable d dense (proj1 Ld) N) (S j)) as [out [X Y]].
      exists out. unfold traj in T. pose proof (drive_snoc _ _ _ _ _ _ _ T) as D. cbn [poly_cfg pc_n] in X. rewrite X in D. split; [symmetry; exact D|]. destruct out as [s'|r]; [exact X|exact Y].
  Qed.
  (** the result of the object, homogenized *)
  Lemma traj_result d dense r : 0 < d <= G -> Permutation r (target d dense) ->
    pf_n (rat_result ord (poly_cfg c is_num d) r) = n /\ Permutation (pf_coefs (rat_result ord (poly_cfg c is_num d) r)) (hom d (source dense)).
  Proof.
    intros Ld Pr. split; [unfold rat_result; cbn [pf_n poly_cfg pc_n]; lia|]. destruct (target d dense) as [|t l] eqn:E.
    - apply Permutation_sym, Permutation_nil in Pr. subst r. assert (O0 : forall A, ord A [] = []) by (intros A; apply Permutation_nil, Permutation_sym, Ho).
      unfold rat_result, phomogenize. cbn [pf_coefs]. rewrite O0. cbn [fold_left]. apply target_nil in E. rewrite E. constructor.
    - assert (N : target d dense <> []) by (rewrite E; discriminate). rewrite <- E in Pr. clear E t l.
      destruct (target_fits d dense Ld N) as [_ [_ [[X|[X T]] _]]]; [cbn [poly_cfg pc_deg] in X; lia|].
      destruct (C46_homogenized_result K HK ord Ho (poly_cfg c is_num d) d (target d dense) r (target_poly d dense N)) as [_ R]; [cbn [poly_cfg pc_deg]; lia|exact T|exact Pr|].
      cbn [poly_cfg pc_deg] in R. cbn [poly_cfg]. etransitivity; [exact R|]. unfold target. rewrite (layer_back d (source dense) (n - 1)); [reflexivity|].
      intros e a I. apply in_hom in I as [I _]. destruct (source_poly dense) as [_ [_ Y]]. rewrite Sn. apply (Y e a I).
  Qed.
End Traj.

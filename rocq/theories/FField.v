(** The interface through which template code over FFIntTemp uses FFInt, its laws, and the proof that the
    FFInt model (FFInt.v) satisfies them for every prime below 2^63. *)
From Coq Require Import Field_theory Ring_theory Znumtheory Eqdep_dec.
From Verif Require Import Machine NumTheory FFInt FFIntProofs.
Open Scope Z_scope.

(** Operations of FFIntTemp used by the templates (FFInt.hpp / FFInt.cpp operators). *)
Record fops := mk_fops {
  car :> Type;
  f0 : car;                           (* FFInt() / FFInt(0) *)
  f1 : car;                           (* FFInt(1) *)
  fadd : car -> car -> car;
  fsub : car -> car -> car;
  fmul : car -> car -> car;
  fopp : car -> car;
  fdiv : car -> car -> car;
  feqb : car -> car -> bool;          (* operator== *)
  fgtb : car -> car -> bool;          (* operator> on stored values *)
  fpow : car -> Z -> car;             (* pow with an unsigned integral exponent *)
  fofZ : Z -> car                     (* FFInt(uint64_t) *)
}.
Arguments f0 {_}. Arguments f1 {_}. Arguments fadd {_}. Arguments fsub {_}. Arguments fmul {_}.
Arguments fopp {_}. Arguments fdiv {_}. Arguments feqb {_}. Arguments fgtb {_}. Arguments fpow {_}. Arguments fofZ {_}.

Fixpoint pw {K : fops} (x : K) (n : nat) : K := match n with O => f1 | S m => fmul x (pw x m) end.
Fixpoint nsum {K : fops} (n : nat) : K := match n with O => f0 | S m => fadd f1 (nsum m) end.

Record flaws (K : fops) : Prop := mk_flaws {
  fl_field : field_theory (@f0 K) f1 fadd fmul fsub fopp fdiv (fdiv f1) eq;
  fl_div0 : forall x : K, fdiv x f0 = f0;
  fl_eqb : forall x y : K, feqb x y = true <-> x = y;
  fl_gtb0 : forall x : K, fgtb x f0 = negb (feqb x f0);
  fl_0gtb : forall x : K, fgtb f0 x = false;
  fl_pow : forall (x : K) n, 0 <= n < two64 -> fpow x n = pw x (Z.to_nat n);
  fl_ofZ : forall n, 0 <= n < two64 -> @fofZ K n = nsum (Z.to_nat n)
}.

(** ---- the FFInt instance ---- *)
Section Instance.
  Variable p : Z.
  Hypothesis Hp : prime p.
  Hypothesis Hlt : p < two63.

  Definition canon (x : Z) : bool := (0 <=? x) && (x <? p).
  (** an FFInt holding a canonical value *)
  Definition ffint : Type := { x : Z | canon x = true }.

  Lemma canon_iff x : canon x = true <-> 0 <= x < p.
  Proof. unfold canon. lia. Qed.

  Lemma ffint_eq (a b : ffint) : proj1_sig a = proj1_sig b -> a = b.
  Proof.
    destruct a as [a Ha], b as [b Hb]. cbn [proj1_sig]. intros ->. f_equal. apply UIP_dec. apply bool_dec.
  Qed.

  Lemma Ppos : 1 < p. Proof. destruct Hp; lia. Qed.

  Lemma val_range (a : ffint) : 0 <= proj1_sig a < p.
  Proof. apply canon_iff. exact (proj2_sig a). Qed.

  Lemma mod_canon z : canon (z mod p) = true.
  Proof. apply canon_iff. apply Z.mod_pos_bound. pose proof Ppos; lia. Qed.

  Lemma add_ok (a b : ffint) : canon (ff_add p (proj1_sig a) (proj1_sig b)) = true.
  Proof. rewrite ff_add_correct; [apply mod_canon|pose proof Ppos; lia|apply val_range|apply val_range]. Qed.
  Lemma sub_ok (a b : ffint) : canon (ff_sub p (proj1_sig a) (proj1_sig b)) = true.
  Proof. rewrite ff_sub_correct; [apply mod_canon|pose proof Ppos; lia|apply val_range|apply val_range]. Qed.
  Lemma mul_ok (a b : ffint) : canon (ff_mul p (proj1_sig a) (proj1_sig b)) = true.
  Proof. rewrite ff_mul_correct; [apply mod_canon|pose proof Ppos; lia|apply val_range|apply val_range]. Qed.
  Lemma opp_ok (a : ffint) : canon (ff_opp p (proj1_sig a)) = true.
  Proof. rewrite ff_opp_correct; [apply mod_canon|pose proof Ppos; lia|apply val_range]. Qed.
  Lemma div_ok (a b : ffint) : canon (ff_div p (proj1_sig a) (proj1_sig b)) = true.
  Proof.
    pose proof (val_range a). pose proof (val_range b). pose proof Ppos.
    destruct (Z.eq_dec (proj1_sig b) 0) as [->|E].
    - rewrite ff_div_zero by lia. apply canon_iff; lia.
    - apply canon_iff. apply (ff_div_correct p); lia || exact Hp.
  Qed.
  Lemma ctor_ok z : canon (ff_ctor p (wrap64 z)) = true.
  Proof. pose proof Ppos. rewrite ff_ctor_nonneg; [apply mod_canon|lia|apply wrap64_range]. Qed.
  Lemma pow_ok (a : ffint) n : canon (ff_pow_int p (proj1_sig a) (wrap64 n)) = true.
  Proof. pose proof (wrap64_range n). rewrite ff_pow_int_nonneg; [apply mod_canon|exact Hp|exact Hlt|apply val_range|assumption]. Qed.

  Definition FFint_ops : fops := {|
    car := ffint;
    f0 := exist _ (ff_ctor p (wrap64 0)) (ctor_ok 0);
    f1 := exist _ (ff_ctor p (wrap64 1)) (ctor_ok 1);
    fadd := fun a b => exist _ (ff_add p (proj1_sig a) (proj1_sig b)) (add_ok a b);
    fsub := fun a b => exist _ (ff_sub p (proj1_sig a) (proj1_sig b)) (sub_ok a b);
    fmul := fun a b => exist _ (ff_mul p (proj1_sig a) (proj1_sig b)) (mul_ok a b);
    fopp := fun a => exist _ (ff_opp p (proj1_sig a)) (opp_ok a);
    fdiv := fun a b => exist _ (ff_div p (proj1_sig a) (proj1_sig b)) (div_ok a b);
    feqb := fun a b => ff_eqb (proj1_sig a) (proj1_sig b);
    fgtb := fun a b => ff_ltb (proj1_sig b) (proj1_sig a);
    fpow := fun a n => exist _ (ff_pow_int p (proj1_sig a) (wrap64 n)) (pow_ok a n);
    fofZ := fun n => exist _ (ff_ctor p (wrap64 n)) (ctor_ok n)
  |}.

  Let v (x : FFint_ops) : Z := proj1_sig (x : ffint).

  Lemma v_inj (a b : FFint_ops) : v a = v b -> a = b.
  Proof. apply ffint_eq. Qed.
  Lemma v_range (a : FFint_ops) : 0 <= v a < p. Proof. apply val_range. Qed.
  Lemma v_add a b : v (fadd a b) = (v a + v b) mod p.
  Proof. apply ff_add_correct; [pose proof Ppos; lia|apply val_range|apply val_range]. Qed.
  Lemma v_sub a b : v (fsub a b) = (v a - v b) mod p.
  Proof. apply ff_sub_correct; [pose proof Ppos; lia|apply val_range|apply val_range]. Qed.
  Lemma v_mul a b : v (fmul a b) = (v a * v b) mod p.
  Proof. apply ff_mul_correct; [pose proof Ppos; lia|apply val_range|apply val_range]. Qed.
  Lemma v_opp a : v (fopp a) = (- v a) mod p.
  Proof. apply ff_opp_correct; [pose proof Ppos; lia|apply val_range]. Qed.
  Lemma v_ofZ n : 0 <= n < two64 -> v (fofZ n) = n mod p.
  Proof. intros H. unfold v. cbn [fofZ FFint_ops proj1_sig]. rewrite wrap64_small by exact H.
    apply ff_ctor_nonneg; pose proof Ppos; lia. Qed.
  Lemma v_0 : v f0 = 0. Proof. unfold v. cbn [f0 FFint_ops proj1_sig]. rewrite wrap64_small by (unfold two64; lia).
    rewrite ff_ctor_nonneg by (pose proof Ppos; lia). apply Z.mod_0_l. pose proof Ppos; lia. Qed.
  Lemma v_1 : v f1 = 1. Proof. unfold v. cbn [f1 FFint_ops proj1_sig]. rewrite wrap64_small by (unfold two64; lia).
    rewrite ff_ctor_nonneg by (pose proof Ppos; lia). apply Z.mod_1_l. pose proof Ppos; lia. Qed.

  Lemma ffint_ring : ring_theory (@f0 FFint_ops) f1 fadd fmul fsub fopp eq.
  Proof.
    pose proof Ppos as PP. assert (P0 : p <> 0) by lia.
    constructor; intros; apply v_inj; rewrite ?v_add, ?v_mul, ?v_sub, ?v_opp, ?v_add, ?v_mul, ?v_opp, ?v_0, ?v_1.
    - rewrite Z.add_0_l. apply Z.mod_small, v_range.
    - f_equal; lia.
    - rewrite Zplus_mod_idemp_l, Zplus_mod_idemp_r. f_equal; lia.
    - rewrite Z.mul_1_l. apply Z.mod_small, v_range.
    - f_equal; lia.
    - rewrite Zmult_mod_idemp_l, Zmult_mod_idemp_r. f_equal; lia.
    - rewrite Zmult_mod_idemp_l, <- Zplus_mod. f_equal; lia.
    - rewrite Zplus_mod_idemp_r. f_equal; lia.
    - rewrite Zplus_mod_idemp_r, Z.add_opp_diag_r. apply Z.mod_0_l; exact P0.
  Qed.

  Lemma v_div a b : v b <> 0 -> (v (fdiv a b) * v b) mod p = v a.
  Proof.
    intros H. pose proof (v_range b). pose proof (v_range a).
    apply (ff_div_correct p (v a) (v b)); try assumption. lia.
  Qed.

  Lemma ffint_div_def a b : @fdiv FFint_ops a b = fmul a (fdiv f1 b).
  Proof.
    pose proof Ppos as PP. apply v_inj. destruct (Z.eq_dec (v b) 0) as [E|E].
    - rewrite v_mul. unfold v in *. cbn [fdiv FFint_ops proj1_sig]. rewrite E, !ff_div_zero by lia.
      rewrite Z.mul_0_r. symmetry; apply Z.mod_0_l; lia.
    - rewrite v_mul.
      assert (E1 : (v (fdiv a b) * v b) mod p = v a) by (apply v_div; exact E).
      assert (E2 : (v (fdiv f1 b) * v b) mod p = 1) by (rewrite v_div by exact E; apply v_1).
      assert (M : v (fdiv a b) mod p = ((v a * v (fdiv f1 b)) mod p) mod p).
      { apply (mod_mul_cancel p (v b)); [exact Hp|rewrite Z.mod_small by apply v_range; exact E|].
        rewrite (Z.mul_comm (v b)), E1. rewrite Z.mul_comm, Zmult_mod_idemp_l, <- Z.mul_assoc.
        rewrite <- Zmult_mod_idemp_r, E2, Z.mul_1_r. symmetry; apply Z.mod_small, v_range. }
      rewrite Zmod_mod in M. rewrite Z.mod_small in M by apply v_range. exact M.
  Qed.

  Theorem ffint_laws : flaws FFint_ops.
  Proof.
    pose proof Ppos as PP. constructor.
    - constructor.
      + exact ffint_ring.
      + intros E. apply (f_equal v) in E. rewrite v_0, v_1 in E. discriminate.
      + apply ffint_div_def.
      + intros x Hx. apply v_inj. rewrite v_mul, v_div; [reflexivity|].
        intros E. apply Hx. apply v_inj. rewrite v_0. exact E.
    - intros x. apply v_inj. rewrite v_0. unfold v. cbn [fdiv FFint_ops proj1_sig].
      change (proj1_sig (@f0 FFint_ops : ffint)) with (v f0). rewrite v_0. apply ff_div_zero; lia.
    - intros x y. cbn [feqb FFint_ops]. unfold ff_eqb. split.
      + intros E. apply v_inj. apply Z.eqb_eq; exact E.
      + intros ->. apply Z.eqb_refl.
    - intros x. cbn [fgtb feqb FFint_ops]. unfold ff_ltb, ff_eqb.
      change (proj1_sig (@f0 FFint_ops : ffint)) with (v f0). rewrite v_0. pose proof (v_range x). unfold v in *. lia.
    - intros x. cbn [fgtb FFint_ops]. unfold ff_ltb.
      change (proj1_sig (@f0 FFint_ops : ffint)) with (v f0). rewrite v_0. pose proof (v_range x). unfold v in *. lia.
    - intros x n Hn. apply v_inj.
      assert (E : forall k, v (pw x k) = (v x ^ Z.of_nat k) mod p).
      { induction k as [|k IH]; cbn [pw].
        - rewrite v_1, Z.pow_0_r. symmetry; apply Z.mod_1_l; lia.
        - rewrite v_mul, IH, Zmult_mod_idemp_r, Nat2Z.inj_succ, Z.pow_succ_r by lia. reflexivity. }
      rewrite E, Z2Nat.id by lia. unfold v at 1. cbn [fpow FFint_ops proj1_sig].
      rewrite wrap64_small by exact Hn. apply ff_pow_int_nonneg; try assumption; apply v_range.
    - intros n Hn. apply v_inj. rewrite v_ofZ by exact Hn.
      assert (E : forall k, v (nsum k) = Z.of_nat k mod p).
      { induction k as [|k IH]; cbn [nsum].
        - rewrite v_0. symmetry; apply Z.mod_0_l; lia.
        - rewrite v_add, v_1, IH, Zplus_mod_idemp_r. f_equal; lia. }
      rewrite E, Z2Nat.id by lia. reflexivity.
  Qed.
End Instance.

Lemma prime7 : prime 7.
Proof.
  apply prime_intro; [lia|]. intros n Hn.
  assert (n = 1 \/ n = 2 \/ n = 3 \/ n = 4 \/ n = 5 \/ n = 6) as C by lia.
  destruct C as [->|[->|[->|[->|[->| ->]]]]]; apply Zgcd_1_rel_prime; reflexivity.
Qed.
Lemma seven_small : 7 < two63. Proof. reflexivity. Qed.
(** the field used in the examples *)
Definition F7 : fops := FFint_ops 7 prime7 seven_small.
Lemma F7_laws : flaws F7. Proof. apply ffint_laws. Qed.
Definition z7 (n : Z) : F7 := fofZ n.
Definition v7 (x : F7) : Z := proj1_sig (x : ffint 7).

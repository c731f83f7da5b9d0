(** The field of integers modulo 101 with plain operations.  The theorems hold for every field with the laws of FField.v; the examples use this one
    because its operations are cheap to compute in the kernel.  Its operations are those of FFInt modulo 101 (FField.v, FFInt.v: [add101] ...). *)
From Coq Require Import Znumtheory.
From Verif Require Import Machine FField.
Open Scope Z_scope.

Lemma prime101 : prime 101.
Proof.
  apply prime_intro; [lia|]. intros n Hn. apply Zgcd_1_rel_prime.
  assert (C : forallb (fun k => Z.gcd (Z.of_nat k) 101 =? 1)%Z (seq 1 100) = true) by (vm_compute; reflexivity). rewrite forallb_forall in C.
  specialize (C (Z.to_nat n)). rewrite Z2Nat.id in C by lia. apply Z.eqb_eq. apply C. apply in_seq. lia.
Qed.
Lemma small101 : (101 < two63)%Z. Proof. reflexivity. Qed.
Definition G101 : fops := FFint_ops 101 prime101 small101.
Definition inverses : list Z := [0; 1; 51; 34; 76; 81; 17; 29; 38; 45; 91; 46; 59; 70; 65; 27; 19; 6; 73; 16; 96; 77; 23; 22; 80; 97; 35; 15; 83; 7; 64; 88; 60; 49; 3; 26; 87; 71; 8; 57; 48; 69; 89; 47; 62; 9; 11; 43; 40; 33; 99; 2; 68; 61; 58; 90; 92; 39; 54; 12; 32; 53; 44; 93; 30; 14; 75; 98; 52; 41; 13; 37; 94; 18; 86; 66; 4; 21; 79; 78; 24; 5; 85; 28; 95; 82; 74; 36; 31; 42; 55; 10; 56; 63; 72; 84; 20; 25; 67; 50; 100].
Definition inv101 (x : Z) : Z := nth (Z.to_nat x) inverses 0.
Lemma inv101_ok x : 0 < x < 101 -> (inv101 x * x) mod 101 = 1 /\ 0 <= inv101 x < 101.
Proof.
  intros H. assert (C : forallb (fun k => ((inv101 (Z.of_nat k) * Z.of_nat k) mod 101 =? 1) && (0 <=? inv101 (Z.of_nat k)) && (inv101 (Z.of_nat k) <? 101)) (seq 1 100) = true) by (vm_compute; reflexivity).
  rewrite forallb_forall in C. specialize (C (Z.to_nat x) ltac:(apply in_seq; lia)). rewrite Z2Nat.id in C by lia. lia.
Qed.
Definition mk101 (z : Z) : ffint 101 := exist _ (z mod 101) (mod_canon 101 prime101 z).
Local Notation v x := (proj1_sig (x : ffint 101)).
Fixpoint power101 (x : Z) (n : nat) : Z := match n with O => 1 | S m => (x * power101 x m) mod 101 end.
Definition F101 : fops := {|
  car := ffint 101; f0 := mk101 0; f1 := mk101 1;
  fadd := fun a b => mk101 (v a + v b);
  fsub := fun a b => mk101 (v a - v b);
  fmul := fun a b => mk101 (v a * v b);
  fopp := fun a => mk101 (- v a);
  fdiv := fun a b => mk101 (v a * inv101 (v b));
  feqb := fun a b => v a =? v b;
  fgtb := fun a b => v b <? v a;
  fpow := fun a n => mk101 (power101 (v a) (Z.to_nat n));
  fofZ := fun n => mk101 n |}.
Lemma eq101 (a b : ffint 101) : v a = v b -> a = b. Proof. apply ffint_eq. Qed.
(** the operations of FFInt *)
Lemma zero101 : @f0 F101 = @f0 G101. Proof. apply eq101. symmetry. exact (v_0 101 prime101 small101). Qed.
Lemma unit101 : @f1 F101 = @f1 G101. Proof. apply eq101. symmetry. exact (v_1 101 prime101 small101). Qed.
Lemma add101 (a b : ffint 101) : @fadd F101 a b = @fadd G101 a b. Proof. apply eq101. symmetry. exact (v_add 101 prime101 small101 a b). Qed.
Lemma sub101 (a b : ffint 101) : @fsub F101 a b = @fsub G101 a b. Proof. apply eq101. symmetry. exact (v_sub 101 prime101 small101 a b). Qed.
Lemma mul101 (a b : ffint 101) : @fmul F101 a b = @fmul G101 a b. Proof. apply eq101. symmetry. exact (v_mul 101 prime101 small101 a b). Qed.
Lemma opp101 (a : ffint 101) : @fopp F101 a = @fopp G101 a. Proof. apply eq101. symmetry. exact (v_opp 101 prime101 small101 a). Qed.
Lemma div101 (a b : ffint 101) : @fdiv F101 a b = @fdiv G101 a b.
Proof.
  pose proof (ffint_laws 101 prime101 small101) as HG. fold G101 in HG. destruct (Z.eq_dec (v b) 0) as [E|E].
  - assert (B : b = (@f0 G101 : ffint 101)) by (apply eq101; rewrite E; symmetry; exact (v_0 101 prime101 small101)).
    transitivity (@f0 G101); [|subst b; symmetry; apply (fl_div0 _ HG)]. apply eq101. cbn [fdiv F101 proj1_sig mk101]. rewrite E. change (inv101 0) with 0. rewrite Z.mul_0_r. symmetry. exact (v_0 101 prime101 small101).
  - pose proof (val_range 101 b) as Hb. destruct (inv101_ok (v b) ltac:(lia)) as [I R]. transitivity (@fmul G101 a (@fdiv G101 f1 b)); [|symmetry; exact (ffint_div_def 101 prime101 small101 a b)].
    assert (Q : (@fdiv G101 f1 b : ffint 101) = mk101 (inv101 (v b))).
    { apply eq101. cbn [mk101 proj1_sig]. assert (D : (v (@fdiv G101 f1 b) * v b) mod 101 = 1) by (rewrite <- (v_1 101 prime101 small101) at 1; exact (v_div 101 prime101 small101 f1 b E)).
      pose proof (val_range 101 (@fdiv G101 f1 b : ffint 101)) as Hd. set (d := v (@fdiv G101 f1 b)) in *.
      rewrite (Z.mod_small (inv101 (v b))) by exact R. rewrite <- (Z.mod_small d 101) by exact Hd. rewrite <- (Z.mod_small (inv101 (v b)) 101) by exact R.
      transitivity ((d * (inv101 (v b) * v b)) mod 101).
      - rewrite <- Zmult_mod_idemp_r, I, Z.mul_1_r. reflexivity.
      - replace (d * (inv101 (v b) * v b)) with (inv101 (v b) * (d * v b)) by ring. rewrite <- Zmult_mod_idemp_r, D, Z.mul_1_r. reflexivity. }
    rewrite Q. apply eq101. cbn [fdiv F101 mk101 proj1_sig].
    etransitivity; [|symmetry; exact (v_mul 101 prime101 small101 a (mk101 (inv101 (v b))))]. cbn [mk101 proj1_sig]. rewrite Zmult_mod_idemp_r. reflexivity.
Qed.
Lemma F101_laws : flaws F101.
Proof.
  pose proof (ffint_laws 101 prime101 small101) as HG. fold G101 in HG. pose proof (fl_field _ HG) as FG. destruct FG as [RG NG DG IG]. destruct RG.
  constructor.
  - constructor; [constructor|..]; intros; rewrite ?zero101, ?unit101, ?add101, ?mul101, ?sub101, ?opp101, ?div101, ?add101, ?mul101, ?opp101, ?div101.
    + apply Radd_0_l.
    + apply Radd_comm.
    + apply Radd_assoc.
    + apply Rmul_1_l.
    + apply Rmul_comm.
    + apply Rmul_assoc.
    + apply Rdistr_l.
    + apply Rsub_def.
    + apply Ropp_def.
    + exact NG.
    + apply DG.
    + apply IG. rewrite <- zero101. exact H.
  - intros x. rewrite zero101, div101. apply (fl_div0 _ HG).
  - intros x y. cbn [feqb F101]. split; [intros E; apply eq101; apply Z.eqb_eq; exact E|intros ->; apply Z.eqb_refl].
  - intros x. pose proof (val_range 101 x). cbn [fgtb feqb F101 f0 mk101 proj1_sig]. change (0 mod 101) with 0. lia.
  - intros x. pose proof (val_range 101 x). cbn [fgtb F101 f0 mk101 proj1_sig]. change (0 mod 101) with 0. lia.
  - intros x n _. cbn [fpow F101]. induction (Z.to_nat n) as [|k IH]; [reflexivity|]. cbn [power101 pw]. rewrite <- IH. apply eq101. cbn [fmul F101 mk101 proj1_sig].
    rewrite Zmult_mod_idemp_r, Zmod_mod. reflexivity.
  - intros n Hn. cbn [fofZ F101]. rewrite <- (Z2Nat.id n) at 1 by lia. induction (Z.to_nat n) as [|k IH]; [reflexivity|]. cbn [nsum]. rewrite <- IH. apply eq101. cbn [fadd F101 mk101 proj1_sig f1].
    change (1 mod 101) with 1. rewrite Zplus_mod_idemp_r. f_equal. lia.
Qed.
Lemma F101_value (n : Z) : v (@fofZ F101 n) = n mod 101. Proof. reflexivity. Qed.
Lemma F101_sums (k : nat) : v (@nsum F101 k) = Z.of_nat k mod 101.
Proof.
  induction k as [|k IH]; [reflexivity|]. cbn [nsum fadd F101 mk101 proj1_sig f1]. rewrite IH. change (1 mod 101) with 1. rewrite Zplus_mod_idemp_r. f_equal. lia.
Qed.

(** Elementary number theory over Z used by several files (no modelling here). *)
From Coq Require Import Znumtheory Zpow_facts Permutation.
From Verif Require Import Machine.

Lemma mod_ex a p : p <> 0 -> exists k, a mod p = a + k * p.
Proof. intros H. exists (- (a / p)). pose proof (Z.div_mod a p H). lia. Qed.

Lemma mod_eq_ex a b k p : p <> 0 -> a = b + k * p -> a mod p = b mod p.
Proof. intros H ->. apply Z.mod_add; exact H. Qed.

Lemma mod_mul_cancel p a b c : prime p -> a mod p <> 0 ->
  (a * b) mod p = (a * c) mod p -> b mod p = c mod p.
Proof.
  intros Hp Ha H.
  assert (P0 : 0 < p) by (destruct Hp; lia).
  assert (D : (p | a * (b - c))).
  { apply Z.mod_divide; [lia|]. rewrite Z.mul_sub_distr_l, Zminus_mod, H, Z.sub_diag.
    apply Z.mod_0_l; lia. }
  apply prime_mult in D; [|exact Hp]. destruct D as [D|D].
  - exfalso. apply Ha. apply Z.mod_divide; [lia|exact D].
  - destruct D as [k Hk]. replace b with (c + k * p) by lia. apply Z.mod_add; lia.
Qed.

Lemma NoDup_map_inj {A B} (f : A -> B) l :
  (forall x y, In x l -> In y l -> f x = f y -> x = y) -> NoDup l -> NoDup (map f l).
Proof.
  induction l as [|x l IH]; intros Hf Hl; [constructor|]. cbn [map].
  inversion_clear Hl as [|? ? Hx Hl']. constructor.
  - rewrite in_map_iff. intros [y [E Hy]]. apply Hx. rewrite <- (Hf y x); auto using in_cons, in_eq.
  - apply IH; [|exact Hl']. intros a b Ha Hb. apply Hf; right; assumption.
Qed.

Definition residues (p : Z) : list Z := map Z.of_nat (seq 1 (Z.to_nat (p - 1))).

Lemma residues_in p x : In x (residues p) <-> 1 <= x < p.
Proof.
  unfold residues. rewrite in_map_iff. split.
  - intros [n [<- Hn]]. apply in_seq in Hn. lia.
  - intros H. exists (Z.to_nat x). rewrite in_seq. lia.
Qed.

Lemma residues_nodup p : NoDup (residues p).
Proof. unfold residues. apply FinFun.Injective_map_NoDup; [intros a b; lia|apply seq_NoDup]. Qed.

Definition zprod (l : list Z) : Z := fold_right Z.mul 1 l.

Lemma zprod_perm l l' : Permutation l l' -> zprod l = zprod l'.
Proof. unfold zprod. induction 1; cbn [fold_right]; try lia. Qed.

Lemma zprod_map_mod p l : 0 < p -> zprod (map (fun x => x mod p) l) mod p = zprod l mod p.
Proof.
  intros Hp. induction l as [|x l IH]; [reflexivity|]. unfold zprod in *. cbn [map fold_right].
  rewrite Zmult_mod, IH, Z.mod_mod, <- Zmult_mod by lia. reflexivity.
Qed.

Lemma zprod_map_mul a l : zprod (map (Z.mul a) l) = a ^ Z.of_nat (length l) * zprod l.
Proof.
  induction l as [|x l IH]; [reflexivity|].
  cbn [length]. rewrite Nat2Z.inj_succ, Z.pow_succ_r by lia.
  unfold zprod in *. cbn [map fold_right]. rewrite IH. lia.
Qed.

Lemma prime_not_div_small p x : prime p -> 0 < x < p -> x mod p <> 0.
Proof. intros Hp Hx. rewrite Z.mod_small by lia. lia. Qed.

Lemma zprod_residues_nz p l : prime p -> (forall x, In x l -> 1 <= x < p) -> zprod l mod p <> 0.
Proof.
  intros Hp. assert (P1 : 1 < p) by (destruct Hp; lia).
  induction l as [|x l IH]; intros H.
  - unfold zprod; cbn [fold_right]. rewrite Z.mod_small; lia.
  - unfold zprod in *. cbn [fold_right]. intros C. apply Z.mod_divide in C; [|lia].
    apply prime_mult in C; [|exact Hp]. destruct C as [C|C].
    + assert (1 <= x < p) by (apply H; left; reflexivity).
      apply Z.mod_divide in C; [|lia]. rewrite Z.mod_small in C; lia.
    + apply IH; [intros y Hy; apply H; right; exact Hy|]. apply Z.mod_divide; [lia|exact C].
Qed.

(** Fermat's little theorem. *)
Lemma fermat p a : prime p -> a mod p <> 0 -> a ^ (p - 1) mod p = 1.
Proof.
  intros Hp Ha. assert (P1 : 1 < p) by (destruct Hp; lia).
  set (L := residues p).
  set (M := map (fun x => (a * x) mod p) L).
  assert (NM : NoDup M).
  { apply NoDup_map_inj; [|apply residues_nodup].
    intros x y Hx Hy E. apply residues_in in Hx, Hy.
    apply (mod_mul_cancel p a x y Hp Ha) in E. rewrite !Z.mod_small in E; lia. }
  assert (PM : Permutation M L).
  { apply NoDup_Permutation_bis; [exact NM| unfold M; rewrite map_length; lia |].
    intros y Hy. unfold M in Hy. apply in_map_iff in Hy. destruct Hy as [x [<- Hx]].
    apply residues_in in Hx. apply residues_in.
    pose proof (Z.mod_pos_bound (a * x) p ltac:(lia)).
    assert ((a * x) mod p <> 0); [|lia].
    intros C. apply Z.mod_divide in C; [|lia]. apply prime_mult in C; [|exact Hp].
    destruct C as [C|C]; apply Z.mod_divide in C; try lia. rewrite Z.mod_small in C; lia. }
  assert (E1 : zprod M mod p = zprod L mod p) by (rewrite (zprod_perm _ _ PM); reflexivity).
  assert (E2 : M = map (fun x => x mod p) (map (Z.mul a) L)) by (unfold M; rewrite map_map; reflexivity).
  rewrite E2, zprod_map_mod, zprod_map_mul in E1 by lia.
  assert (LL : Z.of_nat (length L) = p - 1).
  { unfold L, residues. rewrite map_length, seq_length. lia. }
  rewrite LL in E1.
  assert (NZ : zprod L mod p <> 0).
  { apply zprod_residues_nz; [exact Hp|]. intros x Hx. apply residues_in in Hx. exact Hx. }
  assert (E3 : (zprod L * (a ^ (p - 1))) mod p = (zprod L * 1) mod p).
  { rewrite Z.mul_comm, E1. f_equal. lia. }
  apply (mod_mul_cancel p _ _ _ Hp NZ) in E3. rewrite E3. apply Z.mod_small; lia.
Qed.

Lemma mod_pow_mod a n p : 0 < p -> 0 <= n -> (a mod p) ^ n mod p = a ^ n mod p.
Proof. intros Hp Hn. symmetry. rewrite Zpower_mod by lia. reflexivity. Qed.

(** Pocklington's primality criterion *)
From Coq Require Import ZArith Znumtheory Zpow_facts List Lia.
From Verif Require Import NumTheory.
Import ListNotations.
Open Scope Z_scope.

Lemma exists_prime_divisor n : 1 < n -> exists p, prime p /\ (p | n).
Proof.
  intros H. assert (P : forall k, 0 <= k -> forall n, 1 < n <= k -> exists p, prime p /\ (p | n)).
  { apply (natlike_ind (fun k => forall n, 1 < n <= k -> exists p, prime p /\ (p | n))); [intros; lia|]. intros k Hk IH m Hm.
    destruct (prime_dec m) as [Pm|Nm]; [exists m; split; [exact Pm|apply Z.divide_refl]|].
    destruct (not_prime_divide m ltac:(lia) Nm) as [d [Hd Dd]]. destruct (IH d ltac:(lia)) as [p [Pp Dp]]. exists p. split; [exact Pp|]. eapply Z.divide_trans; eassumption. }
  apply (P n); lia.
Qed.

Lemma small_divisor n : 1 < n -> ~ prime n -> exists e, 1 < e /\ (e | n) /\ e * e <= n.
Proof.
  intros Hn NP. destruct (not_prime_divide n Hn NP) as [d [Hd [c Ec]]].
  destruct (Z.le_gt_cases d c) as [L|L]; [exists d|exists c]; (split; [|split]); try nia; [exists c; exact Ec|exists d; lia].
Qed.
Lemma pow_one_mod a p n : 1 < p -> 0 <= n -> a mod p = 1 -> a ^ n mod p = 1.
Proof. intros Hp Hn Ha. rewrite <- mod_pow_mod by lia. rewrite Ha, Z.pow_1_l by exact Hn. apply Z.mod_1_l. exact Hp. Qed.

Lemma pow_gcd a p : 1 < p -> forall n, 0 <= n -> forall m, 0 <= m -> a ^ m mod p = 1 -> a ^ n mod p = 1 -> a ^ Z.gcd m n mod p = 1.
Proof.
  intros Hp n Hn. pattern n. apply Zlt_0_ind; [|exact Hn]. clear n Hn. intros n IH Hn m Hm Pm Pn. destruct (Z.eq_dec n 0) as [->|Nz].
  - rewrite Z.gcd_0_r, Z.abs_eq by exact Hm. exact Pm.
  - rewrite Z.gcd_comm. assert (B : 0 <= m mod n < n) by (apply Z.mod_pos_bound; lia). rewrite <- Z.gcd_mod by lia. rewrite Z.gcd_comm. apply IH; [exact B|lia|exact Pn|].
    pose proof (Z.div_mod m n Nz) as D. rewrite D in Pm. rewrite Z.pow_add_r in Pm; [|apply Z.mul_nonneg_nonneg; [lia|apply Z.div_pos; lia]|lia].
    rewrite Z.pow_mul_r in Pm; [|lia|apply Z.div_pos; lia]. rewrite <- Zmult_mod_idemp_l in Pm.
    rewrite (pow_one_mod (a ^ n) p (m / n)) in Pm; [|exact Hp|apply Z.div_pos; lia|exact Pn]. rewrite Z.mul_1_l in Pm. exact Pm.
Qed.

Lemma prime_power_part q : prime q -> forall k g M, 0 < M -> (g | M) -> (q ^ Z.of_nat (S k) | M) -> ~ (g | M / q) -> (q ^ Z.of_nat (S k) | g).
Proof.
  intros Pq. assert (Q : 1 < q) by (destruct Pq; assumption). induction k as [|k IH]; intros g M HM Hg Hk N.
  - rewrite Z.pow_1_r in *. destruct Hk as [c ->]. rewrite Z.div_mul in N by lia. destruct (Zdivide_dec q g) as [D|D]; [exact D|]. exfalso. apply N.
    apply (Gauss g q c); [rewrite Z.mul_comm; exact Hg|]. apply rel_prime_sym. apply prime_rel_prime; assumption.
  - assert (Dq : (q | M)). { eapply Z.divide_trans; [|exact Hk]. rewrite Nat2Z.inj_succ, Z.pow_succ_r by lia. apply Z.divide_factor_l. }
    destruct Dq as [c E]. assert (Ec : M / q = c) by (rewrite E; apply Z.div_mul; lia). rewrite Ec in N.
    destruct (Zdivide_dec q g) as [D|D].
    + destruct D as [g' ->]. rewrite Nat2Z.inj_succ, Z.pow_succ_r by lia. rewrite (Z.mul_comm g'). apply Z.mul_divide_mono_l. apply (IH g' c).
      * nia.
      * apply (Z.mul_divide_cancel_r g' c q); [lia|]. rewrite <- E. exact Hg.
      * apply (Z.mul_divide_cancel_l (q ^ Z.of_nat (S k)) c q); [lia|]. rewrite <- Z.pow_succ_r by lia. rewrite <- Nat2Z.inj_succ. rewrite (Z.mul_comm q c), <- E. exact Hk.
      * intros F. apply N. assert (Dc : (q | c)).
        { apply (Z.mul_divide_cancel_l q c q); [lia|]. rewrite (Z.mul_comm q c), <- E. eapply Z.divide_trans; [|exact Hk].
          rewrite !Nat2Z.inj_succ, !Z.pow_succ_r by lia. rewrite Z.mul_assoc. apply Z.divide_factor_l. }
        destruct Dc as [e Ee]. rewrite Ee, Z.div_mul in F by lia. rewrite Ee. apply Z.mul_divide_mono_r. exact F.
    + exfalso. apply N. apply (Gauss g q c); [rewrite Z.mul_comm, <- E; exact Hg|]. apply rel_prime_sym. apply prime_rel_prime; assumption.
Qed.

(** a list of prime powers *)
Definition pprod (fs : list (Z * nat)) : Z := fold_right (fun f r => fst f ^ Z.of_nat (snd f) * r) 1 fs.
Lemma rel_prime_pprod q k fs : prime q -> (forall f, In f fs -> prime (fst f) /\ fst f <> q) -> rel_prime (q ^ Z.of_nat k) (pprod fs).
Proof.
  intros Pq H. apply rel_prime_sym. apply rel_prime_Zpower_r; [lia|]. induction fs as [|f fs IH]; [apply rel_prime_1|]. cbn [pprod fold_right].
  apply rel_prime_sym. apply rel_prime_mult.
  - apply rel_prime_Zpower_r; [lia|]. destruct (H f (or_introl eq_refl)) as [Pf Nf]. apply prime_rel_prime; [exact Pq|]. intros D. apply Nf. symmetry. apply prime_div_prime; assumption.
  - apply rel_prime_sym. apply IH. intros g Hg. apply H. right. exact Hg.
Qed.
Lemma pprod_divides m fs : (forall f, In f fs -> prime (fst f) /\ (fst f ^ Z.of_nat (snd f) | m)) -> NoDup (map fst fs) -> (pprod fs | m).
Proof.
  induction fs as [|[q k] fs IH]; intros H N; [apply Z.divide_1_l|]. cbn [pprod fold_right fst snd]. inversion N as [|x l Nq N']; subst.
  destruct IH as [c E]; [intros f Hf; apply H; right; exact Hf|exact N'|]. destruct (H (q, k) (or_introl eq_refl)) as [Pq Dq]. cbn [fst snd] in *.
  fold (pprod fs) in *. rewrite E in Dq. assert (D : (q ^ Z.of_nat k | c)).
  { apply (Gauss _ (pprod fs) c); [rewrite Z.mul_comm; exact Dq|]. apply rel_prime_pprod; [exact Pq|]. intros f Hf. split; [apply H; right; exact Hf|].
    intros F. apply Nq. rewrite <- F. apply in_map. exact Hf. }
  rewrite E. apply Z.mul_divide_mono_r. exact D.
Qed.

Lemma pprod_nonneg fs : (forall f, In f fs -> prime (fst f)) -> 0 <= pprod fs.
Proof.
  induction fs as [|f fs IH]; intros H; [cbn; lia|]. cbn [pprod fold_right]. apply Z.mul_nonneg_nonneg; [|apply IH; intros g Hg; apply H; right; exact Hg].
  apply Z.pow_nonneg. destruct (H f (or_introl eq_refl)). lia.
Qed.

Theorem pocklington n a R fs : 1 < n -> pprod fs * R = n - 1 -> n <= pprod fs * pprod fs -> NoDup (map fst fs) -> a ^ (n - 1) mod n = 1 ->
  (forall f, In f fs -> prime (fst f) /\ (0 < snd f)%nat /\ exists u, ((a ^ ((n - 1) / fst f) - 1) * u) mod n = 1) -> prime n.
Proof.
  intros Hn HF HB N HA HQ. destruct (prime_dec n) as [P|NP]; [exact P|]. exfalso. destruct (small_divisor n Hn NP) as [e [He [De Le]]].
  destruct (exists_prime_divisor e He) as [p [Pp Dp]]. assert (Hp : 1 < p) by (destruct Pp; assumption).
  assert (Lp : p <= e) by (apply Z.divide_pos_le; [lia|exact Dp]). assert (Dn : (p | n)) by (eapply Z.divide_trans; eassumption).
  assert (Mod : forall x, x mod n = 1 -> x mod p = 1).
  { intros x Hx. rewrite <- (Z.mod_1_l p Hp), <- Hx. destruct Dn as [w ->]. rewrite (Z.mul_comm w p). rewrite Z.rem_mul_r by nia.
    rewrite Z.add_mod by lia. rewrite Z.mul_comm, Z.mod_mul, Z.add_0_r, !Z.mod_mod by lia. reflexivity. }
  assert (HAp : a ^ (n - 1) mod p = 1) by (apply Mod; exact HA).
  assert (Na : a mod p <> 0).
  { intros Z0. assert (a ^ (n - 1) mod p = 0); [|lia]. rewrite <- mod_pow_mod by lia. rewrite Z0, Z.pow_0_l by lia. apply Z.mod_0_l. lia. }
  assert (G : a ^ Z.gcd (n - 1) (p - 1) mod p = 1). { apply pow_gcd; [exact Hp|lia|lia|exact HAp|]. apply fermat; assumption. }
  assert (DF : (pprod fs | p - 1)).
  { apply pprod_divides; [|exact N]. intros [q k] Hf. destruct (HQ _ Hf) as [Pq [Hk [u Hu]]]. cbn [fst snd] in *. split; [exact Pq|].
    eapply Z.divide_trans; [|apply (Z.gcd_divide_r (n - 1) (p - 1))]. destruct k as [|k]; [lia|]. assert (Q : 1 < q) by (destruct Pq; assumption).
    assert (Dk : (q ^ Z.of_nat (S k) | n - 1)).
    { rewrite <- HF. apply Z.divide_mul_l. clear -Hf. induction fs as [|g fs IH]; [elim Hf|]. cbn [pprod fold_right]. destruct Hf as [->|Hf]; [apply Z.divide_factor_l|].
      apply Z.divide_mul_r. apply IH. exact Hf. }
    apply (prime_power_part q Pq k _ (n - 1)); [lia|apply Z.gcd_divide_l|exact Dk|]. intros [w Ew].
    apply Mod in Hu. assert (Z1 : a ^ ((n - 1) / q) mod p = 1).
    { rewrite Ew, (Z.mul_comm w). assert (Gp : 0 < Z.gcd (n - 1) (p - 1)). { pose proof (Z.gcd_nonneg (n - 1) (p - 1)). destruct (Z.eq_dec (Z.gcd (n - 1) (p - 1)) 0) as [E0|]; [|lia]. apply Z.gcd_eq_0_l in E0. lia. }
      assert (0 <= (n - 1) / q) by (apply Z.div_pos; lia). assert (0 <= w) by nia. rewrite Z.pow_mul_r by lia. apply pow_one_mod; assumption. }
    assert (Z2 : (a ^ ((n - 1) / q) - 1) mod p = 0). { rewrite Zminus_mod, Z1, (Z.mod_1_l p Hp), Z.sub_diag. apply Z.mod_0_l. lia. }
    rewrite <- Zmult_mod_idemp_l, Z2, Z.mul_0_l, Z.mod_0_l in Hu by lia. lia. }
  apply Z.divide_pos_le in DF; [|lia]. assert (Pos : 0 <= pprod fs) by (apply pprod_nonneg; intros f Hf; apply (HQ f Hf)). nia.
Qed.

(** Checking the certificates of PrimeCerts.v with machine integers *)
From Coq Require Import ZArith Znumtheory Zpow_facts Uint63 List Lia Bool.
From Verif Require Import NumTheory Pocklington PrimeCerts Primes.
Import ListNotations.
Open Scope Z_scope.

Definition mulm (n a b : int) : int := let (h, l) := mulc a b in snd (diveucl_21 h l n).
Lemma mulm_spec n a b : to_Z a < to_Z n -> to_Z b < to_Z n -> to_Z (mulm n a b) = (to_Z a * to_Z b) mod to_Z n.
Proof.
  intros Ha Hb. unfold mulm. pose proof (mulc_spec a b) as M. destruct (mulc a b) as [h l]. cbn [fst snd] in M.
  pose proof (to_Z_bounded a) as Ba. pose proof (to_Z_bounded b) as Bb. pose proof (to_Z_bounded h) as Bh. pose proof (to_Z_bounded l) as Bl. pose proof (to_Z_bounded n) as Bn.
  assert (Hh : to_Z h < to_Z n). { assert (to_Z h * wB <= to_Z a * to_Z b) by lia. assert (to_Z a * to_Z b < to_Z n * wB) by nia. nia. }
  pose proof (diveucl_21_spec h l n) as D. destruct (diveucl_21 h l n) as [q r]. rewrite <- M in D. unfold Z.modulo.
  destruct (Z.div_eucl (to_Z a * to_Z b) (to_Z n)) as [q' r']. destruct (D Hh) as [_ E]. exact E.
Qed.
Fixpoint powm (n a : int) (e : positive) : int :=
  match e with xH => a | xO e' => let h := powm n a e' in mulm n h h | xI e' => let h := powm n a e' in mulm n a (mulm n h h) end.
Lemma powm_spec n a : to_Z a < to_Z n -> forall e, to_Z (powm n a e) = to_Z a ^ Z.pos e mod to_Z n.
Proof.
  intros Ha. pose proof (to_Z_bounded a) as Ba. assert (Hn : 0 < to_Z n) by lia.
  assert (Lt : forall x, x mod to_Z n < to_Z n) by (intros; apply Z.mod_pos_bound; exact Hn).
  induction e as [e IH|e IH|]; cbn [powm]; cbv zeta.
  - assert (S : to_Z (mulm n (powm n a e) (powm n a e)) = to_Z a ^ (2 * Z.pos e) mod to_Z n).
    { rewrite mulm_spec by (rewrite IH; apply Lt). rewrite IH, <- Zmult_mod. rewrite <- Z.pow_add_r by lia. f_equal. f_equal. lia. }
    rewrite mulm_spec by (first [exact Ha|rewrite S; apply Lt]). rewrite S, Zmult_mod_idemp_r, <- Z.pow_succ_r by lia. reflexivity.
  - rewrite mulm_spec by (rewrite IH; apply Lt). rewrite IH, <- Zmult_mod. rewrite <- Z.pow_add_r by lia. f_equal. f_equal. lia.
  - symmetry. rewrite Z.pow_1_r. apply Z.mod_small. lia.
Qed.
Definition powz (n a : int) (e : int) : int := match to_Z e with Z.pos e' => powm n a e' | _ => 1%uint63 end.
Lemma powz_spec n a e : 1 < to_Z n -> to_Z a < to_Z n -> to_Z (powz n a e) = to_Z a ^ to_Z e mod to_Z n.
Proof.
  intros Hn Ha. unfold powz. pose proof (to_Z_bounded e) as B. destruct (to_Z e) as [|e'|e']; [|apply powm_spec; exact Ha|lia].
  rewrite Z.pow_0_r, Z.mod_1_l by exact Hn. reflexivity.
Qed.

(** primes below 1024 by trial division *)
Definition smalls : list int := [2; 3; 5; 7; 11; 13; 17; 19; 23; 29; 31; 37; 41; 43; 47; 53; 59; 61; 67; 71; 73; 79; 83; 89; 97; 101; 103; 107; 109; 113; 127; 131; 137; 139; 149; 151; 157; 163; 167; 173; 181; 191; 193; 197; 199; 211; 223; 227; 229; 239; 241; 251; 257; 263; 269; 271; 277; 281; 283; 293; 307; 311; 313; 317; 331; 337; 347; 349; 353; 359; 379; 389; 397; 401; 409; 419; 433; 439; 443; 449; 457; 461; 463; 467; 479; 487; 491; 499; 503; 521; 523; 547; 557; 563; 569; 577; 593; 613; 631; 641; 647; 659; 661; 673; 677; 683; 701; 719; 733; 743; 757; 761; 769; 797; 809; 811; 821; 827; 829; 839; 857; 859; 881; 883; 907; 919; 953; 967; 983; 1013; 1019]%uint63.
Definition trial (q : Z) : bool := (1 <? q) && (q <? 1024) && forallb (fun d => (q <=? Z.of_nat d) || negb (q mod Z.of_nat d =? 0)) (seq 2 30).
Lemma trial_prime q : trial q = true -> prime q.
Proof.
  intros H. unfold trial in H. apply andb_prop in H as [H T]. apply andb_prop in H as [H1 H2]. apply Z.ltb_lt in H1, H2.
  destruct (prime_dec q) as [P|NP]; [exact P|]. exfalso. destruct (small_divisor q H1 NP) as [e [He [De Le]]].
  rewrite forallb_forall in T. specialize (T (Z.to_nat e) ltac:(apply in_seq; nia)). rewrite Z2Nat.id in T by lia. apply orb_prop in T as [T|T]; [apply Z.leb_le in T; nia|].
  apply negb_true_iff, Z.eqb_neq in T. apply T. apply Z.mod_divide; [lia|exact De].
Qed.
Lemma smalls_prime : forallb (fun q => trial (to_Z q)) smalls = true.
Proof. vm_compute. reflexivity. Qed.

Definition known_prime (known : list int) (q : int) : bool := if (q <? 1024)%uint63 then existsb (Uint63.eqb q) smalls else existsb (Uint63.eqb q) known.
Definition zfs (fs : list (int * nat * int)) : list (Z * nat) := map (fun f => (to_Z (fst (fst f)), snd (fst f))) fs.
Fixpoint ascending (fs : list (int * nat * int)) : bool :=
  match fs with f :: (g :: _) as r => (fst (fst f) <? fst (fst g))%uint63 && ascending r | _ => true end.
Definition check_entry (known : list int) (e : entry) : bool :=
  match e with (n, a, fs) =>
    let F := pprod (zfs fs) in let m := (n - 1)%uint63 in
    ((1 <? n) && (a <? n))%uint63 && (F * (to_Z m / F) =? to_Z m) && (to_Z n <=? F * F) && ascending fs && (powz n a m =? 1)%uint63 &&
    forallb (fun f => match f with (q, k, u) => known_prime known q && negb (Nat.eqb k 0) && (u <? n)%uint63 &&
      (let x := powz n a (m / q)%uint63 in (1 <=? x)%uint63 && (mulm n (x - 1) u =? 1)%uint63) end) fs
  end.
Definition int_prime (q : int) : Prop := prime (to_Z q).
Lemma known_prime_ok known q : Forall int_prime known -> known_prime known q = true -> prime (to_Z q).
Proof.
  intros H E. unfold known_prime in E. destruct (q <? 1024)%uint63; apply existsb_exists in E as [x [Hx E]]; apply Uint63.eqb_correct in E; subst x.
  - apply trial_prime. pose proof smalls_prime as S. rewrite forallb_forall in S. apply S. exact Hx.
  - rewrite Forall_forall in H. apply H. exact Hx.
Qed.
Lemma ascending_lt fs : ascending fs = true -> forall f r, fs = f :: r -> forall g, In g r -> to_Z (fst (fst f)) < to_Z (fst (fst g)).
Proof.
  induction fs as [|h fs IH]; intros A f r E g Hg; [discriminate|]. injection E as -> ->. destruct r as [|h r]; [elim Hg|]. cbn [ascending] in A. apply andb_prop in A as [A1 A2].
  apply Uint63.ltb_spec in A1. destruct Hg as [<-|Hg]; [exact A1|]. specialize (IH A2 h r eq_refl g Hg). lia.
Qed.
Lemma ascending_nodup fs : ascending fs = true -> NoDup (map fst (zfs fs)).
Proof.
  induction fs as [|f fs IH]; intros A; [constructor|]. cbn [zfs map]. constructor.
  - intros I. rewrite in_map_iff in I. destruct I as [x [E I]]. unfold zfs in I. rewrite in_map_iff in I. destruct I as [g [<- Hg]]. cbn [fst] in E.
    pose proof (ascending_lt _ A f fs eq_refl g Hg). lia.
  - apply IH. cbn [ascending] in A. destruct fs as [|g fs]; [reflexivity|]. apply andb_prop in A as [_ A]. exact A.
Qed.
Lemma to_Z_minus_1 x : 1 <= to_Z x -> to_Z (x - 1) = to_Z x - 1.
Proof. intros H. rewrite sub_spec, to_Z_1. apply Z.mod_small. pose proof (to_Z_bounded x). lia. Qed.
Lemma check_entry_ok known e : Forall int_prime known -> check_entry known e = true -> prime (to_Z (fst (fst e))).
Proof.
  destruct e as [[n a] fs]. intros K H. cbn [fst]. unfold check_entry in H. cbv zeta in H. rewrite !andb_true_iff in H. destruct H as [[[[[[H1 H2] H3] H4] H5] H6] H7].
  apply Uint63.ltb_spec in H1, H2. rewrite to_Z_1 in H1. apply Z.eqb_eq in H3. apply Z.leb_le in H4. apply Uint63.eqb_correct in H6. rewrite forallb_forall in H7.
  assert (M : to_Z (n - 1) = to_Z n - 1) by (apply to_Z_minus_1; lia). assert (Lt : forall x, x mod to_Z n < to_Z n) by (intros; apply Z.mod_pos_bound; lia).
  apply (pocklington (to_Z n) (to_Z a) (to_Z (n - 1) / pprod (zfs fs)) (zfs fs)); [exact H1|rewrite H3; exact M|exact H4|apply ascending_nodup; exact H5| |].
  - rewrite <- M, <- powz_spec, H6 by assumption. apply to_Z_1.
  - intros f Hf. unfold zfs in Hf. rewrite in_map_iff in Hf. destruct Hf as [[[q k] u] [<- Hf]]. specialize (H7 _ Hf). cbn [fst snd] in *. rewrite !andb_true_iff in H7.
    destruct H7 as [[[B1 B2] B3] [B4 B5]]. split; [apply (known_prime_ok known); assumption|]. split; [destruct k; [discriminate|lia]|]. exists (to_Z u).
    apply Uint63.ltb_spec in B3. apply Uint63.leb_spec in B4. rewrite to_Z_1 in B4. apply Uint63.eqb_correct in B5. apply (f_equal to_Z) in B5. rewrite to_Z_1 in B5.
    set (x := powz n a ((n - 1) / q)%uint63) in *. assert (X : to_Z x = to_Z a ^ ((to_Z n - 1) / to_Z q) mod to_Z n).
    { unfold x. rewrite powz_spec, div_spec, M by assumption. reflexivity. }
    assert (Xn : to_Z x < to_Z n) by (rewrite X; apply Lt). rewrite mulm_spec in B5 by (first [exact B3|rewrite to_Z_minus_1; lia]). rewrite to_Z_minus_1, X in B5 by exact B4.
    rewrite <- Zmult_mod_idemp_l, Zminus_mod_idemp_l, Zmult_mod_idemp_l in B5. exact B5.
Qed.
(** newest entries first *)
Fixpoint check_all (known : list int) (es : list entry) : option (list int) :=
  match es with [] => Some known | e :: r => if check_entry known e then check_all (fst (fst e) :: known) r else None end.
Lemma check_all_ok es : forall known r, Forall int_prime known -> check_all known es = Some r -> Forall int_prime r.
Proof.
  induction es as [|e es IH]; intros known r K H; cbn [check_all] in H; [injection H as <-; exact K|].
  destruct (check_entry known e) eqn:E; [|discriminate]. apply (IH _ _ (Forall_cons _ (check_entry_ok _ _ K E) K) H).
Qed.
Fixpoint check_lists (known : list int) (ess : list (list entry)) : option (list int) :=
  match ess with [] => Some known | es :: r => match check_all known es with Some k => check_lists k r | None => None end end.
Lemma check_lists_ok ess : forall known r, Forall int_prime known -> check_lists known ess = Some r -> Forall int_prime r.
Proof.
  induction ess as [|es ess IH]; intros known r K H; cbn [check_lists] in H; [injection H as <-; exact K|].
  destruct (check_all known es) as [k|] eqn:E; [|discriminate]. apply (IH k r); [|exact H]. apply (check_all_ok es known); assumption.
Qed.
(** the primes of the source among the certified numbers *)
Fixpoint sublist (l : list Z) (r : list int) : bool :=
  match r with
  | [] => match l with [] => true | _ => false end
  | y :: r' => match l with [] => true | x :: l' => if (to_Z y =? x) then sublist l' r' else sublist l r' end
  end.
Lemma sublist_ok r : forall l, sublist l r = true -> Forall int_prime r -> Forall prime l.
Proof.
  induction r as [|y r IH]; intros l H K; [destruct l; [constructor|discriminate]|]. destruct l as [|x l]; [constructor|]. cbn [sublist] in H. inversion K; subst.
  destruct (Z.eqb_spec (to_Z y) x) as [<-|_]; [constructor; [assumption|apply IH; assumption]|apply IH; assumption].
Qed.
Lemma primes_certified : match check_lists [] certs with Some r => sublist (rev primes) r | None => false end = true.
Proof. vm_compute. reflexivity. Qed.
Theorem primes_prime : Forall prime primes.
Proof.
  pose proof primes_certified as C. destruct (check_lists [] certs) as [r|] eqn:E; [|discriminate].
  apply check_lists_ok in E; [|constructor]. pose proof (sublist_ok r _ C E) as S. rewrite Forall_forall in *. intros x Hx. apply S. rewrite <- in_rev. exact Hx.
Qed.

(** ** no prime is missing *)
Definition composite (m : int) : bool :=
  existsb (fun d => (m mod d =? 0)%uint63) [3; 5; 7; 11; 13; 17; 19; 23; 29; 31; 37]%uint63 || negb (powz m 2 (m - 1) =? 1)%uint63.
Lemma composite_ok m : 2 < to_Z m -> composite m = true -> prime (to_Z m) -> to_Z m < 38.
Proof.
  intros Hm C P. unfold composite in C. apply orb_prop in C as [C|C].
  - apply existsb_exists in C as [d [Hd E]]. apply Uint63.eqb_correct in E. apply (f_equal to_Z) in E. rewrite mod_spec, to_Z_0 in E.
    assert (B : 2 < to_Z d < 38). { cbn [In] in Hd. repeat (destruct Hd as [<-|Hd]; [split; reflexivity|]). elim Hd. }
    apply Z.mod_divide in E; [|lia]. apply (prime_divisors (to_Z m) P) in E. lia.
  - apply negb_true_iff in C. assert (X : to_Z (powz m 2 (m - 1)) = to_Z 1); [|apply to_Z_inj in X; rewrite X, Uint63.eqb_refl in C; discriminate].
    change (to_Z 2) with 2. rewrite powz_spec by (change (to_Z 2) with 2; lia). rewrite to_Z_minus_1 by lia. change (to_Z 2) with 2. rewrite to_Z_1. apply fermat; [exact P|].
    rewrite Z.mod_small by lia. discriminate.
Qed.
(** m, m-2, m-4, ... (k numbers): each is the head of the list or composite *)
Fixpoint scan (k : nat) (m : int) (l : list Z) : bool :=
  match k with
  | O => true
  | S k' => match l with
            | x :: r => if to_Z m =? x then scan k' (m - 2)%uint63 r else composite m && scan k' (m - 2)%uint63 l
            | [] => composite m && scan k' (m - 2)%uint63 l
            end
  end.
Lemma scan_ok k : forall m l, 2 * Z.of_nat k + 40 < to_Z m -> scan k m l = true ->
  forall i, (i < k)%nat -> prime (to_Z m - 2 * Z.of_nat i) -> In (to_Z m - 2 * Z.of_nat i) l.
Proof.
  induction k as [|k IH]; intros m l Hm H i Hi P; [lia|]. assert (M2 : to_Z (m - 2) = to_Z m - 2).
  { rewrite sub_spec. change (to_Z 2) with 2. apply Z.mod_small. pose proof (to_Z_bounded m). lia. }
  assert (Next : forall r, scan k (m - 2) r = true -> i <> 0%nat -> In (to_Z m - 2 * Z.of_nat i) r).
  { intros r Hr Ni. destruct i as [|i]; [elim (Ni eq_refl)|]. replace (to_Z m - 2 * Z.of_nat (S i)) with (to_Z (m - 2) - 2 * Z.of_nat i) in * by lia. apply (IH (m - 2)%uint63 r); [lia|exact Hr|lia|exact P]. }
  assert (Zero : i = 0%nat -> composite m = false).
  { intros ->. destruct (composite m) eqn:C; [|reflexivity]. exfalso. replace (to_Z m - 2 * Z.of_nat 0) with (to_Z m) in P by lia. pose proof (composite_ok m ltac:(lia) C P). lia. }
  cbn [scan] in H. destruct l as [|x r].
  - apply andb_prop in H as [C H]. apply Next; [exact H|]. intros E. rewrite (Zero E) in C. discriminate.
  - destruct (Z.eqb_spec (to_Z m) x) as [E|_].
    + destruct i as [|i]; [left; lia|]. right. apply Next; [exact H|discriminate].
    + apply andb_prop in H as [C H]. apply Next; [exact H|]. intros E. rewrite (Zero E) in C. discriminate.
Qed.
Lemma primes_scanned : scan (Z.to_nat 6899) 9223372036854775807%uint63 primes = true.
Proof. vm_compute. reflexivity. Qed.
Theorem primes_complete n : prime n -> 9223372036854762011 <= n < 2 ^ 63 -> In n primes.
Proof.
  intros P H. change (2 ^ 63) with 9223372036854775808 in H. assert (O : n mod 2 = 1).
  { destruct (Z.eq_dec (n mod 2) 0) as [E|E]; [|pose proof (Z.mod_pos_bound n 2); lia]. exfalso. apply Z.mod_divide in E; [|lia]. apply (prime_divisors n P) in E. lia. }
  pose proof (Z.div_mod n 2 ltac:(lia)) as D. rewrite O in D.
  assert (M : to_Z 9223372036854775807 = 9223372036854775807) by reflexivity.
  pose proof (scan_ok (Z.to_nat 6899) 9223372036854775807%uint63 primes) as S. rewrite M in S. rewrite Z2Nat.id in S by lia.
  specialize (S ltac:(lia) primes_scanned (Z.to_nat ((9223372036854775807 - n) / 2))).
  assert (E : (9223372036854775807 - n) / 2 = 4611686018427387903 - n / 2).
  { symmetry. apply Z.div_unique with 0; lia. }
  rewrite E in S. rewrite Z2Nat.id in S by lia. replace (9223372036854775807 - 2 * (4611686018427387903 - n / 2)) with n in S by lia. apply S; [|exact P]. lia.
Qed.

(** Proofs for PolyReconst, part 2: the coefficients of the stages.  The keys of stage j are the monomials of the first j variables,
    padded with zeros. *)
From Coq Require Import Permutation.
From Verif Require Import Machine FField FSum LinAlg FPoly Vandermonde VandermondeProofs PolyFF PolySpec PolyFFProofs PolyFFProofs2 BM BMSpec RatUni RatUniThiele PolyRec PolyRecSpec.
Open Scope nat_scope.

Lemma nth_firstn' (l : list Z) j k : k < j -> nth k (firstn j l) 0%Z = nth k l 0%Z.
Proof. revert j k. induction l as [|a l IH]; intros [|j] [|k] H; cbn; try reflexivity; try lia. apply IH. lia. Qed.

(** ---- sums over lists ---- *)
Section LSum.
  Context {K : fops} (HK : flaws K).
  Add Field KL : (fl_field K HK).
  Definition lsum {A} (g : A -> K) (l : list A) : K := fold_right (fun x s => fadd (g x) s) f0 l.
  Lemma lsum_cons {A} (g : A -> K) a l : lsum g (a :: l) = (g a + lsum g l)%K. Proof. reflexivity. Qed.
  Lemma lsum_ext {A} (g h : A -> K) l : (forall x, In x l -> g x = h x) -> lsum g l = lsum h l.
  Proof. induction l as [|x l IH]; intros H; [reflexivity|]. rewrite !lsum_cons. rewrite H by (left; reflexivity). rewrite IH; [reflexivity|]. intros z Hz. apply H. right. exact Hz. Qed.
  Lemma lsum_app {A} (g : A -> K) l l' : lsum g (l ++ l') = (lsum g l + lsum g l')%K.
  Proof. induction l as [|x l IH]; cbn [app]; [cbn; ring|]. rewrite !lsum_cons, IH. ring. Qed.
  Lemma lsum_perm {A} (g : A -> K) l l' : Permutation l l' -> lsum g l = lsum g l'.
  Proof. induction 1 as [|x l l' P IH|x z l|l1 l2 l3 P1 IH1 P2 IH2]; [reflexivity|rewrite !lsum_cons, IH; reflexivity|rewrite !lsum_cons; ring|congruence]. Qed.
  Lemma lsum_map {A B} (g : B -> K) (h : A -> B) l : lsum g (map h l) = lsum (fun x => g (h x)) l.
  Proof. induction l as [|x l IH]; [reflexivity|]. cbn [map]. rewrite !lsum_cons, IH. reflexivity. Qed.
  Lemma lsum_mul {A} (a : K) (g : A -> K) l : lsum (fun x => a * g x)%K l = (a * lsum g l)%K.
  Proof. induction l as [|x l IH]; [cbn; ring|]. rewrite !lsum_cons, IH. ring. Qed.
  Lemma lsum_mul_r {A} (a : K) (g : A -> K) l : lsum (fun x => g x * a)%K l = (lsum g l * a)%K.
  Proof. induction l as [|x l IH]; [cbn; ring|]. rewrite !lsum_cons, IH. ring. Qed.
  Lemma lsum_filter {A} (p : A -> bool) (g : A -> K) l : lsum g l = (lsum g (filter p l) + lsum g (filter (fun x => negb (p x)) l))%K.
  Proof. induction l as [|x l IH]; [cbn; ring|]. cbn [filter]. destruct (p x); cbn [negb]; rewrite !lsum_cons, IH; ring. Qed.
  Lemma lsum_0 {A} (g : A -> K) l : (forall x, In x l -> g x = f0) -> lsum g l = f0.
  Proof. induction l as [|x l IH]; intros H; [reflexivity|]. rewrite lsum_cons, H by (left; reflexivity). rewrite IH; [ring|]. intros z Hz. apply H. right. exact Hz. Qed.
  Lemma lsum_hit (a : K) (h : list Z -> K) k ks : NoDup ks -> In k ks -> lsum (fun q => if mon_eqb k q then a + h q else h q)%K ks = (a + lsum h ks)%K.
  Proof.
    induction ks as [|q ks IH]; intros N I; [contradiction|]. inversion N as [|? ? N1 N2]; subst. rewrite !lsum_cons. destruct (mon_eqb_spec k q) as [->|Nq].
    - rewrite (lsum_ext _ h); [ring|]. intros x Hx. destruct (mon_eqb_spec q x) as [->|]; [contradiction|reflexivity].
    - destruct I as [I|I]; [congruence|]. rewrite IH by assumption. ring.
  Qed.
  Lemma lsum_group {A} (k : A -> list Z) (g : A -> K) ks l : NoDup ks -> (forall x, In x l -> In (k x) ks) ->
    lsum g l = lsum (fun q => lsum g (filter (fun x => mon_eqb (k x) q) l)) ks.
  Proof.
    intros N. induction l as [|x l IH]; intros H.
    - symmetry. apply lsum_0. intros q Hq. reflexivity.
    - rewrite lsum_cons, IH by (intros z Hz; apply H; right; exact Hz). rewrite <- (lsum_hit (g x) _ (k x) ks N (H x (or_introl eq_refl))).
      apply lsum_ext. intros q Hq. cbn [filter]. destruct (mon_eqb (k x) q); reflexivity.
  Qed.
  Lemma pv_lsum n m (x : nat -> K) : poly_value n m x = lsum (fun kc => snd kc * monomial_value n (fst kc) x)%K m. Proof. reflexivity. Qed.
  Lemma tval_lsum l (x : K) : tval l x = lsum (fun t => snd t * pw x (fst t))%K l. Proof. reflexivity. Qed.
  Lemma lsum_fsum {A} (d : A) (g : A -> K) l : lsum g l = fsum (length l) (fun i => g (nth i l d)).
  Proof. induction l as [|x l IH]; [reflexivity|]. rewrite lsum_cons. cbn [length]. rewrite (fsum_S_l HK). cbn [nth]. rewrite IH. reflexivity. Qed.

  (** monomial values *)
  Lemma mv_prod n e (a b : nat -> K) : monomial_value n e (fun i => a i * b i)%K = (monomial_value n e a * monomial_value n e b)%K.
  Proof. induction n as [|n IH]; [cbn; ring|]. cbn [monomial_value]. rewrite IH, (pw_mul HK). ring. Qed.
  Lemma mv_one n e (a : nat -> K) : (forall i, i < n -> a i = f1) -> monomial_value n e a = f1.
  Proof. induction n as [|n IH]; intros H; [reflexivity|]. cbn [monomial_value]. rewrite IH by (intros i Hi; apply H; lia). rewrite H by lia. rewrite (pw_1 HK). ring. Qed.
  Lemma mv_low n j e (x : nat -> K) : j <= n -> monomial_value n e (fun i => if i <? j then x i else f1) = monomial_value j e x.
  Proof.
    induction n as [|n IH]; intros H; [replace j with 0 by lia; reflexivity|]. cbn [monomial_value]. destruct (Nat.ltb_spec n j).
    - replace j with (S n) by lia. cbn [monomial_value]. f_equal. apply mv_ext_x. intros i Hi. destruct (Nat.ltb_spec i (S n)); [reflexivity|lia].
    - rewrite IH by lia. rewrite (pw_1 HK). ring.
  Qed.
  Lemma mv_at n j e (t : K) : j < n -> monomial_value n e (fun i => if i =? j then t else f1) = pw t (Z.to_nat (nth j e 0%Z)).
  Proof.
    induction n as [|n IH]; intros H; [lia|]. cbn [monomial_value]. destruct (Nat.eqb_spec n j) as [->|N].
    - rewrite mv_one; [ring|]. intros i Hi. destruct (Nat.eqb_spec i j); [lia|reflexivity].
    - rewrite IH by lia. rewrite (pw_1 HK). ring.
  Qed.
  Lemma mv_pw n e (x : nat -> K) k : monomial_value n e (fun i => pw (x i) k) = pw (monomial_value n e x) k.
  Proof. induction n as [|n IH]; [symmetry; apply (pw_1 HK)|]. cbn [monomial_value]. rewrite IH, (pw_mul HK), !(pw_pw HK), (Nat.mul_comm k). reflexivity. Qed.
  Lemma mv_nz n e (x : nat -> K) : (forall i, i < n -> x i <> f0) -> monomial_value n e x <> f0.
  Proof.
    induction n as [|n IH]; intros H; [apply (f1_neq_0 HK)|]. cbn [monomial_value]. apply (fmul_neq0 HK); [apply IH; intros i Hi; apply H; lia|].
    apply (pw_neq0 HK), H. lia.
  Qed.
End LSum.

Section Math.
  Context {K : fops} (HK : flaws K).
  Add Field KM : (fl_field K HK).
  Variables (n D : nat) (f : list (list Z * K)) (y : nat -> K).
  Hypothesis Hf : polynomial n D f.

  Definition trunc (j : nat) (e : list Z) : list Z := map (fun i => if i <? j then expo e i else 0%Z) (seq 0 n).
  Lemma trunc_len j e : length (trunc j e) = n. Proof. unfold trunc. rewrite map_length, seq_length. reflexivity. Qed.
  Lemma trunc_nth j e i : i < n -> nth i (trunc j e) 0%Z = if i <? j then nth i e 0%Z else 0%Z.
  Proof. intros H. unfold trunc. rewrite nth_map_seq by exact H. reflexivity. Qed.
  Lemma trunc_trunc i j e : i <= j -> trunc i (trunc j e) = trunc i e.
  Proof.
    intros H. apply list_ext_nth; rewrite !trunc_len; [reflexivity|]. intros k Hk. rewrite !trunc_nth by exact Hk.
    destruct (Nat.ltb_spec k i); [|reflexivity]. destruct (Nat.ltb_spec k j); [reflexivity|lia].
  Qed.
  Lemma trunc_trunc_ge i j e : j <= i -> trunc i (trunc j e) = trunc j e.
  Proof.
    intros H. apply list_ext_nth; rewrite !trunc_len; [reflexivity|]. intros k Hk. rewrite !trunc_nth by exact Hk.
    destruct (Nat.ltb_spec k i); [reflexivity|]. destruct (Nat.ltb_spec k j); [lia|reflexivity].
  Qed.
  Lemma trunc_n e : length e = n -> trunc n e = e.
  Proof. intros H. apply list_ext_nth; rewrite !trunc_len; [symmetry; exact H|]. intros k Hk. rewrite !trunc_nth by exact Hk. destruct (Nat.ltb_spec k n); [reflexivity|lia]. Qed.
  Lemma trunc_0 e : trunc 0 e = repeat 0%Z n.
  Proof. apply list_ext_nth; rewrite trunc_len; [rewrite repeat_length; reflexivity|]. intros k Hk. rewrite !trunc_nth by exact Hk. rewrite nth_repeat. reflexivity. Qed.
  Lemma trunc_firstn j e e' : j <= n -> length e = n -> length e' = n -> (trunc j e = trunc j e' <-> firstn j e = firstn j e').
  Proof.
    intros Hj He He'. split; intros H.
    - apply list_ext_nth; rewrite !firstn_length; [lia|]. intros k Hk. rewrite !nth_firstn'. 2-3: lia. pose proof (f_equal (fun l => nth k l 0%Z) H) as Q. cbn beta in Q.
      rewrite !trunc_nth in Q by lia. destruct (Nat.ltb_spec k j); [exact Q|lia].
    - apply list_ext_nth; rewrite !trunc_len; [reflexivity|]. intros k Hk. rewrite !trunc_nth by exact Hk. destruct (Nat.ltb_spec k j); [|reflexivity].
      pose proof (f_equal (fun l => nth k l 0%Z) H) as Q. cbn beta in Q. rewrite !nth_firstn' in Q by lia. exact Q.
  Qed.

  Definition keys (j : nat) : list (list Z) := nodup (list_eq_dec Z.eq_dec) (map (fun t => trunc j (fst t)) f).
  Lemma keys_nodup j : NoDup (keys j). Proof. apply NoDup_nodup. Qed.
  Lemma in_keys j q : In q (keys j) <-> exists e, In e (map fst f) /\ trunc j e = q.
  Proof.
    unfold keys. rewrite nodup_In, in_map_iff. split.
    - intros [t [E I]]. exists (fst t). split; [apply in_map; exact I|exact E].
    - intros [e [I E]]. apply in_map_iff in I as [t [<- I]]. exists t. split; assumption.
  Qed.
  Lemma keys_len j : length (keys j) <= length f.
  Proof. unfold keys. rewrite <- (map_length (fun t => trunc j (fst t)) f). apply NoDup_incl_length; [apply NoDup_nodup|]. intros x Hx. apply nodup_In in Hx. exact Hx. Qed.
  Lemma keys_trunc i j q : i <= j -> In q (keys j) -> In (trunc i q) (keys i).
  Proof. intros H I. apply in_keys in I as [e [I <-]]. apply in_keys. exists e. split; [exact I|]. symmetry. apply trunc_trunc. exact H. Qed.
  Lemma keys_self j q : In q (keys j) -> trunc j q = q.
  Proof. intros I. apply in_keys in I as [e [I <-]]. apply trunc_trunc. lia. Qed.
  Lemma keys_lift i j q : i <= j -> In q (keys i) -> exists q', In q' (keys j) /\ trunc i q' = q.
  Proof. intros H I. apply in_keys in I as [e [I <-]]. exists (trunc j e). split; [apply in_keys; exists e; split; [exact I|reflexivity]|apply trunc_trunc; exact H]. Qed.
  Lemma keys_length_n j q : In q (keys j) -> length q = n.
  Proof. intros I. apply in_keys in I as [e [I <-]]. apply trunc_len. Qed.
  Lemma f_range e i : In e (map fst f) -> (0 <= nth i e 0 <= Z.of_nat D)%Z.
  Proof. intros I. apply in_map_iff in I as [[e' a] [<- I]]. destruct Hf as [_ [_ H]]. destruct (H _ _ I) as [_ [_ [R _]]]. apply R. Qed.
  Lemma f_length e : In e (map fst f) -> length e = n.
  Proof. intros I. apply in_map_iff in I as [[e' a] [<- I]]. destruct Hf as [_ [_ H]]. apply (H _ _ I). Qed.
  Lemma keys_range j q i : In q (keys j) -> (0 <= nth i q 0 <= Z.of_nat D)%Z.
  Proof.
    intros I. apply in_keys in I as [e [I <-]]. destruct (Nat.lt_ge_cases i n) as [H|H].
    - rewrite trunc_nth by exact H. destruct (i <? j); [apply f_range; exact I|lia].
    - rewrite nth_overflow by (rewrite trunc_len; exact H). lia.
  Qed.
  Lemma keys_high j q i : In q (keys j) -> j <= i -> nth i q 0%Z = 0%Z.
  Proof.
    intros I Hi. apply in_keys in I as [e [I <-]]. destruct (Nat.lt_ge_cases i n) as [H|H].
    - rewrite trunc_nth by exact H. destruct (Nat.ltb_spec i j); [lia|reflexivity].
    - apply nth_overflow. rewrite trunc_len. exact H.
  Qed.
  (** a key of stage j+1 is a key of stage j and an exponent *)
  Lemma keys_split j q q' : In q (keys (S j)) -> In q' (keys (S j)) -> trunc j q = trunc j q' -> nth j q 0%Z = nth j q' 0%Z -> q = q'.
  Proof.
    intros I I' E1 E2. apply list_ext_nth; rewrite (keys_length_n _ _ I); [symmetry; exact (keys_length_n _ _ I')|]. intros i Hi.
    destruct (Nat.lt_trichotomy i j) as [L|[->|L]]; [|exact E2|rewrite (keys_high _ _ i I), (keys_high _ _ i I') by lia; reflexivity].
    pose proof (f_equal (fun l => nth i l 0%Z) E1) as Q. cbn beta in Q. rewrite !trunc_nth in Q by exact Hi. destruct (Nat.ltb_spec i j); [exact Q|lia].
  Qed.

  Definition sub (j : nat) (q : list Z) : list (list Z * K) := filter (fun t => mon_eqb (trunc j (fst t)) q) f.
  Definition co (j : nat) (q : list Z) : K := poly_value n (sub j q) (fun i => if i <? j then f1 else y i).
  Definition sl (j : nat) (q : list Z) (t : K) : K := poly_value n (sub j q) (fun i => if i <? j then f1 else if i =? j then t else y i).
  Lemma in_sub j q t : In t (sub j q) <-> In t f /\ trunc j (fst t) = q.
  Proof. unfold sub. rewrite filter_In. destruct (mon_eqb_spec (trunc j (fst t)) q); split; intros [A B]; split; try assumption; try reflexivity; try discriminate; contradiction. Qed.
  Lemma sub_part j e : j <= n -> In e (map fst f) -> sub j (trunc j e) = part f j (firstn j e).
  Proof.
    intros Hj He. unfold sub, part. apply filter_ext_in. intros t Ht. pose proof (f_length e He) as L. pose proof (f_length (fst t) (in_map fst f t Ht)) as L'.
    destruct (mon_eqb_spec (trunc j (fst t)) (trunc j e)) as [E|E]; destruct (list_eq_dec Z.eq_dec (firstn j (fst t)) (firstn j e)) as [E'|E']; try reflexivity.
    - exfalso. apply E'. apply (trunc_firstn j); assumption.
    - exfalso. apply E. apply (trunc_firstn j); assumption.
  Qed.
  Lemma co_spec j e : j <= n -> In e (map fst f) -> co j (trunc j e) = coefficient n y f j (firstn j e).
  Proof. intros Hj He. unfold co, coefficient. rewrite sub_part by assumption. reflexivity. Qed.
  Lemma sl_spec j e t : j <= n -> In e (map fst f) -> sl j (trunc j e) t = slice n y f j (firstn j e) t.
  Proof. intros Hj He. unfold sl, slice. rewrite sub_part by assumption. reflexivity. Qed.
  Lemma sl_at_anchor j q : sl j q (y j) = co j q.
  Proof.
    unfold sl, co. rewrite !pv_lsum. apply lsum_ext. intros t _. f_equal. apply mv_ext_x. intros i Hi. destruct (i <? j); [reflexivity|].
    destruct (Nat.eqb_spec i j) as [->|]; reflexivity.
  Qed.

  (** the terms of a slice *)
  Definition ext (j : nat) (q : list Z) : list (list Z) := filter (fun q' => mon_eqb (trunc j q') q) (keys (S j)).
  Definition sterms (j : nat) (q : list Z) : list (nat * K) := map (fun q' => (Z.to_nat (expo q' j), co (S j) q')) (ext j q).
  Lemma in_ext j q q' : In q' (ext j q) <-> In q' (keys (S j)) /\ trunc j q' = q.
  Proof. unfold ext. rewrite filter_In. destruct (mon_eqb_spec (trunc j q') q); split; intros [A B]; split; try assumption; try reflexivity; try discriminate; contradiction. Qed.
  Lemma sl_terms j q t : j < n -> sl j q t = tval (sterms j q) t.
  Proof.
    intros Hj. unfold sl. rewrite pv_lsum, tval_lsum. unfold sterms. rewrite lsum_map. cbn [fst snd].
    rewrite (lsum_group HK (fun t : list Z * K => trunc (S j) (fst t)) _ (ext j q)).
    2: { apply NoDup_filter, keys_nodup. }
    2: { intros x Hx. apply in_sub in Hx as [I E]. apply in_ext. split; [apply in_keys; exists (fst x); split; [apply in_map; exact I|reflexivity]|]. rewrite trunc_trunc by lia. exact E. }
    apply lsum_ext. intros q' Hq'. apply in_ext in Hq' as [I E].
    assert (S1 : filter (fun x => mon_eqb (trunc (S j) (fst x)) q') (sub j q) = sub (S j) q').
    { unfold sub. clear - E. induction f as [|x l IH]; [reflexivity|]. cbn [filter]. destruct (mon_eqb_spec (trunc (S j) (fst x)) q') as [Q|Q].
      - assert (X : mon_eqb (trunc j (fst x)) q = true).
        { rewrite <- E, <- Q, trunc_trunc by lia. apply mon_eqb_refl. }
        rewrite X. cbn [filter]. rewrite Q, mon_eqb_refl. rewrite IH. reflexivity.
      - destruct (mon_eqb (trunc j (fst x)) q); cbn [filter]; [|exact IH]. destruct (mon_eqb_spec (trunc (S j) (fst x)) q'); [contradiction|exact IH]. }
    rewrite S1. unfold co. rewrite pv_lsum. rewrite <- lsum_mul_r by exact HK. apply lsum_ext. intros x Hx. apply in_sub in Hx as [_ Ex].
    rewrite (mv_ext_x n (fst x) (fun i => if i <? j then f1 else if i =? j then t else y i) (fun i => (if i =? j then t else f1) * (if i <? S j then f1 else y i))%K).
    - rewrite (mv_prod HK), (mv_at HK) by exact Hj. unfold expo. rewrite <- Ex, trunc_nth by exact Hj. destruct (Nat.ltb_spec j (S j)); [|lia]. ring.
    - intros i Hi. destruct (Nat.eqb_spec i j) as [->|N].
      + destruct (Nat.ltb_spec j j); [lia|]. destruct (Nat.ltb_spec j (S j)); [|lia]. ring.
      + destruct (Nat.ltb_spec i j); destruct (Nat.ltb_spec i (S j)); try lia; ring.
  Qed.

  (** f at (x_0 .. x_(j-1), t, anchors) *)
  Lemma f_split j x t : j < n -> poly_value n f (fun i => if i <? j then x i else if i =? j then t else y i) =
    lsum (fun q => monomial_value j q x * sl j q t)%K (keys j).
  Proof.
    intros Hj. rewrite pv_lsum. rewrite (lsum_group HK (fun t : list Z * K => trunc j (fst t)) _ (keys j)); [|apply keys_nodup|].
    2: { intros z Hz. apply in_keys. exists (fst z). split; [apply in_map; exact Hz|reflexivity]. }
    apply lsum_ext. intros q Hq. fold (sub j q). unfold sl. rewrite pv_lsum, <- lsum_mul by exact HK. apply lsum_ext. intros z Hz. apply in_sub in Hz as [_ Ez].
    rewrite (mv_ext_x n (fst z) _ (fun i => (if i <? j then x i else f1) * (if i <? j then f1 else if i =? j then t else y i))%K).
    - rewrite (mv_prod HK), (mv_low HK) by lia. rewrite (mv_ext j (fst z) q); [ring|]. intros i Hi. rewrite <- Ez, trunc_nth by lia. destruct (Nat.ltb_spec i j); [reflexivity|lia].
    - intros i Hi. destruct (i <? j); ring.
  Qed.
  (** the terms of stage j+1 that extend q *)
  Lemma ext_value j q x : j < n -> lsum (fun q' => co (S j) q' * monomial_value (S j) q' x)%K (ext j q) = (monomial_value j q x * sl j q (x j))%K.
  Proof.
    intros Hj. rewrite sl_terms by exact Hj. rewrite tval_lsum. unfold sterms. rewrite lsum_map. cbn [fst snd]. rewrite <- lsum_mul by exact HK. apply lsum_ext. intros q' H.
    apply in_ext in H as [I E]. cbn [monomial_value]. rewrite (mv_ext j q' q); [unfold expo; ring|]. intros i Hi. rewrite <- E, trunc_nth by lia. destruct (Nat.ltb_spec i j); [reflexivity|lia].
  Qed.

  Lemma keys_0 : keys 0 = [repeat 0%Z n].
  Proof.
    destruct Hf as [Hne _]. pose proof (keys_nodup 0) as N. assert (A : forall q, In q (keys 0) -> q = repeat 0%Z n) by (intros q I; apply in_keys in I as [e [_ <-]]; apply trunc_0).
    assert (Ex : exists t, In t f) by (clear A N; destruct f as [|t l]; [exfalso; apply Hne; reflexivity|exists t; left; reflexivity]). destruct Ex as [t Ht].
    assert (B : In (trunc 0 (fst t)) (keys 0)) by (apply in_keys; exists (fst t); split; [apply in_map; exact Ht|reflexivity]).
    destruct (keys 0) as [|a [|b l]]; [contradiction|rewrite (A a) by (left; reflexivity); reflexivity|]. exfalso. inversion N as [|? ? N1 N2]; subst. apply N1. left.
    rewrite (A a), (A b); [reflexivity|right; left; reflexivity|left; reflexivity].
  Qed.
  Lemma keys_n : keys n = map fst f.
  Proof.
    unfold keys. rewrite (map_ext_in _ fst).
    - apply nodup_fixed_point. apply Hf.
    - intros t Ht. apply trunc_n. apply f_length. apply in_map. exact Ht.
  Qed.
  Lemma co_n t : In t f -> co n (fst t) = snd t.
  Proof.
    intros I. unfold co. assert (E : sub n (fst t) = [t]).
    { destruct Hf as [_ [N H]]. unfold sub.
      assert (L : forall x, In x f -> trunc n (fst x) = fst x) by (intros x Hx; apply trunc_n, f_length, in_map; exact Hx). clear Hf H. induction f as [|x l IH]; [contradiction|].
      inversion N as [|? ? N1 N2]; subst. cbn [filter]. rewrite (L x) by (left; reflexivity). destruct I as [->|I].
      - rewrite mon_eqb_refl. f_equal. assert (Z : forall z, In z l -> mon_eqb (trunc n (fst z)) (fst t) = false).
        { intros z Hz. rewrite (L z) by (right; exact Hz). destruct (mon_eqb_spec (fst z) (fst t)) as [Q|]; [|reflexivity]. exfalso. apply N1. rewrite <- Q. apply in_map. exact Hz. }
        clear - Z. induction l as [|z l IH]; [reflexivity|]. cbn [filter]. rewrite Z by (left; reflexivity). apply IH. intros w Hw. apply Z. right. exact Hw.
      - destruct (mon_eqb_spec (fst x) (fst t)) as [Q|]; [exfalso; apply N1; rewrite Q; apply in_map; exact I|]. apply IH; [exact I|exact N2|]. intros z Hz. apply L. right. exact Hz. }
    rewrite E. unfold poly_value. cbn [fold_right]. rewrite (mv_one HK); [ring|]. intros i Hi. destruct (Nat.ltb_spec i n); [reflexivity|lia].
  Qed.
  Lemma all_terms : map (fun q => (q, co n q)) (keys n) = f.
  Proof. rewrite keys_n, map_map. rewrite <- (map_id f) at 2. apply map_ext_in. intros t Ht. rewrite co_n by exact Ht. symmetry. apply surjective_pairing. Qed.

  (** ---- total degrees ---- *)
  Lemma tot_total e : tot e = total e.
  Proof. unfold tot, total. rewrite fold_symmetric; [reflexivity|intros; lia|intros; lia]. Qed.
  Lemma total_range e : (forall i, (0 <= nth i e 0)%Z) -> (0 <= total e)%Z.
  Proof. induction e as [|a e IH]; intros H; [cbn; lia|]. cbn. pose proof (H 0). cbn in H0. specialize (IH (fun i => H (S i))). unfold total in IH. lia. Qed.
  Lemma total_trunc' (e : list Z) j : (forall i, (0 <= nth i e 0)%Z) -> forall m s, (fold_right Z.add 0 (map (fun i => if Nat.ltb i j then nth i e 0 else 0) (seq s m)) <= fold_right Z.add 0 (map (fun i => nth i e 0) (seq s m)))%Z.
  Proof. intros H. induction m as [|m IH]; intros s; [cbn; lia|]. cbn [seq map fold_right]. specialize (IH (S s)). pose proof (H s). destruct (s <? j); lia. Qed.
  Lemma as_nths e : map (fun i => nth i e 0%Z) (seq 0 (length e)) = e.
  Proof. apply list_ext_nth; [rewrite map_length, seq_length; reflexivity|]. intros i Hi. rewrite map_length, seq_length in Hi. rewrite nth_map_seq by exact Hi. reflexivity. Qed.
  Lemma total_trunc j e : length e = n -> (forall i, (0 <= nth i e 0)%Z) -> (total (trunc j e) <= total e)%Z.
  Proof. intros L H. unfold total. rewrite <- (as_nths e) at 2. rewrite L. unfold trunc. apply (total_trunc' e j H n 0). Qed.
  Lemma total_split (g : nat -> Z) z m s : s <= z < s + m -> fold_right Z.add 0%Z (map g (seq s m)) =
    (fold_right Z.add 0 (map (fun i => if Nat.eq_dec i z then 0 else g i) (seq s m)) + g z)%Z.
  Proof.
    revert s. induction m as [|m IH]; intros s H; [lia|]. cbn [seq map fold_right]. destruct (Nat.eq_dec s z) as [->|N].
    - rewrite Z.add_0_l, Z.add_comm. f_equal. f_equal. apply map_ext_in. intros i Hi. apply in_seq in Hi. destruct (Nat.eq_dec i z); [lia|reflexivity].
    - rewrite IH by lia. lia.
  Qed.
  (** a key of stage j+1: its total degree is that of its prefix plus the last exponent *)
  Lemma total_ext j q : j < n -> In q (keys (S j)) -> total q = (total (trunc j q) + nth j q 0)%Z.
  Proof.
    intros Hj I. rewrite <- (as_nths q) at 1. rewrite (keys_length_n _ _ I). unfold total. rewrite (total_split _ j) by lia. f_equal. f_equal. unfold trunc. apply map_ext_in. intros i Hi.
    unfold expo. destruct (Nat.eq_dec i j) as [->|N]; [destruct (Nat.ltb_spec j j); [lia|reflexivity]|]. destruct (Nat.ltb_spec i j); [reflexivity|]. apply (keys_high _ _ i I). lia.
  Qed.
  Lemma keys_total j q : In q (keys j) -> exists e, In e (map fst f) /\ trunc j e = q /\ (0 <= total q <= total e)%Z.
  Proof.
    intros I. pose proof (fun i => proj1 (keys_range j q i I)) as R. apply in_keys in I as [e [I E]]. exists e. split; [exact I|]. split; [exact E|]. split; [apply total_range; exact R|].
    rewrite <- E. apply total_trunc; [apply f_length; exact I|]. intros i. apply f_range. exact I.
  Qed.
End Math.

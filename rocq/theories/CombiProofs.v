(** Proofs about Combi.v *)
From Coq Require Import Permutation Sorted.
From Verif Require Import Machine NumTheory Combi.
Open Scope Z_scope.

(** ---------- comparators ---------- *)

(** Specification: at the last position where a and b differ, a is larger. *)
Definition colex_gt (a b : list Z) : Prop :=
  exists i, (i < length a)%nat /\ nth i b 0 < nth i a 0 /\
            forall j, (i < j < length a)%nat -> nth j a 0 = nth j b 0.

Lemma nth_error_nth_Z (l : list Z) i : (i < length l)%nat -> nth_error l i = Some (nth i l 0).
Proof. intros H. apply nth_error_nth'; exact H. Qed.

Lemma grt_loop_spec k a b : (k <= length a)%nat -> length a = length b ->
  exists r, grt_loop k a b = Some r /\
   (r = true <-> exists i, (i < k)%nat /\ nth i b 0 < nth i a 0 /\
            forall j, (i < j < k)%nat -> nth j a 0 = nth j b 0).
Proof.
  induction k as [|k IH]; intros Hk Hl.
  - exists false. split; [reflexivity|]. split; [discriminate|]. intros [i [Hi _]]; lia.
  - cbn [grt_loop]. rewrite !nth_error_nth_Z by lia.
    destruct (nth k a 0 =? nth k b 0) eqn:E.
    + destruct IH as [r [Hr Hs]]; [lia|lia|]. exists r. split; [exact Hr|]. rewrite Hs.
      split; intros [i [Hi [Hlt Hall]]]; exists i.
      * split; [lia|]. split; [exact Hlt|]. intros j Hj.
        destruct (Nat.eq_dec j k) as [->|]; [lia|]. apply Hall; lia.
      * destruct (Nat.eq_dec i k) as [->|]; [lia|]. split; [lia|]. split; [exact Hlt|].
        intros j Hj; apply Hall; lia.
    + destruct (nth k b 0 <? nth k a 0) eqn:C.
      * exists true. split; [reflexivity|]. split; [|reflexivity]. intros _. exists k.
        split; [lia|]. split; [lia|]. intros j Hj; lia.
      * exists false. split; [reflexivity|]. split; [discriminate|].
        intros [i [Hi [Hlt Hall]]]. destruct (Nat.eq_dec i k) as [->|]; [lia|].
        specialize (Hall k ltac:(lia)). lia.
Qed.

Lemma a_grt_b_spec a b : length a = length b ->
  exists r, a_grt_b a b = Some r /\ (r = true <-> colex_gt a b).
Proof. intros H. apply grt_loop_spec; [lia|exact H]. Qed.

Lemma list_eq_nth (a b : list Z) : length a = length b ->
  (forall i, (i < length a)%nat -> nth i a 0 = nth i b 0) -> a = b.
Proof. intros H Hn. apply (nth_ext a b 0 0 H). intros n Hlt. apply Hn; exact Hlt. Qed.

Lemma colex_irrefl a : ~ colex_gt a a.
Proof. intros [i [_ [H _]]]. lia. Qed.

Lemma colex_trans a b c : length a = length b -> length b = length c ->
  colex_gt a b -> colex_gt b c -> colex_gt a c.
Proof.
  intros H1 H2 [i [Hi [Hl Ha]]] [j [Hj [Hl' Ha']]].
  destruct (Nat.lt_trichotomy i j) as [C|[C|C]].
  - exists j. split; [lia|]. split; [rewrite (Ha j ltac:(lia)); exact Hl'|].
    intros k Hk. rewrite (Ha k ltac:(lia)). apply Ha'; lia.
  - subst j. exists i. split; [lia|]. split; [lia|].
    intros k Hk. rewrite (Ha k ltac:(lia)). apply Ha'; lia.
  - exists i. split; [lia|]. split; [rewrite <- (Ha' i ltac:(lia)); exact Hl|].
    intros k Hk. rewrite (Ha k ltac:(lia)). apply Ha'; lia.
Qed.

Lemma colex_total_aux k a b : (k <= length a)%nat -> length a = length b ->
  (forall i, (k <= i < length a)%nat -> nth i a 0 = nth i b 0) ->
  colex_gt a b \/ colex_gt b a \/ a = b.
Proof.
  induction k as [|k IH]; intros Hk Hl Hsame.
  - right; right. apply list_eq_nth; [exact Hl|]. intros i Hi; apply Hsame; lia.
  - destruct (Z.lt_trichotomy (nth k a 0) (nth k b 0)) as [C|[C|C]].
    + right; left. exists k. split; [lia|]. split; [exact C|]. intros j Hj. symmetry. apply Hsame; lia.
    + apply IH; [lia|exact Hl|]. intros i Hi. destruct (Nat.eq_dec i k) as [->|]; [exact C|].
      apply Hsame; lia.
    + left. exists k. split; [lia|]. split; [exact C|]. intros j Hj. apply Hsame; lia.
Qed.

Lemma colex_total a b : length a = length b -> colex_gt a b \/ colex_gt b a \/ a = b.
Proof. intros H. apply (colex_total_aux (length a)); [lia|exact H|]. intros i Hi; lia. Qed.

Lemma eq_loop_spec k a b : (k <= length a)%nat -> length a = length b ->
  exists r, eq_loop k a b = Some r /\ (r = true <-> forall i, (i < k)%nat -> nth i a 0 = nth i b 0).
Proof.
  induction k as [|k IH]; intros Hk Hl.
  - exists true. split; [reflexivity|]. split; [intros _ i Hi; lia|reflexivity].
  - cbn [eq_loop]. rewrite !nth_error_nth_Z by lia.
    destruct (nth k a 0 =? nth k b 0) eqn:E.
    + destruct IH as [r [Hr Hs]]; [lia|lia|]. exists r. split; [exact Hr|]. rewrite Hs.
      split; intros H i Hi; [|apply H; lia].
      destruct (Nat.eq_dec i k) as [->|]; [lia|]. apply H; lia.
    + exists false. split; [reflexivity|]. split; [discriminate|]. intros H. specialize (H k ltac:(lia)). lia.
Qed.

Lemma a_eq_b_spec a b : length a = length b ->
  exists r, a_eq_b a b = Some r /\ (r = true <-> a = b).
Proof.
  intros H. destruct (eq_loop_spec (length a) a b ltac:(lia) H) as [r [Hr Hs]].
  exists r. split; [exact Hr|]. rewrite Hs. split.
  - intros Hn. apply list_eq_nth; [exact H|exact Hn].
  - intros -> i _. reflexivity.
Qed.

(** degree *)
Definition zsum (l : list Z) : Z := fold_right Z.add 0 l.

Lemma deg32_fold l d : fold_left (fun d el => wrap32 (d + el)) l d = match l with [] => d | _ => wrap32 (d + zsum l) end.
Proof.
  revert d. induction l as [|x l IH]; intros d; [reflexivity|].
  cbn [fold_left]. rewrite IH. cbn [zsum fold_right]. fold (zsum l). destruct l as [|y l].
  - cbn. f_equal. lia.
  - unfold wrap32. rewrite Zplus_mod_idemp_l. f_equal. lia.
Qed.

Lemma deg32_wrap l : deg32 l = wrap32 (zsum l).
Proof. unfold deg32. rewrite deg32_fold. destruct l; reflexivity. Qed.

Lemma deg32_small l : 0 <= zsum l < two32 -> deg32 l = zsum l.
Proof. intros H. rewrite deg32_wrap. apply wrap32_small; exact H. Qed.

(** graded comparison: larger sum (as computed, modulo 2^32) first; ties by the reverse of a_grt_b *)
Definition graded_gt (a b : list Z) : Prop :=
  deg32 b < deg32 a \/ (deg32 a = deg32 b /\ colex_gt b a).

Lemma a_grt_b_s_spec a b : length a = length b ->
  exists r, a_grt_b_s a b = Some r /\ (r = true <-> graded_gt a b).
Proof.
  intros H. unfold a_grt_b_s, graded_gt. destruct (a_grt_b_spec b a (eq_sym H)) as [r [Hr Hs]].
  destruct (deg32 a <? deg32 b) eqn:C1.
  - exists false. split; [reflexivity|]. split; [discriminate|lia].
  - destruct (deg32 a =? deg32 b) eqn:C2.
    + exists r. split; [exact Hr|]. rewrite Hs. split; [right; split; [lia|assumption]|].
      intros [?|[_ ?]]; [lia|assumption].
    + exists true. split; [reflexivity|]. split; [lia|reflexivity].
Qed.

Lemma graded_irrefl a : ~ graded_gt a a.
Proof. intros [H|[_ H]]; [lia|apply (colex_irrefl a H)]. Qed.

Lemma graded_trans a b c : length a = length b -> length b = length c ->
  graded_gt a b -> graded_gt b c -> graded_gt a c.
Proof.
  intros H1 H2 [A|[A A']] [B|[B B']]; unfold graded_gt.
  - left; lia. - left; lia. - left; lia.
  - right; split; [lia|]. apply (colex_trans c b a); [lia|lia|assumption|assumption].
Qed.

Lemma graded_total a b : length a = length b -> graded_gt a b \/ graded_gt b a \/ a = b.
Proof.
  intros H. unfold graded_gt. destruct (Z.lt_trichotomy (deg32 a) (deg32 b)) as [C|[C|C]]; [tauto| |tauto].
  destruct (colex_total a b H) as [D|[D|D]]; [right; left; right; split; [lia|exact D]|left; right; tauto|tauto].
Qed.

(** std::vector operator<: lexicographic *)
Definition lex_lt (a b : list Z) : Prop :=
  exists i, (i < length a)%nat /\ nth i a 0 < nth i b 0 /\ forall j, (j < i)%nat -> nth j a 0 = nth j b 0.

Lemma vec_lt_spec a b : length a = length b -> (vec_lt a b = true <-> lex_lt a b).
Proof.
  revert b. induction a as [|x a IH]; intros [|y b] H; try discriminate H.
  - cbn. split; [discriminate|]. intros [i [Hi _]]. cbn in Hi; lia.
  - cbn [vec_lt]. injection H as H. destruct (x <? y) eqn:C1.
    + split; [intros _|reflexivity]. exists O. cbn. split; [lia|]. split; [lia|]. intros j Hj; lia.
    + destruct (y <? x) eqn:C2.
      * split; [discriminate|]. intros [[|i] [Hi [Hl Ha]]]; cbn in *; [lia|].
        specialize (Ha O ltac:(lia)). cbn in Ha. lia.
      * rewrite (IH b H). split.
        -- intros [i [Hi [Hl Ha]]]. exists (S i). cbn. split; [lia|]. split; [exact Hl|].
           intros [|j] Hj; [lia|]. apply Ha; lia.
        -- intros [[|i] [Hi [Hl Ha]]]; cbn in *; [lia|]. exists i. split; [lia|]. split; [exact Hl|].
           intros j Hj. specialize (Ha (S j) ltac:(lia)). exact Ha.
Qed.

Lemma lex_irrefl a : ~ lex_lt a a.
Proof. intros [i [_ [H _]]]; lia. Qed.

Lemma lex_trans a b c : length a = length b -> length b = length c ->
  lex_lt a b -> lex_lt b c -> lex_lt a c.
Proof.
  intros H1 H2 [i [Hi [Hl Ha]]] [j [Hj [Hl' Ha']]].
  destruct (Nat.lt_trichotomy i j) as [C|[C|C]].
  - exists i. split; [lia|]. split; [rewrite <- (Ha' i C); exact Hl|].
    intros k Hk. rewrite (Ha k Hk). apply Ha'; lia.
  - subst j. exists i. split; [lia|]. split; [lia|]. intros k Hk. rewrite (Ha k Hk). apply Ha'; lia.
  - exists j. split; [lia|]. split; [rewrite (Ha j C); exact Hl'|].
    intros k Hk. rewrite (Ha k ltac:(lia)). apply Ha'; exact Hk.
Qed.

Lemma lex_total a b : length a = length b -> lex_lt a b \/ lex_lt b a \/ a = b.
Proof.
  intros H. assert (G : forall a b : list Z, length a = length b -> vec_lt a b = true \/ vec_lt b a = true \/ a = b).
  { clear. induction a as [|x a IH]; intros [|y b] H; try discriminate H; [tauto|].
    injection H as H. cbn [vec_lt]. destruct (x <? y) eqn:C1; [tauto|]. destruct (y <? x) eqn:C2; [tauto|].
    assert (x = y) by lia. subst y. destruct (IH b H) as [D|[D|D]]; [tauto|tauto|subst; tauto]. }
  destruct (G a b H) as [D|[D|D]]; [left|right; left|right; right; exact D];
    apply vec_lt_spec; [lia|exact D|lia|exact D].
Qed.

Definition mono_lt (a b : list Z) : Prop :=
  deg32 a < deg32 b \/ (deg32 a = deg32 b /\ lex_lt b a).

Lemma monomial_lt_spec a b : length a = length b ->
  exists r, monomial_lt a b = Some r /\ (r = true <-> mono_lt a b).
Proof.
  intros H. unfold monomial_lt, deg_pair, mono_lt. rewrite H.
  destruct (length b <=? length b)%nat eqn:C; [|apply Nat.leb_gt in C; lia].
  rewrite firstn_all. eexists. split; [reflexivity|].
  pose proof (vec_lt_spec b a (eq_sym H)) as V.
  destruct (deg32 a <? deg32 b) eqn:C1; [split; [intros _; left; lia|reflexivity]|].
  destruct (deg32 a =? deg32 b) eqn:C2; cbn [andb].
  - rewrite V. split; [intros; right; split; [lia|assumption]|]. intros [?|[_ ?]]; [lia|assumption].
  - split; [discriminate|lia].
Qed.

Lemma monomial_gt_lt a b : length a = length b -> monomial_gt a b = monomial_lt b a.
Proof.
  intros H. unfold monomial_gt, monomial_lt, deg_pair. rewrite H.
  destruct (length b <=? length b)%nat eqn:C; [|apply Nat.leb_gt in C; lia].
  rewrite firstn_all. replace (firstn (length b) a) with a by (rewrite <- H; symmetry; apply firstn_all).
  f_equal. rewrite (Z.eqb_sym (deg32 b)). reflexivity.
Qed.

Lemma mono_irrefl a : ~ mono_lt a a.
Proof. intros [H|[_ H]]; [lia|apply (lex_irrefl a H)]. Qed.

Lemma mono_trans a b c : length a = length b -> length b = length c ->
  mono_lt a b -> mono_lt b c -> mono_lt a c.
Proof.
  intros H1 H2 [A|[A A']] [B|[B B']]; unfold mono_lt; [left; lia|left; lia|left; lia|].
  right; split; [lia|]. apply (lex_trans c b a); [lia|lia|assumption|assumption].
Qed.

Lemma mono_total a b : length a = length b -> mono_lt a b \/ mono_lt b a \/ a = b.
Proof.
  intros H. unfold mono_lt. destruct (Z.lt_trichotomy (deg32 a) (deg32 b)) as [C|[C|C]]; [tauto| |tauto].
  destruct (lex_total a b H) as [D|[D|D]]; [right; left; right; split; [lia|exact D]|left; right; tauto|tauto].
Qed.

Lemma filter_length_le {A} (f : A -> bool) l : (length (filter f l) <= length l)%nat.
Proof. induction l as [|x l IH]; cbn; [lia|]. destruct (f x); cbn; lia. Qed.

(** ---------- next permutation on 0/1 tuples ---------- *)

Definition is01 (x : Z) : Prop := x = 0 \/ x = 1.

(** all 0/1 tuples of length n with k ones, in lexicographic order *)
Fixpoint comb (n k : nat) : list (list Z) :=
  match n with
  | O => match k with O => [[]] | _ => [] end
  | S n' => map (cons 0) (comb n' k) ++ match k with O => [] | S k' => map (cons 1) (comb n' k') end
  end.

Lemma comb_in n k t : In t (comb n k) <-> length t = n /\ Forall is01 t /\ num_of_ones t = k.
Proof.
  revert k t. induction n as [|n IH]; intros k t.
  - cbn [comb]. destruct k; cbn [In].
    + split.
      * intros [<-|[]]. repeat split; constructor.
      * intros [H _]. left. destruct t; [reflexivity|discriminate].
    + split; [tauto|]. intros [H [_ H2]]. destruct t; discriminate.
  - cbn [comb]. rewrite in_app_iff, in_map_iff. split.
    + intros [[s [<- Hs]]|H].
      * apply IH in Hs as [A [B C]]. repeat split; [cbn; lia|constructor; [left; reflexivity|exact B]|exact C].
      * destruct k as [|k]; [destruct H|]. apply in_map_iff in H as [s [<- Hs]].
        apply IH in Hs as [A [B C]]. repeat split; [cbn; lia|constructor; [right; reflexivity|exact B]|].
        unfold num_of_ones in *. cbn. lia.
    + intros [A [B C]]. destruct t as [|x t]; [discriminate|]. inversion_clear B as [|? ? Hx Ht].
      destruct Hx as [-> | ->].
      * left. exists t. split; [reflexivity|]. apply IH. cbn in A. repeat split; [lia|exact Ht|exact C].
      * right. destruct k as [|k]; [discriminate|]. apply in_map_iff. exists t. split; [reflexivity|].
        apply IH. unfold num_of_ones in *. cbn in A, C. repeat split; [lia|exact Ht|lia].
Qed.

Lemma NoDup_app_intro {A} (l l' : list A) : NoDup l -> NoDup l' -> (forall x, In x l -> ~ In x l') -> NoDup (l ++ l').
Proof.
  induction l as [|x l IH]; intros H H' Hd; [exact H'|]. inversion_clear H as [|? ? Hx Hl]. cbn. constructor.
  - rewrite in_app_iff. intros [D|D]; [tauto|]. apply (Hd x); [left; reflexivity|exact D].
  - apply IH; [exact Hl|exact H'|]. intros y Hy. apply Hd; right; exact Hy.
Qed.

Lemma comb_nodup n k : NoDup (comb n k).
Proof.
  revert k. induction n as [|n IH]; intros k; cbn [comb].
  - destruct k; repeat constructor. intros [].
  - apply NoDup_app_intro.
    + apply FinFun.Injective_map_NoDup; [intros a b E; injection E; auto|apply IH].
    + destruct k; [constructor|]. apply FinFun.Injective_map_NoDup; [intros a b E; injection E; auto|apply IH].
    + intros x Hx Hx'. apply in_map_iff in Hx as [s [<- _]]. destruct k; [destruct Hx'|].
      apply in_map_iff in Hx' as [s' [E _]]. discriminate.
Qed.

(** first and last element of each block *)
Definition lowest (n k : nat) : list Z := repeat 0 (n - k) ++ repeat 1 k.
Definition highest (n k : nat) : list Z := repeat 1 k ++ repeat 0 (n - k).

Inductive chain {A} (R : A -> A -> Prop) : list A -> Prop :=
| chain_one x : chain R [x]
| chain_cons x y l : R x y -> chain R (y :: l) -> chain R (x :: y :: l).

Lemma chain_app {A} (R : A -> A -> Prop) l x y l' :
  chain R (l ++ [x]) -> R x y -> chain R (y :: l') -> chain R (l ++ x :: y :: l').
Proof.
  induction l as [|a l IH]; intros H HR H'; [constructor; assumption|].
  cbn [app] in *. destruct l as [|b l].
  - cbn [app] in *. inversion_clear H. constructor; [assumption|]. constructor; assumption.
  - cbn [app] in *. inversion_clear H. constructor; [assumption|]. apply IH; assumption.
Qed.

Lemma chain_map {A B} (R : A -> A -> Prop) (S : B -> B -> Prop) (f : A -> B) l :
  (forall x y, R x y -> S (f x) (f y)) -> chain R l -> chain S (map f l).
Proof.
  intros H C. induction C; cbn [map]; constructor; [|exact IHC]. apply H; assumption.
Qed.

Lemma repeat_S_end {A} (x : A) n : repeat x (S n) = repeat x n ++ [x].
Proof. symmetry. induction n as [|n IH]; [reflexivity|]. cbn. rewrite IH. reflexivity. Qed.

Lemma rev_repeat {A} (x : A) n : rev (repeat x n) = repeat x n.
Proof. induction n as [|n IH]; [reflexivity|]. cbn [repeat rev]. rewrite IH. symmetry. apply repeat_S_end. Qed.

Lemma next_zeros m : next_permutation (repeat 0 m) = None.
Proof. induction m as [|m IH]; [reflexivity|]. cbn [repeat next_permutation]. rewrite IH. destruct m; reflexivity. Qed.

Lemma next_highest k m : next_permutation (repeat 1 k ++ repeat 0 m) = None.
Proof.
  induction k as [|k IH]; [apply next_zeros|]. cbn [repeat app next_permutation]. rewrite IH.
  destruct k; cbn; [destruct m; reflexivity|reflexivity].
Qed.

Lemma swap_zeros m : swap_last_gt 0 (repeat 0 m) = None.
Proof. induction m as [|m IH]; [reflexivity|]. cbn [repeat swap_last_gt]. rewrite IH. reflexivity. Qed.

Lemma swap_ones k m : swap_last_gt 0 (repeat 1 (S k) ++ repeat 0 m) = Some (1, repeat 1 k ++ repeat 0 (S m)).
Proof.
  induction k as [|k IH].
  - cbn [repeat app swap_last_gt]. rewrite swap_zeros. reflexivity.
  - cbn [repeat app swap_last_gt] in *. rewrite IH. reflexivity.
Qed.

Lemma next_junction k m : next_permutation (0 :: repeat 1 (S k) ++ repeat 0 m) =
  Some (1 :: repeat 0 (S m) ++ repeat 1 k).
Proof.
  cbn [next_permutation]. rewrite next_highest. cbn [repeat app]. change (0 <? 1) with true.
  change (1 :: repeat 1 k ++ repeat 0 m) with (repeat 1 (S k) ++ repeat 0 m). cbv iota.
  rewrite swap_ones. rewrite rev_app_distr, !rev_repeat. reflexivity.
Qed.

Lemma comb_shape n k : (k <= n)%nat ->
  (exists l, comb n k = lowest n k :: l) /\ (exists l, comb n k = l ++ [highest n k]).
Proof.
  revert k. induction n as [|n IH]; intros k Hk.
  - assert (k = O) by lia. subst k. split; [exists []|exists []]; reflexivity.
  - cbn [comb]. destruct k as [|k].
    + destruct (IH O ltac:(lia)) as [[l E] [l' E']]. rewrite app_nil_r. split.
      * exists (map (cons 0) l). rewrite E. cbn [map]. f_equal. unfold lowest. rewrite !Nat.sub_0_r. reflexivity.
      * exists (map (cons 0) l'). rewrite E', map_app. cbn [map]. f_equal. f_equal.
        unfold highest. rewrite !Nat.sub_0_r. reflexivity.
    + destruct (IH k ltac:(lia)) as [[l1 E1] [l1' E1']].
      split.
      * destruct (Nat.eq_dec (S k) (S n)) as [Eq|Ne].
        -- assert (k = n) by lia. subst k.
           assert (Z0 : comb n (S n) = []).
           { destruct (comb n (S n)) as [|t ts] eqn:Et; [reflexivity|].
             assert (Hin : In t (comb n (S n))) by (rewrite Et; left; reflexivity).
             apply comb_in in Hin as [A [_ B]]. exfalso. unfold num_of_ones in B.
             pose proof (filter_length_le (fun x : Z => x =? 1) t). lia. }
           rewrite Z0. cbn [map app]. exists (map (cons 1) l1). rewrite E1. cbn [map]. f_equal.
           unfold lowest. rewrite !Nat.sub_diag. reflexivity.
        -- destruct (IH (S k) ltac:(lia)) as [[l E] _]. rewrite E. cbn [map app]. eexists. f_equal.
           unfold lowest. replace (S n - S k)%nat with (S (n - S k))%nat by lia. reflexivity.
      * rewrite E1', map_app. cbn [map]. eexists. rewrite app_assoc. f_equal.
Qed.

Definition np_step (x y : list Z) : Prop := next_permutation x = Some y.

Lemma comb_chain n k : (k <= n)%nat -> chain np_step (comb n k).
Proof.
  revert k. induction n as [|n IH]; intros k Hk.
  - assert (k = O) by lia. subst k. constructor.
  - assert (M : forall b k, (k <= n)%nat -> chain np_step (map (cons b) (comb n k))).
    { intros b k' Hk'. apply (chain_map np_step); [|apply IH; exact Hk'].
      intros x y H. unfold np_step in *. cbn [next_permutation]. rewrite H. reflexivity. }
    cbn [comb]. destruct k as [|k]; [rewrite app_nil_r; apply M; lia|].
    destruct (Nat.eq_dec k n) as [->|Ne].
    + assert (Z0 : comb n (S n) = []).
      { destruct (comb n (S n)) as [|t ts] eqn:Et; [reflexivity|].
        assert (Hin : In t (comb n (S n))) by (rewrite Et; left; reflexivity).
        apply comb_in in Hin as [A [_ B]]. exfalso. unfold num_of_ones in B.
        pose proof (filter_length_le (fun x : Z => x =? 1) t). lia. }
      rewrite Z0. cbn [map app]. apply M; lia.
    + pose proof (M 0 (S k) ltac:(lia)) as C0. pose proof (M 1 k ltac:(lia)) as C1.
      destruct (comb_shape n (S k) ltac:(lia)) as [_ [l E]].
      destruct (comb_shape n k ltac:(lia)) as [[l' E'] _].
      rewrite E in *. rewrite E' in *. rewrite map_app in *. cbn [map] in *.
      rewrite <- app_assoc. cbn [app]. apply chain_app; [exact C0| |exact C1].
      unfold np_step, highest, lowest. rewrite next_junction. f_equal. f_equal. f_equal.
      f_equal. lia.
Qed.

(** the whole enumeration *)
Definition gnp_step (x y : list Z) : Prop := generate_next_permutation x = (true, y).
Definition blocks (n m : nat) : list (list Z) := flat_map (comb n) (seq 0 m).

Lemma chain_impl {A} (R S : A -> A -> Prop) l : (forall x y, R x y -> S x y) -> chain R l -> chain S l.
Proof. intros H C. induction C; constructor; auto. Qed.

Lemma num_ones_app l l' : num_of_ones (l ++ l') = (num_of_ones l + num_of_ones l')%nat.
Proof. unfold num_of_ones. rewrite filter_app, app_length. reflexivity. Qed.

Lemma num_ones_repeat1 k : num_of_ones (repeat 1 k) = k.
Proof. induction k as [|k IH]; [reflexivity|]. unfold num_of_ones in *. cbn. lia. Qed.

Lemma num_ones_repeat0 k : num_of_ones (repeat 0 k) = O.
Proof. induction k as [|k IH]; [reflexivity|]. unfold num_of_ones in *. cbn. exact IH. Qed.

Lemma gnp_highest n k : (k < n)%nat -> gnp_step (highest n k) (lowest n (S k)).
Proof.
  intros H. unfold gnp_step, generate_next_permutation, highest. rewrite next_highest.
  rewrite app_length, !repeat_length, num_ones_app, num_ones_repeat1, num_ones_repeat0.
  destruct (k + 0 =? k + (n - k))%nat eqn:C; [apply Nat.eqb_eq in C; lia|].
  unfold lowest. f_equal. f_equal; f_equal; lia.
Qed.

Lemma blocks_chain n m : (m <= n)%nat -> chain gnp_step (blocks n (S m)) /\
  exists l, blocks n (S m) = l ++ [highest n m].
Proof.
  induction m as [|m IH]; intros Hm.
  - unfold blocks. cbn [seq flat_map]. rewrite app_nil_r. split.
    + apply (chain_impl np_step); [|apply comb_chain; lia].
      intros x y H. unfold gnp_step, generate_next_permutation. rewrite H. reflexivity.
    + apply comb_shape; lia.
  - destruct IH as [C [l E]]; [lia|]. unfold blocks in *. rewrite seq_S, flat_map_app. cbn [flat_map].
    rewrite app_nil_r, Nat.add_0_l. rewrite E in *.
    destruct (comb_shape n (S m) ltac:(lia)) as [[l1 E1] [l2 E2]]. split.
    + rewrite E1. rewrite <- app_assoc. cbn [app]. apply chain_app; [exact C|apply gnp_highest; lia|].
      rewrite <- E1. apply (chain_impl np_step); [|apply comb_chain; lia].
      intros x y H. unfold gnp_step, generate_next_permutation. rewrite H. reflexivity.
    + rewrite E2. exists ((l ++ [highest n m]) ++ l2). rewrite !app_assoc. reflexivity.
Qed.

Lemma visit_chain l : forall x f, chain gnp_step (x :: l) ->
  (exists l', x :: l = l' ++ [repeat 1 (length (last (x :: l) []))]) -> (length l < f)%nat ->
  visit f x = x :: l.
Proof.
  induction l as [|y l IH]; intros x f C Hl Hf.
  - destruct f as [|f]; [lia|]. cbn [visit]. f_equal. destruct Hl as [l' E].
    cbn [last] in E. destruct l' as [|z l']; [|destruct l'; discriminate]. injection E as E.
    unfold generate_next_permutation. rewrite E.
    pose proof (next_highest (length x) 0) as N. cbn [repeat] in N. rewrite app_nil_r in N. rewrite N.
    rewrite num_ones_repeat1, repeat_length, Nat.eqb_refl. reflexivity.
  - destruct f as [|f]; [lia|]. cbn [visit]. f_equal. inversion_clear C as [|? ? ? HR HC].
    unfold gnp_step in HR. rewrite HR. apply IH; [exact HC| |cbn in Hf; lia].
    destruct Hl as [l' E]. destruct l' as [|z l'].
    + cbn [app] in E. discriminate.
    + cbn [app] in E. injection E as _ E. exists l'. exact E.
Qed.

Lemma filter_ones_le t : (num_of_ones t <= length t)%nat.
Proof. unfold num_of_ones. apply filter_length_le. Qed.

Lemma blocks_in n t : In t (blocks n (S n)) <-> length t = n /\ Forall is01 t.
Proof.
  unfold blocks. rewrite in_flat_map. split.
  - intros [k [_ H]]. apply comb_in in H. tauto.
  - intros [A B]. exists (num_of_ones t). rewrite in_seq. pose proof (filter_ones_le t). split; [lia|].
    apply comb_in. tauto.
Qed.

Lemma blocks_nodup n m : NoDup (blocks n m).
Proof.
  induction m as [|m IH]; [constructor|]. unfold blocks in *. rewrite seq_S, flat_map_app. cbn [flat_map].
  rewrite app_nil_r. apply NoDup_app_intro; [exact IH|apply comb_nodup|].
  intros t Ht Ht'. apply in_flat_map in Ht as [k [Hk Hin]]. apply in_seq in Hk.
  apply comb_in in Hin. apply comb_in in Ht'. lia.
Qed.

Lemma blocks_hd n : exists l, blocks n (S n) = repeat 0 n :: l.
Proof.
  unfold blocks. cbn [seq flat_map]. destruct (comb_shape n 0 ltac:(lia)) as [[l E] _]. rewrite E.
  unfold lowest. rewrite Nat.sub_0_r, app_nil_r. cbn [app]. eauto.
Qed.

(** number of tuples *)
Fixpoint tuples (n : nat) : list (list Z) :=
  match n with O => [[]] | S n' => map (cons 0) (tuples n') ++ map (cons 1) (tuples n') end.

Lemma tuples_in n t : In t (tuples n) <-> length t = n /\ Forall is01 t.
Proof.
  revert t. induction n as [|n IH]; intros t; cbn [tuples].
  - split; [intros [<-|[]]; split; [reflexivity|constructor]|]. intros [H _]; destruct t; [left; reflexivity|discriminate].
  - rewrite in_app_iff, !in_map_iff. split.
    + intros [[s [<- Hs]]|[s [<- Hs]]]; apply IH in Hs as [A B]; (split; [cbn; lia|constructor; [unfold is01; lia|exact B]]).
    + intros [A B]. destruct t as [|x t]; [discriminate|]. inversion_clear B as [|? ? Hx Ht]. cbn in A.
      destruct Hx as [-> | ->]; [left|right]; exists t; (split; [reflexivity|]); apply IH; (split; [lia|exact Ht]).
Qed.

Lemma tuples_nodup n : NoDup (tuples n).
Proof.
  induction n as [|n IH]; cbn [tuples]; [repeat constructor; intros []|].
  apply NoDup_app_intro; try (apply FinFun.Injective_map_NoDup; [intros a b E; injection E; auto|exact IH]).
  intros x H H'. apply in_map_iff in H as [s [<- _]]. apply in_map_iff in H' as [s' [E _]]. discriminate.
Qed.

Lemma tuples_length n : length (tuples n) = (2 ^ n)%nat.
Proof. induction n as [|n IH]; [reflexivity|]. cbn [tuples]. rewrite app_length, !map_length, IH. cbn. lia. Qed.

Lemma NoDup_same_length {A} (l l' : list A) : NoDup l -> NoDup l' -> (forall x, In x l <-> In x l') -> length l = length l'.
Proof.
  intros H H' E. apply Nat.le_antisymm; apply NoDup_incl_length; try assumption; intros x Hx; apply E; exact Hx.
Qed.

Lemma blocks_length n : length (blocks n (S n)) = (2 ^ n)%nat.
Proof.
  rewrite <- tuples_length. apply NoDup_same_length; [apply blocks_nodup|apply tuples_nodup|].
  intros x. rewrite blocks_in, tuples_in. reflexivity.
Qed.

Theorem visit_all n f : (2 ^ n <= f)%nat ->
  NoDup (visit f (repeat 0 n)) /\ length (visit f (repeat 0 n)) = (2 ^ n)%nat /\
  forall t, In t (visit f (repeat 0 n)) <-> length t = n /\ Forall (fun x => x = 0 \/ x = 1) t.
Proof.
  intros Hf. destruct (blocks_hd n) as [l E]. destruct (blocks_chain n n ltac:(lia)) as [C [l' E']].
  pose proof (blocks_length n) as L.
  assert (V : visit f (repeat 0 n) = blocks n (S n)).
  { rewrite E in *. apply visit_chain; [exact C| |cbn in L; lia].
    exists l'. rewrite E', last_last. unfold highest. rewrite Nat.sub_diag, app_nil_r.
    rewrite repeat_length. reflexivity. }
  rewrite V. split; [apply blocks_nodup|]. split; [exact L|]. apply blocks_in.
Qed.

(** the fuel is never what stops the enumeration: it ends because [false] is returned after all ones *)
Lemma gnp_all_ones n : generate_next_permutation (repeat 1 n) = (false, repeat 0 n).
Proof.
  unfold generate_next_permutation. pose proof (next_highest n 0) as N. cbn [repeat] in N.
  rewrite app_nil_r in N. rewrite N, num_ones_repeat1, repeat_length, Nat.eqb_refl. reflexivity.
Qed.

Lemma chain_next {A} (R : A -> A -> Prop) l z x : chain R (l ++ [z]) -> In x l -> exists y, R x y /\ In y (l ++ [z]).
Proof.
  induction l as [|a l IH]; intros C H; [destruct H|]. cbn [app] in C.
  destruct l as [|b l].
  - cbn [app] in *. inversion_clear C. destruct H as [<-|[]]. exists z. split; [assumption|right; left; reflexivity].
  - cbn [app] in *. inversion_clear C as [|? ? ? HR HC]. destruct H as [<-|H].
    + exists b. split; [exact HR|right; left; reflexivity].
    + destruct (IH HC H) as [y [A1 A2]]. exists y. split; [exact A1|right; exact A2].
Qed.

Lemma gnp_false_iff t : Forall is01 t -> (fst (generate_next_permutation t) = false <-> t = repeat 1 (length t)).
Proof.
  intros H. split.
  - intros F. destruct (blocks_chain (length t) (length t) ltac:(lia)) as [C [l E]].
    assert (Hin : In t (blocks (length t) (S (length t)))) by (apply blocks_in; split; [reflexivity|exact H]).
    rewrite E in *. apply in_app_iff in Hin as [Hin|Hin].
    + destruct (chain_next _ _ _ _ C Hin) as [y [HR _]]. unfold gnp_step in HR. rewrite HR in F. discriminate.
    + destruct Hin as [Hin|[]]. unfold highest in Hin. rewrite Nat.sub_diag, app_nil_r in Hin. symmetry; exact Hin.
  - intros E. rewrite E, gnp_all_ones. reflexivity.
Qed.

(** Proofs about the class Poly (model: PolyU.v) in terms of the power series of coefficients (Series.v). *)
From Coq Require Import Setoid Morphisms.
From Verif Require Import Machine FField FSum FFVec FFVecProofs Series PolyU.
Open Scope nat_scope.

(** coefficient i of a vector, zero beyond its end *)
Definition cf {K : fops} (c : list K) : nat -> K := fun i => nth i c f0.

Section Proofs.
  Context {K : fops} (HK : flaws K).
  Add Field KF : (fl_field K HK).
  Add Ring SR : (series_ring HK) (setoid (@seq_equiv K) (@series_ext K)).
  Implicit Types (c a b z : list K) (f g : nat -> K) (n m i j d : nat).

  Definition isdeg f d : Prop := dlt f (S d) /\ (d = 0 \/ f d <> f0).

  Lemma cf_out c i : length c <= i -> cf c i = f0.
  Proof. intros H. unfold cf. apply nth_overflow. exact H. Qed.
  Lemma cf_dlt c : dlt (cf c) (length c).
  Proof. intros i Hi. apply cf_out. exact Hi. Qed.
  Lemma isdeg_unique f d e : isdeg f d -> isdeg f e -> d = e.
  Proof.
    intros [A B] [C D]. destruct (Nat.lt_trichotomy d e) as [L|[L|L]]; [|exact L|].
    - exfalso. destruct D as [->|D]; [lia|]. apply D. apply A. lia.
    - exfalso. destruct B as [->|B]; [lia|]. apply B. apply C. lia.
  Qed.
  #[local] Instance isdeg_proper : Proper (seq_eq ==> eq ==> iff) isdeg.
  Proof. intros f g E n ? <-. unfold isdeg. rewrite (dlt_proper _ _ E (S n) _ eq_refl), (E n). tauto. Qed.

  Lemma deg_from_spec c i : (forall j, i < j -> cf c j = f0) ->
    isdeg (cf c) (deg_from c i) /\ deg_from c i <= i.
  Proof.
    induction i as [|i IH]; intros H; cbn [deg_from].
    - split; [|lia]. split; [intros j Hj; apply H; lia|left; reflexivity].
    - destruct (feqb (nth (S i) c f0) f0) eqn:E.
      + apply (fl_eqb K HK) in E. destruct IH as [A B]; [|split; [exact A|lia]].
        intros j Hj. destruct (Nat.eq_dec j (S i)) as [->|N]; [exact E|apply H; lia].
      + split; [|lia]. split; [intros j Hj; apply H; lia|right; apply (feqb_neq HK); exact E].
  Qed.

  Lemma get_deg_spec c : c <> [] -> exists d, get_deg c = Ret d /\ d < length c /\ isdeg (cf c) d.
  Proof.
    intros H. destruct c as [|x t]; [contradiction|]. unfold get_deg.
    destruct (deg_from_spec (x :: t) (length (x :: t) - 1)) as [A B].
    { intros j Hj. apply cf_out. lia. }
    eexists. split; [reflexivity|]. split; [cbn [length] in *; lia|exact A].
  Qed.
  Lemma get_deg_is c d : c <> [] -> isdeg (cf c) d -> get_deg c = Ret d /\ d < length c.
  Proof.
    intros H D. destruct (get_deg_spec c H) as [e [E [L I]]]. rewrite (isdeg_unique _ _ _ D I). tauto.
  Qed.
  Lemma len_ne c : 0 < length c -> c <> []. Proof. intros H ->. cbn in H. lia. Qed.
  Lemma ne_len c : c <> [] -> 0 < length c. Proof. destruct c; [contradiction|cbn; lia]. Qed.

  Lemma at_ok c i : i < length c -> at_ c i = Ret (cf c i).
  Proof. intros H. unfold at_, cf. rewrite (nth_error_nth' c f0 H). reflexivity. Qed.

  (** ---- += and -= ---- *)
  Lemma cf_upd c i x j : i < length c -> cf (upd c i x) j = if j =? i then x else cf c j.
  Proof.
    intros H. unfold cf. destruct (le_lt_dec (length c) j) as [L|L].
    - rewrite !nth_overflow by (rewrite ?upd_length; lia). destruct (Nat.eqb_spec j i); [lia|reflexivity].
    - rewrite upd_nth by exact H. destruct (Nat.eqb_spec i j); destruct (Nat.eqb_spec j i); congruence || lia.
  Qed.

  Lemma cf_firstn c i j : j < i -> nth j (firstn i c) f0 = nth j c f0.
  Proof. revert i j; induction c as [|x t IH]; intros [|i] [|j] H; cbn; try reflexivity; try lia. apply IH. lia. Qed.
  Lemma cf_skipn c i j : nth j (skipn i c) f0 = nth (i + j) c f0.
  Proof. revert i; induction c as [|x t IH]; intros [|i]; cbn [skipn nth Nat.add]; try reflexivity; [destruct j; reflexivity|apply IH]. Qed.

  Lemma cf_insert c i x j : i <= length c -> (forall k, i <= k -> cf c k = f0) ->
    cf (firstn i c ++ x :: skipn i c) j = if j =? i then x else cf c j.
  Proof.
    intros H Z. unfold cf at 1. destruct (Nat.lt_trichotomy j i) as [L|[->|L]].
    - rewrite app_nth1 by (rewrite firstn_length; lia). replace (j =? i) with false by (symmetry; apply Nat.eqb_neq; lia).
      apply cf_firstn. exact L.
    - rewrite app_nth2 by (rewrite firstn_length; lia). rewrite firstn_length. replace (i - Nat.min i (length c)) with 0 by lia.
      rewrite Nat.eqb_refl. reflexivity.
    - rewrite app_nth2 by (rewrite firstn_length; lia). rewrite firstn_length. replace (j - Nat.min i (length c)) with (S (j - i - 1)) by lia.
      cbn [nth]. replace (j =? i) with false by (symmetry; apply Nat.eqb_neq; lia). rewrite (Z j) by lia.
      rewrite cf_skipn. apply Z. lia.
  Qed.

  Lemma pm_loop_spec (g : K -> K -> K) (ins : K -> K) a : (forall y, ins y = g f0 y) -> forall n i c,
    i + n <= length a -> i + n <= length c -> c <> [] ->
    exists r, pm_loop g ins a n i c = Ret r /\ r <> [] /\
      forall j, cf r j = if (i <=? j) && (j <? i + n) then g (cf c j) (cf a j) else cf c j.
  Proof.
    intros Hins. induction n as [|n IH]; intros i c Ha Hc Hne; cbn [pm_loop].
    - exists c. split; [reflexivity|]. split; [exact Hne|]. intros j.
      replace ((i <=? j) && (j <? i + 0)) with false; [reflexivity|]. symmetry. apply andb_false_iff.
      destruct (le_lt_dec i j); [right; apply Nat.ltb_ge; lia|left; apply Nat.leb_gt; lia].
    - destruct (get_deg_spec c Hne) as [d [E [Ld [D _]]]]. rewrite E. cbn [obind].
      destruct (Nat.leb_spec i d) as [L|L].
      + rewrite (at_ok c i) by lia. rewrite (at_ok a i) by lia. cbn [obind].
        destruct (IH (S i) (upd c i (g (cf c i) (cf a i)))) as [r [R [Nr V]]]; [lia|rewrite upd_length; lia| |].
        { apply len_ne. rewrite upd_length. apply ne_len; exact Hne. }
        exists r. split; [exact R|]. split; [exact Nr|]. intros j. rewrite V, !cf_upd by lia.
        destruct (Nat.eqb_spec j i) as [->|N].
        * replace (S i <=? i) with false by (symmetry; apply Nat.leb_gt; lia). cbn [andb].
          replace (i <=? i) with true by (symmetry; apply Nat.leb_le; lia).
          replace (i <? i + S n) with true by (symmetry; apply Nat.ltb_lt; lia). reflexivity.
        * replace (S i <=? j) with (i <=? j) by (apply eq_true_iff_eq; rewrite !Nat.leb_le; lia).
          replace (S i + n) with (i + S n) by lia. reflexivity.
      + rewrite (at_ok a i) by lia. cbn [obind]. replace (i <=? length c) with true by (symmetry; apply Nat.leb_le; lia).
        assert (Z : forall k, i <= k -> cf c k = f0) by (intros k Hk; apply D; lia).
        destruct (IH (S i) (firstn i c ++ ins (cf a i) :: skipn i c)) as [r [R [Nr V]]]; [lia| | |].
        { rewrite app_length. cbn [length]. rewrite firstn_length, skipn_length. lia. }
        { intros X. apply app_eq_nil in X. destruct X; discriminate. }
        exists r. split; [exact R|]. split; [exact Nr|]. intros j. rewrite V, !cf_insert by (try lia; exact Z).
        destruct (Nat.eqb_spec j i) as [->|N].
        * replace (S i <=? i) with false by (symmetry; apply Nat.leb_gt; lia). cbn [andb].
          replace (i <=? i) with true by (symmetry; apply Nat.leb_le; lia).
          replace (i <? i + S n) with true by (symmetry; apply Nat.ltb_lt; lia).
          rewrite (Z i) by lia. apply Hins.
        * replace (S i <=? j) with (i <=? j) by (apply eq_true_iff_eq; rewrite !Nat.leb_le; lia).
          replace (S i + n) with (i + S n) by lia. reflexivity.
  Qed.

  Lemma nth_repeat0 n i : nth i (repeat (@f0 K) n) f0 = f0.
  Proof. revert i; induction n as [|n IH]; intros [|i]; cbn; auto. Qed.
  Lemma cf_resize c n : dlt (cf c) n -> cf (resize c n) == cf c.
  Proof.
    intros D i. unfold resize. destruct (le_lt_dec n i) as [L|L].
    - rewrite (D i L). apply cf_out. rewrite app_length, firstn_length, repeat_length. lia.
    - unfold cf. destruct (le_lt_dec (length c) i) as [M|M].
      + rewrite app_nth2 by (rewrite firstn_length; lia). rewrite nth_repeat0. symmetry. apply nth_overflow. lia.
      + rewrite app_nth1 by (rewrite firstn_length; lia). apply cf_firstn. exact L.
  Qed.
  Lemma resize_length c n : length (resize c n) = n.
  Proof. unfold resize. rewrite app_length, firstn_length, repeat_length. lia. Qed.

  Lemma pm_assign_spec (g : K -> K -> K) (ins : K -> K) c a : (forall y, ins y = g f0 y) -> (forall x, g x f0 = x) ->
    c <> [] -> a <> [] -> exists r, pm_assign g ins c a = Ret r /\ r <> [] /\ forall j, cf r j = g (cf c j) (cf a j).
  Proof.
    intros Hi Hg Hc Ha. unfold pm_assign.
    destruct (get_deg_spec a Ha) as [da [Ea [La [Da _]]]]. destruct (get_deg_spec c Hc) as [dc [Ec [Lc [Dc _]]]].
    rewrite Ea, Ec. cbn [obind].
    set (c' := if dc <? da then resize c (da + 1) else c).
    assert (H : da + 1 <= length c' /\ cf c' == cf c).
    { subst c'. destruct (Nat.ltb_spec dc da) as [L|L].
      - rewrite resize_length. split; [lia|]. apply cf_resize. apply (dlt_mono _ (S dc)); [lia|exact Dc].
      - split; [lia|reflexivity]. }
    destruct H as [H1 H2].
    destruct (pm_loop_spec g ins a Hi (S da) 0 c') as [r [R [Nr V]]]; [lia|lia|apply len_ne; lia|].
    exists r. split; [exact R|]. split; [exact Nr|]. intros j. rewrite V, H2. cbn [Nat.leb andb Nat.add].
    destruct (Nat.ltb_spec j (S da)) as [L|L]; [reflexivity|]. rewrite (Da j) by lia. symmetry. apply Hg.
  Qed.

  Lemma psub_spec c a : c <> [] -> a <> [] -> exists r, psub c a = Ret r /\ r <> [] /\ cf r == ssub (cf c) (cf a).
  Proof. intros Hc Ha. destruct (pm_assign_spec fsub fopp c a) as [r H]; [intros; ring|intros; ring|exact Hc|exact Ha|]. exists r. exact H. Qed.
  Lemma padd_spec c a : c <> [] -> a <> [] -> exists r, padd c a = Ret r /\ r <> [] /\ cf r == sadd (cf c) (cf a).
  Proof. intros Hc Ha. destruct (pm_assign_spec fadd (fun y => y) c a) as [r H]; [intros; ring|intros; ring|exact Hc|exact Ha|]. exists r. exact H. Qed.

  (** ---- scalar *= and /= ---- *)
  Lemma sc_loop_spec (g : K -> K) d : g f0 = f0 -> forall fuel i c, c <> [] -> dlt (cf c) (S d) ->
    (i <= d -> d = 0 \/ cf c d <> f0) -> (i <= S d) -> S d - i < fuel ->
    exists r, sc_loop g fuel i c = Ret r /\ length r = length c /\ forall j, cf r j = if i <=? j then g (cf c j) else cf c j.
  Proof.
    intros Hg. induction fuel as [|fuel IH]; intros i c Hne D T Hi Hf; [lia|]. cbn [sc_loop].
    destruct (get_deg_spec c Hne) as [e [E [Le De]]]. rewrite E. cbn [obind].
    destruct (le_lt_dec i d) as [L|L].
    - assert (e = d) as -> by (apply (isdeg_unique (cf c)); [exact De|split; [exact D|apply T; exact L]]).
      replace (i <=? d) with true by (symmetry; apply Nat.leb_le; exact L).
      rewrite (at_ok c i) by lia. cbn [obind].
      destruct (IH (S i) (upd c i (g (cf c i)))) as [r [R [Lr V]]]; try lia.
      { apply len_ne. rewrite upd_length. lia. }
      { intros j Hj. rewrite cf_upd by lia. replace (j =? i) with false by (symmetry; apply Nat.eqb_neq; lia). apply D. exact Hj. }
      { intros HL. rewrite cf_upd by lia. replace (d =? i) with false by (symmetry; apply Nat.eqb_neq; lia). apply T. lia. }
      exists r. split; [exact R|]. split; [rewrite Lr; apply upd_length|]. intros j. rewrite V, cf_upd by lia.
      destruct (Nat.eqb_spec j i) as [->|N].
      + replace (S i <=? i) with false by (symmetry; apply Nat.leb_gt; lia).
        replace (i <=? i) with true by (symmetry; apply Nat.leb_le; lia). reflexivity.
      + replace (S i <=? j) with (i <=? j) by (apply eq_true_iff_eq; rewrite !Nat.leb_le; lia). reflexivity.
    - assert (i = S d) as -> by lia.
      assert (F : forall j, (if S d <=? j then g (cf c j) else cf c j) = cf c j).
      { intros j. destruct (Nat.leb_spec (S d) j) as [M|M]; [|reflexivity]. rewrite (D j) by lia. exact Hg. }
      assert (e <= d).
      { destruct De as [_ [->|N]]; [lia|]. destruct (le_lt_dec e d); [assumption|]. exfalso. apply N. apply D. lia. }
      replace (S d <=? e) with false by (symmetry; apply Nat.leb_gt; lia).
      exists c. split; [reflexivity|]. split; [reflexivity|]. intros j. rewrite F. reflexivity.
  Qed.

  Lemma sc_spec (g : K -> K) c : g f0 = f0 -> c <> [] ->
    exists r, sc_loop g (S (length c)) 0 c = Ret r /\ length r = length c /\ forall j, cf r j = g (cf c j).
  Proof.
    intros Hg Hc. destruct (get_deg_spec c Hc) as [d [E [L [D T]]]].
    destruct (sc_loop_spec g d Hg (S (length c)) 0 c) as [r [R [Lr V]]]; try lia; try assumption; try (intros _; exact T).
    exists r. split; [exact R|]. split; [exact Lr|]. exact V.
  Qed.
  Lemma psmul_spec c x : c <> [] -> exists r, psmul c x = Ret r /\ length r = length c /\ forall j, cf r j = fmul (cf c j) x.
  Proof. intros H. apply (sc_spec (fun y => fmul y x)); [ring|exact H]. Qed.
  Lemma psdiv_spec c x : c <> [] -> exists r, psdiv c x = Ret r /\ length r = length c /\ forall j, cf r j = fdiv (cf c j) x.
  Proof. intros H. apply (sc_spec (fun y => fdiv y x)); [apply (fdiv0_l HK)|exact H]. Qed.

  (** ---- *= ---- *)
  Lemma mul_coef_fold c a i : forall n k acc,
    fold_left (fun acc j => if (j <? length c) && (i - j <? length a) then fadd acc (fmul (nth j c f0) (nth (i - j) a f0)) else acc)
      (seq k n) acc = (acc + fsum n (fun j => cf c (k + j)%nat * cf a (i - (k + j))%nat))%K.
  Proof.
    induction n as [|n IH]; intros k acc; [cbn; ring|]. cbn [seq fold_left]. rewrite IH, (fsum_S_l HK).
    rewrite (fsum_ext n (fun j => cf c (S k + j) * cf a (i - (S k + j))%nat)%K (fun j => cf c (k + S j) * cf a (i - (k + S j))%nat)%K)
      by (intros j _; f_equal; f_equal; lia).
    rewrite Nat.add_0_r.
    destruct (Nat.ltb_spec k (length c)) as [L|L]; cbn [andb].
    - destruct (Nat.ltb_spec (i - k) (length a)) as [M|M]; [unfold cf; ring|]. rewrite (cf_out a (i - k)) by lia. ring.
    - rewrite (cf_out c k) by lia. ring.
  Qed.
  Lemma mul_coef_spec c a i : mul_coef c a i = smul (cf c) (cf a) i.
  Proof. unfold mul_coef. rewrite mul_coef_fold. cbn [Nat.add]. unfold smul. ring. Qed.

  Lemma cf_map_seq (F : nat -> K) n : dlt F n -> cf (map F (seq 0 n)) == F.
  Proof.
    intros D i. unfold cf. destruct (le_lt_dec n i) as [L|L].
    - rewrite nth_overflow by (rewrite map_length, seq_length; lia). symmetry. apply D. exact L.
    - rewrite (nth_indep _ f0 (F 0)) by (rewrite map_length, seq_length; exact L). rewrite map_nth, seq_nth by exact L. reflexivity.
  Qed.

  Lemma pmul_spec c a : c <> [] -> a <> [] -> exists r, pmul c a = Ret r /\ r <> [] /\ cf r == smul (cf c) (cf a).
  Proof.
    intros Hc Ha. unfold pmul.
    destruct (get_deg_spec a Ha) as [da [Ea [La [Da _]]]]. destruct (get_deg_spec c Hc) as [dc [Ec [Lc [Dc _]]]].
    rewrite Ea, Ec. cbn [obind]. eexists. split; [reflexivity|]. split.
    { apply len_ne. rewrite map_length, seq_length. nia. }
    transitivity (mul_coef c a); [apply cf_map_seq|intros i; apply mul_coef_spec].
    intros i Hi. rewrite mul_coef_spec. apply (dlt_mul HK _ _ dc da Dc Da). nia.
  Qed.

  (** ---- shrink_to_fit, rev ---- *)
  Lemma drop_zeros_spec (r : list K) : (exists x, In x r /\ x <> f0) ->
    exists n x t, r = repeat f0 n ++ x :: t /\ x <> f0 /\ drop_zeros r = Ret (x :: t).
  Proof.
    induction r as [|y r IH]; intros [x [Hx N]]; [destruct Hx|]. cbn [drop_zeros].
    destruct (feqb y f0) eqn:E.
    - apply (fl_eqb K HK) in E. subst y. destruct IH as [n [x' [t [A [B C]]]]].
      { destruct Hx as [Hx|Hx]; [exfalso; apply N; symmetry; exact Hx|]. exists x. tauto. }
      exists (S n), x', t. rewrite A in C |- *. cbn [repeat app]. tauto.
    - exists 0, y, r. cbn [repeat app]. split; [reflexivity|]. split; [apply (feqb_neq HK); exact E|reflexivity].
  Qed.

  Lemma cf_app_zeros c n : cf (c ++ repeat f0 n) == cf c.
  Proof.
    intros i. unfold cf. destruct (le_lt_dec (length c) i) as [L|L].
    - rewrite app_nth2 by exact L. rewrite nth_repeat0. symmetry. apply nth_overflow. exact L.
    - apply app_nth1. exact L.
  Qed.
  Lemma rev_repeat (x : K) n : rev (repeat x n) = repeat x n.
  Proof.
    induction n as [|n IH]; [reflexivity|]. cbn [repeat rev]. rewrite IH. clear IH.
    induction n as [|n IH]; [reflexivity|]. cbn [repeat app]. rewrite IH. reflexivity.
  Qed.

  Lemma shrink_spec c i : cf c i <> f0 ->
    exists c' d, shrink_to_fit c = Ret c' /\ cf c' == cf c /\ length c' = S d /\ cf c' d <> f0 /\ last c' f0 = cf c' d /\ isdeg (cf c) d.
  Proof.
    intros H. unfold shrink_to_fit.
    destruct (drop_zeros_spec (rev c)) as [n [x [t [A [B C]]]]].
    { exists (cf c i). split; [|exact H]. rewrite <- in_rev. unfold cf. apply nth_In.
      destruct (le_lt_dec (length c) i); [|assumption]. exfalso. apply H. apply cf_out. assumption. }
    rewrite C. cbn [obind]. exists (rev (x :: t)), (length t). split; [reflexivity|].
    assert (E : c = rev (x :: t) ++ repeat f0 n).
    { rewrite <- (rev_involutive c), A, rev_app_distr, rev_repeat. reflexivity. }
    assert (X : cf (rev (x :: t)) (length t) = x).
    { cbn [rev]. unfold cf. rewrite app_nth2 by (rewrite rev_length; lia). rewrite rev_length, Nat.sub_diag. reflexivity. }
    assert (Q : cf (rev (x :: t)) == cf c) by (rewrite E; symmetry; apply cf_app_zeros).
    split; [exact Q|]. split; [rewrite rev_length; reflexivity|].
    split; [rewrite X; exact B|]. split; [rewrite X; cbn [rev]; apply last_last|].
    split.
    - rewrite <- Q. intros j Hj. apply cf_out. rewrite rev_length. exact Hj.
    - right. rewrite <- (Q (length t)), X. exact B.
  Qed.

  Lemma shrink_zero c : cf c == s0 -> shrink_to_fit c = UB.
  Proof.
    intros H. unfold shrink_to_fit.
    assert (F : forall x, In x (rev c) -> x = f0).
    { intros x Hx. rewrite <- in_rev in Hx. destruct (In_nth c x f0 Hx) as [i [_ E]]. rewrite <- E. apply H. }
    induction (rev c) as [|y r IH]; [reflexivity|]. cbn [drop_zeros]. rewrite (F y) by (left; reflexivity).
    rewrite (feqb_refl HK). apply IH. intros x Hx. apply F. right. exact Hx.
  Qed.

  (** reversal of the coefficients 0..d *)
  Definition revser d f : nat -> K := fun i => if i <=? d then f (d - i) else f0.
  Lemma prev_spec c i : cf c i <> f0 -> exists c' d, prev c = Ret c' /\ length c' = S d /\ isdeg (cf c) d /\ cf c d <> f0 /\ cf c' == revser d (cf c).
  Proof.
    intros H. unfold prev. destruct (shrink_spec c i H) as [c' [d [E [Q [L [N [_ D]]]]]]]. rewrite E. cbn [obind].
    exists (rev c'), d. split; [reflexivity|]. split; [rewrite rev_length; exact L|]. split; [exact D|].
    split; [rewrite <- (Q d); exact N|]. intros j. unfold revser. destruct (Nat.leb_spec j d) as [M|M].
    - unfold cf at 1. rewrite rev_nth by lia. rewrite L. replace (S d - S j) with (d - j) by lia. apply Q.
    - apply cf_out. rewrite rev_length. lia.
  Qed.

  (** ---- truncation by pop_back ---- *)
  Lemma removelast_length c : length (removelast c) = length c - 1.
  Proof.
    induction c as [|x [|y t] IH]; try reflexivity. change (length (x :: removelast (y :: t)) = length (x :: y :: t) - 1).
    cbn [length] in *. lia.
  Qed.
  Lemma cf_removelast c j : j < length c - 1 -> cf (removelast c) j = cf c j.
  Proof.
    unfold cf. revert j. induction c as [|x [|y t] IH]; intros j H; [cbn in H; lia|cbn in H; lia|].
    change (removelast (x :: y :: t)) with (x :: removelast (y :: t)). destruct j as [|j]; [reflexivity|].
    cbn [nth]. apply IH. cbn [length] in *. lia.
  Qed.

  Lemma pop_while_spec n : 0 < n -> forall fuel c, c <> [] -> length c < fuel ->
    exists r, pop_while fuel n c = Ret r /\ r <> [] /\ dlt (cf r) n /\ smod n (cf r) (cf c).
  Proof.
    intros Hn. induction fuel as [|fuel IH]; intros c Hne Hf; [lia|]. cbn [pop_while].
    destruct (get_deg_spec c Hne) as [d [E [L [D T]]]]. rewrite E. cbn [obind].
    destruct (Nat.leb_spec n d) as [M|M].
    - destruct (IH (removelast c)) as [r [R [Nr [Dr S]]]].
      { apply len_ne. rewrite removelast_length. lia. }
      { rewrite removelast_length. lia. }
      exists r. split; [exact R|]. split; [exact Nr|]. split; [exact Dr|]. intros i Hi. rewrite S by exact Hi.
      apply cf_removelast. lia.
    - exists c. split; [reflexivity|]. split; [exact Hne|]. split; [apply (dlt_mono _ (S d)); [lia|exact D]|intros i _; reflexivity].
  Qed.
  Lemma pop_to_spec n c : 0 < n -> c <> [] -> exists r, pop_to n c = Ret r /\ r <> [] /\ dlt (cf r) n /\ smod n (cf r) (cf c).
  Proof. intros Hn Hc. apply pop_while_spec; [exact Hn|exact Hc|lia]. Qed.

  (** ---- Newton iteration for the inverse ---- *)
  Lemma two_is : @fofZ K 2%Z = (1 + 1)%K.
  Proof. rewrite (fl_ofZ K HK) by (unfold two64; lia). change (Z.to_nat 2) with 2. cbn [nsum]. ring. Qed.

  Lemma newton_step f g n : smod n (smul g f) s1 ->
    smod (n + n) (smul (ssub (sadd g g) (smul (smul g g) f)) f) s1.
  Proof.
    intros H.
    assert (E : ssub s1 (smul (ssub (sadd g g) (smul (smul g g) f)) f) == smul (ssub s1 (smul g f)) (ssub s1 (smul g f))) by ring.
    assert (Z : smod n (ssub s1 (smul g f)) s0).
    { intros i Hi. unfold ssub. rewrite H by exact Hi. unfold s0. ring. }
    pose proof (smod_sq HK n _ Z) as Q. intros i Hi. specialize (Q i Hi). rewrite <- (E i) in Q. unfold ssub at 1 in Q. unfold s0 in Q.
    symmetry. apply (fsub_0 HK). exact Q.
  Qed.

  Lemma newton_inv_spec (f : list K) : f <> [] -> forall n i gi, 0 < i -> gi <> [] -> smod (2 ^ (i - 1)) (smul (cf gi) (cf f)) s1 ->
    exists r, newton_inv f n i gi = Ret r /\ r <> [] /\ smod (2 ^ (i - 1 + n)) (smul (cf r) (cf f)) s1.
  Proof.
    intros Hf. induction n as [|n IH]; intros i gi Hi Hg H; cbn [newton_inv].
    - exists gi. rewrite Nat.add_0_r. tauto.
    - destruct (psmul_spec gi (fofZ 2%Z) Hg) as [q [Eq [Lq Vq]]]. rewrite Eq. cbn [obind].
      destruct (pmul_spec gi gi Hg Hg) as [t [Et [Nt Vt]]]. rewrite Et. cbn [obind].
      destruct (pmul_spec t f Nt Hf) as [t2 [Et2 [Nt2 Vt2]]]. rewrite Et2. cbn [obind].
      assert (Nq : q <> []) by (apply len_ne; rewrite Lq; apply ne_len; exact Hg).
      destruct (psub_spec q t2 Nq Nt2) as [g [Eg [Ng Vg]]]. rewrite Eg. cbn [obind].
      destruct (pop_to_spec (2 ^ i) g) as [g' [Eg' [Ng' [Dg' Vg']]]]; [apply Nat.neq_0_lt_0, Nat.pow_nonzero; lia|exact Ng|].
      rewrite Eg'. cbn [obind].
      destruct (IH (S i) g') as [r [R [Nr V]]]; [lia|exact Ng'| |].
      { replace (S i - 1) with i by lia. pose proof (newton_step (cf f) (cf gi) (2 ^ (i - 1)) H) as S.
        assert (P : 2 ^ (i - 1) + 2 ^ (i - 1) = 2 ^ i).
        { destruct i as [|i0]; [lia|]. cbn [Nat.sub]. rewrite Nat.sub_0_r. cbn [Nat.pow]. lia. }
        rewrite P in S.
        assert (Q : cf g == ssub (sadd (cf gi) (cf gi)) (smul (smul (cf gi) (cf gi)) (cf f))).
        { rewrite Vg, Vt2, Vt. intros j. unfold ssub at 1 2. rewrite Vq, two_is. unfold sadd. ring. }
        intros j Hj. rewrite <- (S j Hj). rewrite (smod_mul (2 ^ i) (cf g') (ssub (sadd (cf gi) (cf gi)) (smul (smul (cf gi) (cf gi)) (cf f))) (cf f) (cf f)).
        - reflexivity.
        - intros l Hl. rewrite Vg' by exact Hl. apply Q.
        - intros l _. reflexivity.
        - exact Hj. }
      exists r. split; [exact R|]. split; [exact Nr|]. replace (i - 1 + S n) with (S i - 1 + n) by lia. exact V.
  Qed.

  (** ---- reversal turns division into inversion of a power series ---- *)
  Lemma rev_division (fa fb s' : nat -> K) n m : dlt fb (S n) -> dlt s' (S m) ->
    smod (m + 1) (smul s' (revser n fb)) (revser (n + m) fa) ->
    forall i, n <= i <= n + m -> smul fb (revser m s') i = fa i.
  Proof.
    intros Db Ds H i Hi.
    transitivity (smul s' (revser n fb) (n + m - i)).
    2:{ rewrite H by lia. unfold revser. replace (n + m - i <=? n + m) with true by (symmetry; apply Nat.leb_le; lia). f_equal. lia. }
    (* both sums run over pairs (j of fb, l of s') with (n - j) + l = n + m - i *)
    rewrite (smul_comm HK s' (revser n fb) (n + m - i)).
    unfold smul.
    rewrite (fsum_trunc HK (S i) (S n)); [|lia|]. 2:{ intros j Hj. rewrite (Db j) by lia. ring. }
    rewrite (fsum_rev HK (S n)).
    set (N := S (n + m - i)).
    rewrite (fsum_ext N _ (fun j => if j <=? n then fb (n - j)%nat * s' (n + m - i - j)%nat else f0)%K).
    2:{ intros j Hj. unfold revser. destruct (j <=? n); [reflexivity|ring]. }
    rewrite (fsum_ext (S n) _ (fun j => if j <? N then fb (n - j)%nat * s' (n + m - i - j)%nat else f0)%K).
    2:{ intros j Hj. unfold revser. replace (S n - 1 - j) with (n - j) by lia. subst N.
        destruct (Nat.leb_spec (i - (n - j)) m) as [A|A].
        - replace (j <? S (n + m - i)) with true by (symmetry; apply Nat.ltb_lt; lia). f_equal. f_equal. lia.
        - replace (j <? S (n + m - i)) with false by (symmetry; apply Nat.ltb_ge; lia). ring. }
    destruct (le_lt_dec (S n) N) as [L|L].
    - rewrite (fsum_trunc HK N (S n)); [|exact L|].
      + apply fsum_ext. intros j Hj. replace (j <? N) with true by (symmetry; apply Nat.ltb_lt; lia).
        replace (j <=? n) with true by (symmetry; apply Nat.leb_le; lia). reflexivity.
      + intros j Hj. replace (j <=? n) with false by (symmetry; apply Nat.leb_gt; lia). reflexivity.
    - rewrite (fsum_trunc HK (S n) N); [|lia|].
      + apply fsum_ext. intros j Hj. replace (j <? N) with true by (symmetry; apply Nat.ltb_lt; lia).
        replace (j <=? n) with true by (symmetry; apply Nat.leb_le; lia). reflexivity.
      + intros j Hj. replace (j <? N) with false by (symmetry; apply Nat.ltb_ge; lia). reflexivity.
  Qed.

  Lemma log2_up_ge m : m + 1 <= 2 ^ Nat.log2_up (m + 1).
  Proof. destruct m as [|m]; [cbn; lia|]. apply Nat.log2_up_spec. lia. Qed.

  Lemma cf_cons_zeros e c i : cf (repeat f0 e ++ c) i = if i <? e then f0 else cf c (i - e).
  Proof.
    unfold cf. destruct (Nat.ltb_spec i e) as [L|L].
    - rewrite app_nth1 by (rewrite repeat_length; exact L). apply nth_repeat0.
    - rewrite app_nth2 by (rewrite repeat_length; exact L). rewrite repeat_length. reflexivity.
  Qed.

  Lemma dlt_revser d f : dlt (revser d f) (S d).
  Proof. intros i Hi. unfold revser. replace (i <=? d) with false by (symmetry; apply Nat.leb_gt; lia). reflexivity. Qed.

  (** fast_euclidean_division, non-trivial branch *)
  Theorem fed_spec a z (da dz : nat) : a <> [] -> z <> [] -> isdeg (cf a) da -> isdeg (cf z) dz ->
    cf z dz <> f0 -> (da < dz \/ cf a da <> f0) ->
    exists q r, fast_euclidean_division a z = Ret (q, r) /\ q <> [] /\ r <> [] /\
      cf a == sadd (smul (cf q) (cf z)) (cf r) /\ dlt (cf r) dz /\ (da < dz -> r = a) /\ (dz <= da -> dlt (cf q) (S (da - dz))).
  Proof.
    intros Ha Hz Da Dz Nz Cond. unfold fast_euclidean_division.
    destruct (get_deg_is a da Ha Da) as [Ea La]. destruct (get_deg_is z dz Hz Dz) as [Ez Lz]. rewrite Ea, Ez. cbn [obind].
    destruct (Nat.ltb_spec da dz) as [L|L].
    { exists [f0], a. split; [reflexivity|]. split; [discriminate|]. split; [exact Ha|].
      assert (Q : cf [@f0 K] == s0) by (intros [|[|i]]; reflexivity). split; [rewrite Q; ring|].
      split; [apply (dlt_mono _ (S da)); [lia|exact (proj1 Da)]|]. split; [reflexivity|]. intros; lia. }
    destruct Cond as [Cond|Na]; [lia|].
    destruct (shrink_spec z dz Nz) as [b0 [d0 [Eb0 [Vb0 [Lb0 [Nb0 [Tb0 Db0]]]]]]].
    assert (d0 = dz) as -> by (apply (isdeg_unique (cf z)); assumption). rewrite Eb0. cbn [obind].
    assert (Hb0 : b0 <> []) by (apply len_ne; lia).
    destruct (psdiv_spec b0 (last b0 f0) Hb0) as [b [Eb [Lb Vb]]]. rewrite Eb. cbn [obind].
    assert (Lead : last b0 f0 = cf z dz) by (rewrite Tb0; apply Vb0). rewrite Lead in Vb.
    assert (Vbz : forall j, cf b j = (cf z j / cf z dz)%K) by (intros j; rewrite Vb, (Vb0 j); reflexivity). clear Vb.
    assert (Btop : cf b dz = f1) by (rewrite Vbz; field; exact Nz).
    assert (Db : isdeg (cf b) dz).
    { split; [|right; rewrite Btop; apply (f1_neq_0 HK)]. intros j Hj. rewrite Vbz, (proj1 Dz j Hj). apply (fdiv0_l HK). }
    assert (Hb : b <> []) by (apply len_ne; rewrite Lb; lia).
    destruct (get_deg_is b dz Hb Db) as [Edb Ldb]. rewrite Edb. cbn [obind]. cbv zeta.
    set (m := da - dz).
    destruct (prev_spec b dz) as [f [df [Ef [Lf [Df [Nf Vf]]]]]]; [rewrite Btop; apply (f1_neq_0 HK)|].
    assert (df = dz) as -> by (apply (isdeg_unique (cf b)); assumption). rewrite Ef. cbn [obind].
    assert (Hf : f <> []) by (apply len_ne; lia).
    destruct (newton_inv_spec f Hf (Nat.log2_up (m + 1)) 1 [f1]) as [gi [Egi [Ngi Vgi]]]; [lia|discriminate| |].
    { cbn [Nat.sub Nat.pow]. intros i Hi. assert (i = 0) as -> by lia. unfold smul. cbn [fsum Nat.sub]. rewrite (Vf 0).
      unfold revser. cbn [Nat.leb]. rewrite Nat.sub_0_r, Btop. unfold cf. cbn [nth s1]. ring. }
    rewrite Egi. cbn [obind]. cbn [Nat.sub Nat.add] in Vgi.
    destruct (prev_spec a da Na) as [ra [dra [Era [Lra [Dra [Nra Vra]]]]]].
    assert (dra = da) as -> by (apply (isdeg_unique (cf a)); assumption). rewrite Era. cbn [obind].
    assert (Hra : ra <> []) by (apply len_ne; lia).
    destruct (pmul_spec ra gi Hra Ngi) as [s1' [Es1 [Ns1 Vs1]]]. rewrite Es1. cbn [obind].
    destruct (pop_to_spec (m + 1) s1') as [s2 [Es2 [Ns2 [Ds2 Vs2]]]]; [lia|exact Ns1|]. rewrite Es2. cbn [obind].
    destruct (get_deg_spec s2 Ns2) as [ds [Eds [Lds Dds]]]. rewrite Eds. cbn [obind].
    (* the constant coefficient of s2 is the leading coefficient of a *)
    assert (G0 : cf gi 0 = f1).
    { assert (X : smul (cf gi) (cf f) 0 = s1 0) by (apply Vgi; pose proof (log2_up_ge m); lia).
      unfold smul in X. cbn [fsum Nat.sub s1] in X. rewrite (Vf 0) in X. unfold revser in X. cbn [Nat.leb] in X.
      rewrite Nat.sub_0_r, Btop in X. rewrite <- X. ring. }
    assert (S0 : cf s2 0 = cf a da).
    { rewrite Vs2 by lia. rewrite (Vs1 0). unfold smul. cbn [fsum Nat.sub]. rewrite G0, (Vra 0). unfold revser. cbn [Nat.leb].
      rewrite Nat.sub_0_r. ring. }
    destruct (prev_spec s2 0) as [s3 [d3 [Es3 [Ls3 [Ds3 [Ns3 Vs3]]]]]]; [rewrite S0; exact Na|].
    assert (d3 = ds) as -> by (apply (isdeg_unique (cf s2)); assumption). rewrite Es3. cbn [obind].
    assert (Hds : ds <= m).
    { destruct Dds as [_ [->|N]]; [lia|]. destruct (le_lt_dec ds m); [assumption|]. exfalso. apply N. apply Ds2. lia. }
    set (s := repeat f0 (m - ds) ++ s3).
    assert (Hs : s <> []) by (apply len_ne; subst s; rewrite app_length; lia).
    assert (Vs : cf s == revser m (cf s2)).
    { intros j. subst s. rewrite cf_cons_zeros. rewrite (Vs3 (j - (m - ds))). unfold revser. destruct (Nat.ltb_spec j (m - ds)) as [A|A].
      - replace (j <=? m) with true by (symmetry; apply Nat.leb_le; lia). symmetry. apply (proj1 Dds). lia.
      - destruct (Nat.leb_spec (j - (m - ds)) ds) as [B|B].
        + replace (j <=? m) with true by (symmetry; apply Nat.leb_le; lia). f_equal. lia.
        + replace (j <=? m) with false by (symmetry; apply Nat.leb_gt; lia). reflexivity. }
    destruct (pmul_spec b s Hb Hs) as [bs [Ebs [Nbs Vbs]]]. rewrite Ebs. cbn [obind].
    destruct (psub_spec a bs Ha Nbs) as [r [Er [Nr Vr]]]. rewrite Er. cbn [obind].
    rewrite (at_ok z dz Lz). cbn [obind].
    destruct (psdiv_spec s (cf z dz) Hs) as [q [Eq [Lq Vq]]]. rewrite Eq. cbn [obind].
    exists q, r. split; [reflexivity|]. split; [apply len_ne; rewrite Lq; apply ne_len; exact Hs|]. split; [exact Nr|].
    assert (Prod : smul (cf q) (cf z) == smul (cf b) (cf s)).
    { rewrite (smul_comm HK (cf b)). intros i. unfold smul. apply fsum_ext. intros j Hj. rewrite Vq, Vbz. field. exact Nz. }
    split; [|split; [|split]].
    - rewrite Vr, Vbs, Prod. ring.
    - intros i Hi. rewrite (Vr i). unfold ssub. rewrite (Vbs i).
      rewrite (smul_proper (cf b) (cf b) ltac:(reflexivity) _ _ Vs i).
      destruct (le_lt_dec i (dz + m)) as [B|B].
      + rewrite (rev_division (cf a) (cf b) (cf s2) dz m); [ring|exact (proj1 Db)|exact (dlt_mono _ (m + 1) (S m) ltac:(lia) Ds2)| |lia].
        intros j Hj. rewrite (smod_mul (m + 1) (cf s2) (smul (revser da (cf a)) (cf gi)) (revser dz (cf b)) (cf f)); [| | |exact Hj].
        * replace (dz + m) with da by (subst m; lia).
          pose proof (smul_assoc HK (revser da (cf a)) (cf gi) (cf f) j) as X. rewrite <- X. clear X.
          rewrite (smod_mul (m + 1) (revser da (cf a)) (revser da (cf a)) (smul (cf gi) (cf f)) s1); [| | |exact Hj].
          -- assert (X : smul (revser da (cf a)) s1 == revser da (cf a)) by ring. apply X.
          -- intros l _. reflexivity.
          -- intros l Hl. apply Vgi. pose proof (log2_up_ge m). lia.
        * intros l Hl. rewrite Vs2 by exact Hl. rewrite (Vs1 l). apply smul_proper; [exact Vra|reflexivity].
        * intros l _. symmetry. apply Vf.
      + rewrite (proj1 Da i) by lia.
        rewrite (dlt_mul HK (cf b) (revser m (cf s2)) dz m); [ring|exact (proj1 Db)|apply dlt_revser|lia].
    - intros; lia.
    - intros _ i Hi. rewrite Vq, (Vs i), (dlt_revser m (cf s2) i Hi). apply (fdiv0_l HK).
  Qed.
End Proofs.

(** Deciding [determined] (RatUniSpec.v) by a left inverse; used for the concrete case of C56. *)
From Verif Require Import Machine FField FSum FPoly PolySpec RatUniSpec Det.
Open Scope nat_scope.

Section Inverse.
  Context {K : fops} (HK : flaws K).
  Add Field KRSE : (fl_field K HK).
  Lemma left_inverse n (L M : nat -> nat -> K) (d : K) (x : nat -> K) : d <> f0 ->
    (forall r c, r < n -> c < n -> fsum n (fun m => fmul (L r m) (M m c)) = if r =? c then d else f0) ->
    (forall m, m < n -> fsum n (fun c => fmul (M m c) (x c)) = f0) -> forall r, r < n -> x r = f0.
  Proof.
    intros Hd HL HM r Hr.
    assert (E : fsum n (fun c => fmul (fsum n (fun m => fmul (L r m) (M m c))) (x c)) = f0).
    { transitivity (fsum n (fun m => fmul (L r m) (fsum n (fun c => fmul (M m c) (x c))))).
      - transitivity (fsum n (fun c => fsum n (fun m => fmul (L r m) (fmul (M m c) (x c))))).
        + apply (fsum_ext (K := K)). intros c Hc. rewrite <- (fsum_mul_r HK). apply (fsum_ext (K := K)). intros m Hm. ring.
        + rewrite (fsum_swap HK). apply (fsum_ext (K := K)). intros m Hm. apply (fsum_mul_l HK).
      - apply (fsum_0 HK). intros m Hm. rewrite HM by exact Hm. ring. }
    rewrite (fsum_single HK) with (i := r) in E.
    - rewrite HL, Nat.eqb_refl in E by assumption. transitivity (fdiv (fmul d (x r)) d); [field; exact Hd|]. rewrite E. field. exact Hd.
    - exact Hr.
    - intros j Hj N. rewrite HL by assumption. destruct (r =? j) eqn:Q; [apply Nat.eqb_eq in Q; congruence|]. ring.
  Qed.

  (** the equations of [determined] *)
  Definition d_mat (SN SD : list nat) (t v : nat -> K) (m c : nat) : K :=
    if c <? length SN then pw (t m) (nth c SN 0) else fopp (fmul (v m) (pw (t m) (nth (c - length SN) SD 0))).
  Definition cofactor (n : nat) (M : nat -> nat -> K) (r m : nat) : K := fmul (sgn (r + m)) (det n (fun i j => M (skip m i) (skip r j))).
  Lemma fold_fsum (a : nat -> K) (t : K) l : fold_right (fun e s => fadd (fmul (a e) (pw t e)) s) f0 l = fsum (length l) (fun c => fmul (pw t (nth c l 0)) (a (nth c l 0))).
  Proof.
    induction l as [|e l IH]; [reflexivity|]. cbn [fold_right length]. rewrite (fsum_S_l HK), IH. cbn [nth]. f_equal. ring.
  Qed.
  Lemma determined_inverse SN SD (t v : nat -> K) n d L : n = length SN + length SD -> d <> f0 ->
    (forall r c, r < n -> c < n -> fsum n (fun m => fmul (L r m) (d_mat SN SD t v m c)) = if r =? c then d else f0) ->
    determined SN SD t v n.
  Proof.
    intros -> Hd HL a b E.
    set (x := fun c => if c <? length SN then a (nth c SN 0) else b (nth (c - length SN) SD 0)).
    assert (X : forall r, r < length SN + length SD -> x r = f0).
    { apply (left_inverse _ L (d_mat SN SD t v) d x Hd HL). intros m Hm. rewrite (fsum_split HK).
      specialize (E m Hm). rewrite !fold_fsum in E.
      transitivity (fadd (fsum (length SN) (fun c => fmul (pw (t m) (nth c SN 0)) (a (nth c SN 0)))) (fopp (fmul (v m) (fsum (length SD) (fun c => fmul (pw (t m) (nth c SD 0)) (b (nth c SD 0))))))).
      - f_equal.
        + apply (fsum_ext (K := K)). intros i Hi. unfold d_mat, x. apply Nat.ltb_lt in Hi. rewrite Hi. reflexivity.
        + rewrite <- (fsum_mul_l HK), <- (fsum_opp HK). apply (fsum_ext (K := K)). intros i Hi. unfold d_mat, x.
          replace (length SN + i <? length SN) with false by (symmetry; apply Nat.ltb_ge; lia). replace (length SN + i - length SN) with i by lia. ring.
      - rewrite E. ring. }
    split; intros e I; apply (In_nth _ _ 0) in I as [i [Hi <-]].
    - specialize (X i ltac:(lia)). unfold x in X. apply Nat.ltb_lt in Hi. rewrite Hi in X. exact X.
    - specialize (X (length SN + i) ltac:(lia)). unfold x in X. replace (length SN + i <? length SN) with false in X by (symmetry; apply Nat.ltb_ge; lia).
      replace (length SN + i - length SN) with i in X by lia. exact X.
  Qed.
  (** the test; the inverse is the adjugate *)
  Definition d_check (SN SD : list nat) (t v : nat -> K) : bool :=
    let n := length SN + length SD in
    let M := d_mat SN SD t v in
    let d := det n M in
    negb (feqb d f0) && forallb (fun r => forallb (fun c => feqb (fsum n (fun m => fmul (cofactor (pred n) M r m) (M m c))) (if r =? c then d else f0)) (seq 0 n)) (seq 0 n).
  Lemma d_check_ok SN SD t v : d_check SN SD t v = true -> determined SN SD t v (length SN + length SD).
  Proof.
    unfold d_check. cbv zeta. intros H. apply Bool.andb_true_iff in H as [A B].
    apply (determined_inverse SN SD t v _ (det (length SN + length SD) (d_mat SN SD t v)) (cofactor (pred (length SN + length SD)) (d_mat SN SD t v)) eq_refl).
    - intros Z. apply (proj2 (fl_eqb K HK _ _)) in Z. rewrite Z in A. discriminate A.
    - intros r c Hr Hc. rewrite forallb_forall in B. specialize (B r ltac:(apply in_seq; lia)). rewrite forallb_forall in B. apply (fl_eqb K HK). apply B. apply in_seq. lia.
  Qed.
End Inverse.

Lemma two_sublists (a b : nat) (V : list nat) : NoDup V -> incl V [a; b] -> In V [[]; [a]; [b]; [a; b]; [b; a]].
Proof.
  intros N I. pose proof (NoDup_incl_length N I) as L. cbn [length] in L.
  destruct V as [|p [|q [|r V]]]; [left; reflexivity| | |cbn [length] in L; lia].
  - destruct (I p (or_introl eq_refl)) as [<-|[<-|[]]]; cbn; tauto.
  - assert (D : p <> q) by (inversion N as [|? ? X _]; intros ->; apply X; left; reflexivity).
    destruct (I p (or_introl eq_refl)) as [<-|[<-|[]]]; destruct (I q (or_intror (or_introl eq_refl))) as [<-|[<-|[]]]; try congruence; cbn; tauto.
Qed.

(** Proofs about PolynomialFF (PolyFF.v) *)
From Coq Require Import Permutation.
From Verif Require Import Machine FField FSum LinAlg PolyFF PolySpec Binom.
Open Scope nat_scope.

Lemma mon_eqb_spec a b : reflect (a = b) (mon_eqb a b).
Proof. unfold mon_eqb. destruct (list_eq_dec Z.eq_dec a b); constructor; assumption. Qed.
Lemma mon_eqb_refl a : mon_eqb a a = true.
Proof. destruct (mon_eqb_spec a a); congruence. Qed.

Lemma nth_map_seq {X} (f : nat -> X) n i d : i < n -> nth i (map f (seq 0 n)) d = f i.
Proof.
  intros H. rewrite (nth_indep _ d (f 0)) by (rewrite map_length, seq_length; exact H).
  rewrite map_nth, seq_nth by exact H. reflexivity.
Qed.

Section Proofs.
  Context {K : fops} (HK : flaws K).
  Add Field KF : (fl_field K HK).
  Notation pmap := (pmap K). Notation polyff := (polyff K).
  Implicit Types (m : pmap) (k e : mon) (x : nat -> K).

  (** ---- values ---- *)
  Notation mv := monomial_value. Notation pv := poly_value.
  Lemma pv_cons n kc m x : pv n (kc :: m) x = (snd kc * mv n (fst kc) x + pv n m x)%K.
  Proof. reflexivity. Qed.
  Lemma pv_nil n x : pv n [] x = f0. Proof. reflexivity. Qed.
  Lemma pv_app n m1 m2 x : pv n (m1 ++ m2) x = (pv n m1 x + pv n m2 x)%K.
  Proof. induction m1 as [|kc m1 IH]; cbn [app]; [rewrite pv_nil; ring|]. rewrite !pv_cons, IH. ring. Qed.
  Lemma pv_perm n m1 m2 x : Permutation m1 m2 -> pv n m1 x = pv n m2 x.
  Proof. induction 1; rewrite ?pv_cons in *; try congruence; try ring. Qed.
  Lemma pv_filter_nz n m x : pv n (filter (fun kc => negb (feqb (snd kc) f0)) m) x = pv n m x.
  Proof.
    induction m as [|[k c] m IH]; [reflexivity|]. cbn [filter snd]. destruct (feqb c f0) eqn:E; cbn [negb].
    - apply (fl_eqb K HK) in E. subst c. rewrite pv_cons, IH. cbn [snd]. ring.
    - rewrite !pv_cons, IH. reflexivity.
  Qed.
  Lemma mv_ext n e e' x : (forall i, i < n -> nth i e 0%Z = nth i e' 0%Z) -> mv n e x = mv n e' x.
  Proof. induction n as [|n IH]; intros H; [reflexivity|]. cbn [monomial_value]. rewrite IH, H by (intros; auto with arith; try apply H; lia). reflexivity. Qed.
  Lemma mv_ext_x n e x y : (forall i, i < n -> x i = y i) -> mv n e x = mv n e y.
  Proof. induction n as [|n IH]; intros H; [reflexivity|]. cbn [monomial_value]. rewrite IH, H by (intros; try apply H; lia). reflexivity. Qed.

  Lemma expo_range n e i : exponents_ok n e -> (0 <= nth i e 0%Z < 2 ^ 32)%Z.
  Proof.
    intros [Hl Hf]. destruct (Nat.lt_ge_cases i (length e)) as [C|C].
    - rewrite Forall_forall in Hf. apply Hf. apply nth_In. exact C.
    - rewrite nth_overflow by exact C. lia.
  Qed.

  Lemma mon_val_spec n e off x : (forall i, (0 <= nth i e 0 < two64)%Z) ->
    mon_val n e off x = mv n (map (fun i => nth (i + off) e 0%Z) (seq 0 n)) x.
  Proof.
    intros He. unfold mon_val. 
    assert (G : forall N k : nat, k <= N -> fold_left (fun pr i => fmul pr (fpow (x i) (expo e (i + off)))) (seq 0 k) f1 = mv k (map (fun i => nth (i + off) e 0%Z) (seq 0 N)) x).
    { intros N. induction k as [|k IH]; intros Hk; [reflexivity|]. rewrite seq_S, fold_left_app, IH by lia. cbn [fold_left monomial_value Nat.add].
      f_equal. rewrite (fl_pow K HK) by apply He. f_equal. f_equal. unfold expo.
      rewrite nth_map_seq by lia. reflexivity. }
    apply G. lia.
  Qed.

  Lemma mon_val_0 n e x : exponents_ok n e -> mon_val n e 0 x = mv n e x.
  Proof.
    intros He. rewrite mon_val_spec.
    - apply mv_ext. intros i Hi. rewrite nth_map_seq by exact Hi. f_equal. lia.
    - intros i. pose proof (expo_range n e i He). unfold two64. lia.
  Qed.

  Lemma calc_fold (g : mon -> K) m : forall a,
    fold_left (fun res kc => fadd res (fmul (snd kc) (g (fst kc)))) m a =
    (a + fold_right (fun kc acc => fadd (fmul (snd kc) (g (fst kc))) acc) f0 m)%K.
  Proof. induction m as [|kc m IH]; intros a; cbn [fold_left fold_right]; [ring|]. rewrite IH. ring. Qed.

  (** calc computes the polynomial value, whatever the iteration order *)
  Theorem calc_value ord (a : polyff) x : any_order ord -> poly_ok (pf_n a) (pf_coefs a) ->
    calc ord a x = pv (pf_n a) (pf_coefs a) x.
  Proof.
    intros Ho [_ Hf]. unfold calc. rewrite (calc_fold (fun e => mon_val (pf_n a) e 0 x)).
    rewrite <- (pv_perm (pf_n a) _ _ x (Ho (pf_coefs a))).
    assert (Hf' : Forall (fun kc => exponents_ok (pf_n a) (fst kc)) (ord (pf_coefs a))).
    { rewrite Forall_forall in *. intros kc Hk. apply Hf. apply (Permutation_in _ (Ho (pf_coefs a))). exact Hk. }
    induction (ord (pf_coefs a)) as [|kc m IH]; [cbn; ring|]. inversion_clear Hf' as [|? ? H1 H2].
    rewrite pv_cons. cbn [fold_right]. rewrite <- IH by exact H2. rewrite mon_val_0 by exact H1. ring.
  Qed.

  (** ---- map operations ---- *)
  Lemma pfind_None m k : pfind m k = None <-> ~ In k (map fst m).
  Proof.
    induction m as [|[k' c] m IH]; cbn [pfind map fst In]; [tauto|].
    destruct (mon_eqb_spec k k') as [->|N]; [split; [discriminate|tauto]|]. rewrite IH. intuition congruence.
  Qed.
  Lemma pfind_In m k c : NoDup (map fst m) -> (pfind m k = Some c <-> In (k, c) m).
  Proof.
    induction m as [|[k' c'] m IH]; cbn [pfind map fst In]; intros Hn; [split; [discriminate|tauto]|].
    inversion_clear Hn as [|? ? H1 H2]. destruct (mon_eqb_spec k k') as [->|N].
    - split; [intros [= <-]; left; reflexivity|]. intros [[= <-]|H]; [reflexivity|]. exfalso. apply H1. apply (in_map fst) in H. exact H.
    - rewrite IH by exact H2. split; [tauto|]. intros [[= <- <-]|H]; [congruence|exact H].
  Qed.

  Lemma pupdate_keys m k f : map fst (pupdate m k f) = map fst m.
  Proof. unfold pupdate. rewrite map_map. apply map_ext. intros [k' c]. cbn. destruct (mon_eqb k k'); reflexivity. Qed.
  Lemma pupdate_notin m k f : ~ In k (map fst m) -> pupdate m k f = m.
  Proof.
    intros H. unfold pupdate. rewrite <- (map_id m) at 2. apply map_ext_in. intros [k' c] Hin. cbn.
    destruct (mon_eqb_spec k k') as [->|N]; [|reflexivity]. exfalso. apply H. apply (in_map fst) in Hin. exact Hin.
  Qed.
  Lemma perase_notin m k : ~ In k (map fst m) -> perase m k = m.
  Proof.
    induction m as [|[k' c] m IH]; [reflexivity|]. cbn [perase filter map fst In]. intros H.
    destruct (mon_eqb_spec k k') as [->|N]; [tauto|]. cbn [negb]. unfold perase in IH. rewrite IH by tauto. reflexivity.
  Qed.
  Lemma pv_update n m k f c x : NoDup (map fst m) -> pfind m k = Some c ->
    pv n (pupdate m k f) x = (pv n m x + (f c - c) * mv n k x)%K.
  Proof.
    induction m as [|[k' c'] m IH]; cbn [pfind map fst]; intros Hn Hf; [discriminate|].
    inversion_clear Hn as [|? ? H1 H2]. cbn [pupdate map]. fold (pupdate m k f). destruct (mon_eqb_spec k k') as [->|N]; cbn [fst].
    - injection Hf as ->. rewrite mon_eqb_refl. rewrite pupdate_notin by exact H1. rewrite !pv_cons. cbn [fst snd]. ring.
    - destruct (mon_eqb_spec k k'); [congruence|]. rewrite !pv_cons, IH by assumption. cbn [fst snd]. ring.
  Qed.
  Lemma pv_erase n m k c x : NoDup (map fst m) -> pfind m k = Some c ->
    pv n (perase m k) x = (pv n m x - c * mv n k x)%K.
  Proof.
    induction m as [|[k' c'] m IH]; cbn [pfind map fst]; intros Hn Hf; [discriminate|].
    inversion_clear Hn as [|? ? H1 H2]. cbn [perase filter]. fold (perase m k). cbn [fst].
    destruct (mon_eqb_spec k k') as [->|N]; cbn [negb].
    - injection Hf as ->. rewrite perase_notin by exact H1. rewrite pv_cons. cbn [fst snd]. ring.
    - rewrite !pv_cons, IH by assumption. ring.
  Qed.
  Lemma perase_keys m k : map fst (perase m k) = filter (fun k' => negb (mon_eqb k k')) (map fst m).
  Proof. induction m as [|[k' c] m IH]; [reflexivity|]. cbn [perase filter map fst]. fold (perase m k). destruct (mon_eqb k k'); cbn [negb map fst]; rewrite <- IH; reflexivity. Qed.
  Lemma pfind_update m k f c : pfind m k = Some c -> pfind (pupdate m k f) k = Some (f c).
  Proof.
    induction m as [|[k' c'] m IH]; cbn [pfind]; intros H; [discriminate|]. cbn [pupdate map fst snd]. fold (pupdate m k f).
    destruct (mon_eqb_spec k k') as [->|N].
    - injection H as ->. cbn [pfind]. rewrite mon_eqb_refl. reflexivity.
    - cbn [pfind]. destruct (mon_eqb_spec k k'); [congruence|]. apply IH; exact H.
  Qed.

  Lemma nodup_app_one m k (c : K) : NoDup (map fst m) -> ~ In k (map fst m) -> NoDup (map fst (m ++ [(k, c)])).
  Proof.
    intros H1 H2. rewrite map_app. cbn [map fst]. apply (Permutation_NoDup (l := k :: map fst m)); [apply Permutation_cons_append|]. constructor; assumption.
  Qed.

  Lemma update_in_keys m k f k' c : In (k', c) (pupdate m k f) -> In k' (map fst m).
  Proof. intros H. rewrite <- (pupdate_keys m k f). apply (in_map fst) in H. exact H. Qed.

  Lemma poly_ok_app_one n m k c : poly_ok n m -> exponents_ok n k -> ~ In k (map fst m) -> poly_ok n (m ++ [(k, c)]).
  Proof.
    intros [H1 H2] Hk Hn. split; [apply nodup_app_one; assumption|]. apply Forall_app. split; [exact H2|]. constructor; [exact Hk|constructor].
  Qed.
  Lemma poly_ok_update n m k f : poly_ok n m -> poly_ok n (pupdate m k f).
  Proof.
    intros [H1 H2]. split; [rewrite pupdate_keys; exact H1|]. rewrite Forall_forall in *. intros [k' c] Hin. cbn [fst].
    apply update_in_keys in Hin. apply in_map_iff in Hin as [kc [<- Hin]]. apply H2; exact Hin.
  Qed.
  Lemma poly_ok_erase n m k : poly_ok n m -> poly_ok n (perase m k).
  Proof.
    intros [H1 H2]. split; [rewrite perase_keys; apply NoDup_filter; exact H1|]. unfold perase.
    rewrite Forall_forall in *. intros kc Hin. apply filter_In in Hin as [Hin _]. apply H2; exact Hin.
  Qed.
  Lemma poly_ok_perm n m m' : Permutation m m' -> poly_ok n m -> poly_ok n m'.
  Proof.
    intros P [H1 H2]. split.
    - apply (Permutation_NoDup (l := map fst m)); [apply Permutation_map; exact P|exact H1].
    - rewrite Forall_forall in *. intros kc Hin. apply H2. apply (Permutation_in _ (Permutation_sym P)). exact Hin.
  Qed.

  (** replacing the coefficient c of k by c' and erasing the term if c' = 0 *)
  Definition put (m : pmap) k (c' : K) f : pmap := if feqb c' f0 then perase (pupdate m k f) k else pupdate m k f.
  Lemma put_value n m k c f x : poly_ok n m -> pfind m k = Some c ->
    pv n (put m k (f c) f) x = (pv n m x + (f c - c) * mv n k x)%K.
  Proof.
    intros [H1 H2] Hf. unfold put. destruct (feqb (f c) f0) eqn:E.
    - apply (fl_eqb K HK) in E. rewrite (pv_erase n _ k (f c)).
      + rewrite (pv_update n m k f c) by assumption. rewrite E. ring.
      + rewrite pupdate_keys; exact H1.
      + apply pfind_update; exact Hf.
    - apply pv_update; assumption.
  Qed.
  Lemma put_ok n m k c f : poly_ok n m -> poly_ok n (put m k c f).
  Proof. intros H. unfold put. destruct (feqb _ _); [apply poly_ok_erase|]; apply poly_ok_update; exact H. Qed.
  Lemma put_nz m k c f : NoDup (map fst m) -> pfind m k = Some c -> no_zero_coefficient m -> no_zero_coefficient (put m k (f c) f).
  Proof.
    intros Hn Hf Hz. unfold put, no_zero_coefficient in *. rewrite Forall_forall in *.
    assert (G : forall k' c', In (k', c') (pupdate m k f) -> (k' = k /\ c' = f c) \/ In (k', c') m).
    { intros k' c' Hin. unfold pupdate in Hin. apply in_map_iff in Hin as [[k1 c1] [E Hin]]. cbn [fst snd] in E.
      destruct (mon_eqb_spec k k1) as [->|N]; injection E as <- <-; [|right; exact Hin].
      left. split; [reflexivity|]. apply (pfind_In m k1 c1 Hn) in Hin. congruence. }
    destruct (feqb (f c) f0) eqn:E; intros [k' c'] Hin; cbn [snd].
    - unfold perase in Hin. apply filter_In in Hin as [Hin Hk]. cbn [fst] in Hk. apply G in Hin as [[-> ->]|Hin].
      + rewrite mon_eqb_refl in Hk. discriminate.
      + exact (Hz _ Hin).
    - apply G in Hin as [[-> ->]|Hin]; [apply (feqb_neq HK); exact E|exact (Hz _ Hin)].
  Qed.

  (** what a term-wise loop body must satisfy *)
  Definition good_step (n : nat) (step : pmap -> mon * K -> pmap) (sg : K -> K) : Prop :=
    forall m kc, poly_ok n m -> exponents_ok n (fst kc) ->
      poly_ok n (step m kc) /\
      (forall x, pv n (step m kc) x = (pv n m x + sg (snd kc) * mv n (fst kc) x)%K).

  Lemma good_fold n step sg l : good_step n step sg ->
    forall m, poly_ok n m -> Forall (fun kc => exponents_ok n (fst kc)) l ->
    poly_ok n (fold_left step l m) /\
    forall x, pv n (fold_left step l m) x = (pv n m x + fold_right (fun kc acc => sg (snd kc) * mv n (fst kc) x + acc) f0 l)%K.
  Proof.
    intros Hg. induction l as [|kc l IH]; intros m Hm Hl; cbn [fold_left fold_right].
    - split; [exact Hm|]. intros x. ring.
    - inversion_clear Hl as [|? ? H1 H2]. destruct (Hg m kc Hm H1) as [G1 G2]. destruct (IH _ G1 H2) as [I1 I2].
      split; [exact I1|]. intros x. rewrite I2, G2. ring.
  Qed.

  Lemma fold_id n l x : fold_right (fun kc acc => snd kc * mv n (fst kc) x + acc)%K f0 l = pv n l x.
  Proof. reflexivity. Qed.
  Lemma fold_neg n (l : pmap) x : fold_right (fun kc acc => (- snd kc) * mv n (fst kc) x + acc)%K f0 l = (- pv n l x)%K.
  Proof. induction l as [|kc l IH]; [cbn; ring|]. rewrite pv_cons. cbn [fold_right]. rewrite IH. ring. Qed.

  Lemma add_term_good n : good_step n (add_term (K:=K)) (fun c => c).
  Proof.
    intros m [k c] Hm Hk. cbn [fst snd]. unfold add_term. cbn [fst snd]. destruct (pfind m k) as [c0|] eqn:E.
    - change (poly_ok n (put m k ((fun _ => c0 + c)%K c0) (fun _ => c0 + c)%K) /\ forall x, pv n (put m k ((fun _ => c0 + c)%K c0) (fun _ => c0 + c)%K) x = (pv n m x + c * mv n k x)%K).
      split; [apply put_ok; exact Hm|]. intros x. rewrite (put_value n m k c0 (fun _ => c0 + c)%K) by assumption. ring.
    - unfold pemplace. rewrite E. apply pfind_None in E. split; [apply poly_ok_app_one; assumption|].
      intros x. rewrite pv_app, pv_cons, pv_nil. cbn [fst snd]. ring.
  Qed.
  Lemma sub_term_good n : good_step n (sub_term (K:=K)) (fun c => - c)%K.
  Proof.
    intros m [k c] Hm Hk. cbn [fst snd]. unfold sub_term. cbn [fst snd]. destruct (pfind m k) as [c0|] eqn:E.
    - change (poly_ok n (put m k ((fun _ => c0 - c)%K c0) (fun _ => c0 - c)%K) /\ forall x, pv n (put m k ((fun _ => c0 - c)%K c0) (fun _ => c0 - c)%K) x = (pv n m x + - c * mv n k x)%K).
      split; [apply put_ok; exact Hm|]. intros x. rewrite (put_value n m k c0 (fun _ => c0 - c)%K) by assumption. ring.
    - unfold pemplace. rewrite E. apply pfind_None in E. split; [apply poly_ok_app_one; assumption|].
      intros x. rewrite pv_app, pv_cons, pv_nil. cbn [fst snd]. ring.
  Qed.
  Lemma add_assign_good n : good_step n (add_assign_term (K:=K)) (fun c => c).
  Proof.
    intros m [k c] Hm Hk. cbn [fst snd]. unfold add_assign_term. cbn [fst snd]. destruct (feqb c f0) eqn:Z.
    - apply (fl_eqb K HK) in Z. subst c. split; [exact Hm|]. intros x. ring.
    - destruct (pfind m k) as [c0|] eqn:E.
      + change (poly_ok n (put m k ((fun c1 => c1 + c)%K c0) (fun c1 => c1 + c)%K) /\ forall x, pv n (put m k ((fun c1 => c1 + c)%K c0) (fun c1 => c1 + c)%K) x = (pv n m x + c * mv n k x)%K).
        split; [apply put_ok; exact Hm|]. intros x. rewrite (put_value n m k c0 (fun c1 => c1 + c)%K) by assumption. ring.
      + unfold passign. rewrite E. apply pfind_None in E. split; [apply poly_ok_app_one; assumption|].
        intros x. rewrite pv_app, pv_cons, pv_nil. cbn [fst snd]. ring.
  Qed.
  Lemma sub_assign_good n : good_step n (sub_assign_term (K:=K)) (fun c => - c)%K.
  Proof.
    intros m [k c] Hm Hk. cbn [fst snd]. unfold sub_assign_term. cbn [fst snd]. destruct (feqb c f0) eqn:Z.
    - apply (fl_eqb K HK) in Z. subst c. split; [exact Hm|]. intros x. ring.
    - destruct (pfind m k) as [c0|] eqn:E.
      + change (poly_ok n (put m k ((fun c1 => c1 - c)%K c0) (fun c1 => c1 - c)%K) /\ forall x, pv n (put m k ((fun c1 => c1 - c)%K c0) (fun c1 => c1 - c)%K) x = (pv n m x + - c * mv n k x)%K).
        split; [apply put_ok; exact Hm|]. intros x. rewrite (put_value n m k c0 (fun c1 => c1 - c)%K) by assumption. ring.
      + unfold passign. rewrite E. apply pfind_None in E. split; [apply poly_ok_app_one; assumption|].
        intros x. rewrite pv_app, pv_cons, pv_nil. cbn [fst snd]. ring.
  Qed.

  Lemma nz_app m k c : no_zero_coefficient m -> c <> f0 -> no_zero_coefficient (m ++ [(k, c)]).
  Proof. intros H Hc. apply Forall_app. split; [exact H|]. constructor; [exact Hc|constructor]. Qed.

  (** no zero coefficients appear *)
  Lemma assign_fold_nz n (add : bool) (l : pmap) : forall m, poly_ok n m -> no_zero_coefficient m -> Forall (fun kc => exponents_ok n (fst kc)) l ->
    no_zero_coefficient (fold_left (if add then add_assign_term (K:=K) else sub_assign_term (K:=K)) l m).
  Proof.
    induction l as [|[k c] l IH]; intros m Hm Hz Hl; [exact Hz|]. cbn [fold_left]. inversion_clear Hl as [|? ? H1 H2].
    apply IH; [|..|exact H2].
    - destruct add; [apply (add_assign_good n m (k, c) Hm H1)|apply (sub_assign_good n m (k, c) Hm H1)].
    - destruct add; unfold add_assign_term, sub_assign_term; cbn [fst snd]; destruct (feqb c f0) eqn:Z; try exact Hz;
        apply (feqb_neq HK) in Z; destruct (pfind m k) as [c0|] eqn:E.
      + apply (put_nz m k c0 (fun c1 => c1 + c)%K); [apply Hm|exact E|exact Hz].
      + unfold passign. rewrite E. apply nz_app; assumption.
      + apply (put_nz m k c0 (fun c1 => c1 - c)%K); [apply Hm|exact E|exact Hz].
      + unfold passign. rewrite E. apply nz_app; [exact Hz|]. apply (fopp_neq0 HK). exact Z.
  Qed.

  Lemma term_fold_nz n (add : bool) (l : pmap) : forall m, poly_ok n m -> no_zero_coefficient m -> Forall (fun kc => exponents_ok n (fst kc)) l -> no_zero_coefficient l ->
    no_zero_coefficient (fold_left (if add then add_term (K:=K) else sub_term (K:=K)) l m).
  Proof.
    induction l as [|[k c] l IH]; intros m Hm Hz Hl Hlz; [exact Hz|]. cbn [fold_left]. inversion_clear Hl as [|? ? H1 H2].
    inversion_clear Hlz as [|? ? Z1 Z2]. cbn [snd] in Z1.
    apply IH; [|..|exact H2|exact Z2].
    - destruct add; [apply (add_term_good n m (k, c) Hm H1)|apply (sub_term_good n m (k, c) Hm H1)].
    - destruct add; unfold add_term, sub_term; cbn [fst snd]; destruct (pfind m k) as [c0|] eqn:E.
      + apply (put_nz m k c0 (fun _ => c0 + c)%K); [apply Hm|exact E|exact Hz].
      + unfold pemplace. rewrite E. apply nz_app; assumption.
      + apply (put_nz m k c0 (fun _ => c0 - c)%K); [apply Hm|exact E|exact Hz].
      + unfold pemplace. rewrite E. apply nz_app; [exact Hz|]. intros X. apply Z1. replace c with (0 - (0 - c))%K by ring. rewrite X. ring.
  Qed.

  Section Ops.
    Variable ord : pmap -> pmap.
    Hypothesis Ho : any_order ord.
    Lemma ord_ok n m : poly_ok n m -> poly_ok n (ord m).
    Proof. apply poly_ok_perm. apply Permutation_sym, Ho. Qed.
    Lemma ord_nz m : no_zero_coefficient m -> no_zero_coefficient (ord m).
    Proof. unfold no_zero_coefficient. rewrite !Forall_forall. intros H kc Hin. apply H. apply (Permutation_in _ (Ho m)). exact Hin. Qed.

    Lemma fold_ok n step sg m b : good_step n step sg -> poly_ok n m -> poly_ok n b ->
      poly_ok n (fold_left step (ord b) m) /\
      forall x, pv n (fold_left step (ord b) m) x = (pv n m x + fold_right (fun kc acc => sg (snd kc) * mv n (fst kc) x + acc) f0 (ord b))%K.
    Proof. intros Hg Hm Hb. apply good_fold; [exact Hg|exact Hm|]. apply (ord_ok n b Hb). Qed.

    Lemma padd_ok a b : pf_n b = pf_n a -> poly_ok (pf_n a) (pf_coefs a) -> poly_ok (pf_n a) (pf_coefs b) ->
      poly_ok (pf_n a) (pf_coefs (padd ord a b)) /\
      forall x, pv (pf_n a) (pf_coefs (padd ord a b)) x = (pv (pf_n a) (pf_coefs a) x + pv (pf_n a) (pf_coefs b) x)%K.
    Proof.
      intros En Ha Hb. unfold padd. cbn [pf_coefs]. destruct (_ <? _).
      - destruct (fold_ok (pf_n a) _ _ _ _ (add_term_good (pf_n a)) Hb Ha) as [H1 H2]. split; [exact H1|].
        intros x. rewrite H2, fold_id, (pv_perm _ _ _ x (Ho (pf_coefs a))). ring.
      - destruct (fold_ok (pf_n a) _ _ _ _ (add_term_good (pf_n a)) Ha Hb) as [H1 H2]. split; [exact H1|].
        intros x. rewrite H2, fold_id, (pv_perm _ _ _ x (Ho (pf_coefs b))). ring.
    Qed.
    Lemma psub_ok a b : poly_ok (pf_n a) (pf_coefs a) -> poly_ok (pf_n a) (pf_coefs b) ->
      poly_ok (pf_n a) (pf_coefs (psub ord a b)) /\
      forall x, pv (pf_n a) (pf_coefs (psub ord a b)) x = (pv (pf_n a) (pf_coefs a) x - pv (pf_n a) (pf_coefs b) x)%K.
    Proof.
      intros Ha Hb. unfold psub. cbn [pf_coefs].
      destruct (fold_ok (pf_n a) _ _ _ _ (sub_term_good (pf_n a)) Ha Hb) as [H1 H2]. split; [exact H1|].
      intros x. rewrite H2, fold_neg, (pv_perm _ _ _ x (Ho (pf_coefs b))). ring.
    Qed.
    Lemma padd_assign_ok a b : poly_ok (pf_n a) (pf_coefs a) -> poly_ok (pf_n a) (pf_coefs b) ->
      poly_ok (pf_n a) (pf_coefs (padd_assign ord a b)) /\
      forall x, pv (pf_n a) (pf_coefs (padd_assign ord a b)) x = (pv (pf_n a) (pf_coefs a) x + pv (pf_n a) (pf_coefs b) x)%K.
    Proof.
      intros Ha Hb. unfold padd_assign. cbn [pf_coefs].
      destruct (fold_ok (pf_n a) _ _ _ _ (add_assign_good (pf_n a)) Ha Hb) as [H1 H2]. split; [exact H1|].
      intros x. rewrite H2, fold_id, (pv_perm _ _ _ x (Ho (pf_coefs b))). ring.
    Qed.
    Lemma psub_assign_ok a b : poly_ok (pf_n a) (pf_coefs a) -> poly_ok (pf_n a) (pf_coefs b) ->
      poly_ok (pf_n a) (pf_coefs (psub_assign ord a b)) /\
      forall x, pv (pf_n a) (pf_coefs (psub_assign ord a b)) x = (pv (pf_n a) (pf_coefs a) x - pv (pf_n a) (pf_coefs b) x)%K.
    Proof.
      intros Ha Hb. unfold psub_assign. cbn [pf_coefs].
      destruct (fold_ok (pf_n a) _ _ _ _ (sub_assign_good (pf_n a)) Ha Hb) as [H1 H2]. split; [exact H1|].
      intros x. rewrite H2, fold_neg, (pv_perm _ _ _ x (Ho (pf_coefs b))). ring.
    Qed.

    Lemma pscale_ok a c : poly_ok (pf_n a) (pf_coefs a) ->
      poly_ok (pf_n a) (pf_coefs (pscale a c)) /\
      forall n x, pv n (pf_coefs (pscale a c)) x = (pv n (pf_coefs a) x * c)%K.
    Proof.
      intros [H1 H2]. unfold pscale. cbn [pf_coefs]. split.
      - split.
        + rewrite map_map. cbn [fst]. exact H1.
        + rewrite Forall_forall in *. intros kc Hin. apply in_map_iff in Hin as [kc' [<- Hin]]. cbn [fst]. apply H2; exact Hin.
      - intros n x. clear -HK. induction (pf_coefs a) as [|kc m IH]; cbn [map]; [rewrite pv_nil; ring|].
        rewrite !pv_cons, IH. cbn [fst snd]. ring.
    Qed.

    (** remove_zero_coefs *)
    Lemma remove_ok a : poly_ok (pf_n a) (pf_coefs a) ->
      poly_ok (pf_n a) (pf_coefs (remove_zero_coefs ord a)) /\ no_zero_coefficient (pf_coefs (remove_zero_coefs ord a)) /\
      forall x, pv (pf_n a) (pf_coefs (remove_zero_coefs ord a)) x = pv (pf_n a) (pf_coefs a) x.
    Proof.
      intros Ha. unfold remove_zero_coefs. cbn [pf_coefs].
      set (L := map fst (filter (fun kc => feqb (snd kc) f0) (ord (pf_coefs a)))).
      assert (HL : forall k, In k L <-> In (k, f0) (pf_coefs a)).
      { intros k. unfold L. rewrite in_map_iff. split.
        - intros [[k' c] [<- Hin]]. apply filter_In in Hin as [Hin E]. cbn [snd] in E. apply (fl_eqb K HK) in E. subst c.
          apply (Permutation_in _ (Ho _)) in Hin. exact Hin.
        - intros Hin. exists (k, f0). split; [reflexivity|]. apply filter_In. split; [apply (Permutation_in _ (Permutation_sym (Ho _))); exact Hin|].
          cbn [snd]. apply feqb_refl; exact HK. }
      assert (HN : NoDup L).
      { unfold L. assert (N : NoDup (map fst (ord (pf_coefs a)))) by apply (ord_ok _ _ Ha).
        clear -N. induction (ord (pf_coefs a)) as [|kc m IH]; [constructor|]. cbn [map] in N. inversion_clear N as [|? ? H1 H2].
        cbn [filter]. destruct (feqb (snd kc) f0); [|auto]. cbn [map]. constructor; [|auto].
        intros Hin. apply H1. apply in_map_iff in Hin as [kc' [<- Hin]]. apply filter_In in Hin as [Hin _]. apply in_map. exact Hin. }
      assert (G : forall L m, NoDup L -> poly_ok (pf_n a) m -> (forall k, In k L -> In (k, f0) m) ->
        poly_ok (pf_n a) (fold_left perase L m) /\ (forall x, pv (pf_n a) (fold_left perase L m) x = pv (pf_n a) m x) /\
        (forall k c, In (k, c) (fold_left perase L m) -> In (k, c) m /\ ~ In k L)).
      { clear -HK. induction L as [|k L IH]; intros m HN Hm HL; cbn [fold_left].
        - split; [exact Hm|]. split; [reflexivity|]. intros k c H. split; [exact H|intros []].
        - inversion_clear HN as [|? ? N1 N2]. destruct (IH (perase m k) N2) as [I1 [I2 I3]].
          + apply poly_ok_erase; exact Hm.
          + intros k' Hk'. unfold perase. apply filter_In. split; [apply HL; right; exact Hk'|]. cbn [fst].
            destruct (mon_eqb_spec k k') as [->|]; [contradiction|reflexivity].
          + split; [exact I1|]. split.
            * intros x. rewrite I2. rewrite (pv_erase (pf_n a) m k f0); [ring|apply Hm|]. apply pfind_In; [apply Hm|]. apply HL. left; reflexivity.
            * intros k' c Hin. apply I3 in Hin as [Hin Hn]. unfold perase in Hin. apply filter_In in Hin as [Hin E]. cbn [fst] in E.
              split; [exact Hin|]. intros [->|H]; [rewrite mon_eqb_refl in E; discriminate|contradiction]. }
      destruct (G L (pf_coefs a) HN Ha ltac:(intros k Hk; apply HL; exact Hk)) as [G1 [G2 G3]].
      split; [exact G1|]. split; [|exact G2].
      unfold no_zero_coefficient. rewrite Forall_forall. intros [k c] Hin. cbn [snd]. intros ->.
      apply G3 in Hin as [Hin Hn]. apply Hn. apply HL. exact Hin.
    Qed.
  End Ops.
End Proofs.

(** Proofs for the univariate reconstruction, part 5: the system of equations of a further prime *)
From Coq Require Import Znumtheory Permutation.
From Verif Require Import Machine NumTheory FFInt FFIntProofs FField FSum LinAlg LinSpec LinAlgProofs FPoly PolyFF PolySpec PolyFFProofs Thiele ThieleSpec RatNum RatNumProofs Modular ModularProofs MqrrProofs Primes PField RatUni RatUniSpec RatUniProofs RatUniThiele RatUniFirst RatUniNext.
Open Scope Z_scope.

Fixpoint idx (e : nat) (l : list nat) : nat := match l with [] => 0%nat | a :: r => if Nat.eqb e a then 0%nat else S (idx e r) end.
Lemma idx_nth l : NoDup l -> forall c, (c < length l)%nat -> idx (nth c l 0%nat) l = c.
Proof.
  induction l as [|a l IH]; intros ND c Hc; cbn [length] in Hc; [lia|]. inversion ND as [|? ? N1 N2]; subst. destruct c as [|c]; cbn [nth idx].
  - rewrite Nat.eqb_refl. reflexivity.
  - destruct (Nat.eqb_spec (nth c l 0%nat) a) as [E|_]; [exfalso; apply N1; rewrite <- E; apply nth_In; lia|]. rewrite IH by (assumption || lia). reflexivity.
Qed.

Section Rows.
  Variable ord : forall A : Type, list A -> list A.
  Hypothesis Hord : forall A (l : list A), Permutation (ord A l) l.
  Variable F : pfield.
  Local Notation K := (fld F).
  Local Notation p := (pf_mod F).
  Local Notation KL := (HK F).
  Add Field KF : (fl_field K (HK F)).

  Definition gsum {A} (h : A -> K) (l : list A) : K := fold_right (fun e s => fadd (h e) s) f0 l.
  Lemma gsum_perm {A} (h : A -> K) l l' : Permutation l l' -> gsum h l = gsum h l'.
  Proof.
    induction 1 as [|a l l' _ IH|a b l|? ? ? _ IH1 _ IH2]; cbn [gsum fold_right]; [reflexivity|unfold gsum in IH; rewrite IH; reflexivity|ring|congruence].
  Qed.
  Lemma fold_sub {A} (h : A -> K) l : forall r, fold_left (fun r e => fsub r (h e)) l r = fsub r (gsum h l).
  Proof. induction l as [|a l IH]; intros r; cbn [fold_left gsum fold_right]; [ring|]. rewrite IH. unfold gsum. ring. Qed.
  Lemma fold_add {A} (h : A -> K) l : forall r, fold_left (fun r e => fadd r (h e)) l r = fadd r (gsum h l).
  Proof. induction l as [|a l IH]; intros r; cbn [fold_left gsum fold_right]; [ring|]. rewrite IH. unfold gsum. ring. Qed.
  Lemma gsum_ext {A} (h h' : A -> K) l : (forall a, In a l -> h a = h' a) -> gsum h l = gsum h' l.
  Proof.
    induction l as [|a l IH]; intros H; cbn [gsum fold_right]; [reflexivity|]. rewrite (H a) by (left; reflexivity). f_equal. apply IH. intros b Hb. apply H. right. exact Hb.
  Qed.
  Lemma gsum_map {A B} (h : B -> K) (q : A -> B) l : gsum h (map q l) = gsum (fun a => h (q a)) l.
  Proof. induction l as [|a l IH]; cbn [map gsum fold_right]; [reflexivity|]. f_equal. exact IH. Qed.
  Lemma gsum_scale {A} (h : A -> K) c l : gsum (fun a => fmul (h a) c) l = fmul (gsum h l) c.
  Proof.
    induction l as [|a l IH]; cbn [gsum fold_right]; [ring|]. change (fold_right (fun e s => fadd (fmul (h e) c) s) f0 l) with (gsum (fun a => fmul (h a) c) l).
    rewrite IH. unfold gsum. ring.
  Qed.

  (** ---- the part of the function with fixed coefficients ---- *)
  Lemma assign_fold (l : list (list Z * rn)) : forall m : pmap K, poly_ok 1 m -> NoDup (map fst l) -> (forall e, In e l -> exponents_ok 1 (fst e)) ->
    (forall e, In e l -> pfind m (fst e) = None \/ pfind m (fst e) = Some f0) ->
    let m' := fold_left (fun m e => passign m (fst e) (to_ff F (snd e))) l m in
    poly_ok 1 m' /\ forall x, poly_value 1 m' x = fadd (poly_value 1 m x) (poly_value 1 (map (fun e => (fst e, to_ff F (snd e))) l) x).
  Proof.
    induction l as [|[k a] l IH]; intros m Hm ND HE HZ.
    - cbn zeta. cbn [fold_left map]. split; [exact Hm|]. intros x. change (poly_value 1 (@nil (list Z * K)) x) with (@f0 K). ring.
    - cbn [map fst] in ND. inversion ND as [|? ? N1 N2]; subst. cbn zeta. cbn [fold_left fst snd map].
      pose proof (HE (k, a) (or_introl eq_refl)) as HEk. pose proof (HZ (k, a) (or_introl eq_refl)) as HZk. cbn [fst] in HEk, HZk.
      assert (S1 : poly_ok 1 (passign m k (to_ff F a)) /\ forall x, poly_value 1 (passign m k (to_ff F a)) x = fadd (poly_value 1 m x) (fmul (to_ff F a) (monomial_value 1 k x))).
      { unfold passign. destruct HZk as [HZk|HZk]; rewrite HZk.
        - split; [apply poly_ok_app_one; [exact Hm|exact HEk|apply pfind_None; exact HZk]|]. intros x. rewrite (pv_app KL), (pv_cons 1 (k, to_ff F a) [] x). change (poly_value 1 (@nil (list Z * K)) x) with (@f0 K). cbn [fst snd]. ring.
        - split; [apply poly_ok_update; exact Hm|]. intros x. rewrite (pv_update KL 1 m k _ f0 x (proj1 Hm) HZk). ring. }
      destruct S1 as [S1 S2]. destruct (IH (passign m k (to_ff F a)) S1 N2) as [R1 R2].
      + intros e He. apply HE. right. exact He.
      + intros e He. assert (NE : fst e <> k) by (intros X; apply N1; rewrite <- X; apply in_map; exact He).
        assert (PE : pfind (passign m k (to_ff F a)) (fst e) = pfind m (fst e)).
        { clear - NE. unfold passign. destruct (pfind m k).
          - induction m as [|[k' c'] m IH]; [reflexivity|]. cbn [pupdate map pfind fst snd]. fold (pupdate m k (fun _ => to_ff F a)).
            destruct (mon_eqb k k') eqn:E; cbn [pfind fst]; rewrite IH; [|reflexivity]. apply mon_eqb_eq in E. subst k'. rewrite mon_eqb_neq by exact NE. reflexivity.
          - induction m as [|[k' c'] m IH]; cbn [app pfind]; [rewrite mon_eqb_neq by exact NE; reflexivity|]. rewrite IH. reflexivity. }
        rewrite PE. apply HZ. right. exact He.
      + split; [exact R1|]. intros x. rewrite R2, S2, (pv_cons 1 _ _ x). cbn [fst snd]. ring.
  Qed.
  Lemma exps_key u : Z.of_nat (fst u) < 2 ^ 31 -> exponents_ok 1 (key u).
  Proof. intros H. split; [reflexivity|]. constructor; [|constructor]. lia. Qed.

  Lemma degree_fold (l : list (list Z * K)) : forall s, NoDup (map fst l) -> (forall e, In e l -> exponents_ok 1 (fst e)) ->
    (forall e q, In e l -> In q s -> fst q <> deg_sum (fst e)) ->
    fold_left (fun (s : list (Z * polyff K)) kc =>
        let d := deg_sum (fst kc) in
        match find (fun e => fst e =? d) s with
        | Some (_, q) =>
            map (fun e => if fst e =? d then (d, if pzero q then mk_polyff 1 [kc] else mk_polyff (pf_n q) (pemplace (pf_coefs q) (fst kc) (snd kc))) else e) s
        | None => s ++ [(d, mk_polyff 1 [kc])]
        end) l s = s ++ map (fun kc => (deg_sum (fst kc), mk_polyff 1 [kc])) l.
  Proof.
    induction l as [|kc l IH]; intros s ND HE HS; [cbn; symmetry; apply app_nil_r|]. cbn [map] in ND. inversion ND as [|? ? N1 N2]; subst. cbn [fold_left map]. cbn zeta.
    destruct (find (fun e => fst e =? deg_sum (fst kc)) s) as [[z q]|] eqn:E.
    - apply find_some in E as [I E]. apply Z.eqb_eq in E. exfalso. exact (HS kc (z, q) (or_introl eq_refl) I E).
    - rewrite IH; [rewrite <- app_assoc; reflexivity|exact N2|intros e He; apply HE; right; exact He|].
      intros e q He Hq. apply in_app_or in Hq as [Hq|[<-|[]]]; [exact (HS e q (or_intror He) Hq)|]. cbn [fst]. intros X. apply N1.
      pose proof (HE kc (or_introl eq_refl)) as [L1 _]. pose proof (HE e (or_intror He)) as [L2 _].
      assert (Y : fst kc = fst e). { destruct (fst kc) as [|a [|? ?]]; try discriminate. destruct (fst e) as [|b [|? ?]]; try discriminate. cbn in X. congruence. }
      exact (eq_ind_r (fun k => In k (map fst l)) (in_map fst l e He) Y).
  Qed.

  Lemma solved_ok g T : Permutation g (map entry T) -> NoDup (map fst T) -> small_terms T ->
    exists m : pmap K, poly_ok 1 m /\ (forall x, poly_value 1 m (fun _ => x) = fvalue T x) /\
      solved_polys ord F g = map (fun kc => (deg_sum (fst kc), mk_polyff 1 [kc])) (ord _ m).
  Proof.
    intros HP ND HT. unfold solved_polys. set (m0 := [([0], f0)] : pmap K).
    assert (KG : Permutation (map fst (ord _ g)) (map key T)).
    { rewrite <- entry_keys. apply Permutation_map. exact (Permutation_trans (Hord _ g) HP). }
    assert (Hm0 : poly_ok 1 m0). { split; [constructor; [intros []|constructor]|]. constructor; [|constructor]. split; [reflexivity|]. constructor; [cbn; lia|constructor]. }
    destruct (assign_fold (ord _ g) m0 Hm0) as [A1 A2].
    - apply (Permutation_NoDup (Permutation_sym KG)). apply nodup_keys. exact ND.
    - intros e He. apply (in_map fst) in He. apply (Permutation_in _ KG) in He. apply in_map_iff in He as [u [<- Hu]]. apply exps_key. apply HT. exact Hu.
    - intros e He. unfold m0. cbn [pfind]. destruct (mon_eqb (fst e) [0]); [right|left]; reflexivity.
    - cbn zeta in A1, A2. set (m := fold_left (fun m e => passign m (fst e) (to_ff F (snd e))) (ord _ g) m0) in *. exists m. split; [exact A1|]. split.
      + intros x. rewrite A2. unfold m0 at 1. rewrite (pv_cons 1 ([0], f0) []). change (poly_value 1 (@nil (list Z * K)) (fun _ : nat => x)) with (@f0 K). cbn [fst snd].
        change (map (fun e => (fst e, to_ff F (snd e))) (ord _ g)) with (convert_to_ffint ord F g).
        rewrite (pv_perm KL 1 _ _ _ (convert_perm ord Hord F g T HP)), imgs_value. ring.
      + pose proof (ord_ok (ord _) (Hord _) 1 m A1) as [B1 B2]. refine (degree_fold (ord _ m) [] B1 _ _); [|intros e q _ []].
        rewrite Forall_forall in B2. exact B2.
  Qed.

  Definition subs (s : list (Z * polyff K)) : list (Z * K) := map (fun e => (fst e, calc_n_m_1 (ord _) (snd e) (fun _ => f0))) s.
  Lemma subs_ok (l : list (list Z * K)) : subs (map (fun kc => (deg_sum (fst kc), mk_polyff 1 [kc])) l) = map (fun kc => (deg_sum (fst kc), snd kc)) l.
  Proof.
    unfold subs. rewrite map_map. apply map_ext. intros kc. cbn [fst snd]. f_equal. unfold calc_n_m_1. cbn [pf_coefs pf_n].
    assert (E : ord _ [kc] = [kc]) by (apply Permutation_length_1_inv; apply Permutation_sym; apply Hord). rewrite E. cbn [fold_left Nat.sub mon_val seq fst snd]. unfold mon_val. cbn [seq fold_left]. ring.
  Qed.
  Lemma subs_sum g T (t : K) : Permutation g (map entry T) -> NoDup (map fst T) -> small_terms T ->
    gsum (fun e => fmul (snd e) (fpow t (fst e))) (ord _ (subs (solved_polys ord F g))) = fvalue T t.
  Proof.
    intros HP ND HT. destruct (solved_ok g T HP ND HT) as [m [Hm [Hval ->]]]. rewrite subs_ok, (gsum_perm _ _ _ (Hord _ _)), gsum_map, (gsum_perm _ _ _ (Hord _ _)).
    rewrite <- Hval. destruct Hm as [_ Hm]. cbn [fst snd]. clear - Hm. induction m as [|[k c] m IH]; [reflexivity|]. inversion_clear Hm as [|? ? H1 H2].
    cbn [gsum fold_right]. rewrite (pv_cons 1 (k, c) m). change (fold_right _ _ m) with (gsum (fun a : list Z * K => fmul (snd a) (fpow t (deg_sum (fst a)))) m). rewrite IH by exact H2.
    cbn [fst snd] in *. destruct H1 as [L FA]. destruct k as [|z [|? ?]]; try discriminate. inversion_clear FA as [|? ? FZ _]. cbn [monomial_value nth].
    change (deg_sum [z]) with z. rewrite (fl_pow K KL) by (unfold two64; lia). ring.
  Qed.

  (** ---- one equation ---- *)
  Section System.
  Variables (nsn nsd : list Z) (T1 T2 S1 S2 : list rterm).
  Hypothesis HnN : Permutation nsn (map (fun u => Z.of_nat (fst u)) T2).
  Hypothesis HnD : Permutation nsd (map (fun u => Z.of_nat (fst u)) S2).
  Hypothesis ND2 : NoDup (map fst T2).
  Hypothesis NS2 : NoDup (map fst S2).
  Hypothesis small2 : small_terms T2.
  Hypothesis smallS2 : small_terms S2.
  Variables (ti vi : nat -> K).
  Let ln := length nsn.
  Let ld := length nsd.

  Definition row (i : nat) : list K :=
    map (fun d => fpow (ti i) d) nsn ++ map (fun d => fmul (fopp (vi i)) (fpow (ti i) d)) nsd ++
    [fadd (fsub f0 (fvalue T1 (ti i))) (fmul (fvalue S1 (ti i)) (vi i))].
  Definition mat_of (rows : list (list K)) : mat K := fun r c => nth c (nth r rows []) f0.

  Definition degs (l : list Z) : list nat := map Z.to_nat l.
  Lemma degs_perm l (T : list rterm) : Permutation l (map (fun u => Z.of_nat (fst u)) T) -> Permutation (degs l) (map fst T).
  Proof.
    intros H. unfold degs. apply (Permutation_map Z.to_nat) in H. rewrite map_map in H. apply (Permutation_trans H).
    erewrite map_ext; [reflexivity|]. intros u. apply Nat2Z.id.
  Qed.
  Lemma in_small l (T : list rterm) z : Permutation l (map (fun u => Z.of_nat (fst u)) T) -> small_terms T -> In z l -> 0 <= z < 2 ^ 31.
  Proof. intros H HT Hz. apply (Permutation_in _ H) in Hz. apply in_map_iff in Hz as [u [<- Hu]]. specialize (HT u Hu). lia. Qed.

  Lemma row_n i c : (c < ln)%nat -> nth c (row i) f0 = pw (ti i) (nth c (degs nsn) 0%nat).
  Proof.
    intros Hc. unfold row. rewrite app_nth1 by (rewrite map_length; exact Hc). rewrite (nth_indep _ f0 (fpow (ti i) 0)) by (rewrite map_length; exact Hc).
    rewrite (map_nth (fun d => fpow (ti i) d)). unfold degs. rewrite (nth_indep _ 0%nat (Z.to_nat 0)) by (rewrite map_length; exact Hc). rewrite (map_nth Z.to_nat).
    apply (fl_pow K KL). pose proof (in_small nsn T2 (nth c nsn 0) HnN small2 (nth_In _ _ Hc)). unfold two64. lia.
  Qed.
  Lemma row_d i c : (c < ld)%nat -> nth (ln + c) (row i) f0 = fmul (fopp (vi i)) (pw (ti i) (nth c (degs nsd) 0%nat)).
  Proof.
    intros Hc. unfold row. rewrite app_nth2 by (rewrite map_length; unfold ln; lia). rewrite map_length. unfold ln. replace (length nsn + c - length nsn)%nat with c by lia.
    rewrite app_nth1 by (rewrite map_length; exact Hc). rewrite (nth_indep _ f0 (fmul (fopp (vi i)) (fpow (ti i) 0))) by (rewrite map_length; exact Hc).
    rewrite (map_nth (fun d => fmul (fopp (vi i)) (fpow (ti i) d))). unfold degs. rewrite (nth_indep _ 0%nat (Z.to_nat 0)) by (rewrite map_length; exact Hc). rewrite (map_nth Z.to_nat).
    f_equal. apply (fl_pow K KL). pose proof (in_small nsd S2 (nth c nsd 0) HnD smallS2 (nth_In _ _ Hc)). unfold two64. lia.
  Qed.
  Lemma row_rhs i : nth (ln + ld) (row i) f0 = fadd (fsub f0 (fvalue T1 (ti i))) (fmul (fvalue S1 (ti i)) (vi i)).
  Proof.
    unfold row. rewrite app_nth2 by (rewrite map_length; unfold ln; lia). rewrite app_nth2 by (rewrite !map_length; unfold ln, ld; lia).
    rewrite !map_length. unfold ln, ld. replace (length nsn + length nsd - length nsn - length nsd)%nat with 0%nat by lia. reflexivity.
  Qed.
  Lemma fold_fsum (l : list nat) (a : nat -> K) (x : K) : fold_right (fun e s => fadd (fmul (a e) (pw x e)) s) f0 l = fsum (length l) (fun c => fmul (a (nth c l 0%nat)) (pw x (nth c l 0%nat))).
  Proof.
    induction l as [|e l IH]; [reflexivity|]. cbn [fold_right length]. rewrite (fsum_S_l KL). cbn [nth]. rewrite IH. reflexivity.
  Qed.
  Lemma degs_len l : length (degs l) = length l. Proof. apply map_length. Qed.

  (** the left side of equation i for unknowns a and b *)
  Lemma row_sum i rows (a b : nat -> K) (x : nat -> K) : nth i rows [] = row i ->
    (forall c, (c < ln)%nat -> x c = a (nth c (degs nsn) 0%nat)) -> (forall c, (c < ld)%nat -> x (ln + c)%nat = b (nth c (degs nsd) 0%nat)) ->
    fsum (ln + ld) (fun c => fmul (mat_of rows i c) (x c)) =
    fsub (fold_right (fun e s => fadd (fmul (a e) (pw (ti i) e)) s) f0 (degs nsn)) (fmul (vi i) (fold_right (fun e s => fadd (fmul (b e) (pw (ti i) e)) s) f0 (degs nsd))).
  Proof.
    intros Hr Ha Hb. rewrite (fsum_split KL). unfold mat_of. rewrite Hr. rewrite !fold_fsum, !degs_len.
    assert (E1 : fsum ln (fun c => fmul (nth c (row i) f0) (x c)) = fsum ln (fun c => fmul (a (nth c (degs nsn) 0%nat)) (pw (ti i) (nth c (degs nsn) 0%nat)))).
    { apply fsum_ext. intros c Hc. rewrite row_n, Ha by exact Hc. ring. }
    assert (E2 : fsum ld (fun c => fmul (nth (ln + c) (row i) f0) (x (ln + c)%nat)) = fmul (fopp (vi i)) (fsum ld (fun c => fmul (b (nth c (degs nsd) 0%nat)) (pw (ti i) (nth c (degs nsd) 0%nat))))).
    { rewrite <- (fsum_mul_l KL). apply fsum_ext. intros c Hc. rewrite row_d, Hb by exact Hc. ring. }
    rewrite E1, E2. unfold ln, ld. ring.
  Qed.

  Lemma rows_nonsingular rows : (forall i, (i < ln + ld)%nat -> nth i rows [] = row i) -> determined (degs nsn) (degs nsd) ti vi (ln + ld) -> nonsingular (ln + ld) (mat_of rows).
  Proof.
    intros Hr HD x Hx.
    assert (NDn : NoDup (degs nsn)) by (apply (Permutation_NoDup (Permutation_sym (degs_perm _ _ HnN))); exact ND2).
    assert (NDd : NoDup (degs nsd)) by (apply (Permutation_NoDup (Permutation_sym (degs_perm _ _ HnD))); exact NS2).
    set (a := fun e => x (idx e (degs nsn))). set (b := fun e => x (ln + idx e (degs nsd))%nat).
    assert (Ha : forall c, (c < ln)%nat -> x c = a (nth c (degs nsn) 0%nat)) by (intros c Hc; unfold a; rewrite idx_nth; [reflexivity|exact NDn|rewrite degs_len; exact Hc]).
    assert (Hb : forall c, (c < ld)%nat -> x (ln + c)%nat = b (nth c (degs nsd) 0%nat)) by (intros c Hc; unfold b; rewrite idx_nth; [reflexivity|exact NDd|rewrite degs_len; exact Hc]).
    destruct (HD a b) as [Za Zb].
    - intros i Hi. specialize (Hx i Hi). rewrite (row_sum i rows a b x (Hr i Hi) Ha Hb) in Hx. apply (fsub_0 KL). exact Hx.
    - intros c Hc. destruct (Nat.lt_ge_cases c ln) as [L|L].
      + rewrite Ha by exact L. apply Za. apply nth_In. rewrite degs_len. exact L.
      + replace c with (ln + (c - ln))%nat by lia. rewrite Hb by lia. apply Zb. apply nth_In. rewrite degs_len. unfold ld in *. lia.
  Qed.
  Lemma fold_terms l (T : list rterm) (x : K) : Permutation (degs l) (map fst T) -> NoDup (map fst T) ->
    fold_right (fun e s => fadd (fmul (tcoef (terms F T) e) (pw x e)) s) f0 (degs l) = fvalue T x.
  Proof.
    intros HP ND. change (fold_right (fun e s => fadd (fmul (tcoef (terms F T) e) (pw x e)) s) f0 (degs l)) with (gsum (fun e => fmul (tcoef (terms F T) e) (pw x e)) (degs l)).
    rewrite (gsum_perm _ _ _ HP), gsum_map. rewrite (gsum_ext _ (fun u : rterm => fmul (krat (snd u)) (pw x (fst u)))).
    - clear. induction T as [|[e c] T IH]; [reflexivity|]. cbn [gsum fold_right fvalue fst snd]. f_equal. exact IH.
    - intros u Hu. f_equal. apply (tcoef_in KL); [rewrite terms_fst; exact ND|]. apply (in_map (fun t => (fst t, @krat K (snd t)))) in Hu. exact Hu.
  Qed.

  (** the solution consists of the images of the coefficients *)
  Lemma solve_ok rows (N D : list rterm) : Permutation N (T1 ++ T2) -> Permutation D (S1 ++ S2) -> (0 < ln + ld)%nat ->
    (forall i, (i < ln + ld)%nat -> nth i rows [] = row i) -> (forall i, (i < ln + ld)%nat -> probe_of N D (ti i) (vi i)) ->
    determined (degs nsn) (degs nsd) ti vi (ln + ld) ->
    exists x, solve_gauss_system (ln + ld) (mat_of rows) false = Ret x /\
      (forall c, (c < ln)%nat -> x c = tcoef (terms F T2) (nth c (degs nsn) 0%nat)) /\ (forall c, (c < ld)%nat -> x (ln + c)%nat = tcoef (terms F S2) (nth c (degs nsd) 0%nat)).
  Proof.
    intros PN PD Hpos Hr HP HD. destruct (solve_gauss_ok KL (ln + ld) (mat_of rows) false Hpos (rows_nonsingular rows Hr HD)) as [x [Ex [_ Hu]]].
    exists x. split; [exact Ex|].
    set (x' := fun c => if (c <? ln)%nat then tcoef (terms F T2) (nth c (degs nsn) 0%nat) else tcoef (terms F S2) (nth (c - ln) (degs nsd) 0%nat)).
    assert (X1 : forall c, (c < ln)%nat -> x' c = tcoef (terms F T2) (nth c (degs nsn) 0%nat)) by (intros c Hc; unfold x'; destruct (Nat.ltb_spec c ln); [reflexivity|lia]).
    assert (X2 : forall c, (c < ld)%nat -> x' (ln + c)%nat = tcoef (terms F S2) (nth c (degs nsd) 0%nat)).
    { intros c Hc. unfold x'. destruct (Nat.ltb_spec (ln + c) ln); [lia|]. replace (ln + c - ln)%nat with c by lia. reflexivity. }
    assert (HS : solves (ln + ld) (mat_of rows) (fun r => mat_of rows r (ln + ld)%nat) x').
    { intros i Hi. rewrite (row_sum i rows _ _ x' (Hr i Hi) X1 X2). unfold mat_of. rewrite (Hr i Hi), row_rhs.
      rewrite (fold_terms nsn T2), (fold_terms nsd S2); try assumption; try (apply degs_perm; assumption).
      destruct (HP i Hi) as [_ E]. rewrite (fvalue_perm F _ _ (ti i) PN), (fvalue_perm F _ _ (ti i) PD), !fvalue_app in E.
      assert (E2 : fvalue T2 (ti i) = fsub (fmul (vi i) (fadd (fvalue S1 (ti i)) (fvalue S2 (ti i)))) (fvalue T1 (ti i))) by (rewrite E; ring).
      rewrite E2. ring. }
    split; intros c Hc.
    - rewrite <- (Hu x' HS c) by lia. apply X1. exact Hc.
    - rewrite <- (Hu x' HS (ln + c)%nat) by lia. apply X2. exact Hc.
  Qed.
  End System.

  Lemma combine_map {A} (l : list Z) (x : nat -> A) (h : Z -> A) : forall s, (forall c, (c < length l)%nat -> x (s + c)%nat = h (nth c l 0)) ->
    map (fun e => ([fst e], x (snd e))) (combine l (seq s (length l))) = map (fun d => ([d], h d)) l.
  Proof.
    induction l as [|d l IH]; intros s H; [reflexivity|]. cbn [length seq combine map fst snd]. f_equal.
    - f_equal. specialize (H 0%nat ltac:(cbn; lia)). rewrite Nat.add_0_r in H. exact H.
    - apply IH. intros c Hc. specialize (H (S c) ltac:(cbn; lia)). cbn [nth] in H. rewrite <- H. f_equal. lia.
  Qed.
  Lemma solution_map l (T : list rterm) : Permutation l (map (fun u => Z.of_nat (fst u)) T) -> NoDup (map fst T) ->
    Permutation (map (fun d => ([d], tcoef (terms F T) (Z.to_nat d))) l) (imgs F T).
  Proof.
    intros HP ND. apply (Permutation_map (fun d => ([d], tcoef (terms F T) (Z.to_nat d)))) in HP. apply (Permutation_trans HP). rewrite map_map. unfold imgs.
    erewrite map_ext_in; [reflexivity|]. intros u Hu. cbv beta. unfold key. rewrite Nat2Z.id. f_equal. apply (tcoef_in KL); [rewrite terms_fst; exact ND|].
    apply (in_map (fun t => (fst t, @krat K (snd t)))) in Hu. exact Hu.
  Qed.
End Rows.

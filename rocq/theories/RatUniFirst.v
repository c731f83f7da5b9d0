(** Proofs for the univariate reconstruction, part 3: the first prime *)
From Coq Require Import Znumtheory Permutation.
From Verif Require Import Machine NumTheory FFInt FFIntProofs FField FSum LinAlg LinAlgProofs FPoly PolyFF PolySpec PolyFFProofs PolyFFProofs2 Thiele ThieleSpec ThieleProofs RatNum RatNumProofs Modular ModularProofs Primes PField RatUni RatUniSpec RatUniProofs RatUniThiele.
Open Scope Z_scope.

Lemma degree_le (T : list rterm) t : In t T -> (fst t <= degree T)%nat.
Proof.
  unfold degree. induction T as [|a T IH]; cbn [map fold_right In]; [contradiction|]. intros [->|H]; [lia|]. specialize (IH H). lia.
Qed.
Lemma degree_attained (T : list rterm) : T <> [] -> exists t, In t T /\ fst t = degree T.
Proof.
  unfold degree. induction T as [|a T IH]; [congruence|]. intros _. cbn [map fold_right]. destruct T as [|b T].
  - exists a. split; [left; reflexivity|]. cbn. lia.
  - destruct (IH ltac:(discriminate)) as [t [H E]]. destruct (Nat.max_spec (fst a) (fold_right Nat.max 0%nat (map fst (b :: T)))) as [[_ ->]|[_ ->]].
    + exists t. split; [right; exact H|exact E].
    + exists a. split; [left; reflexivity|reflexivity].
Qed.

(** a term as an entry of the maps of the code *)
Definition key (t : rterm) : list Z := [Z.of_nat (fst t)].
Definition entry (t : rterm) : list Z * rn := (key t, mk_rn (fst (snd t)) (snd (snd t))).
Definition matches (m : Z) (t : rterm) (e : list Z * Z) : Prop := fst e = key t /\ residue m (snd t) (snd e).
(** T1: the terms with a fixed coefficient, T2: those known modulo m *)
Definition side (m : Z) (T : list rterm) (g : list (list Z * rn)) (c : list (list Z * Z)) (ns : list Z) (T1 T2 : list rterm) : Prop :=
  Permutation T (T1 ++ T2) /\ Permutation g (map entry T1) /\ Forall2 (matches m) T2 c /\
  Permutation ns (map (fun t => Z.of_nat (fst t)) T2) /\ (forall t, In t T1 -> guessable m (snd t)).

Lemma Forall2_flip' {A B} (R : A -> B -> Prop) l l' : Forall2 R l l' -> Forall2 (fun b a => R a b) l' l.
Proof. induction 1; constructor; assumption. Qed.
Lemma matches_reorder m T c c' : Forall2 (matches m) T c -> Permutation c' c -> exists T', Permutation T T' /\ Forall2 (matches m) T' c'.
Proof.
  intros H P. apply Forall2_flip' in H. destruct (Permutation_Forall2 (Permutation_sym P) H) as [T' [Q1 Q2]].
  exists T'. split; [exact Q1|]. apply Forall2_flip' in Q2. exact Q2.
Qed.
Lemma skipn_nth {A} (d : A) l : forall k, (k < length l)%nat -> skipn k l = nth k l d :: skipn (S k) l.
Proof. induction l as [|a l IH]; intros k Hk; cbn [length] in Hk; [lia|]. destruct k; [reflexivity|]. cbn [skipn nth]. apply IH. lia. Qed.
  Lemma deg_sum_key t : deg_sum (key t) = Z.of_nat (fst t). Proof. reflexivity. Qed.
  Lemma key_inj t t' : key t = key t' -> fst t = fst t'.
  Proof. unfold key. intros E. injection E as E. lia. Qed.
  Lemma nodup_keys T : NoDup (map fst T) -> NoDup (map key T).
  Proof.
    intros H. assert (E : map key T = map (fun z => [Z.of_nat z]) (map fst T)) by (rewrite map_map; reflexivity). rewrite E.
    apply FinFun.Injective_map_NoDup; [|exact H]. intros a b X. injection X as X. lia.
  Qed.
  Lemma afind_perm {A} (m m' : list (list Z * A)) k : Permutation m m' -> NoDup (map fst m) -> afind m k = afind m' k.
  Proof.
    intros HP ND. assert (ND' : NoDup (map fst m')) by (apply (Permutation_NoDup (Permutation_map fst HP)); exact ND).
    destruct (afind m' k) as [a|] eqn:E.
    - apply afind_In; [exact ND|]. apply (Permutation_in _ (Permutation_sym HP)). apply afind_Some. exact E.
    - apply afind_None. apply afind_None in E. intros H. apply E. apply (Permutation_in _ (Permutation_map fst HP)). exact H.
  Qed.
  Lemma add_degrees T : forall (l : list (list Z * Z)) ns, map fst l = map key T -> NoDup (map fst T) -> (forall t, In t T -> ~ In (Z.of_nat (fst t)) ns) ->
    fold_left (fun ns e => add_degree ns (fst e)) l ns = ns ++ map (fun t => Z.of_nat (fst t)) T.
  Proof.
    induction T as [|t T IH]; intros l ns E ND H.
    - destruct l; [|discriminate]. cbn. symmetry. apply app_nil_r.
    - destruct l as [|[k a] l]; [discriminate|]. cbn [map fst] in E. injection E as -> E. cbn [fold_left fst map]. inversion ND as [|? ? N1 N2]; subst.
      unfold add_degree at 2. rewrite deg_sum_key. destruct (existsb (Z.eqb (Z.of_nat (fst t))) ns) eqn:X.
      + apply existsb_exists in X as [z [I Z0]]. apply Z.eqb_eq in Z0. subst z. exfalso. exact (H t (or_introl eq_refl) I).
      + rewrite (IH l _ E N2); [rewrite <- app_assoc; reflexivity|]. intros u Hu I. apply in_app_or in I as [I|[I|[]]]; [exact (H u (or_intror Hu) I)|].
        apply N1. assert (X2 : fst t = fst u) by lia. rewrite X2. apply in_map. exact Hu.
  Qed.
  Lemma matches_keys m T c : Forall2 (matches m) T c -> map fst c = map key T.
  Proof. induction 1 as [|t e T c [E _] _ IH]; [reflexivity|]. cbn [map]. congruence. Qed.
(** the object between two primes: before the first interpolation, and with residues modulo m *)
Definition inv_none (g : rr) : Prop :=
  rr_deg g = None /\ rr_use_crt g = false /\ rr_check_interpolation g = false /\ rr_first_feed g = true /\ rr_done g = false /\
  rr_gni g = [] /\ rr_gdi g = [] /\ rr_zero_counter g = rr_prime_number g /\ 0 <= rr_prime_number g.
Definition inv_some (N D : list rterm) (d0 : nat) (m : Z) (g : rr) : Prop :=
  rr_new_prime g = true /\ rr_check_interpolation g = true /\ rr_first_feed g = true /\ rr_done g = false /\ rr_combined_prime g = m /\
  rr_deg g <> None /\ 0 <= rr_zero_counter g < rr_prime_number g /\ rr_eqn g = (length (rr_nsn g) + length (rr_nsd g))%nat /\ 2 < m /\
  exists T1 T2 S1 S2, side m N (rr_gni g) (rr_cni g) (rr_nsn g) T1 T2 /\ side m D (rr_gdi g) (rr_cdi g) (rr_nsd g) S1 S2 /\ In (d0, (1, 1)) S1.

Section First.
  Variable ord : forall A : Type, list A -> list A.
  Hypothesis Hord : forall A (l : list A), Permutation (ord A l) l.
  Variables (N D : list rterm) (d0 : nat).
  Hypothesis HR : rational_function N D d0.

  Section Field.
  Variable F : pfield.
  Local Notation K := (fld F).
  Local Notation p := (pf_mod F).
  Local Notation KL := (HK F).
  Add Field KF : (fl_field K (HK F)).

  Definition terms (T : list rterm) : list (nat * K) := map (fun t => (fst t, krat (snd t))) T.
  Lemma fvalue_terms T (x : K) : fvalue T x = tval (terms T) x.
  Proof. induction T as [|[e c] T IH]; [reflexivity|]. cbn [fvalue terms map tval fold_right fst snd]. rewrite IH. reflexivity. Qed.
  Lemma terms_fst T : map fst (terms T) = map fst T.
  Proof. unfold terms. rewrite map_map. reflexivity. Qed.
  Lemma fvalue_perm T T' (x : K) : Permutation T T' -> fvalue T x = fvalue T' x.
  Proof.
    induction 1 as [|[e c] T T' _ IH|[e c] [e' c'] T|? ? ? _ IH1 _ IH2]; cbn [fvalue]; [reflexivity|rewrite IH; reflexivity|ring|congruence].
  Qed.
  Lemma fvalue_app T T' (x : K) : fvalue (T ++ T') x = fadd (fvalue T x) (fvalue T' x).
  Proof. induction T as [|[e c] T IH]; cbn [fvalue app]; [ring|]. rewrite IH. ring. Qed.

  Definition pts (i : nat) : K := nsum i.
  Lemma pts_distinct k : Z.of_nat k <= p -> distinct k pts.
  Proof.
    intros H i j Hi Hj E. apply (f_equal kv) in E. unfold pts in E. rewrite !kv_nsum in E. rewrite !Z.mod_small in E by lia. lia.
  Qed.

  Lemma fvalue_polyfun T : @polyfun K (S (degree T)) (fvalue T).
  Proof.
    exists (tcoef (terms T)). intros x. rewrite fvalue_terms. apply (tval_ueval KL). intros t Ht. unfold terms in Ht.
    apply in_map_iff in Ht as [u [<- Hu]]. cbn [fst]. apply degree_le. exact Hu.
  Qed.
  Lemma fvalue_lead T : T <> [] -> NoDup (map fst T) -> (forall t, In t T -> @krat K (snd t) <> f0) ->
    exists (c : K) h, c <> f0 /\ polyfun (degree T) h /\ forall x, fvalue T x = fadd (h x) (fmul c (pw x (degree T))).
  Proof.
    intros HT ND HZ. exists (tcoef (terms T) (degree T)), (ueval (degree T) (tcoef (terms T))). split; [|split].
    - destruct (degree_attained T HT) as [t [Ht E]]. rewrite (tcoef_in KL (terms T) (degree T) (krat (snd t))).
      + apply HZ. exact Ht.
      + rewrite terms_fst. exact ND.
      + rewrite <- E. apply (in_map (fun t => (fst t, @krat K (snd t)))) in Ht. exact Ht.
    - exists (tcoef (terms T)). reflexivity.
    - intros x. rewrite fvalue_terms, (tval_ueval KL _ (degree T)); [apply ueval_S|]. intros t Ht. unfold terms in Ht.
      apply in_map_iff in Ht as [u [<- Hu]]. cbn [fst]. apply degree_le. exact Hu.
  Qed.

  Section Prime.
  Variable pr : list (Z * Z).
  Hypothesis HF : first_prime N D F pr.
  Let y := arg F pr.
  Let f := value F pr.
  Let n := thiele_points N D.

  Lemma krat_nz t : In t (N ++ D) -> @krat K (snd t) <> f0.
  Proof.
    intros Ht E. destruct HF as [H _]. destruct (H t Ht) as [H1 H2]. apply (krat_0 F _ H2) in E. contradiction.
  Qed.
  Lemma n_pos : (0 < n)%nat. Proof. unfold n, thiele_points. lia. Qed.
  Lemma n_bound : Z.of_nat n < 2 ^ 32.
  Proof.
    destruct HR as [HN [_ [_ [HB [HD _]]]]]. destruct (degree_attained N HN) as [t [Ht Et]].
    assert (HDn : D <> []) by (intros E; rewrite E in HD; contradiction). destruct (degree_attained D HDn) as [u [Hu Eu]].
    pose proof (proj2 (proj2 (HB t (in_or_app _ _ _ (or_introl Ht))))) as B1. pose proof (proj2 (proj2 (HB u (in_or_app _ _ _ (or_intror Hu))))) as B2.
    rewrite Et in B1. rewrite Eu in B2. unfold n, thiele_points. change (2 ^ 32) with (2 * 2 ^ 31). lia.
  Qed.
  Lemma dist_n : distinct n y.
  Proof. destruct HF as [_ [_ [_ [_ [_ [_ [H _]]]]]]]. intros i j Hi Hj E. apply (H i j); [unfold n in *; lia|unfold n in *; lia|exact E]. Qed.
  Lemma nobreak : no_breakdown y f n. Proof. apply HF. Qed.
  Lemma probe_eq i : (i < length pr)%nat -> fvalue D (y i) <> f0 /\ fmul (f i) (fvalue D (y i)) = fvalue N (y i).
  Proof. intros H. destruct HF as [_ [_ [_ [HP _]]]]. apply HP. exact H. Qed.
  Lemma len_pr : (n < length pr)%nat. Proof. apply HF. Qed.

  Lemma half_n : (degree N <= n / 2 <= Nat.max (degree N) (degree D))%nat /\ (degree D <= (n - 1) / 2 <= Nat.max (degree N) (degree D))%nat /\
    ((n / 2 <= degree N)%nat \/ ((n - 1) / 2 <= degree D)%nat).
  Proof.
    unfold n, thiele_points. set (a := degree N). set (b := degree D). destruct (Nat.le_gt_cases a b) as [L|L].
    - rewrite Nat.max_r by lia. assert (E1 : ((2 * b + 1) / 2 = b)%nat) by (symmetry; apply (Nat.div_unique _ 2 b 1); lia).
      replace (2 * b + 1 - 1)%nat with (2 * b)%nat by lia. assert (E2 : (2 * b / 2 = b)%nat) by (symmetry; apply (Nat.div_unique _ 2 b 0); lia).
      rewrite E1, E2. lia.
    - rewrite Nat.max_l by lia. assert (E2 : (2 * a / 2 = a)%nat) by (symmetry; apply (Nat.div_unique _ 2 a 0); lia).
      assert (E1 : ((2 * a - 1) / 2 = a - 1)%nat) by (symmetry; apply (Nat.div_unique _ 2 (a - 1) 1); lia). rewrite E1, E2. lia.
  Qed.

  (** the polynomials of the continued fraction are numerator and denominator up to a factor *)
  Lemma thiele_result : exists w : K, w <> f0 /\ (forall x, P y f n 0 x = fmul w (fvalue N x)) /\ (forall x, P y f n 1 x = fmul w (fvalue D x)).
  Proof.
    destruct half_n as [[A1 A2] [[B1 B2] AB]]. pose proof HR as [HN [NN [ND [_ [HD _]]]]].
    destruct HF as [_ [HP [[U [V [HU [HV UV]]]] _]]].
    assert (C : forall x, fmul (P y f n 0 x) (fvalue D x) = fmul (fvalue N x) (P y f n 1 x)).
    { apply (P_complete KL y f n n_pos dist_n nobreak).
      - apply (polyfun_le KL (S (degree N))); [lia|apply fvalue_polyfun].
      - apply (polyfun_le KL (S (degree D))); [lia|apply fvalue_polyfun].
      - intros i Hi. apply probe_eq. pose proof len_pr. lia. }
    set (W := fun x => fadd (fmul (U x) (P y f n 0 x)) (fmul (V x) (P y f n 1 x))).
    assert (E0 : forall x, P y f n 0 x = fmul (fvalue N x) (W x)).
    { intros x. transitivity (fmul (P y f n 0 x) (fadd (fmul (U x) (fvalue N x)) (fmul (V x) (fvalue D x)))); [rewrite UV; ring|].
      transitivity (fadd (fmul (fmul (U x) (fvalue N x)) (P y f n 0 x)) (fmul (V x) (fmul (P y f n 0 x) (fvalue D x)))); [ring|]. rewrite C. unfold W. ring. }
    assert (E1 : forall x, P y f n 1 x = fmul (fvalue D x) (W x)).
    { intros x. transitivity (fmul (P y f n 1 x) (fadd (fmul (U x) (fvalue N x)) (fmul (V x) (fvalue D x)))); [rewrite UV; ring|].
      transitivity (fadd (fmul (U x) (fmul (fvalue N x) (P y f n 1 x))) (fmul (fmul (V x) (fvalue D x)) (P y f n 1 x))); [ring|]. rewrite <- C. unfold W. ring. }
    set (w := (degree N + degree D + Nat.max (degree N) (degree D))%nat).
    assert (HW : polyfun (S w) W).
    { pose proof (P_polyfun KL y f n n_pos 0) as P0. rewrite Nat.sub_0_r in P0. pose proof (P_polyfun KL y f n n_pos 1) as P1. apply (polyfun_add KL).
      - apply (polyfun_le KL (degree D + S (n / 2))); [unfold w; lia|]. apply (polyfun_mul KL); [exact HU|exact P0].
      - apply (polyfun_le KL (degree N + S ((n - 1) / 2))); [unfold w; lia|]. apply (polyfun_mul KL); [exact HV|exact P1]. }
    assert (HDn : D <> []) by (intros E; rewrite E in HD; contradiction).
    assert (HC : exists k, forall x, W x = k).
    { destruct AB as [AB|AB].
      - destruct (fvalue_lead N HN NN) as [c [h [Hc [Hh Eh]]]]; [intros t Ht; apply krat_nz; apply in_or_app; left; exact Ht|].
        apply (constant_factor KL (degree N) c h (P y f n 0) pts w W Hc Hh).
        + pose proof (P_polyfun KL y f n n_pos 0) as P0. rewrite Nat.sub_0_r in P0. apply (polyfun_le KL (S (n / 2))); [lia|exact P0].
        + exact HW.
        + apply pts_distinct. unfold w. lia.
        + intros x. rewrite <- Eh. symmetry. apply E0.
      - destruct (fvalue_lead D HDn ND) as [c [h [Hc [Hh Eh]]]]; [intros t Ht; apply krat_nz; apply in_or_app; right; exact Ht|].
        apply (constant_factor KL (degree D) c h (P y f n 1) pts w W Hc Hh).
        + pose proof (P_polyfun KL y f n n_pos 1) as P1. apply (polyfun_le KL (S ((n - 1) / 2))); [lia|exact P1].
        + exact HW.
        + apply pts_distinct. unfold w. lia.
        + intros x. rewrite <- Eh. symmetry. apply E1. }
    destruct HC as [k Hk]. exists k. split; [|split].
    - intros Z. apply (P_last KL y f n n_pos dist_n nobreak). rewrite E1, Hk, Z. ring.
    - intros x. rewrite E0, Hk. ring.
    - intros x. rewrite E1, Hk. ring.
  Qed.

  Definition scaled (w : K) (T : list rterm) : list (nat * K) := map (fun t => (fst t, fmul w (krat (snd t)))) T.
  Lemma scaled_value w T x : tval (scaled w T) x = fmul w (fvalue T x).
  Proof.
    induction T as [|[e c] T IH]; [symmetry; apply (fmul_zero_r KL)|]. change (tval (scaled w ((e, c) :: T)) x) with (fadd (fmul (fmul w (krat c)) (pw x e)) (tval (scaled w T) x)).
    rewrite IH. cbn [fvalue]. ring.
  Qed.

  Lemma scaled_unique w T (a : polyff K) d g : w <> f0 -> uniz a d g -> Z.of_nat (S d) <= p -> NoDup (map fst T) ->
    (forall t, In t T -> (fst t <= d)%nat /\ @krat K (snd t) <> f0) -> (forall x, g x = fmul w (fvalue T x)) ->
    Permutation (pf_coefs a) (as_map (scaled w T)).
  Proof.
    intros Hw HU Hp ND HT HG. apply (map_unique KL (pf_coefs a) d g _ pts).
    - destruct HU as [[H1 H2] H3]. split; [split; [reflexivity|exact H2]|exact H3].
    - apply pts_distinct. exact Hp.
    - unfold scaled. rewrite map_map. exact ND.
    - intros t Ht. unfold scaled in Ht. apply in_map_iff in Ht as [u [<- Hu]]. cbn [fst snd]. destruct (HT u Hu). split; [assumption|]. apply (fmul_neq0 KL); assumption.
    - intros x. rewrite HG, scaled_value. reflexivity.
  Qed.

  (** the result of the interpolation *)
  Lemma thiele_maps m : (n - 1 <= m)%nat -> exists w nu de, w <> f0 /\ thiele_canonical (ord _) (alist y f n) (tlist y m) = (nu, de) /\
    Permutation (pf_coefs nu) (as_map (scaled w N)) /\ Permutation (pf_coefs de) (as_map (scaled w D)).
  Proof.
    intros Hm. destruct thiele_result as [w [Hw [E0 E1]]]. pose proof HF as [_ [HP [_ [_ [_ [Hf [_ [Hy _]]]]]]]].
    pose proof (canonicalz KL (ord _) (Hord _) y f n n_pos n_bound dist_n nobreak) as C. specialize (C ltac:(intros i Hi; apply Hy; unfold n in *; lia) Hf m Hm).
    cbn zeta in C. destruct (thiele_canonical (ord _) (alist y f n) (tlist y m)) as [nu de]. cbn [fst snd] in C. destruct C as [C0 C1].
    destruct half_n as [[A1 A2] [[B1 B2] AB]]. pose proof HR as [HN [NN [ND [_ [HD _]]]]].
    exists w, nu, de. split; [exact Hw|]. split; [reflexivity|]. split.
    - apply (scaled_unique w N nu (n / 2) (P y f n 0)); [exact Hw|exact C0|lia|exact NN| |exact E0].
      intros t Ht. split; [pose proof (degree_le N t Ht); lia|]. apply krat_nz. apply in_or_app. left. exact Ht.
    - apply (scaled_unique w D de ((n - 1) / 2) (P y f n 1)); [exact Hw|exact C1|lia|exact ND| |exact E1].
      intros t Ht. split; [pose proof (degree_le D t Ht); lia|]. apply krat_nz. apply in_or_app. right. exact Ht.
  Qed.

  Lemma last_point : continued_fraction y f 0 (n - 1) (y n) = f n.
  Proof.
    destruct thiele_result as [w [Hw [E0 E1]]]. destruct (probe_eq n len_pr) as [Z E].
    destruct (P_prediction KL y f n n_pos (y n)) as [E2 NZ]; [apply HF|]. rewrite E0, <- E, E1 in E2. rewrite E1 in NZ.
    apply (fmul_cancel KL (fmul w (fvalue D (y n)))); [exact NZ|].
    transitivity (fmul (continued_fraction y f 0 (n - 1) (y n)) (fmul w (fvalue D (y n)))); [ring|]. rewrite <- E2. ring.
  Qed.
  Lemma thiele_step k : add_point (st y f k) (f k) (y k) =
    Ret (if Nat.eqb k n then (true, mk_thiele (alist y f n) (tlist y (S n))) else (false, st y f (S k))) \/ (n < k)%nat.
  Proof.
    destruct (Nat.lt_ge_cases n k) as [L|L]; [right; exact L|left]. rewrite (add_point_spec KL).
    destruct (Nat.eqb_spec k 0) as [->|Z]; [destruct (Nat.eqb_spec 0 n) as [E|_]; [pose proof n_pos; lia|reflexivity]|].
    destruct (Nat.eqb_spec k n) as [->|Z'].
    - rewrite last_point, (feqb_refl KL). reflexivity.
    - assert (E : feqb (f k) (continued_fraction y f 0 (k - 1) (y k)) = false).
      { apply (feqb_neq KL). intros E. symmetry in E. revert E. apply (no_early_stop KL y f n k dist_n nobreak); lia. }
      rewrite E. reflexivity.
  Qed.

  (** ---- from the result of the interpolation to the state of the next prime ---- *)
  Definition imgs (T : list rterm) : list (list Z * K) := map (fun t => (key t, krat (snd t))) T.

  Lemma max_min_fold (l : list (list Z * K)) : forall mx mn, exists mx' mn',
    fold_left (fun acc kc =>
        match acc with
        | None => Some (fst kc, fst kc)
        | Some (mx, mn) => Some (if deg_sum mx <=? deg_sum (fst kc) then fst kc else mx, if deg_sum (fst kc) <=? deg_sum mn then fst kc else mn)
        end) l (Some (mx, mn)) = Some (mx', mn') /\ In mn' (mn :: map fst l) /\ forall k, In k (mn :: map fst l) -> deg_sum mn' <= deg_sum k.
  Proof.
    induction l as [|[k c] l IH]; intros mx mn.
    - exists mx, mn. split; [reflexivity|]. split; [left; reflexivity|]. intros k [<-|[]]. lia.
    - cbn [fold_left fst map]. destruct (IH (if deg_sum mx <=? deg_sum k then k else mx) (if deg_sum k <=? deg_sum mn then k else mn)) as [mx' [mn' [E [I L]]]].
      exists mx', mn'. split; [exact E|]. split.
      + destruct I as [I|I]; [|right; right; exact I]. destruct (deg_sum k <=? deg_sum mn); [right; left; exact I|left; exact I].
      + intros k' [<-|[<-|H]].
        * pose proof (L _ (or_introl eq_refl)) as X. destruct (Z.leb_spec (deg_sum k) (deg_sum mn)); lia.
        * pose proof (L _ (or_introl eq_refl)) as X. destruct (Z.leb_spec (deg_sum k) (deg_sum mn)); lia.
        * apply L. right. exact H.
  Qed.
  Lemma max_min_ok (m : list (list Z * K)) : m <> [] -> exists mx mn, max_min_deg ord F m = Some (mx, mn) /\ In mn (map fst m) /\ forall k, In k (map fst m) -> deg_sum mn <= deg_sum k.
  Proof.
    intros H. unfold max_min_deg. pose proof (Permutation_map fst (Hord _ m)) as HP. destruct (ord _ m) as [|[k c] l] eqn:E.
    - pose proof (Hord _ m) as X. rewrite E in X. apply Permutation_nil in X. contradiction.
    - cbn [fold_left fst]. destruct (max_min_fold l k k) as [mx [mn [E' [I L]]]]. exists mx, mn. split; [exact E'|]. cbn [map fst] in HP. split.
      + apply (Permutation_in _ HP). exact I.
      + intros k' Hk. apply L. apply (Permutation_in _ (Permutation_sym HP)). exact Hk.
  Qed.
  Lemma scaled_keys w T : map fst (as_map (scaled w T)) = map key T.
  Proof. unfold as_map, scaled. rewrite !map_map. reflexivity. Qed.
  Lemma scale_back w T (m : polyff K) : w <> f0 -> Permutation (pf_coefs m) (as_map (scaled w T)) ->
    Permutation (pf_coefs (pscale m (fdiv f1 w))) (imgs T).
  Proof.
    intros Hw H. cbn [pscale pf_coefs].
    assert (E : imgs T = map (fun kc => (fst kc, fmul (snd kc) (fdiv f1 w))) (as_map (scaled w T))).
    { unfold imgs, as_map, scaled. rewrite !map_map. apply map_ext. intros t. cbn [fst snd]. unfold key. f_equal. field. exact Hw. }
    rewrite E. apply Permutation_map. exact H.
  Qed.

  Lemma canonical_ok w (nu de : polyff K) g : w <> f0 -> Permutation (pf_coefs nu) (as_map (scaled w N)) -> Permutation (pf_coefs de) (as_map (scaled w D)) ->
    exists dg numer denom, canonical_form ord F g nu de = Ret (mk_rr (rr_prime_number g) (rr_new_prime g) (rr_check_interpolation g) (rr_first_feed g) (rr_zero_counter g) (rr_done g) (rr_use_crt g)
                 (rr_combined_prime g) (rr_cni g) (rr_cdi g) (rr_gni g) (rr_gdi g) (rr_nsn g) (rr_nsd g) (Some dg) [Z.of_nat d0] (rr_eqn g), numer, denom) /\
      Permutation numer (imgs N) /\ Permutation denom (imgs D).
  Proof.
    intros Hw HN HD. pose proof HR as [NN [NDN [NDD [_ [H0 Hmin]]]]]. unfold canonical_form.
    assert (KN : Permutation (map fst (pf_coefs nu)) (map key N)) by (rewrite <- (scaled_keys w N); apply Permutation_map; exact HN).
    assert (KD : Permutation (map fst (pf_coefs de)) (map key D)) by (rewrite <- (scaled_keys w D); apply Permutation_map; exact HD).
    destruct (max_min_ok (pf_coefs nu)) as [mxn [mnn [-> _]]].
    { intros E. rewrite E in KN. cbn in KN. apply Permutation_nil in KN. destruct N; [congruence|discriminate]. }
    destruct (max_min_ok (pf_coefs de)) as [mxd [mnd [-> [I L]]]].
    { intros E. rewrite E in KD. cbn in KD. apply Permutation_nil in KD. destruct D; [contradiction|discriminate]. }
    assert (E : mnd = [Z.of_nat d0]).
    { apply (Permutation_in _ KD) in I. apply in_map_iff in I as [t [<- Ht]].
      assert (X : deg_sum (key t) <= deg_sum (key (d0, (1, 1)))) by (apply L; apply (Permutation_in _ (Permutation_sym KD)); apply in_map; exact H0).
      rewrite !deg_sum_key in X. cbn [fst] in X. specialize (Hmin t Ht). unfold key. f_equal. lia. }
    subst mnd.
    assert (A : afind (pf_coefs de) [Z.of_nat d0] = Some w).
    { rewrite (afind_perm _ _ _ HD).
      - apply afind_In; [rewrite scaled_keys; apply nodup_keys; exact NDD|]. unfold as_map, scaled. rewrite map_map.
        apply in_map_iff. exists (d0, (1, 1)). split; [|exact H0]. cbn [fst snd]. rewrite krat_1. f_equal. ring.
      - apply (Permutation_NoDup (Permutation_sym KD)). apply nodup_keys. exact NDD. }
    rewrite A. eexists _, _, _. split; [reflexivity|]. split; apply scale_back; assumption.
  Qed.

  Definition others (T : list rterm) : list rterm := filter (fun t => negb (Nat.eqb (fst t) d0)) T.
  Lemma key_norm t : mon_eqb (key t) [Z.of_nat d0] = Nat.eqb (fst t) d0.
  Proof.
    destruct (Nat.eqb_spec (fst t) d0) as [E|E]; [unfold key; rewrite E; apply mon_eqb_refl|]. apply mon_eqb_neq. unfold key. intros X. injection X as X. lia.
  Qed.
  Lemma norm_fold T : forall (l c : list (list Z * Z)) (gd : list (list Z * rn)) ns, map fst l = map key T -> NoDup (map fst T) -> (forall t, In t T -> ~ In (Z.of_nat (fst t)) ns) ->
    fold_left (fun s e =>
          let '(c, gd, ns) := s in
          if mon_eqb (fst e) [Z.of_nat d0] then (aerase c (fst e), aset gd (fst e) (mk_rn 1 1), ns) else (c, gd, add_degree ns (fst e)))
        l (c, gd, ns) =
    (if in_dec Nat.eq_dec d0 (map fst T) then aerase c [Z.of_nat d0] else c, if in_dec Nat.eq_dec d0 (map fst T) then aset gd [Z.of_nat d0] (mk_rn 1 1) else gd,
     ns ++ map (fun t => Z.of_nat (fst t)) (others T)).
  Proof.
    induction T as [|t T IH]; intros l c gd ns E ND H.
    - destruct l; [|discriminate]. cbn. rewrite app_nil_r. reflexivity.
    - destruct l as [|[k a] l]; [discriminate|]. cbn [map fst] in E. injection E as -> E. cbn [fold_left fst map]. inversion ND as [|? ? N1 N2]; subst.
      rewrite key_norm. unfold others. cbn [filter]. fold (others T). destruct (Nat.eqb_spec (fst t) d0) as [E0|E0].
      + cbn [negb]. rewrite (IH l _ _ _ E N2) by (intros u Hu; apply H; right; exact Hu).
        destruct (in_dec Nat.eq_dec d0 (map fst T)) as [I|_]; [rewrite <- E0 in I; contradiction|].
        destruct (in_dec Nat.eq_dec d0 (fst t :: map fst T)) as [_|I]; [|exfalso; apply I; left; exact E0].
        unfold key. rewrite E0. reflexivity.
      + cbn [negb map]. unfold add_degree at 2. rewrite deg_sum_key. destruct (existsb (Z.eqb (Z.of_nat (fst t))) ns) eqn:X.
        * apply existsb_exists in X as [z [I Z0]]. apply Z.eqb_eq in Z0. subst z. exfalso. exact (H t (or_introl eq_refl) I).
        * rewrite (IH l _ _ _ E N2).
          -- rewrite <- app_assoc. cbn [app]. destruct (in_dec Nat.eq_dec d0 (map fst T)) as [I|I]; destruct (in_dec Nat.eq_dec d0 (fst t :: map fst T)) as [I'|I']; try reflexivity.
             ++ exfalso. apply I'. right. exact I.
             ++ exfalso. destruct I' as [I'|I']; congruence.
          -- intros u Hu I. apply in_app_or in I as [I|[I|[]]]; [exact (H u (or_intror Hu) I)|].
             apply N1. assert (X2 : fst t = fst u) by lia. rewrite X2. apply in_map. exact Hu.
  Qed.
  Lemma others_perm T c : NoDup (map fst T) -> In (d0, c) T -> Permutation T ((d0, c) :: others T).
  Proof.
    induction T as [|t T IH]; [contradiction|]. cbn [map]. intros ND H. inversion ND as [|? ? N1 N2]; subst. destruct H as [->|H].
    - unfold others. cbn [filter fst]. rewrite Nat.eqb_refl. cbn [negb]. constructor. fold (others T).
      assert (E : others T = T); [|rewrite E; reflexivity]. unfold others. clear IH ND N2. cbn [fst] in N1. induction T as [|u T IH]; [reflexivity|]. cbn [filter map In] in *.
      destruct (Nat.eqb_spec (fst u) d0); [tauto|]. cbn [negb]. f_equal. apply IH. tauto.
    - unfold others. cbn [filter]. destruct (Nat.eqb_spec (fst t) d0) as [E|E]; [exfalso; apply N1; rewrite E; apply (in_map fst) in H; exact H|]. cbn [negb]. fold (others T).
      rewrite perm_swap. constructor. apply IH; assumption.
  Qed.
  Lemma matches_others m T : forall c, Forall2 (matches m) T c -> Forall2 (matches m) (others T) (aerase c [Z.of_nat d0]).
  Proof.
    induction T as [|t T IH]; intros c H; inversion H as [|? e ? c' M H']; subst; [constructor|]. unfold others, aerase. cbn [filter].
    destruct M as [E M]. assert (X : mon_eqb [Z.of_nat d0] (fst e) = Nat.eqb (fst t) d0).
    { rewrite E. destruct (Nat.eqb_spec (fst t) d0) as [Q|Q]; [unfold key; rewrite Q; apply mon_eqb_refl|]. apply mon_eqb_neq. unfold key. intros Y. injection Y as Y. lia. }
    rewrite X. destruct (Nat.eqb (fst t) d0); cbn [negb]; [apply IH; exact H'|]. constructor; [split; assumption|apply IH; exact H'].
  Qed.

  Lemma krat_matches T (m : list (list Z * K)) : Permutation m (imgs T) -> (forall t, In t T -> ~ (p | snd (snd t))) ->
    exists T', Permutation T T' /\ Forall2 (matches p) T' (convert_to_mpz ord F m).
  Proof.
    intros HP HT. unfold convert_to_mpz. pose proof (Permutation_trans (Hord _ m) HP) as Q.
    assert (G : Forall2 (fun e t => matches p t (fst e, kv (snd e))) (imgs T) T).
    { clear HP Q. unfold imgs. induction T as [|t T IH]; cbn [map]; [constructor|]. constructor; [|apply IH; intros u Hu; apply HT; right; exact Hu].
      cbn [fst snd]. split; [reflexivity|]. split; [apply kv_range|]. cbn [snd]. apply krat_residue. apply HT. left. reflexivity. }
    destruct (Permutation_Forall2 (Permutation_sym Q) G) as [T' [P1 P2]]. exists T'. split; [exact P1|].
    clear - P2. induction P2; cbn [map]; constructor; assumption.
  Qed.

  Lemma combine_first_ok g (numer denom : list (list Z * K)) : rr_use_crt g = false -> rr_norm g = [Z.of_nat d0] -> rr_gni g = [] -> rr_gdi g = [] ->
    rr_done g = false -> rr_deg g <> None -> 0 <= rr_zero_counter g < rr_prime_number g + 1 -> rr_prime_number g + 1 < 300 ->
    Permutation numer (imgs N) -> Permutation denom (imgs D) ->
    exists g', combine_primes ord F g numer denom = Ret g' /\ inv_some N D d0 p g' /\ rr_prime_number g' = rr_prime_number g + 1.
  Proof.
    intros Hc Hno Hgn Hgd Hdone Hdeg Hz H300 HN HD. pose proof HR as [NN [NDN [NDD [_ [H0 Hmin]]]]]. pose proof (p_gt1 F) as P1.
    unfold combine_primes. rewrite Hc. unfold next_prime_rr, combine_first. rewrite Hno, Hgn, Hgd.
    pose proof HF as [HB _].
    destruct (krat_matches N numer HN) as [TN [PN MN]]; [intros t Ht; apply HB; apply in_or_app; left; exact Ht|].
    destruct (krat_matches D denom HD) as [TD [PD MD]]; [intros t Ht; apply HB; apply in_or_app; right; exact Ht|].
    set (cni := convert_to_mpz ord F numer) in *. set (cdi := convert_to_mpz ord F denom) in *.
    (* the maps in iteration order *)
    pose proof (matches_reorder _ _ _ _ MN (Hord _ cni)) as GN. pose proof (matches_reorder _ _ _ _ MD (Hord _ cdi)) as GD.
    destruct GN as [TN' [PN' MN']], GD as [TD' [PD' MD']].
    assert (NDN' : NoDup (map fst TN')) by (apply (Permutation_NoDup (Permutation_map fst (Permutation_trans PN PN'))); exact NDN).
    assert (NDD' : NoDup (map fst TD')) by (apply (Permutation_NoDup (Permutation_map fst (Permutation_trans PD PD'))); exact NDD).
    assert (NDDt : NoDup (map fst TD)) by (apply (Permutation_NoDup (Permutation_map fst PD)); exact NDD).
    rewrite (add_degrees TN' (ord _ cni) [] (matches_keys _ _ _ MN') NDN') by (intros t _ []).
    rewrite (norm_fold TD' (ord _ cdi) cdi [] [] (matches_keys _ _ _ MD') NDD') by (intros t _ []).
    assert (I0 : In (d0, (1, 1)) TD') by (apply (Permutation_in _ (Permutation_trans PD PD')); exact H0).
    destruct (in_dec Nat.eq_dec d0 (map fst TD')) as [_|I]; [|exfalso; apply I; apply (in_map fst) in I0; exact I0].
    cbn [rr_prime_number rr_new_prime rr_check_interpolation rr_first_feed rr_zero_counter rr_done rr_use_crt rr_combined_prime rr_cni rr_cdi rr_gni rr_gdi rr_nsn rr_nsd rr_deg rr_norm rr_eqn app].
    destruct (Z.eqb_spec (rr_prime_number g + 1) 300) as [X|_]; [lia|]. eexists. split; [reflexivity|]. split; [|reflexivity].
    unfold inv_some. cbn [rr_prime_number rr_new_prime rr_check_interpolation rr_first_feed rr_zero_counter rr_done rr_use_crt rr_combined_prime rr_cni rr_cdi rr_gni rr_gdi rr_nsn rr_nsd rr_deg rr_norm rr_eqn].
    do 3 (split; [reflexivity|]). split; [exact Hdone|]. split; [reflexivity|]. split; [exact Hdeg|]. split; [exact Hz|]. split; [reflexivity|]. split; [destruct HF as [_ [X _]]; lia|].
    exists [], TN, [(d0, (1, 1))], (others TD). split; [|split; [|left; reflexivity]].
    - split; [exact PN|]. split; [reflexivity|]. split; [exact MN|]. split.
      + eapply Permutation_trans; [apply Hord|]. apply Permutation_map. apply Permutation_sym. exact PN'.
      + intros t [].
    - split; [apply (Permutation_trans PD); cbn [app]; apply others_perm; [exact NDDt|apply (Permutation_in _ PD); exact H0]|].
      split; [reflexivity|]. split; [apply matches_others; exact MD|]. split.
      + eapply Permutation_trans; [apply Hord|]. apply Permutation_map. unfold others. apply Permutation_sym.
        clear - PD'. induction PD' as [|t l l' _ IH|t u l|? ? ? _ IH1 _ IH2]; cbn [filter]; [constructor| | |eapply Permutation_trans; eassumption].
        * destruct (negb _); [constructor|]; exact IH.
        * destruct (negb (Nat.eqb (fst t) d0)), (negb (Nat.eqb (fst u) d0)); try reflexivity. apply perm_swap.
      + intros t [<-|[]]. split; [split; [cbn; lia|reflexivity]|]. cbn [fst snd]. lia.
  Qed.

  Lemma nth_skipn k : (k < length pr)%nat -> skipn k pr = nth k pr (0, 0) :: skipn (S k) pr.
  Proof. apply skipn_nth. Qed.
  Definition thiele_work (k : nat) : work F := mk_work F (st y f k) [] [] [] [] [].
  Lemma feed_thiele g : rr_first_feed g = false -> rr_new_prime g = false -> rr_deg g = None -> rr_use_crt g = false -> rr_gni g = [] -> rr_gdi g = [] ->
    rr_done g = false -> 0 <= rr_zero_counter g < rr_prime_number g + 1 -> rr_prime_number g + 1 < 300 ->
    forall j k, (k + j = n)%nat ->
    exists g', feed_all ord F g (thiele_work k) (skipn k pr) = Ret (NextPrime F g') /\ inv_some N D d0 p g' /\ rr_prime_number g' = rr_prime_number g + 1.
  Proof.
    intros H1 H2 H3 H4 H5 H6 H7 H8 H9. pose proof len_pr as HL. induction j as [|j IH]; intros k Hk.
    - assert (k = n) by lia. subst k. rewrite (nth_skipn n HL). destruct (nth n pr (0, 0)) as [t v] eqn:En. cbn [feed_all].
      assert (Et : fofZ t = y n) by (unfold y, arg; rewrite En; reflexivity). assert (Ev : fofZ v = f n) by (unfold f, value; rewrite En; reflexivity). rewrite Et, Ev.
      unfold feed, interpolate. rewrite H7, H1, H2. cbn [obind]. rewrite H3. cbn [w_th thiele_work].
      destruct (thiele_step n) as [E|X]; [|lia]. rewrite E, Nat.eqb_refl. clear E. cbn [obind fst snd w_th]. unfold get_result. cbn [th_t th_a].
      destruct (tlist y (S n)) as [|t0 tl] eqn:Etl; [apply (f_equal (@length _)) in Etl; rewrite tlist_len in Etl; discriminate|]. rewrite <- Etl. clear t0 tl Etl.
      rewrite tlist_S, removelast_last. destruct (thiele_maps n ltac:(lia)) as [w [nu [de [Hw [-> [PN PD]]]]]]. cbn [obind fst snd].
      destruct (canonical_ok w nu de g Hw PN PD) as [dg [numer [denom [-> [QN QD]]]]]. cbn [obind].
      match goal with |- context [combine_primes ord F ?gg numer denom] => destruct (combine_first_ok gg numer denom) as [g' [-> G]]; try assumption; try reflexivity; try discriminate end.
      cbn [obind]. exists g'. split; [reflexivity|exact G].
    - assert (Lk : (k < length pr)%nat) by lia. rewrite (nth_skipn k Lk). destruct (nth k pr (0, 0)) as [t v] eqn:En. cbn [feed_all].
      assert (Et : fofZ t = y k) by (unfold y, arg; rewrite En; reflexivity). assert (Ev : fofZ v = f k) by (unfold f, value; rewrite En; reflexivity). rewrite Et, Ev.
      unfold feed, interpolate. rewrite H7, H1, H2. cbn [obind]. rewrite H3. cbn [w_th thiele_work].
      destruct (thiele_step k) as [E|X]; [|lia]. rewrite E. destruct (Nat.eqb_spec k n) as [X|_]; [lia|]. cbn [obind fst snd w_sn w_sd w_subn w_subd w_mat].
      apply (IH (S k)). lia.
  Qed.

  Lemma first_prime_ok g : inv_none g -> rr_prime_number g + 1 < 300 ->
    exists g', feed_all ord F g (work_start F) pr = Ret (NextPrime F g') /\ inv_some N D d0 p g' /\ rr_prime_number g' = rr_prime_number g + 1.
  Proof.
    intros [H1 [H2 [H3 [H4 [H5 [H6 [H7 [H8 H9]]]]]]]] H300. pose proof len_pr as HL. change pr with (skipn 0 pr) at 1.
    rewrite (nth_skipn 0) by lia. destruct (nth 0 pr (0, 0)) as [t v] eqn:En. cbn [feed_all].
    assert (Et : fofZ t = y 0%nat) by (unfold y, arg; rewrite En; reflexivity). assert (Ev : fofZ v = f 0%nat) by (unfold f, value; rewrite En; reflexivity). rewrite Et, Ev.
    unfold feed. rewrite H5, H4. assert (Z : feqb (f 0%nat) f0 = false) by (apply (feqb_neq KL); apply HF). rewrite Z, H3.
    unfold interpolate. cbn [rr_new_prime obind rr_deg]. rewrite H1. cbn [w_th work_start]. destruct (thiele_step 0) as [E|X]; [|lia].
    change (@thiele_init K) with (st y f 0). rewrite E. destruct (Nat.eqb_spec 0 n) as [X|_]; [pose proof n_pos; lia|]. cbn [obind fst snd w_sn w_sd w_subn w_subd w_mat].
    match goal with |- context [feed_all ord F ?gg _ _] => apply (feed_thiele gg) with (k := 1%nat) (j := (n - 1)%nat) end;
      cbn [rr_prime_number rr_new_prime rr_check_interpolation rr_first_feed rr_zero_counter rr_done rr_use_crt rr_combined_prime rr_cni rr_cdi rr_gni rr_gdi rr_nsn rr_nsd rr_deg rr_norm rr_eqn];
      try assumption; try reflexivity; try lia.
    pose proof n_pos. lia.
  Qed.
  End Prime.
  End Field.
End First.

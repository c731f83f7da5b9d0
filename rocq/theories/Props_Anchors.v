(** Property theorems C46, C48, C49: almost all anchor points are suitable for the interpolation of polynomials and rational functions of n variables. *)
From Coq Require Import Permutation Znumtheory.
From Verif Require Import Machine NumTheory FFInt FFIntProofs FField FSum FPoly PolySpec PolyFF PolyRec PolyRecSpec PolyRecRunSpec PolyRecMath PolyRecMain RatMultiSpec RatMultiMath RatMultiShift AnchorFew AnchorMain Props_Parser.
Open Scope nat_scope.

(** For a polynomial with T terms in n variables with exponents at most D and anchor points from a finite set S, at most
    n T^2 (D + 2)^4 |S|^(n-1) of the |S|^n vectors of anchor points are not suitable. *)
Theorem C46_almost_all_anchors_are_suitable : forall (K : fops), flaws K -> forall n D (f : list (list Z * K)) newton bt, polynomial n D f ->
  forall S0 : list K, NoDup S0 -> exists bad : list (list K), length bad <= n * (length f * length f) * (D + 2) ^ 4 * length S0 ^ (n - 1) /\
  forall v, length v = n -> (forall x, In x v -> In x S0) -> ~ In v bad -> suitable newton bt n D f (fun j => nth j v f0).
Proof.
  intros K HK n D f newton bt Hf S0 HS. destruct (few_suitable HK n D f S0 Hf HS newton bt) as [bad [L H]]. exists bad. split.
  - replace ((D + 2) ^ 4) with ((D + 2) * (D + 2) * (D + 2) * (D + 2)) by (cbn [Nat.pow]; lia). exact L.
  - intros v E I N. apply H; [split; [exact E|apply Forall_forall; exact I]|exact N].
Qed.
Print Assumptions C46_almost_all_anchors_are_suitable.

(** the elements of the field with p elements *)
Definition elements (p : Z) (Hp : prime p) (Hl : (p < two63)%Z) : list (FFint_ops p Hp Hl) := map (fun k => fofZ (Z.of_nat k)) (seq 0 (Z.to_nat p)).
Section Elements.
  Variables (p : Z) (Hp : prime p) (Hl : (p < two63)%Z).
  Notation K := (FFint_ops p Hp Hl).
  Let val (x : K) : Z := proj1_sig (x : ffint p).
  Lemma elements_length : length (elements p Hp Hl) = Z.to_nat p. Proof. unfold elements. rewrite map_length, seq_length. reflexivity. Qed.
  Lemma elements_val k : k < Z.to_nat p -> val (@fofZ K (Z.of_nat k)) = Z.of_nat k.
  Proof. intros H. unfold val. pose proof (Ppos p Hp). rewrite (v_ofZ p Hp Hl) by (unfold two63 in Hl; unfold two64; lia). apply Z.mod_small. lia. Qed.
  Lemma elements_all x : In x (elements p Hp Hl).
  Proof.
    unfold elements. apply in_map_iff. pose proof (v_range p Hp Hl x) as R. exists (Z.to_nat (val x)). split; [|apply in_seq; unfold val; lia].
    apply (v_inj p Hp Hl). change (val (@fofZ K (Z.of_nat (Z.to_nat (val x)))) = val x). rewrite elements_val by (unfold val; lia). unfold val. lia.
  Qed.
  Lemma elements_nodup : NoDup (elements p Hp Hl).
  Proof.
    unfold elements. assert (G : forall l, NoDup l -> (forall k, In k l -> k < Z.to_nat p) -> NoDup (map (fun k => @fofZ K (Z.of_nat k)) l)).
    { induction l as [|k l IH]; intros N B; [constructor|]. apply NoDup_cons_iff in N as [N1 N2]. cbn [map]. constructor; [|apply IH; [exact N2|intros; apply B; right; assumption]].
      intros I. apply in_map_iff in I as [k' [E I]]. apply (f_equal val) in E. rewrite !elements_val in E by (apply B; (left; reflexivity) || (right; exact I)). apply Nat2Z.inj in E. subst k'. exact (N1 I). }
    apply G; [apply seq_NoDup|]. intros k I. apply in_seq in I. lia.
  Qed.
  Lemma val_pw (x : K) k : val (pw x k) = (val x ^ Z.of_nat k mod p)%Z.
  Proof.
    pose proof (Ppos p Hp). unfold val. induction k as [|k IH]; cbn [pw].
    - rewrite (v_1 p Hp Hl), Z.pow_0_r. symmetry; apply Z.mod_1_l; lia.
    - rewrite (v_mul p Hp Hl), IH, Zmult_mod_idemp_r, Nat2Z.inj_succ, Z.pow_succ_r by lia. reflexivity.
  Qed.
  Lemma pw_fermat (x : K) : x <> f0 -> pw x (Z.to_nat p - 1) = f1.
  Proof.
    intros N. pose proof (Ppos p Hp). pose proof (v_range p Hp Hl x) as R. apply (v_inj p Hp Hl). change (val (pw x (Z.to_nat p - 1)) = val f1). rewrite val_pw. unfold val at 2. rewrite (v_1 p Hp Hl).
    replace (Z.of_nat (Z.to_nat p - 1)) with (p - 1)%Z by lia. apply fermat; [exact Hp|]. rewrite Z.mod_small by exact R. intros E. apply N. apply (v_inj p Hp Hl). rewrite (v_0 p Hp Hl). exact E.
  Qed.
End Elements.

(** Over the field with p elements: with the exception of at most n T^2 (D + 2)^4 p^(n-1) of the p^n vectors of anchor points, a
    reconstruction that is fed the values it asks for ends with exactly f. *)
Theorem C46_almost_all_runs_recover : forall p (Hp : prime p) (Hl : (p < two63)%Z), let K := FFint_ops p Hp Hl in
  forall ord, (forall A (l : list A), Permutation (ord A l) l) ->
  forall (c : pcfg) D (f : list (list Z * K)), polynomial (pc_n c) D f -> 0 < pc_n c -> pc_newton c || pc_bt c = true ->
  (pc_deg c = -1 \/ pc_deg c < 2 ^ 31 /\ forall e, In e (map fst f) -> total e <= pc_deg c)%Z ->
  (forall b, pc_bounds c = Some b -> forall e i, In e (map fst f) -> i < pc_n c -> (nth i e 0 <= nth i b 0)%Z) ->
  (Z.of_nat D + 2 < 2 ^ 32)%Z -> (Z.of_nat (length f) + 1 < 2 ^ 62)%Z -> (Z.of_nat (pc_thr c) < 2 ^ 62)%Z ->
  S D < pc_fuel c -> Z.to_nat p <= pc_fuel c ->
  exists bad : list (list K), length bad <= pc_n c * (length f * length f) * (D + 2) ^ 4 * Z.to_nat p ^ (pc_n c - 1) /\
  forall v, length v = pc_n c -> ~ In v bad -> let y := fun j => nth j v f0 in
  exists r, drive ord c y (black_box (pc_n c) f y) (pc_n c * depth c D f * length f) (ps_start c) = Ret (PPoly r) /\ Permutation r f.
Proof.
  intros p Hp Hl K ord Ho c D f Hf Hn Ha Hd Hb H1 H2 H3 H4 H5. pose proof (ffint_laws p Hp Hl : flaws K) as HK.
  destruct (C46_almost_all_anchors_are_suitable K HK (pc_n c) D f (pc_newton c) (pc_bt c) Hf (elements p Hp Hl) (elements_nodup p Hp Hl)) as [bad [L H]].
  exists bad. split; [rewrite <- (elements_length p Hp Hl); exact L|]. intros v E N y. specialize (H v E (fun x _ => elements_all p Hp Hl x) N). fold y in H.
  assert (Cf : config_fits c D f y).
  { split; [exact Ha|]. split; [exact Hn|]. split; [exact Hd|]. split; [exact Hb|]. split; [exact H4|]. split; [exact H1|]. split; [exact H2|]. split; [exact H3|]. intros _ j Hj. exists (Z.to_nat p - 1).
    pose proof (Ppos p Hp). split; [lia|]. left. apply (pw_fermat p Hp Hl). apply (su_powers _ _ _ _ _ _ H j Hj). }
  destruct (run_ok HK ord Ho c D f y Hf Cf H (pc_n c * depth c D f * length f)) as [out [R Q]]. destruct out as [s|r]; [lia|]. exists r. split; [exact R|exact Q].
Qed.
Print Assumptions C46_almost_all_runs_recover.

(** So suitable anchor points exist in every field with more than n T^2 (D + 2)^4 elements. *)
Theorem C46_suitable_anchors_exist : forall (K : fops), flaws K -> forall n D (f : list (list Z * K)) newton bt, polynomial n D f -> 0 < n ->
  forall S0 : list K, NoDup S0 -> n * (length f * length f) * (D + 2) ^ 4 < length S0 ->
  exists v, length v = n /\ (forall x, In x v -> In x S0) /\ suitable newton bt n D f (fun j => nth j v f0).
Proof.
  intros K HK n D f newton bt Hf Hn S0 HS Hb. destruct (C46_almost_all_anchors_are_suitable K HK n D f newton bt Hf S0 HS) as [bad [L H]].
  assert (Dec : forall a b : list K, {a = b} + {a <> b}) by (apply list_eq_dec; apply (K_dec HK)).
  assert (G : exists v, In v (cube S0 n) /\ ~ In v bad).
  { destruct (existsb (fun v => if in_dec Dec v bad then false else true) (cube S0 n)) eqn:X.
    - apply existsb_exists in X as [v [I X]]. exists v. split; [exact I|]. destruct (in_dec Dec v bad); [discriminate X|assumption].
    - exfalso. assert (I : incl (cube S0 n) bad).
      { intros v I. destruct (in_dec Dec v bad) as [J|J]; [exact J|]. exfalso. assert (X' : existsb (fun v => if in_dec Dec v bad then false else true) (cube S0 n) = true); [|congruence]. apply existsb_exists. exists v. split; [exact I|]. destruct (in_dec Dec v bad); [contradiction|reflexivity]. }
      assert (N : NoDup (cube S0 n)).
      { clear - HS. induction n as [|n IH]; cbn [cube]; [repeat constructor; intros []|]. clear - HS IH. induction (cube S0 n) as [|w l IHl]; [constructor|]. apply NoDup_cons_iff in IH as [N1 N2]. cbn [flat_map]. specialize (IHl N2).
        assert (M : NoDup (map (fun x => x :: w) S0)) by (apply FinFun.Injective_map_NoDup; [intros a b E; injection E; auto|exact HS]).
        assert (Dj : forall u, In u (map (fun x => x :: w) S0) -> ~ In u (flat_map (fun w => map (fun x => x :: w) S0) l)).
        { intros u I J. apply in_map_iff in I as [a [<- _]]. apply in_flat_map in J as [w' [J1 J2]]. apply in_map_iff in J2 as [b [E _]]. injection E as _ ->. exact (N1 J1). }
        clear - M Dj IHl. induction (map (fun x => x :: w) S0) as [|u us IHu]; [exact IHl|]. apply NoDup_cons_iff in M as [M1 M2]. cbn [app]. constructor.
        - intros I. apply in_app_or in I as [I|I]; [exact (M1 I)|exact (Dj u (or_introl eq_refl) I)].
        - apply IHu; [exact M2|]. intros u' I'. apply Dj. right. exact I'. }
      pose proof (NoDup_incl_length N I) as Le. rewrite cube_length in Le. destruct n as [|m]; [lia|]. cbn [Nat.sub] in L. rewrite Nat.sub_0_r in L. cbn [Nat.pow] in Le.
      assert (length S0 * length S0 ^ m <= S m * (length f * length f) * (D + 2) ^ 4 * length S0 ^ m) as Z1 by lia.
      assert (0 < length S0 ^ m) by (apply Nat.neq_0_lt_0, Nat.pow_nonzero; lia). clear - Z1 Hb H0. revert Z1 Hb. generalize (S m * (length f * length f) * (D + 2) ^ 4) (length S0 ^ m) (length S0) H0. intros. nia. }
  destruct G as [v [I N]]. apply in_cube in I as [I1 I2]. exists v. split; [exact I1|]. split; [apply Forall_forall; exact I2|]. apply H; [exact I1|apply Forall_forall; exact I2|exact N].
Qed.
Print Assumptions C46_suitable_anchors_exist.

(** Concrete case: for x^2 y + 3 y modulo the first prime of FireFly at most 2048 p of the p^2 pairs of anchor points are excluded. *)
Lemma P0_small : (P0 < two63)%Z. Proof. reflexivity. Qed.
Definition an_K : fops := FFint_ops P0 P0_prime P0_small.
Definition an_f : list (list Z * an_K) := [([2; 1]%Z, fofZ 1); ([0; 1]%Z, fofZ 3)].
Lemma an_poly : polynomial 2 2 an_f.
Proof.
  split; [discriminate|]. split; [repeat constructor; cbn; intuition discriminate|]. intros e a [E|[E|[]]]; injection E as <- <-; (split; [|split; [reflexivity|split; [intros [|[|[|i]]]; cbn; lia|reflexivity]]]);
  intros E; apply (f_equal (fun x : an_K => proj1_sig (x : ffint P0))) in E; vm_compute in E; discriminate E.
Qed.
Example C46_anchors_concrete : exists v, length v = 2 /\ suitable true true 2 2 an_f (fun j => nth j v f0).
Proof.
  destruct (C46_suitable_anchors_exist an_K (ffint_laws P0 P0_prime P0_small) 2 2 an_f true true an_poly ltac:(lia) (elements P0 P0_prime P0_small) (elements_nodup P0 P0_prime P0_small)) as [v [L [_ H]]].
  - change (2 * (length an_f * length an_f) * (2 + 2) ^ 4) with 2048. pose proof (elements_length P0 P0_prime P0_small) as EL. change (car (FFint_ops P0 P0_prime P0_small)) with (car an_K) in EL. apply (Nat.lt_le_trans _ (Z.to_nat P0)); [|apply Nat.eq_le_incl; symmetry; exact EL]. assert (2048 < P0)%Z by reflexivity. lia.
  - exists v. split; [exact L|exact H].
Qed.

(** The homogeneous parts of numerator and denominator, before and after the shift (condition [ip_anchors] of C48): for polynomials Ps with
    at most T terms and total degrees at most G the anchor points are suitable for all homogeneous parts at once, with few exceptions. *)
Theorem C48_almost_all_anchors_suit_the_homogeneous_parts : forall (K : fops), flaws K -> forall n G T (Ps : list (list (list Z * K))) bt, 0 < n ->
  (forall P, In P Ps -> polynomial n (tdegree P) P /\ tdegree P <= G /\ length P <= T) ->
  forall S0 : list K, NoDup S0 -> exists bad : list (list K), length bad <= length Ps * (G * ((n - 1) * (T * T) * (G + 2) ^ 4)) * length S0 ^ (n - 2) /\
  forall v, length v = n - 1 -> (forall x, In x v -> In x S0) -> ~ In v bad ->
  forall P d, In P Ps -> 0 < d -> hom d P <> [] -> suitable true bt (n - 1) d (layer d P) (fun j => nth j v f0).
Proof.
  intros K HK n G T Ps bt Hn HP S0 HS. set (B := (n - 1) * (T * T) * (G + 2) ^ 4).
  assert (F : few S0 (n - 1) (length Ps * (G * B)) (fun y => forall P, In P Ps -> forall d, d < G -> hom (S d) P <> [] -> suitable true bt (n - 1) (S d) (layer (S d) P) y)).
  { apply few_list. intros P IP. apply few_nat. intros d Hd. destruct (HP P IP) as [H1 [H2 H3]]. destruct (hom (S d) P) as [|t r] eqn:Eh.
    - apply (few_weaken S0 (n - 1) 0 B (fun _ => True)); [apply few_true; intros; exact I|lia|intros v _ _ N; exfalso; apply N; reflexivity].
    - assert (Pl : polynomial (n - 1) (S d) (layer (S d) P)) by (apply (layer_polynomial (n - 1) (tdegree P)); [replace (S (n - 1)) with n by lia; exact H1|rewrite Eh; discriminate]).
      apply (few_weaken S0 (n - 1) _ _ _ _ (few_suitable HK (n - 1) (S d) (layer (S d) P) S0 Pl HS true bt)).
      + assert (Ll : length (layer (S d) P) <= T) by (unfold layer, hom; rewrite map_length; apply (Nat.le_trans _ (length P)); [clear; induction P as [|t P IH]; [cbn; lia|]; cbn [filter]; destruct (_ =? _)%Z; cbn [length]; lia|exact H3]).
        unfold B. cbn [Nat.pow]. rewrite Nat.mul_1_r. set (W := S d + 2). assert (LW : W <= G + 2) by (unfold W; lia). set (V := G + 2) in *.
        apply Nat.mul_le_mono; [apply Nat.mul_le_mono_l; apply Nat.mul_le_mono; exact Ll|]. clear - LW. rewrite <- !Nat.mul_assoc. repeat apply Nat.mul_le_mono; exact LW.
      + intros v _ H _. exact H. }
  destruct F as [bad [L H]]. exists bad. replace (n - 1 - 1) with (n - 2) in L by lia. split; [exact L|]. intros v E I N P d IP Hd Nh.
  assert (Ld : d <= G).
  { destruct (hom d P) as [|[e a] r] eqn:Eh; [congruence|]. destruct (HP P IP) as [_ [H2 _]]. assert (J : In (e, a) (hom d P)) by (rewrite Eh; left; reflexivity). apply in_hom in J as [J Te].
    apply (Nat.le_trans _ (tdegree P)); [|exact H2]. clear - J Te. unfold tdegree. induction P as [|t P IH]; [destruct J|]. cbn [map fold_right]. destruct J as [->|J]; [cbn [fst]; lia|specialize (IH J); lia]. }
  replace d with (S (d - 1)) in * by lia. apply (H v); [split; [exact E|apply Forall_forall; exact I]|exact N|exact IP|lia|exact Nh].
Qed.
Print Assumptions C48_almost_all_anchors_suit_the_homogeneous_parts.

(** Over the further primes (conditions [ls_anchors] and [ls_apart] of C49) the anchor points only have to be non-zero and to tell the
    monomials of one degree apart. *)
Theorem C49_almost_all_anchors_tell_monomials_apart : forall (K : fops), flaws K -> forall n D (Ks : list (list Z)),
  (forall k, In k Ks -> length k = n /\ (forall i, (0 <= nth i k 0 <= Z.of_nat D)%Z) /\ (total k < 2 ^ 31)%Z) ->
  forall S0 : list K, NoDup S0 -> exists bad : list (list K), length bad <= (n - 1 + length Ks * length Ks * D) * length S0 ^ (n - 2) /\
  forall v, length v = n - 1 -> (forall x, In x v -> In x S0) -> ~ In v bad -> let y := fun j => nth j v f0 in
  (forall i, i < n - 1 -> y i <> f0) /\
  (forall k k', In k Ks -> In k' Ks -> total k = total k' -> monomial_value (n - 1) (tl k) y = monomial_value (n - 1) (tl k') y -> k = k').
Proof.
  intros K HK n D Ks Hk S0 HS.
  assert (Ht : forall k, In k Ks -> length (tl k) = n - 1 /\ (forall i, (0 <= nth i (tl k) 0 <= Z.of_nat D)%Z) /\ (total (tl k) < 2 ^ 31)%Z).
  { intros k I. destruct (Hk k I) as [L [R T]]. destruct k as [|z k]; [cbn in L; subst n; split; [reflexivity|split; [intros [|i]; cbn; lia|reflexivity]]|]. cbn [tl]. cbn [length] in L. split; [lia|]. split; [intros i; apply (R (S i))|].
    specialize (R 0). cbn [nth] in R. change (total (z :: k)) with (z + total k)%Z in T. lia. }
  assert (F1 : few S0 (n - 1) (n - 1) (fun y => forall j, j < n - 1 -> y j <> f0)).
  { set (f := [(repeat 0%Z (n - 1), f1)] : list (list Z * K)).
    assert (Pf : polynomial (n - 1) D f).
    { split; [discriminate|]. split; [repeat constructor; intros []|]. intros e a [E|[]]. injection E as <- <-. split; [apply (f1_neq_0 HK)|]. split; [apply repeat_length|].
      split; [intros i; assert (nth i (repeat 0%Z (n - 1)) 0%Z = 0%Z) as ->; [clear; revert i; induction (n - 1) as [|m IH]; intros [|i]; cbn; auto|lia]|]. clear. induction (n - 1) as [|m IH]; [reflexivity|]. cbn [repeat]. change (total (0%Z :: repeat 0%Z m)) with (total (repeat 0%Z m)). exact IH. }
    apply (few_weaken S0 (n - 1) _ _ _ _ (few_Q1 HK (n - 1) S0 HS)); [lia|]. intros v _ H. exact H. }
  assert (F2 : few S0 (n - 1) (length Ks * (length Ks * D)) (fun y => forall k, In k Ks -> forall k', In k' Ks -> (forall j, j < n - 1 -> y j <> f0) -> monomial_value (n - 1) (tl k) y = monomial_value (n - 1) (tl k') y -> tl k = tl k')).
  { apply few_list. intros k I. apply few_list. intros k' I'. destruct (Ht k I) as [L [R T]]. destruct (Ht k' I') as [L' [R' T']].
    destruct (list_eq_dec Z.eq_dec (tl k) (tl k')) as [E|N]; [apply (few_weaken S0 (n - 1) 0 D (fun _ => True)); [apply few_true; intros; exact Logic.I|lia|intros v _ _ _ _; exact E]|].
    set (f := [(tl k, f1); (tl k', f1)] : list (list Z * K)).
    assert (Pf : polynomial (n - 1) D f).
    { split; [discriminate|]. split; [cbn [map fst f]; constructor; [intros [E|[]]; apply N; symmetry; exact E|repeat constructor; intros []]|].
      intros e a [E|[E|[]]]; injection E as <- <-; (split; [apply (f1_neq_0 HK)|]); auto. }
    apply (few_weaken S0 (n - 1) _ _ _ _ (few_mono HK (n - 1) D f S0 Pf HS (tl k) (tl k') (n - 1) ltac:(left; reflexivity) ltac:(right; left; reflexivity) (le_n _))); [lia|].
    intros v _ H Nz E. specialize (H Nz E). rewrite !firstn_all2 in H by lia. exact H. }
  destruct (few_and S0 (n - 1) _ _ _ _ F1 F2) as [bad [L H]]. exists bad. replace (n - 1 - 1) with (n - 2) in L by lia. split; [rewrite <- Nat.mul_assoc; exact L|].
  intros v E I N y. destruct (H v ltac:(split; [exact E|apply Forall_forall; exact I]) N) as [H1 H2]. split; [exact H1|]. intros k k' Ik Ik' Te Em. specialize (H2 k Ik k' Ik' H1 Em).
  destruct (Hk k Ik) as [Lk _]. destruct (Hk k' Ik') as [Lk' _]. destruct k as [|z k], k' as [|z' k']; cbn [length] in *; try lia; [reflexivity|]. cbn [tl] in H2. subst k'. f_equal. change (z + total k = z' + total k)%Z in Te. lia.
Qed.
Print Assumptions C49_almost_all_anchors_tell_monomials_apart.

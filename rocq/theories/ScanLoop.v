(** Proofs for the search for a sparse shift: the loop over the patterns *)
From Coq Require Import Permutation Sorted.
From Verif Require Import Machine FField FSum FPoly PolyFF Thiele ThieleSpec RatUni Combi CombiProofs CombiProofs2 PolyRec RatMulti RatMultiSpec Scan ScanSpec ScanProofs.
Open Scope nat_scope.

(** ---- the patterns ---- *)
Lemma earlier_irrefl a : ~ earlier a a.
Proof. intros [H|[_ [i [_ [H _]]]]]; lia. Qed.
Lemma earlier_trans n a b c : length a = n -> length b = n -> length c = n -> earlier a b -> earlier b c -> earlier a c.
Proof.
  intros La Lb Lc H1 H2. destruct H1 as [H1|[H1 H1']]; destruct H2 as [H2|[H2 H2']]; [left; lia|left; lia|left; lia|right]. split; [lia|].
  destruct H1' as [i [Hi [Ai Bi]]]. destruct H2' as [j [Hj [Aj Bj]]]. exists (Nat.min i j). split; [lia|]. destruct (Nat.lt_trichotomy i j) as [L|[->|L]].
  - rewrite Nat.min_l by lia. split; [rewrite <- (Bj i L); exact Ai|]. intros k Hk. rewrite (Bi k Hk). apply Bj. lia.
  - rewrite Nat.min_id. split; [lia|]. intros k Hk. rewrite (Bi k Hk). apply Bj. exact Hk.
  - rewrite Nat.min_r by lia. split; [rewrite (Bi j L); exact Aj|]. intros k Hk. rewrite (Bi k ltac:(lia)). apply Bj. exact Hk.
Qed.
Lemma sorted_same (P : list Z -> Prop) (lt : list Z -> list Z -> Prop) : (forall a, ~ lt a a) -> (forall a b c, P a -> P b -> P c -> lt a b -> lt b c -> lt a c) ->
  forall l l', StronglySorted lt l -> StronglySorted lt l' -> (forall x, In x l -> P x) -> (forall x, In x l <-> In x l') -> l = l'.
Proof.
  intros Irr Tr. induction l as [|x l IH]; intros l' S S' HP E.
  - destruct l' as [|y l']; [reflexivity|]. exfalso. apply (E y). left. reflexivity.
  - destruct l' as [|y l']; [exfalso; apply (E x); left; reflexivity|]. inversion S as [|? ? S1 F1]; subst. inversion S' as [|? ? S2 F2]; subst. rewrite Forall_forall in F1, F2.
    assert (Exy : x = y).
    { pose proof (proj1 (E x) (or_introl eq_refl)) as [->|I1]; [reflexivity|]. pose proof (proj2 (E y) (or_introl eq_refl)) as [->|I2]; [reflexivity|]. exfalso. apply (Irr x). apply (Tr x y x); [apply HP; left; reflexivity|apply HP; right; exact I2|apply HP; left; reflexivity|apply F1; exact I2|apply F2; exact I1]. }
    subst y. f_equal. apply IH; [exact S1|exact S2|intros z I; apply HP; right; exact I|]. intros z. split; intros I.
    + pose proof (proj1 (E z) (or_intror I)) as [<-|J]; [exfalso; apply (Irr x); apply F1; exact I|exact J].
    + pose proof (proj2 (E z) (or_intror I)) as [<-|J]; [exfalso; apply (Irr x); apply F2; exact I|exact J].
Qed.
Lemma patterns_visited n L : all_patterns n L -> L = visit (2 ^ n) (repeat 0%Z n).
Proof.
  intros [S E]. destruct (visit_all n (2 ^ n) (le_n _)) as [_ [_ E']]. destruct (visit_sorted n (2 ^ n) (le_n _)) as [S' _].
  apply (sorted_same (fun p => length p = n) earlier); [apply earlier_irrefl|intros a b c; apply earlier_trans|exact S|exact S'|intros x I; apply E in I; apply I|]. intros x. rewrite E. symmetry. apply E'.
Qed.
Lemma is_ones_iff p : is_ones p = true <-> p = repeat 1%Z (length p).
Proof.
  unfold is_ones. induction p as [|z p IH]; [split; reflexivity|]. cbn [forallb length repeat]. rewrite Bool.andb_true_iff, IH, Z.eqb_eq. split; [intros [-> E]; rewrite <- E; reflexivity|]. intros E. injection E as E1 E2. split; [exact E1|exact E2].
Qed.

Section Loop.
  Context {K : fops} (HK : flaws K).
  Variable ord : forall A : Type, list A -> list A.
  Hypothesis Ho : forall A (l : list A), Permutation (ord A l) l.
  Variables (n : nat) (y : nat -> K) (draw : nat -> nat -> K) (pts : nat -> list K) (bbs : list ((nat -> K) -> K)) (R S : nat -> nat -> list (nat * K)).
  Hypothesis Hn : 1 <= n.
  Hypothesis Hb : bbs <> [].
  Local Notation L := (visit (2 ^ n) (repeat 0%Z n)).
  Local Notation ones := (repeat 1%Z n).
  Definition pat (k : nat) : list Z := match k with O => ones | Datatypes.S i => nth i L [] end.
  Hypothesis FR : forall k j bb, k <= length L -> nth_error bbs j = Some bb -> fraction (on_ray bb y (shift_by (pat k) (draw k))) (pts k) (R k j) (S k j).
  Definition keeps (k j : nat) : Prop := udegree (R k j) = udegree (R 0 j) /\ udegree (S k j) = udegree (S 0 j).
  Definition all_keep (k : nat) : Prop := forall j, j < length bbs -> keeps k j.

  Definition linv (k : nat) (fs : list (((nat -> K) -> K) * scan_fn K)) : Prop := map fst fs = bbs /\
    forall j bb st, nth_error fs j = Some (bb, st) -> sf_th st = mk_thiele [] [] /\ sf_done st = false /\ sf_max st = (udegree (R 0 j), udegree (S 0 j)) /\
      (sf_norm_den st = false -> exists k', 1 <= k' < k /\ pat k' <> ones /\ keeps k' j /\ ~ In 0 (map fst (S k' j))).
  Lemma nth_fst {A B} (l : list (A * B)) j a b : nth_error l j = Some (a, b) -> nth_error (map fst l) j = Some a.
  Proof. clear. intros H. rewrite nth_error_map, H. reflexivity. Qed.

  Definition found (k : nat) (fs : list (((nat -> K) -> K) * scan_fn K)) : Prop := map fst fs = bbs /\ forall j bb st, nth_error fs j = Some (bb, st) ->
    Permutation (fst (sf_degs st)) (map fst (R k j)) /\ Permutation (snd (sf_degs st)) (map fst (S k j)) /\ (sf_norm_den st = true <-> In 0 (map fst (S k j))).
  Definition not_found (fs : list (((nat -> K) -> K) * scan_fn K)) : Prop := map fst fs = bbs /\ forall j bb st, nth_error fs j = Some (bb, st) ->
    Permutation (fst (sf_degs st)) (map fst (R (length L) j)) /\ Permutation (snd (sf_degs st)) (map fst (S (length L) j)) /\
    (sf_norm_den st = false -> exists k, 1 <= k <= length L /\ pat k <> ones /\ keeps k j /\ ~ In 0 (map fst (S k j))).

  Lemma loop_ok : forall f k cur pre fs, L = pre ++ visit f cur -> k = Datatypes.S (length pre) -> linv k fs -> (forall k', 1 <= k' < k -> ~ all_keep k') ->
    exists ok p fs', scan_loop ord (Datatypes.S f) y draw pts k cur fs = Ret (ok, p, fs') /\
    if (ok : bool) then exists k0, 1 <= k0 <= length L /\ p = pat k0 /\ p <> ones /\ all_keep k0 /\ (forall k', 1 <= k' < k0 -> ~ all_keep k') /\ found k0 fs'
    else p = ones /\ (forall k', 1 <= k' <= length L -> pat k' <> ones -> ~ all_keep k') /\ not_found fs'.
  Proof.
    destruct (visit_all n (2 ^ n) (le_n _)) as [NDL [_ InL]]. destruct (visit_sorted n (2 ^ n) (le_n _)) as [_ LastL].
    assert (VH : forall f v, nth 0 (visit f v) [] = v) by (clear; intros [|f] v; reflexivity).
    assert (VL : forall f v, fst (generate_next_permutation v) = false -> length (visit f v) = 1) by (clear; intros [|f] v H; [reflexivity|]; cbn [visit]; destruct (generate_next_permutation v) as [b v0]; cbn [fst] in H; subst b; reflexivity).
    induction f as [|f IH]; intros k cur pre fs EL Ek LI Prev.
    all: assert (Epat : pat k = cur) by (subst k; cbn [pat]; rewrite EL, app_nth2, Nat.sub_diag by lia; apply VH).
    all: assert (Ik : k <= length L) by (rewrite EL, app_length; cbn [visit length]; lia).
    all: assert (Ic : In cur L) by (rewrite EL; apply in_or_app; right; left; reflexivity).
    all: pose proof (proj1 (InL cur) Ic) as [Lc Bc].
    all: destruct LI as [LF LS].
    all: destruct (round_ok HK ord Ho (is_ones cur) y (shift_values cur (draw k)) (pts k) (R k) (S k) fs 0) as [fs' [Er [Ef Hs]]];
      [intros j bb st Hj; destruct (LS j bb st Hj) as [A1 [A2 _]]; split; [|split; assumption]; cbn [Nat.add]; pose proof (FR k j bb Ik) as X; rewrite Epat in X; apply X; rewrite <- LF; apply (nth_fst fs j bb st Hj)|].
    all: cbn [Nat.add] in Hs; cbn [scan_loop]; rewrite Er; cbn [obind].
    all: assert (Back : forall j bb st', nth_error fs' j = Some (bb, st') -> exists st, nth_error fs j = Some (bb, st) /\ sf_done st' = false /\ after_round (is_ones cur) (R k j) (S k j) st st');
      [intros j bb st' Hj; assert (X : nth_error (map fst fs) j = Some bb) by (rewrite <- Ef; apply (nth_fst fs' j bb st' Hj)); rewrite nth_error_map in X; destruct (nth_error fs j) as [[bb1 st1]|] eqn:Ej; [|discriminate X]; cbn in X; injection X as ->;
       destruct (Hs j bb st1 Ej) as [st2 [E2 H2]]; rewrite Hj in E2; injection E2 as <-; exists st1; split; [reflexivity|exact H2]|].
    all: assert (Works : forallb (fun f => sf_works (snd f)) fs' = true -> cur <> ones /\ all_keep k);
      [intros W; rewrite forallb_forall in W; split;
        [intros E; destruct fs' as [|[bb st'] fs'']; [cbn in Ef; rewrite LF in Ef; apply Hb; symmetry; exact Ef|]; destruct (Back 0 bb st' eq_refl) as [st [_ [_ [_ [_ [_ A]]]]]];
         assert (O1 : is_ones cur = true) by (apply is_ones_iff; rewrite Lc; exact E); rewrite O1 in A; destruct A as [_ [A _]]; specialize (W _ (or_introl eq_refl)); cbn in W; congruence
        |intros j Hj; assert (Lf : j < length fs') by (rewrite <- (map_length fst fs'), Ef, LF; exact Hj); destruct (nth_error fs' j) as [[bb st']|] eqn:Ej; [|apply nth_error_None in Ej; lia];
         destruct (Back j bb st' Ej) as [st [Es [_ [_ [_ [_ A]]]]]]; pose proof (W _ (nth_error_In _ _ Ej)) as Wj; cbn in Wj; destruct (is_ones cur); [destruct A as [_ [A _]]; congruence|]; destruct A as [_ [A _]]; pose proof (proj1 A Wj) as X;
         destruct (LS j bb st Es) as [_ [_ [M _]]]; rewrite M in X; injection X as X1 X2; split; assumption]|].
    all: assert (Fails : forallb (fun f => sf_works (snd f)) fs' = false -> cur <> ones -> ~ all_keep k);
      [intros W Nc AK; assert (W' : forallb (fun f => sf_works (snd f)) fs' = true); [|congruence]; apply forallb_forall; intros [bb st'] I; apply In_nth_error in I as [j Ej]; cbn [snd]; destruct (Back j bb st' Ej) as [st [Es [_ [_ [_ [_ A]]]]]];
       assert (O1 : is_ones cur = false) by (destruct (is_ones cur) eqn:O; [|reflexivity]; exfalso; apply Nc; apply is_ones_iff in O; rewrite O, Lc; reflexivity); rewrite O1 in A; destruct A as [_ [A _]]; apply A; destruct (LS j bb st Es) as [_ [_ [M _]]]; rewrite M;
       destruct (AK j) as [K1 K2]; [rewrite <- LF, map_length; apply nth_error_Some; rewrite Es; discriminate|]; rewrite K1, K2; reflexivity|].
    all: destruct (forallb (fun f => sf_works (snd f)) fs') eqn:W.
    1, 3: (destruct (Works eq_refl) as [Nc AK]; exists true, cur, fs'; split; [reflexivity|]; exists k; split; [lia|]; split; [symmetry; exact Epat|]; split; [exact Nc|]; split; [exact AK|]; split; [exact Prev|]; split; [rewrite Ef; exact LF|];
       intros j bb st' Ej; destruct (Back j bb st' Ej) as [st [Es [_ [_ [P1 [P2 A]]]]]]; split; [exact P1|]; split; [exact P2|];
       assert (O1 : is_ones cur = false) by (destruct (is_ones cur) eqn:O; [|reflexivity]; exfalso; apply Nc; apply is_ones_iff in O; rewrite O, Lc; reflexivity); rewrite O1 in A; destruct A as [_ [A B]];
       rewrite forallb_forall in W; pose proof (W _ (nth_error_In _ _ Ej)) as Wj; cbn in Wj; rewrite Wj in B; exact B).
    all: cbv zeta; destruct (list_eq_dec Z.eq_dec cur ones) as [Ec|Nc].
    1, 3: (assert (G : fst (generate_next_permutation cur) = false) by (apply (gnp_false_iff cur Bc); rewrite Lc; exact Ec); rewrite G; exists false; eexists; exists fs'; split; [reflexivity|]; rewrite Lc; split; [reflexivity|];
       assert (Kl : k = length L) by (rewrite EL, app_length, Ek, VL by exact G; clear; lia);
       assert (O1 : is_ones cur = true) by (apply is_ones_iff; rewrite Lc; exact Ec); split;
       [intros k' Hk Np; apply Prev; split; [lia|]; destruct (Nat.eq_dec k' k) as [->|]; [exfalso; apply Np; rewrite Epat; exact Ec|lia]|];
       split; [rewrite Ef; exact LF|]; intros j bb st' Ej; destruct (Back j bb st' Ej) as [st [Es [_ [_ [P1 [P2 A]]]]]]; rewrite <- Kl; split; [exact P1|]; split; [exact P2|]; rewrite O1 in A; destruct A as [_ [_ A]]; rewrite A; intros X; destruct (LS j bb st Es) as [_ [_ [_ Q]]]; destruct (Q X) as [k' [Hk' H']]; exists k'; split; [lia|exact H']).
    - exfalso. cbn [visit] in EL. rewrite EL, last_last in LastL. apply Nc. exact LastL.
    - assert (G : fst (generate_next_permutation cur) = true) by (destruct (fst (generate_next_permutation cur)) eqn:G; [reflexivity|]; exfalso; apply Nc; apply (gnp_false_iff cur Bc) in G; rewrite G, Lc; reflexivity).
      rewrite G. destruct (generate_next_permutation cur) as [b nx] eqn:Eg. cbn [fst snd] in *. subst b.
      apply (IH (Datatypes.S k) nx (pre ++ [cur]) fs').
      + rewrite <- app_assoc. rewrite EL. cbn [visit app]. rewrite Eg. reflexivity.
      + rewrite app_length. cbn [length]. lia.
      + split; [rewrite Ef; exact LF|]. intros j bb st' Ej. destruct (Back j bb st' Ej) as [st [Es [Ed [Et [P1 [P2 A]]]]]]. split; [exact Et|]. split; [exact Ed|].
        assert (O1 : is_ones cur = false) by (destruct (is_ones cur) eqn:O; [|reflexivity]; exfalso; apply Nc; apply is_ones_iff in O; rewrite O, Lc; reflexivity). rewrite O1 in A. destruct A as [A1 [A2 A3]]. destruct (LS j bb st Es) as [_ [_ [M Q]]]. split; [rewrite A1; exact M|].
        intros X. destruct (sf_works st') eqn:Wj.
        * exists k. split; [lia|]. split; [rewrite Epat; exact Nc|]. split; [|intros Y; apply A3 in Y; congruence]. pose proof (proj1 A2 eq_refl) as Z. rewrite M in Z. injection Z as Z1 Z2. split; assumption.
        * rewrite A3 in X. destruct (Q X) as [k' [Hk' H']]. exists k'. split; [lia|exact H'].
      + intros k' Hk'. destruct (Nat.eq_dec k' k) as [->|]; [apply Fails; [reflexivity|exact Nc]|apply Prev; lia].
  Qed.

  Lemma scan_ok f : 2 ^ n < f -> exists ok p fs', scan_for_shift ord f n y draw pts bbs = Ret (ok, p, fs') /\
    if (ok : bool) then exists k0, 1 <= k0 <= length L /\ p = pat k0 /\ p <> ones /\ all_keep k0 /\ (forall k', 1 <= k' < k0 -> ~ all_keep k') /\ found k0 fs'
    else p = ones /\ (forall k', 1 <= k' <= length L -> pat k' <> ones -> ~ all_keep k') /\ not_found fs'.
  Proof.
    intros Hf. unfold scan_for_shift. set (fs := map (fun bb => (bb, scan_start)) bbs).
    destruct (round_ok HK ord Ho true y (shift_values ones (draw 0)) (pts 0) (R 0) (S 0) fs 0) as [fs' [Er [Ef Hs]]].
    { intros j bb st Hj. cbn [Nat.add]. unfold fs in Hj. rewrite nth_error_map in Hj. destruct (nth_error bbs j) as [b0|] eqn:Ej; [|discriminate Hj]. cbn in Hj. injection Hj as <- <-. split; [|split; reflexivity]. apply (FR 0 j b0); [lia|exact Ej]. }
    rewrite Er. cbn [obind Nat.add] in *. destruct f as [|f]; [lia|].
    assert (V : forall a b v, length (visit a v) <= a -> a <= b -> visit b v = visit a v).
    { clear. induction a as [|a IH]; intros b v Lv Lb; [cbn in Lv; lia|]. destruct b as [|b]; [lia|]. cbn [visit] in *. f_equal. destruct (generate_next_permutation v) as [[|] v']; [|reflexivity]. apply IH; cbn [length] in Lv; lia. }
    apply (loop_ok f 1 (repeat 0%Z n) [] fs').
    - cbn [app]. symmetry. apply V; [|lia]. destruct (visit_all n (2 ^ n) (le_n _)) as [_ [-> _]]. apply le_n.
    - reflexivity.
    - split; [rewrite Ef; unfold fs; rewrite map_map; apply map_id|]. intros j bb st' Hj. assert (X : nth_error (map fst fs) j = Some bb) by (rewrite <- Ef; apply (nth_fst fs' j bb st' Hj)). rewrite nth_error_map in X. destruct (nth_error fs j) as [[bb1 st1]|] eqn:Ej; [|discriminate X]. cbn in X. injection X as ->.
      destruct (Hs j bb st1 Ej) as [st2 [E2 [H2 [A1 [_ [_ [A2 [_ A3]]]]]]]]. rewrite Hj in E2. injection E2 as <-. split; [exact A1|]. split; [exact H2|]. split; [exact A2|]. rewrite A3. intros X. exfalso.
      unfold fs in Ej. rewrite nth_error_map in Ej. destruct (nth_error bbs j); [|discriminate Ej]. cbn in Ej. injection Ej as _ <-. discriminate X.
    - intros k' Hk'. lia.
  Qed.
End Loop.

(** Proofs for RatReconst in several variables over several primes, part 3: the maps of residues and of recognised coefficients. *)
From Coq Require Import Znumtheory Permutation.
From Verif Require Import Machine NumTheory FFInt FField FSum FPoly PolyFF PolySpec PolyFFProofs PolyFFProofs2 PolyFFProofs3 RatNum RatNumProofs Modular ModularProofs MqrrProofs PField RatUni RatUniSpec RatUniProofs RatUniFirst RatUniNext RatUniRun PolyRec PolyRecSpec PolyRatSpec RatMulti RatMultiSpec RatMultiShift RatMultiQ RatMultiQSpec RatMultiQCoef RatMultiQSide.
Open Scope Z_scope.

Definition qentry (t : qterm) : list Z * rn := (fst t, mk_rn (fst (snd t)) (snd (snd t))).
Definition qmatches (m : Z) (t : qterm) (e : list Z * Z) : Prop := fst e = fst t /\ residue m (snd t) (snd e).
(** T1: the terms with a fixed coefficient, T2: those known modulo m *)
Definition qpart (m : Z) (T : list qterm) (g : list (list Z * rn)) (co : list (list Z * Z)) (ns : list (nat * list (list Z))) (T1 T2 : list qterm) : Prop :=
  Permutation T (T1 ++ T2) /\ Permutation g (map qentry T1) /\ Forall2 (qmatches m) T2 co /\ groups ns (map fst T2) /\ (forall t, In t T1 -> guessable m (snd t)).
Definition qguess_of (M : Z) (a b : qterm) : Prop := fst a = fst b /\ guessable M (snd b) /\ agrees M (snd a) (snd b).

Lemma qentry_keys T : map fst (map qentry T) = map fst T. Proof. rewrite map_map. reflexivity. Qed.
Lemma qguess_keys M T L : Forall2 (qguess_of M) T L -> map fst L = map fst T.
Proof. induction 1 as [|a b T L [E _] _ IH]; [reflexivity|]. cbn [map]. rewrite IH, E. reflexivity. Qed.
Lemma qmatches_keys m T c : Forall2 (qmatches m) T c -> map fst c = map fst T.
Proof. induction 1 as [|t e T c [E _] _ IH]; [reflexivity|]. cbn [map]. congruence. Qed.
Lemma qmatches_reorder m T c c' : Forall2 (qmatches m) T c -> Permutation c' c -> exists T', Permutation T T' /\ Forall2 (qmatches m) T' c'.
Proof.
  intros H P. apply Forall2_flip' in H. destruct (Permutation_Forall2 (Permutation_sym P) H) as [T' [Q1 Q2]].
  exists T'. split; [exact Q1|]. apply Forall2_flip' in Q2. exact Q2.
Qed.

(** ---- the groups of unknown monomials ---- *)
Lemma of_degree_perm d ks ks' : Permutation ks ks' -> Permutation (of_degree d ks) (of_degree d ks').
Proof.
  unfold of_degree. induction 1 as [|k l l' _ IH|k k' l|? ? ? _ IH1 _ IH2]; cbn [filter]; [constructor| | |eapply Permutation_trans; eassumption].
  - destruct (_ =? _)%nat; [constructor|]; exact IH.
  - destruct (dg k =? d)%nat, (dg k' =? d)%nat; try reflexivity. apply perm_swap.
Qed.
Lemma groups_keys ns ks ks' : Permutation ks ks' -> groups ns ks -> groups ns ks'.
Proof.
  intros P [A [B C]]. split; [exact A|]. split.
  - intros d l I. destruct (B d l I) as [B1 B2]. split; [exact B1|]. apply (Permutation_trans B2). apply of_degree_perm. exact P.
  - intros k I. apply C. apply (Permutation_in _ (Permutation_sym P)). exact I.
Qed.
Lemma groups_order ns ns' ks : Permutation ns ns' -> groups ns ks -> groups ns' ks.
Proof.
  intros P [A [B C]]. split; [apply (Permutation_NoDup (Permutation_map fst P)); exact A|]. split.
  - intros d l I. apply B. apply (Permutation_in _ (Permutation_sym P)). exact I.
  - intros k I. apply (Permutation_in _ (Permutation_map fst P)). apply C. exact I.
Qed.
Lemma groups_nil : groups [] [].
Proof. split; [constructor|]. split; [intros d l []|intros k []]. Qed.
Lemma of_degree_app d a b : of_degree d (a ++ b) = of_degree d a ++ of_degree d b.
Proof. apply filter_app. Qed.
Lemma groups_add n ns ks k : groups ns ks -> key_ok n k -> groups (add_non_solved ns k) (ks ++ [k]).
Proof.
  intros [A [B C]] Hk. unfold add_non_solved. rewrite (degree_dg n k Hk). set (d := dg k).
  assert (ND : NoDup (map fst (nset ns d (nget [] ns d ++ [k])))) by (apply nset_nodup; exact A). split; [exact ND|]. split.
  - intros e l I. apply (nfind_iff _ e l ND) in I. rewrite nfind_set in I. rewrite of_degree_app. destruct (Nat.eqb_spec e d) as [X|X].
    + injection I as <-. subst e. split; [intros Y; apply app_eq_nil in Y as [_ Y]; discriminate|]. apply Permutation_app.
      * destruct (in_dec Nat.eq_dec d (map fst ns)) as [J|J]; [apply B; apply nget_entry; assumption|]. rewrite (nget_out _ _ _ J).
        assert (Y : of_degree d ks = []); [|rewrite Y; constructor]. clear - J C. unfold of_degree, d in *. induction ks as [|k' ks IH]; [reflexivity|]. cbn [filter]. destruct (Nat.eqb_spec (dg k') (dg k)) as [Y|Y].
        -- exfalso. apply J. rewrite <- Y. apply C. left. reflexivity.
        -- apply IH. intros k2 I. apply C. right. exact I.
      * unfold of_degree. cbn [filter]. unfold d. rewrite Nat.eqb_refl. reflexivity.
    + apply nfind_In in I. destruct (B e l I) as [B1 B2]. split; [exact B1|]. unfold of_degree at 2. cbn [filter]. destruct (Nat.eqb_spec (dg k) e) as [Y|Y]; [exfalso; apply X; symmetry; exact Y|]. rewrite app_nil_r. exact B2.
  - intros k' I. apply in_app_or in I as [I|[<-|[]]].
    + apply C in I. apply nset_keys. right. exact I.
    + apply nset_keys. left. reflexivity.
Qed.
Lemma groups_length ns ks : groups ns ks -> (length ns <= length ks)%nat.
Proof.
  intros [A [B C]]. rewrite <- (map_length fst ns). transitivity (length (map dg ks)); [|rewrite map_length; reflexivity]. apply NoDup_incl_length; [exact A|].
  intros d I. apply in_map_iff in I as [[d' l] [<- I]]. cbn [fst]. destruct (B d' l I) as [B1 B2]. destruct l as [|k l]; [contradiction|].
  assert (J : In k (of_degree d' ks)) by (apply (Permutation_in _ B2); left; reflexivity). apply filter_In in J as [J E]. apply Nat.eqb_eq in E. rewrite <- E. apply in_map. exact J.
Qed.

(** RatReconst.cpp:1951-2000: numbers are only guessed from their residues *)
Lemma qpromote_ok M T : forall l g dk, Forall2 (qmatches M) T l -> NoDup (map fst T) -> (forall k, In k (map fst T) -> ~ In k (map fst g)) ->
  exists ok L, promote M l g dk = Ret (ok, g ++ map qentry L, rev (map fst L) ++ dk) /\ incl (map fst L) (map fst T) /\
    (ok = true -> Forall2 (qguess_of M) T L).
Proof.
  induction T as [|t T IH]; intros l g dk H ND HD; inversion H as [|? e ? l' [Ek HRes] H']; subst.
  - exists true, []. cbn. rewrite app_nil_r. split; [reflexivity|]. split; [intros x []|]. constructor.
  - destruct e as [k a]. cbn [fst snd] in *. subst k. cbn [promote map] in *. inversion ND as [|? ? N1 N2]; subst.
    destruct (get_rational_coef_total a M (proj1 HRes)) as [b1 [r1 E1]]. rewrite E1. cbn [oget obind fst snd].
    assert (G : forall r, guessable M (num r, den r) /\ agrees M (snd t) (num r, den r) ->
       exists ok L, promote M l' (aset g (fst t) r) (fst t :: dk) = Ret (ok, g ++ map qentry L, rev (map fst L) ++ dk) /\ incl (map fst L) (fst t :: map fst T) /\
         (ok = true -> Forall2 (qguess_of M) (t :: T) L)).
    { intros r [G A]. rewrite aset_new by (apply HD; left; reflexivity).
      destruct (IH l' (g ++ [(fst t, r)]) (fst t :: dk) H' N2) as [ok [L [E [I V]]]].
      - intros k Hk X. rewrite map_app in X. apply in_app_or in X as [X|[X|[]]]; [exact (HD k (or_intror Hk) X)|]. cbn [fst] in X. subst k. contradiction.
      - exists ok, ((fst t, (num r, den r)) :: L). rewrite E. split; [|split].
        + rewrite <- !app_assoc. cbn [app map qentry fst snd rev]. rewrite <- app_assoc. cbn [fst app]. destruct r; reflexivity.
        + intros k [X|X]; [left; exact X|right; exact (I k X)].
        + intros Ho. constructor; [split; [reflexivity|split; assumption]|]. apply V. exact Ho. }
    destruct b1; [apply G; exact (wang_guess M _ a r1 HRes E1)|].
    destruct (mqrr_total a M (proj1 HRes)) as [b2 [r2 E2]]. rewrite E2. cbn [oget obind fst snd]. destruct b2; [apply G; exact (mqrr_guess M _ a r2 HRes E2)|].
    exists false, []. cbn. rewrite app_nil_r. split; [reflexivity|]. split; [intros x []|discriminate].
Qed.
(** numbers within the bounds are guessed correctly *)
Lemma qpromote_small M T : 2 < M -> forall l g dk, Forall2 (qmatches M) T l -> NoDup (map fst T) -> (forall k, In k (map fst T) -> ~ In k (map fst g)) ->
  (forall t, In t T -> within_root M (snd t)) -> promote M l g dk = Ret (true, g ++ map qentry T, rev (map fst T) ++ dk).
Proof.
  intros HM. induction T as [|t T IH]; intros l g dk H ND HD HS; inversion H as [|? e ? l' [Ek HRes] H']; subst.
  - cbn. rewrite app_nil_r. reflexivity.
  - destruct e as [k a]. cbn [fst snd] in *. subst k. cbn [promote map] in *. inversion ND as [|? ? N1 N2]; subst.
    destruct (HS t (or_introl eq_refl)) as [[L1 L2] [S1 S2]]. destruct HRes as [HRes HQ].
    assert (E : get_rational_coef a M = Some (true, mk_rn (fst (snd t)) (snd (snd t)))).
    { apply get_rational_coef_complete; try assumption. apply Z.mod_divide; [lia|]. apply Z.mod_divide in HQ; [|lia]. destruct HQ as [q Hq]. exists (- q). lia. }
    rewrite E. cbn [oget obind fst snd]. rewrite aset_new by (apply HD; left; reflexivity). rewrite (IH l'); try assumption.
    + rewrite <- !app_assoc. cbn [app rev]. rewrite <- app_assoc. reflexivity.
    + intros k Hk X. rewrite map_app in X. apply in_app_or in X as [X|[X|[]]]; [exact (HD k (or_intror Hk) X)|]. cbn [fst] in X. subst k. contradiction.
    + intros u Hu. apply HS. right. exact Hu.
Qed.

Lemma afind_pfind {K : fops} (m : list (list Z * K)) k : afind m k = pfind m k.
Proof. induction m as [|[k' a] m IH]; [reflexivity|]. cbn [afind pfind]. rewrite IH. reflexivity. Qed.
(** RatReconst.cpp:1463-1505 *)
Lemma qcrt_map_ok F M (img : list (list Z * fld F)) T : 2 < M -> ~ (pf_mod F | M) -> forall l last, Forall2 (qmatches M) T l ->
  (forall t, In t T -> coef_at img (fst t) = @krat (fld F) (snd t) /\ ~ (pf_mod F | snd (snd t))) ->
  exists l', crt_map F M img l last = Ret (l', match T with [] => last | _ => M * pf_mod F end) /\ Forall2 (qmatches (M * pf_mod F)) T l'.
Proof.
  intros HM HG. assert (G : Z.gcd M (pf_mod F) = 1).
  { apply Zgcd_1_rel_prime. apply rel_prime_sym. apply prime_rel_prime; [exact (pf_prime F)|exact HG]. }
  pose proof (p_gt1 F) as Hp. induction T as [|t T IH]; intros l last H HI; inversion H as [|? e ? l' [Ek HRes] H']; subst.
  - exists []. split; [reflexivity|constructor].
  - destruct e as [k a]. cbn [fst snd] in *. subst k. cbn [crt_map]. destruct (HI t (or_introl eq_refl)) as [EC Hd].
    assert (Ei : match afind img (fst t) with Some x => kv x | None => 0 end = kv (@krat (fld F) (snd t))).
    { rewrite <- EC, afind_pfind. unfold coef_at. destruct (pfind img (fst t)) as [x|]; [reflexivity|]. symmetry. apply kv_0. }
    rewrite Ei. cbn zeta iota.
    assert (RP : residue (pf_mod F) (snd t) (kv (@krat (fld F) (snd t)))) by (split; [apply kv_range|apply krat_residue; exact Hd]).
    destruct (crt_residue M (pf_mod F) (snd t) a _ ltac:(lia) ltac:(lia) G HRes RP) as [a' [-> HR']]. cbn [oget obind snd].
    destruct (IH l' (M * pf_mod F) H' (fun u Hu => HI u (or_intror Hu))) as [l1 [-> H1]]. cbn [obind fst snd].
    exists ((fst t, a') :: l1). split; [destruct T; reflexivity|]. constructor; [split; [reflexivity|exact HR']|exact H1].
Qed.

(** RatReconst.cpp:1512-1661 *)
Lemma qfix_map_ok n M M' T : forall l c U g ns W, Forall2 (qmatches M) T l -> Forall2 (qmatches M') T c -> NoDup (map fst T) ->
  (forall k, In k (map fst T) -> ~ In k (map fst U) /\ ~ In k (map fst g)) -> groups ns W -> (forall k, In k (map fst T) -> key_ok n k) ->
  (forall t, In t T -> lowest (snd t) /\ no_impostor M M' (snd t)) ->
  exists Ta Tb c' ns', qfix_map M M' l (U ++ c) g ns = Ret (U ++ c', g ++ map qentry Ta, ns') /\ groups ns' (W ++ map fst Tb) /\ Permutation T (Ta ++ Tb) /\
    Forall2 (qmatches M') Tb c' /\ (forall t, In t Ta -> guessable M (snd t)).
Proof.
  induction T as [|t T IH]; intros l c U g ns W H Hc ND HK Hns HO HI; inversion H as [|? e ? l' [Ek HRes] H']; subst; inversion Hc as [|? e' ? c1 [Ek' HRes'] Hc']; subst.
  - exists [], [], [], ns. cbn. rewrite !app_nil_r. split; [reflexivity|]. split; [exact Hns|]. split; [constructor|]. split; [constructor|intros u []].
  - destruct e as [k a]. destruct e' as [k' a']. cbn [fst snd] in *. subst k k'. cbn [qfix_map]. inversion ND as [|? ? KT N2]; subst.
    destruct (HK (fst t) (or_introl eq_refl)) as [KU Kg]. apply afind_None in Kg as Kg'. rewrite Kg'.
    assert (EF : afind (U ++ (fst t, a') :: c1) (fst t) = Some a').
    { clear - KU. induction U as [|[k b] U IH]; cbn [app afind]; [rewrite mon_eqb_refl; reflexivity|]. cbn [map fst] in KU.
      rewrite mon_eqb_neq by (intros X; apply KU; left; symmetry; exact X). apply IH. intros X. apply KU. right. exact X. }
    rewrite EF. destruct (HI t (or_introl eq_refl)) as [HL HN]. destruct (decide_ok M M' (snd t) a a' HRes HRes' HL HN) as [o [-> HD]]. cbn [obind].
    destruct o as [q|].
    + destruct (HD q eq_refl) as [-> HG].
      assert (EE : aerase (U ++ (fst t, a') :: c1) (fst t) = U ++ c1).
      { change ((fst t, a') :: c1) with ([(fst t, a')] ++ c1). rewrite !aerase_app, aerase_one, (aerase_absent U) by exact KU. cbn [app]. rewrite aerase_absent; [reflexivity|].
        rewrite (qmatches_keys _ _ _ Hc'). exact KT. }
      rewrite EE, aset_new by exact Kg.
      destruct (IH l' c1 U (g ++ [(fst t, mk_rn (fst (snd t)) (snd (snd t)))]) ns W H' Hc' N2) as [Ta [Tb [c' [ns' [E [Gn [P [Q R]]]]]]]].
      * intros k Hk. destruct (HK k (or_intror Hk)) as [A B]. split; [exact A|]. intros X. rewrite map_app in X. apply in_app_or in X as [X|[X|[]]]; [contradiction|].
        cbn [fst] in X. subst k. contradiction.
      * exact Hns.
      * intros k Hk. apply HO. right. exact Hk.
      * intros u Hu. apply HI. right. exact Hu.
      * exists (t :: Ta), Tb, c', ns'. rewrite E. split; [rewrite <- app_assoc; reflexivity|]. split; [exact Gn|]. split; [cbn [app]; constructor; exact P|]. split; [exact Q|].
        intros u [<-|Hu]; [exact HG|apply R; exact Hu].
    + change ((fst t, a') :: c1) with ([(fst t, a')] ++ c1). rewrite app_assoc.
      destruct (IH l' c1 (U ++ [(fst t, a')]) g (add_non_solved ns (fst t)) (W ++ [fst t]) H' Hc' N2) as [Ta [Tb [c' [ns' [E [Gn [P [Q R]]]]]]]].
      * intros k Hk. destruct (HK k (or_intror Hk)) as [A B]. split; [|exact B]. intros X. rewrite map_app in X. apply in_app_or in X as [X|[X|[]]]; [contradiction|].
        cbn [fst] in X. subst k. contradiction.
      * apply (groups_add n); [exact Hns|apply HO; left; reflexivity].
      * intros k Hk. apply HO. right. exact Hk.
      * intros u Hu. apply HI. right. exact Hu.
      * exists Ta, (t :: Tb), ((fst t, a') :: c'), ns'. rewrite E. split; [rewrite <- !app_assoc; reflexivity|]. split; [rewrite <- app_assoc in Gn; exact Gn|]. split; [apply Permutation_cons_app; exact P|].
        split; [|exact R]. constructor; [split; [reflexivity|exact HRes']|exact Q].
Qed.

Section Parts.
  Variable ord : forall A : Type, list A -> list A.
  Hypothesis Hord : forall A (l : list A), Permutation (ord A l) l.
  Variable n : nat.

  Lemma qpart_keys M T gm c ns A B : NoDup (map fst T) -> qpart M T gm c ns A B -> NoDup (map fst (A ++ B)) /\ NoDup (map fst A) /\ NoDup (map fst B) /\ (forall k, In k (map fst B) -> ~ In k (map fst gm)).
  Proof.
    intros ND [P1 [P2 _]]. assert (NA : NoDup (map fst (A ++ B))) by (apply (Permutation_NoDup (Permutation_map fst P1)); exact ND).
    split; [exact NA|]. rewrite map_app in NA. split; [|split].
    - apply (Permutation_NoDup (Permutation_app_comm _ _)) in NA. exact (nodup_app_r _ _ NA).
    - exact (nodup_app_r _ _ NA).
    - intros k Hk X. apply (Permutation_in _ (Permutation_map fst P2)) in X. rewrite qentry_keys in X. exact (nodup_app_disjoint _ _ _ NA X Hk).
  Qed.
  (** one map through Chinese remaindering and the recognition of coefficients *)
  Lemma qpart_next F M T g c ns T1 T2 (img : list (list Z * fld F)) last : 2 < M -> ~ (pf_mod F | M) -> NoDup (map fst T) -> (forall t, In t T -> key_ok n (fst t) /\ lowest (snd t) /\ ~ (pf_mod F | snd (snd t)) /\ no_impostor M (M * pf_mod F) (snd t)) ->
    qpart M T g c ns T1 T2 -> (forall t, In t T2 -> coef_at img (fst t) = krat (snd t)) ->
    exists c1, crt_map F M img (ord _ c) last = Ret (c1, match c with [] => last | _ => M * pf_mod F end) /\
      exists c2 g2 ns2 Ta Tb, qfix_map M (M * pf_mod F) (ord _ c) c1 g [] = Ret (c2, g2, ns2) /\ qpart (M * pf_mod F) T g2 c2 (ord _ ns2) (T1 ++ Ta) Tb.
  Proof.
    intros HM HpM ND HT HS HI. pose proof (p_gt1 F) as Hp.
    destruct (qpart_keys M T g c ns T1 T2 ND HS) as [KN1 [_ [ND2 KN3]]]. pose proof HS as [P1 [P2 [P3 [P4 P5]]]].
    destruct (qmatches_reorder _ _ _ _ P3 (Hord _ c)) as [T2' [Q MT]].
    assert (I2 : forall t, In t T2' -> In t T2 /\ In t T).
    { intros t Ht. apply (Permutation_in _ (Permutation_sym Q)) in Ht. split; [exact Ht|]. apply (Permutation_in _ (Permutation_sym P1)). apply in_or_app. right. exact Ht. }
    destruct (qcrt_map_ok F M img T2' HM HpM (ord _ c) last MT) as [c1 [E1 M1]].
    { intros t Ht. destruct (I2 t Ht) as [A B]. split; [apply HI; exact A|apply HT; exact B]. }
    exists c1. split.
    { rewrite E1. f_equal. f_equal. destruct T2' as [|t T2']; destruct c as [|e c]; try reflexivity.
      - apply Permutation_sym, Permutation_nil in Q. subst T2. inversion P3.
      - inversion P3; subst. apply Permutation_nil in Q. discriminate. }
    assert (ND2' : NoDup (map fst T2')) by (apply (Permutation_NoDup (Permutation_map fst Q)); exact ND2).
    destruct (qfix_map_ok n M (M * pf_mod F) T2' (ord _ c) c1 [] g [] [] MT M1 ND2') as [Ta [Tb [c' [ns' [E2 [Gn [PT [MB GA]]]]]]]].
    - intros k Hk. split; [intros []|]. apply KN3. apply (Permutation_in _ (Permutation_sym (Permutation_map fst Q))). exact Hk.
    - apply groups_nil.
    - intros k Hk. apply in_map_iff in Hk as [t [<- Ht]]. destruct (I2 t Ht) as [_ B]. apply HT. exact B.
    - intros t Ht. destruct (I2 t Ht) as [_ B]. split; apply HT; exact B.
    - cbn [app] in E2, Gn. exists c', (g ++ map qentry Ta), ns', Ta, Tb. split; [exact E2|]. split; [|split; [|split; [exact MB|split]]].
      + apply (Permutation_trans P1). rewrite <- app_assoc. apply Permutation_app_head. exact (Permutation_trans Q PT).
      + rewrite map_app. apply Permutation_app_tail. exact P2.
      + apply (groups_order ns'); [apply Permutation_sym; apply Hord|exact Gn].
      + intros t Ht. apply (guessable_mono M); [clear - HM Hp; nia|]. apply in_app_or in Ht as [Ht|Ht]; [apply P5|apply GA]; exact Ht.
  Qed.
End Parts.

(** Proofs for the reconstruction of a rational polynomial over several primes (C47). *)
From Coq Require Import Znumtheory Permutation.
From Verif Require Import Machine NumTheory FFInt FFIntProofs FField FSum LinAlg FPoly PolyFF PolySpec PolyFFProofs PolyFFProofs2 RatNum RatNumProofs Modular ModularProofs MqrrProofs PField Newton RatUni RatUniSpec RatUniProofs PolyRec PolyRecSpec PolyRecRunSpec PolyRecMath PolyRecFile PolyRecMain PolyRat PolyRatSpec.
Open Scope Z_scope.


Definition lookup (ci : list (mon * Z)) (k : mon) : Z := match afind ci k with Some a => a | None => 0 end.
Definition rcoef (g : list (mon * rn)) (k : mon) : Z * Z := match afind g k with Some r => (num r, den r) | None => (0, 1) end.

Lemma afind_middle {A} (g1 g2 : list (mon * A)) k a k' : k' <> k -> afind (g1 ++ (k, a) :: g2) k' = afind (g1 ++ g2) k'.
Proof. intros Ne. induction g1 as [|[q b] g1 IH]; cbn [app afind]; [rewrite mon_eqb_neq by exact Ne; reflexivity|]. rewrite IH. reflexivity. Qed.

Section Sum.
  Context {K : fops} (HK : flaws K).
  Add Field KS : (fl_field K HK).
  (** the value of a map is a sum over any list of keys that contains those of the map *)
  Lemma pv_keys n x (l : list mon) : forall (g : list (mon * K)), NoDup l -> NoDup (map fst g) -> incl (map fst g) l ->
    poly_value n g x = poly_value n (map (fun k => (k, match afind g k with Some a => a | None => f0 end)) l) x.
  Proof.
    induction l as [|k l IH]; intros g Nl Ng I.
    - destruct g as [|e g]; [reflexivity|]. destruct (I (fst e)). left. reflexivity.
    - inversion Nl as [|? ? N1 N2]; subst. cbn [map]. unfold poly_value at 2. cbn [fold_right fst snd].
      fold (poly_value n (map (fun k => (k, match afind g k with Some a => a | None => f0 end)) l) x).
      destruct (afind g k) as [a|] eqn:E.
      + pose proof (afind_Some _ _ _ E) as Ig. apply in_split in Ig as [g1 [g2 Eg]].
        assert (P : Permutation g ((k, a) :: g1 ++ g2)) by (rewrite Eg; apply Permutation_sym, Permutation_middle).
        rewrite (pv_perm HK n _ _ x P). unfold poly_value at 1. cbn [fold_right fst snd]. fold (poly_value n (g1 ++ g2) x). f_equal.
        pose proof (Permutation_NoDup (Permutation_map fst P) Ng) as Nk. cbn [map fst] in Nk. inversion Nk as [|? ? K1 K2]; subst.
        rewrite (IH (g1 ++ g2) N2 K2).
        * f_equal. apply map_ext_in. intros k' Hk'. f_equal. assert (Ne : k' <> k) by (intros ->; contradiction).
          rewrite afind_middle by exact Ne. reflexivity.
        * intros k' Hk'. destruct (I k') as [X|X]; [apply (Permutation_in _ (Permutation_sym (Permutation_map fst P))); right; exact Hk'| |exact X]. subst k'. contradiction.
      + rewrite <- (IH g N2 Ng); [ring|]. intros k' Hk'. destruct (I k' Hk') as [X|X]; [|exact X]. subst k'. apply afind_None in E. contradiction.
  Qed.
End Sum.

Lemma guess_all_ok M : forall l gi, NoDup (map fst l) -> (forall k, In k (map fst l) -> ~ In k (map fst gi)) ->
  (forall k a, In (k, a) l -> 0 <= a < M) ->
  exists ok L, guess_all M l gi = Ret (ok, gi ++ L) /\ (ok = true -> Forall2 (fun e r => fst r = fst e /\ get_rational_coef (snd e) M = Some (true, snd r)) l L).
Proof.
  induction l as [|[k a] l IH]; intros gi ND HD HR.
  - exists true, []. rewrite app_nil_r. split; [reflexivity|]. constructor.
  - cbn [guess_all]. destruct (get_rational_coef_total a M) as [b [r E]]; [apply (HR k); left; reflexivity|]. rewrite E. cbn [oget obind fst snd].
    cbn [map fst] in ND. inversion ND as [|? ? N1 N2]; subst. destruct b.
    + assert (EN : afind gi k = None) by (apply afind_None, HD; left; reflexivity). rewrite EN.
      destruct (IH (gi ++ [(k, r)]) N2) as [ok [L [EL HL]]].
      * intros k' Hk X. rewrite map_app in X. apply in_app_or in X as [X|[X|[]]]; [exact (HD k' (or_intror Hk) X)|]. cbn [fst] in X. subst k'. contradiction.
      * intros k' a' Hk. apply (HR k'). right. exact Hk.
      * exists ok, ((k, r) :: L). rewrite EL, <- app_assoc. split; [reflexivity|]. intros Hok. constructor; [split; [reflexivity|exact E]|]. apply HL. exact Hok.
    + exists false, []. rewrite app_nil_r. split; [reflexivity|discriminate].
Qed.

Definition term_entry (t : qterm) : mon * rn := (fst t, mk_rn (fst (snd t)) (snd (snd t))).
Lemma total_nth e : (forall i, 0 <= nth i e 0) -> forall i, nth i e 0 <= total e.
Proof.
  induction e as [|a e IH]; intros H i; [destruct i; cbn; lia|]. assert (He : forall j, 0 <= nth j e 0) by (intros j; exact (H (S j))).
  pose proof (IH He) as I. pose proof (H 0%nat) as H0. cbn [nth] in H0. unfold total in *. cbn [fold_right]. pose proof (I (length e)) as L. rewrite nth_overflow in L by lia.
  destruct i as [|i]; cbn [nth]; [lia|]. pose proof (I i). lia.
Qed.

Lemma krat_zero (F : pfield) : @krat (fld F) (0, 1) = f0.
Proof. apply (krat_0 F); cbn [fst snd]; [|apply Z.divide_0_r]. intros H. pose proof (p_gt1 F). apply Z.divide_1_r_nonneg in H; lia. Qed.

Section Prime.
  Variable ord : forall A : Type, list A -> list A.
  Hypothesis Hord : forall A (l : list A), Permutation (ord A l) l.
  Variables (c : pcfg) (D : nat) (f : list qterm).
  Local Notation n := (pc_n c).
  Hypothesis Hf : rational_polynomial n D f.
  Hypothesis Np : (0 < n)%nat.

  Definition keys_ok (M : Z) (ci : list (mon * Z)) : Prop :=
    NoDup (map fst ci) /\ incl (map fst ci) (map fst f) /\ forall t, In t f -> residue M (snd t) (lookup ci (fst t)).
  Definition between (M : Z) (g : pq) : Prop :=
    q_new g = true /\ q_done g = false /\ q_prime g = M /\ q_gi g = [] /\ 1 < M /\ keys_ok M (q_ci g).

  Lemma f_exponents t : In t f -> exponents_ok n (fst t).
  Proof.
    intros I. destruct (proj2 Hf t I) as [_ [_ [L [B T]]]]. split; [exact L|]. apply Forall_forall. intros z Iz. apply (In_nth _ _ 0) in Iz as [i [_ <-]].
    pose proof (B i). pose proof (total_nth (fst t) (fun j => proj1 (B j)) i). lia.
  Qed.
  Lemma key_term k : In k (map fst f) -> exists t, In t f /\ fst t = k.
  Proof. intros I. apply in_map_iff in I as [t [E I]]. exists t. split; assumption. Qed.
  Lemma range_of M ci k a : keys_ok M ci -> In (k, a) ci -> exists t, In t f /\ fst t = k /\ residue M (snd t) a.
  Proof.
    intros [ND [I R]] Ia. destruct (key_term k (I k (in_map fst _ _ Ia))) as [t [It E]]. exists t. split; [exact It|]. split; [exact E|].
    pose proof (R t It) as H. unfold lookup in H. rewrite E, (afind_In _ _ _ ND Ia) in H. exact H.
  Qed.

  Section Field.
    Variable F : pfield.
    Local Notation K := (fld F).
    Local Notation p := (pf_mod F).
    Variable y : nat -> K.
    Add Field KP : (fl_field K (HK F)).

    Lemma over_keys l : map fst (over F l) = map fst l.
    Proof. unfold over. rewrite map_map. reflexivity. Qed.
    Lemma first_value : black_box n (over F f) y (repeat 1%nat n) = poly_value n (over F f) y.
    Proof.
      unfold black_box. unfold poly_value. induction (over F f) as [|e l IH]; [reflexivity|]. cbn [fold_right]. rewrite IH. f_equal. f_equal. apply mv_ext_x.
      intros i Hi. assert (E1 : nth i (repeat 1%nat n) 0%nat = 1%nat) by (rewrite (nth_indep _ 0%nat 1%nat) by (rewrite repeat_length; exact Hi); apply nth_repeat). rewrite E1. cbn [pw]. ring.
    Qed.

    (** the value of a guess *)
    Lemma guess_test gi v : NoDup (map fst gi) -> incl (map fst gi) (map fst f) ->
      ptest_guess ord c F y gi v = true <-> poly_value n (over F (map (fun t => (fst t, rcoef gi (fst t))) f)) y = v.
    Proof.
      intros ND I. unfold ptest_guess. rewrite (fl_eqb K (HK F)).
      assert (E : calc (ord _) (mk_polyff n (convert_to_ffint ord F gi)) (fun i => rand_zi (y i) 1) = poly_value n (over F (map (fun t => (fst t, rcoef gi (fst t))) f)) y); [|rewrite E; tauto].
      assert (P : Permutation (convert_to_ffint ord F gi) (map (fun e => (fst e, to_ff F (snd e))) gi)) by (unfold convert_to_ffint; apply Permutation_map, Hord).
      assert (KE : map fst (map (fun e => (fst e, to_ff F (snd e))) gi) = map fst gi) by (rewrite map_map; reflexivity).
      rewrite (calc_value (HK F)); [|exact (Hord _)|].
      - cbn [pf_n pf_coefs]. rewrite (pv_perm (HK F) n _ _ _ P). rewrite (pv_keys (HK F) n _ (map fst f)); [|exact (proj1 Hf)|rewrite KE; exact ND|rewrite KE; exact I].
        rewrite map_map. unfold over. rewrite map_map. unfold poly_value. clear Hf I ND P KE. induction f as [|t l IH]; [reflexivity|]. cbn [map fold_right fst snd]. rewrite IH. f_equal. f_equal.
        + clear. unfold rcoef. induction gi as [|[k r] gi IH]; cbn [map afind fst snd]; [symmetry; apply krat_zero|]. destruct (mon_eqb (fst t) k); [apply to_ff_krat|exact IH].
        + apply mv_ext_x. intros i Hi. unfold rand_zi. rewrite (fl_pow K (HK F)) by (unfold two64; lia). change (Z.to_nat (Z.of_nat 1)) with 1%nat. cbn [pw]. ring.
      - cbn [pf_n pf_coefs]. apply (poly_ok_perm _ _ _ (Permutation_sym P)). split; [rewrite KE; exact ND|]. apply Forall_forall. intros e Ie. apply in_map_iff in Ie as [r [<- Ir]]. cbn [fst].
        destruct (key_term (fst r) (I _ (in_map fst _ _ Ir))) as [t [It <-]]. apply f_exponents. exact It.
    Qed.

    (** the test at the first probe of a further prime *)
    Lemma start_ok M g : between M g ->
      (forall f', lookalike M f f' -> poly_value n (over F f') y = poly_value n (over F f) y -> f' = f) ->
      let v := poly_value n (over F f) y in
      exists g1, start_prime ord c F y g v = Ret g1 /\
        ((q_done g1 = true /\ is_polynomial (q_gi g1) f) \/
         (g1 = mk_pq false (q_number g) false true M (q_ci g) [] /\ (q_ci g = [] -> v <> f0))).
    Proof.
      intros [H1 [H2 [H3 [H4 [HM HK']]]]] NF v. unfold start_prime. rewrite H1, H3, H4.
      pose proof HK' as [ND [Ik HR]].
      assert (NDo : NoDup (map fst (ord _ (q_ci g)))) by (apply (Permutation_NoDup (Permutation_sym (Permutation_map fst (Hord _ (q_ci g))))); exact ND).
      destruct (guess_all_ok M (ord _ (q_ci g)) []) as [ok [L [E HL]]]; [exact NDo|intros k _ []| |].
      { intros k a Ia. apply (Permutation_in _ (Hord _ _)) in Ia. destruct (range_of M _ _ _ HK' Ia) as [t [_ [_ R]]]. exact (proj1 R). }
      rewrite E. cbn [obind fst snd app]. destruct ok.
      2:{ cbn [andb]. eexists. split; [reflexivity|]. right. split; [reflexivity|]. intros E0. exfalso.
          assert (O0 : ord (mon * Z)%type (q_ci g) = []) by (rewrite E0; apply Permutation_nil, Permutation_sym, Hord). rewrite O0 in E. discriminate E. }
      specialize (HL eq_refl). cbn [andb].
      assert (KL : map fst L = map fst (ord _ (q_ci g))) by (clear - HL; induction HL as [|e r l L [X _] _ IH]; [reflexivity|]; cbn [map]; rewrite IH, X; reflexivity).
      assert (NL : NoDup (map fst L)) by (rewrite KL; exact NDo).
      assert (IL : incl (map fst L) (map fst f)) by (rewrite KL; intros k Hk; apply Ik; apply (Permutation_in _ (Permutation_map fst (Hord _ (q_ci g)))); exact Hk).
      set (f' := map (fun t => (fst t, rcoef L (fst t))) f).
      destruct (ptest_guess ord c F y L v) eqn:ET.
      - apply (guess_test L v NL IL) in ET. fold f' in ET.
        assert (LA : lookalike M f f').
        { assert (X : forall t, In t f -> within_root M (rcoef L (fst t)) /\ agrees M (snd t) (rcoef L (fst t))).
          { intros t It. unfold rcoef. destruct (afind L (fst t)) as [r|] eqn:EL.
            - apply afind_Some in EL. assert (X : exists a, In (fst t, a) (ord _ (q_ci g)) /\ get_rational_coef a M = Some (true, r)).
              { clear - HL EL. induction HL as [|e q l L [X Y] _ IH]; [contradiction|]. destruct EL as [->|EL]; [|destruct (IH EL) as [a [A B]]; exists a; split; [right; exact A|exact B]].
                cbn [fst snd] in X, Y. exists (snd e). split; [left; destruct e; cbn [fst snd] in *; congruence|exact Y]. }
              destruct X as [a [Ia Ea]]. apply (Permutation_in _ (Hord _ _)) in Ia. destruct (range_of M _ _ _ HK' Ia) as [t' [It' [Et R]]].
              assert (Q : t' = t).
              { clear - It It' Et Hf. destruct Hf as [N _]. clear Hf. induction f as [|u l IH]; [contradiction|]. cbn [map] in N. inversion N as [|? ? N1 N2]; subst.
                destruct It as [->|It], It' as [->|It']; [reflexivity| | |apply IH; assumption]; exfalso; apply N1; [rewrite <- Et|rewrite Et]; apply in_map; assumption. }
              subst t'. destruct (get_rational_coef_sound a M r (proj1 R) Ea) as [S1 [S2 [S3 [S4 S5]]]]. split; [split; [split; assumption|split; assumption]|].
              exact (residue_agrees M _ a _ _ R S3).
            - assert (R : residue M (snd t) 0).
              { pose proof (HR t It) as R. unfold lookup in R. assert (EN : afind (q_ci g) (fst t) = None); [|rewrite EN in R; exact R].
                apply afind_None. intros X. apply afind_None in EL. apply EL. rewrite KL. apply (Permutation_in _ (Permutation_sym (Permutation_map fst (Hord _ (q_ci g))))). exact X. }
              destruct R as [R1 R2]. split.
              + split; [split; cbn [fst snd]; [lia|reflexivity]|]. cbn [fst snd]. lia.
              + apply (residue_agrees M _ 0); [split; assumption|]. rewrite Z.mul_0_l. apply Z.mod_0_l. lia. }
          unfold f', lookalike. clear - X. induction f as [|t l IH]; [constructor|]. cbn [map]. constructor; [split; [reflexivity|apply X; left; reflexivity]|]. apply IH. intros u Iu. apply X. right. exact Iu. }
        pose proof (NF f' LA ET) as Ef.
        assert (Ec : forall t, In t f -> rcoef L (fst t) = snd t).
        { clear - Ef. unfold f' in Ef. clear f'. induction f as [|u l IH]; intros t It; [contradiction|]. cbn [map] in Ef. injection Ef as E1 E2.
          destruct It as [->|It]; [|apply IH; assumption]. destruct t as [k q]. cbn [fst snd] in *. congruence. }
        eexists. split; [reflexivity|]. left. split; [reflexivity|]. cbn [q_gi]. unfold is_polynomial. apply NoDup_Permutation.
        + apply (NoDup_map_inv fst). exact NL.
        + apply (NoDup_map_inv fst). rewrite map_map. cbn [fst]. exact (proj1 Hf).
        + intros [k r]. split.
          * intros Ir. destruct (key_term k (IL k (in_map fst _ _ Ir))) as [t [It <-]]. apply in_map_iff. exists t. split; [|exact It].
            pose proof (Ec t It) as X. unfold rcoef in X. rewrite (afind_In _ _ _ NL Ir) in X. rewrite <- X. destruct r; reflexivity.
          * intros Ir. apply in_map_iff in Ir as [t [Er It]]. injection Er as <- <-. pose proof (Ec t It) as X. unfold rcoef in X.
            destruct (afind L (fst t)) as [r|] eqn:EL; [|destruct (proj2 Hf t It) as [Z0 _]; rewrite <- X in Z0; cbn [fst] in Z0; lia].
            apply afind_Some in EL. rewrite <- X. cbn [fst snd]. destruct r; exact EL.
      - eexists. split; [reflexivity|]. right. split; [reflexivity|]. intros E0 Ev.
        assert (O0 : ord (mon * Z)%type (q_ci g) = []) by (rewrite E0; apply Permutation_nil, Permutation_sym, Hord). rewrite O0 in HL. inversion HL; subst L.
        assert (X : ptest_guess ord c F y [] v = true); [|congruence]. apply (guess_test [] v); [constructor|intros k []|]. rewrite Ev. unfold over. rewrite map_map. cbn [fst snd rcoef afind].
        clear. unfold poly_value. induction f as [|t l IH]; [reflexivity|]. cbn [map fold_right fst snd]. rewrite IH, krat_zero. ring.
    Qed.

    (** ---- combining a prime with the previous ones ---- *)
    Lemma lookup_snoc ci k k' : ~ In k (map fst ci) -> lookup (ci ++ [(k, 0)]) k' = lookup ci k'.
    Proof.
      intros N. unfold lookup. induction ci as [|[q b] ci IH]; cbn [app afind]; [destruct (mon_eqb k' k); reflexivity|].
      destruct (mon_eqb k' q); [reflexivity|]. apply IH. intros X. apply N. right. exact X.
    Qed.
    Lemma nodup_snoc {A} (l : list A) a : NoDup l -> ~ In a l -> NoDup (l ++ [a]).
    Proof. intros H N. apply (Permutation_NoDup (l := a :: l)); [apply Permutation_cons_append|]. constructor; assumption. Qed.
    Lemma add_missing_ok g ci : q_gi g = [] -> NoDup (map fst ci) ->
      NoDup (map fst (add_missing ord g ci)) /\ (forall k, lookup (add_missing ord g ci) k = lookup ci k) /\
      (forall k, In k (map fst (add_missing ord g ci)) <-> In k (map fst ci) \/ In k (map fst (q_ci g))).
    Proof.
      intros EG. unfold add_missing. rewrite EG. cbn [afind]. 
      assert (G : forall l ci, NoDup (map fst ci) ->
        let r := fold_left (fun (t : list (mon * Z)) (el : mon * Z) => match afind t (fst el) with Some _ => t | None => t ++ [(fst el, 0)] end) l ci in
        NoDup (map fst r) /\ (forall k, lookup r k = lookup ci k) /\ (forall k, In k (map fst r) <-> In k (map fst ci) \/ In k (map fst l))).
      { clear. induction l as [|el l IH]; intros ci ND; cbn [fold_left map]; [split; [exact ND|split; [reflexivity|intros k; cbn [In]; tauto]]|].
        destruct (afind ci (fst el)) as [a|] eqn:E.
        - destruct (IH ci ND) as [A [B C]]. split; [exact A|]. split; [exact B|]. intros k. rewrite C. cbn [In]. pose proof (in_map fst _ _ (afind_Some _ _ _ E)) as X. cbn [fst] in X. split; [tauto|]. intros [H|[<-|H]]; auto.
        - apply afind_None in E. destruct (IH (ci ++ [(fst el, 0)])) as [A [B C]]; [rewrite map_app; apply nodup_snoc; assumption|]. split; [exact A|]. split.
          + intros k. rewrite B. apply lookup_snoc. exact E.
          + intros k. rewrite C, map_app, in_app_iff. cbn [map fst In]. split; intros H; repeat (destruct H as [H|H]); subst; auto; contradiction. }
      intros ND. destruct (G (ord _ (q_ci g)) ci ND) as [A [B C]].
      split; [exact A|]. split; [exact B|]. intros k. rewrite (C k). split; (intros [H|H]; [left; exact H|right]); [apply (Permutation_in _ (Permutation_map fst (Hord _ (q_ci g)))); exact H|].
      apply (Permutation_in _ (Permutation_sym (Permutation_map fst (Hord _ (q_ci g))))); exact H.
    Qed.

    Lemma aset_keys (m : list (mon * Z)) k a k' : In k' (map fst (aset m k a)) -> k' = k \/ In k' (map fst m).
    Proof.
      unfold aset. destruct (afind m k) as [b|].
      - rewrite map_map. intros H. right. apply in_map_iff in H as [e [E H]]. apply in_map_iff. exists e. split; [|exact H]. destruct (mon_eqb k (fst e)); exact E.
      - rewrite map_app, in_app_iff. cbn [map fst In]. intros [H|[H|[]]]; auto.
    Qed.
    Lemma aset_nodup (m : list (mon * Z)) k a : NoDup (map fst m) -> NoDup (map fst (aset m k a)).
    Proof.
      intros H. unfold aset. destruct (afind m k) as [b|] eqn:E.
      - rewrite map_map. erewrite map_ext; [exact H|]. intros e. cbn. destruct (mon_eqb k (fst e)); reflexivity.
      - rewrite map_app. apply nodup_snoc; [exact H|]. apply afind_None. exact E.
    Qed.
    Lemma aset_get (m : list (mon * Z)) k a k' : lookup (aset m k a) k' = if mon_eqb k' k then a else lookup m k'.
    Proof. unfold lookup. rewrite aget_set. destruct (mon_eqb k' k); reflexivity. Qed.

    Lemma crt_all_ok M g : q_gi g = [] -> q_prime g = M -> 0 < M -> Z.gcd M p = 1 -> forall l ci last, NoDup (map fst l) -> NoDup (map fst ci) ->
      (forall k i, In (k, i) l -> exists q, residue M q (lookup ci k) /\ residue p q i) ->
      exists ci', crt_all F g l ci last = Ret (ci', match l with [] => last | _ => M * p end) /\ NoDup (map fst ci') /\
        (forall k, In k (map fst ci') -> In k (map fst ci) \/ In k (map fst l)) /\
        (forall k, ~ In k (map fst l) -> lookup ci' k = lookup ci k) /\
        (forall k i q, In (k, i) l -> residue M q (lookup ci k) -> residue p q i -> residue (M * p) q (lookup ci' k)).
    Proof.
      intros EG EM HM G. pose proof (p_gt1 F) as P1. induction l as [|[k i] l IH]; intros ci last NL NC HR.
      - exists ci. split; [reflexivity|]. split; [exact NC|]. split; [tauto|]. split; [reflexivity|intros k i q []].
      - cbn [crt_all]. rewrite EG, EM. cbn [afind]. cbn [map fst] in NL. inversion NL as [|? ? N1 N2]; subst.
        set (ci1 := match afind ci k with Some _ => ci | None => ci ++ [(k, 0)] end).
        assert (L1 : forall k', lookup ci1 k' = lookup ci k').
        { intros k'. unfold ci1. destruct (afind ci k) as [a|] eqn:E; [reflexivity|]. apply lookup_snoc. apply afind_None. exact E. }
        assert (ND1 : NoDup (map fst ci1)).
        { unfold ci1. destruct (afind ci k) as [a|] eqn:E; [exact NC|]. rewrite map_app. apply nodup_snoc; [exact NC|]. apply afind_None. exact E. }
        assert (K1 : forall k', In k' (map fst ci1) -> In k' (map fst ci) \/ k' = k).
        { intros k'. unfold ci1. destruct (afind ci k); [tauto|]. rewrite map_app, in_app_iff. cbn [map fst In]. intros [X|[X|[]]]; auto. }
        change (match afind ci1 k with Some a => a | None => 0 end) with (lookup ci1 k). rewrite L1.
        destruct (HR k i (or_introl eq_refl)) as [q [R1 R2]].
        destruct (crt_residue (q_prime g) p q _ _ HM ltac:(lia) G R1 R2) as [a' [Ea Ra]]. rewrite Ea. cbn [oget obind fst snd].
        destruct (IH (aset ci1 k a') (q_prime g * p) N2 (aset_nodup _ _ _ ND1)) as [ci' [E [A [B [C D']]]]].
        { intros k' i' I. destruct (HR k' i' (or_intror I)) as [q' [R1' R2']]. exists q'. split; [|exact R2']. rewrite aset_get, mon_eqb_neq, L1; [exact R1'|].
          intros ->. apply N1. apply (in_map fst) in I. exact I. }
        exists ci'. rewrite E. split; [destruct l; reflexivity|]. split; [exact A|]. split; [|split].
        + intros k' I. cbn [map fst In]. destruct (B k' I) as [X|X]; [|tauto]. destruct (aset_keys _ _ _ _ X) as [X'|X']; [subst; tauto|]. destruct (K1 k' X'); [tauto|subst; tauto].
        + intros k' N. cbn [map fst In] in N. rewrite C by tauto. rewrite aset_get, mon_eqb_neq, L1; [reflexivity|]. intros ->. tauto.
        + intros k' i' q' [I|I] R1' R2'.
          * injection I as <- <-. rewrite C by exact N1. rewrite aset_get, mon_eqb_refl.
            destruct (crt_residue (q_prime g) p q' _ _ HM ltac:(lia) G R1' R2') as [a2 [E2 R]]. rewrite E2 in Ea. injection Ea as ->. exact R.
          * apply (D' k' i' q' I); [|exact R2']. rewrite aset_get, mon_eqb_neq, L1; [exact R1'|]. intros ->. apply N1. apply (in_map fst) in I. exact I.
    Qed.

    (** ---- the polynomial of one prime ---- *)
    Hypothesis Hden : forall t, In t f -> ~ (p | snd (snd t)).
    Lemma image_keys : incl (map fst (image F f)) (map fst f).
    Proof. intros k I. unfold image in I. apply in_map_iff in I as [e [<- I]]. apply filter_In in I as [I _]. rewrite <- over_keys. apply in_map. exact I. Qed.
    Lemma image_nodup : NoDup (map fst (image F f)).
    Proof.
      unfold image. pose proof (proj1 Hf) as N. rewrite <- over_keys in N. clear - N. induction (over F f) as [|e l IH]; [constructor|]. cbn [map] in N. inversion N as [|? ? N1 N2]; subst.
      cbn [filter]. destruct (negb _); [|apply IH; exact N2]. cbn [map]. constructor; [|apply IH; exact N2]. intros X. apply N1. apply in_map_iff in X as [u [Eu X]]. apply filter_In in X as [X _]. apply in_map_iff. exists u. split; [exact Eu|exact X].
    Qed.
    Lemma image_residue m t : Permutation m (image F f) -> In t f -> residue p (snd t) (lookup (convert_to_mpz ord F m) (fst t)).
    Proof.
      intros P It. pose proof (p_gt1 F) as P1. set (ci := convert_to_mpz ord F m).
      assert (Q : Permutation ci (map (fun e => (fst e, kv (snd e))) (image F f))) by (unfold ci, convert_to_mpz; apply Permutation_map; exact (Permutation_trans (Hord _ m) P)).
      assert (ND : NoDup (map fst ci)) by (apply (Permutation_NoDup (Permutation_sym (Permutation_map fst Q))); rewrite map_map; apply image_nodup).
      destruct (K_dec (HK F) (krat (snd t)) f0) as [Z0|Z0].
      - assert (EN : afind ci (fst t) = None).
        { apply afind_None. intros X. apply (Permutation_in _ (Permutation_map fst Q)) in X. rewrite map_map in X. cbn [fst] in X. apply in_map_iff in X as [e [E X]].
          unfold image in X. apply filter_In in X as [X Nz]. unfold over in X. apply in_map_iff in X as [u [<- Iu]]. cbn [fst snd] in *.
          assert (u = t); [|subst u; rewrite Z0, (feqb_refl (HK F)) in Nz; discriminate].
          clear - Iu It E Hf. destruct Hf as [N _]. clear Hf. induction f as [|w l IH]; [contradiction|]. cbn [map] in N. inversion N as [|? ? N1 N2]; subst.
          destruct It as [->|It], Iu as [->|Iu]; [reflexivity| | |apply IH; assumption]; exfalso; apply N1; [rewrite <- E|rewrite E]; apply in_map; assumption. }
        unfold lookup. rewrite EN. split; [lia|]. rewrite Z.mul_0_l. apply (krat_0 F) in Z0; [|apply Hden; exact It]. destruct Z0 as [w ->]. apply Z.mod_divide; [lia|]. exists (- w). ring.
      - assert (I : In (fst t, kv (F := F) (krat (snd t))) ci).
        { apply (Permutation_in _ (Permutation_sym Q)). apply in_map_iff. exists (fst t, krat (snd t)). split; [reflexivity|]. unfold image. apply filter_In. split.
          - unfold over. apply in_map_iff. exists t. split; [reflexivity|exact It].
          - cbn [snd]. destruct (feqb (krat (snd t)) f0) eqn:E; [|reflexivity]. apply (fl_eqb K (HK F)) in E. contradiction. }
        unfold lookup. rewrite (afind_In _ _ _ ND I). split; [apply kv_range|]. apply (krat_residue F). apply Hden. exact It.
    Qed.
    Lemma image_ci m : Permutation m (image F f) -> NoDup (map fst (convert_to_mpz ord F m)) /\ incl (map fst (convert_to_mpz ord F m)) (map fst f) /\
      (m <> [] -> convert_to_mpz ord F m <> []).
    Proof.
      intros P. assert (Q : Permutation (convert_to_mpz ord F m) (map (fun e => (fst e, kv (snd e))) (image F f))) by (unfold convert_to_mpz; apply Permutation_map; exact (Permutation_trans (Hord _ m) P)).
      split; [|split].
      - apply (Permutation_NoDup (Permutation_sym (Permutation_map fst Q))). rewrite map_map. apply image_nodup.
      - intros k I. apply (Permutation_in _ (Permutation_map fst Q)) in I. rewrite map_map in I. apply image_keys. exact I.
      - intros H E. apply H. rewrite E in Q. apply Permutation_nil in Q. apply map_eq_nil in Q. rewrite Q in P. apply Permutation_sym, Permutation_nil in P. exact P.
    Qed.

    (** the end of the first prime *)
    Lemma end_first m : Permutation m (image F f) -> exists g', end_prime ord F (pq_start p) m = Ret g' /\ between p g'.
    Proof.
      intros P. eexists. split; [reflexivity|]. destruct (image_ci m P) as [A [B _]].
      split; [reflexivity|]. split; [reflexivity|]. split; [reflexivity|]. split; [reflexivity|]. split; [apply p_gt1|]. split; [exact A|]. split; [exact B|].
      intros t It. apply image_residue; assumption.
    Qed.
    (** the end of a later prime *)
    Lemma end_later M nb ci m : 1 < M -> ~ (p | M) -> keys_ok M ci -> Permutation m (image F f) -> (ci = [] -> m <> []) ->
      exists g', end_prime ord F (mk_pq false nb false true M ci []) m = Ret g' /\ between (M * p) g'.
    Proof.
      intros HM Hp [C1 [C2 C3]] P NE. destruct (image_ci m P) as [A [B NZ]]. pose proof (p_gt1 F) as P1. unfold end_prime. cbn [q_crt].
      set (g := mk_pq false nb false true M ci []). destruct (add_missing_ok g (convert_to_mpz ord F m) eq_refl A) as [D1 [D2 D3]].
      set (l := add_missing ord g (convert_to_mpz ord F m)) in *.
      assert (NL : NoDup (map fst (ord _ l))) by (apply (Permutation_NoDup (Permutation_sym (Permutation_map fst (Hord _ l)))); exact D1).
      assert (KL : forall k, In k (map fst (ord _ l)) <-> In k (map fst (convert_to_mpz ord F m)) \/ In k (map fst ci)).
      { intros k. transitivity (In k (map fst l)); [|exact (D3 k)]. split; intros I; [apply (Permutation_in _ (Permutation_map fst (Hord _ l))); exact I|apply (Permutation_in _ (Permutation_sym (Permutation_map fst (Hord _ l)))); exact I]. }
      assert (G : Z.gcd M p = 1).
      { rewrite Z.gcd_comm. apply Zgcd_1_rel_prime. apply prime_rel_prime; [apply pf_prime|exact Hp]. }
      assert (LI : forall k i, In (k, i) (ord _ l) -> i = lookup (convert_to_mpz ord F m) k).
      { intros k i I. rewrite <- D2. apply (Permutation_in _ (Hord _ l)) in I. unfold lookup. rewrite (afind_In _ _ _ D1 I). reflexivity. }
      assert (LK : forall k, In k (map fst (ord _ l)) -> In k (map fst f)) by (intros k I; apply KL in I as [I|I]; [apply B|apply C2]; exact I).
      assert (HR : forall k i, In (k, i) (ord _ l) -> exists q, residue M q (lookup (q_ci g) k) /\ residue p q i).
      { intros k i I. destruct (key_term k (LK k (in_map fst _ _ I))) as [t [It Et]]. exists (snd t). subst k. split; [apply C3; exact It|]. rewrite (LI _ _ I). apply image_residue; assumption. }
      destruct (crt_all_ok M g eq_refl eq_refl ltac:(lia) G (ord _ l) (q_ci g) 0 NL C1 HR) as [ci' [E [E1 [E2 [E3 E4]]]]].
      rewrite E. cbn [obind fst snd]. eexists. split; [reflexivity|].
      assert (NN : ord _ l <> []).
      { intros X. destruct ci as [|e ci0] eqn:Eci.
        - assert (Y : convert_to_mpz ord F m <> []) by (apply NZ, NE; reflexivity). destruct (convert_to_mpz ord F m) as [|e r]; [contradiction|].
          assert (Z : In (fst e) (map fst (ord _ l))) by (apply KL; left; left; reflexivity). rewrite X in Z. exact Z.
        - assert (Z : In (fst e) (map fst (ord _ l))) by (apply KL; right; left; reflexivity). rewrite X in Z. exact Z. }
      split; [reflexivity|]. split; [reflexivity|]. cbn [q_prime q_gi q_ci]. split; [destruct (ord _ l); [contradiction|reflexivity]|]. split; [reflexivity|]. split; [nia|].
      split; [exact E1|]. split.
      - intros k I. destruct (E2 k I) as [I'|I']; [apply C2; exact I'|apply LK; exact I'].
      - intros t It. destruct (in_dec (list_eq_dec Z.eq_dec) (fst t) (map fst (ord _ l))) as [I|I].
        + apply in_map_iff in I as [[k i] [Ek I]]. cbn [fst] in Ek. subst k. apply (E4 _ _ _ I); [apply C3; exact It|]. rewrite (LI _ _ I). apply image_residue; assumption.
        + rewrite E3 by exact I. pose proof (C3 t It) as R1. pose proof (image_residue m t P It) as R2.
          assert (Q1 : lookup (q_ci g) (fst t) = 0). { unfold lookup. cbn [q_ci g]. assert (X : afind ci (fst t) = None) by (apply afind_None; intros X; apply I, KL; right; exact X). rewrite X. reflexivity. }
          assert (Q2 : lookup (convert_to_mpz ord F m) (fst t) = 0). { unfold lookup. assert (X : afind (convert_to_mpz ord F m) (fst t) = None) by (apply afind_None; intros X; apply I, KL; left; exact X). rewrite X. reflexivity. }
          cbn [q_ci g] in Q1. cbn [q_ci g]. rewrite Q1 in R1 |- *. rewrite Q2 in R2. destruct R1 as [_ R1], R2 as [_ R2]. split; [nia|]. apply mod_0_mul; try assumption; lia.
    Qed.
  End Field.
End Prime.

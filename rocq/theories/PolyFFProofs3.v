(** add_shift and solve_vandermonde_system *)
From Coq Require Import Permutation Znumtheory.
From Verif Require Import Machine FField FSum LinAlg LinAlgProofs FPoly Vandermonde VandermondeProofs PolyFF PolySpec Binom PolyFFProofs PolyFFProofs2.
Open Scope nat_scope.

Section Proofs.
  Context {K : fops} (HK : flaws K).
  Add Field KF : (fl_field K HK).
  Notation pmap := (pmap K). Notation polyff := (polyff K).
  Notation mv := monomial_value. Notation pv := poly_value.
  Implicit Types (m : pmap) (e : list Z) (x : nat -> K).

  Lemma bin_coef_loop (n k : nat) : (Z.of_nat n < two64)%Z -> characteristic_above K k -> k <= n ->
    fold_left (fun res i => fdiv (fmul res (fsub (fofZ (Z.of_nat n)) (fofZ (Z.of_nat i)))) (fadd (fofZ (Z.of_nat i)) f1)) (seq 0 k) (@f1 K) =
    nsum (binom n k).
  Proof.
    intros Hn Hc. induction k as [|k IH]; intros Hk.
    - cbn [seq fold_left]. rewrite binom_0_r. cbn. ring.
    - rewrite seq_S, fold_left_app, Nat.add_0_l. cbn [fold_left].
      rewrite IH by (try lia; intros j Hj; apply Hc; lia).
      rewrite !(fl_ofZ K HK) by lia. rewrite !Nat2Z.id.
      assert (E : (@nsum K (binom n (S k)) * nsum (S k) = nsum (binom n k) * (nsum n - nsum k))%K).
      { rewrite <- (nsum_sub HK), <- !(nsum_mul HK) by lia. f_equal. apply binom_absorb. }
      assert (N : (@nsum K k + f1)%K = @nsum K (S k)) by (cbn [nsum]; ring). rewrite N. rewrite <- E.
      field. apply Hc. lia.
  Qed.

  Lemma bin_coef_ok (n k : nat) : (Z.of_nat n < two32)%Z -> characteristic_above K n -> k <= n ->
    bin_coef (Z.of_nat n) (Z.of_nat k) = @nsum K (binom n k).
  Proof.
    intros Hn Hc Hk. unfold bin_coef.
    assert (B : (Z.of_nat n < two64)%Z) by (unfold two32, two64 in *; lia).
    destruct (Z.ltb_spec (Z.of_nat n - Z.of_nat k) (Z.of_nat k)) as [L|L].
    - rewrite <- Nat2Z.inj_sub by lia. rewrite Nat2Z.id. rewrite bin_coef_loop; [|exact B|intros j Hj; apply Hc; lia|lia].
      rewrite (binom_sym n k) by lia. reflexivity.
    - rewrite Nat2Z.id. apply bin_coef_loop; [exact B|intros j Hj; apply Hc; lia|lia].
  Qed.

  Lemma mv_unit n j d x : mv n (unit_mon n j d) x = if j <? n then pw (x j) (Z.to_nat d) else f1.
  Proof.
    assert (G : forall N, N <= n -> mv N (unit_mon n j d) x = if j <? N then pw (x j) (Z.to_nat d) else f1).
    { induction N as [|N IH]; intros HN; cbn [monomial_value]; [nb|]. rewrite IH by lia. unfold unit_mon. rewrite nth_map_seq by lia.
      destruct (Nat.eqb_spec N j) as [->|Ne]; [|change (Z.to_nat 0) with 0; cbn [pw]]; nb; ring. }
    apply G. lia.
  Qed.
  Lemma unit_inj n j a b : j < n -> unit_mon n j a = unit_mon n j b -> a = b.
  Proof.
    intros Hj E. apply (f_equal (fun l => nth j l 0%Z)) in E. unfold unit_mon in E. rewrite !nth_map_seq in E by exact Hj.
    rewrite Nat.eqb_refl in E. exact E.
  Qed.
  Lemma unit_ok n j a : (0 <= a < 2 ^ 32)%Z -> exponents_ok n (unit_mon n j a).
  Proof.
    intros Ha. split; [unfold unit_mon; rewrite map_length, seq_length; reflexivity|]. apply Forall_forall. intros z Hz.
    unfold unit_mon in Hz. apply in_map_iff in Hz as [i [<- _]]. destruct (i =? j); lia.
  Qed.

  (** every key is a pure power of variable j *)
  Definition pure n j m : Prop := Forall (fun kc => exists d, (0 <= d < 2 ^ 32)%Z /\ fst kc = unit_mon n j d) m.

  Lemma fsum_fold (g : nat -> list Z * K) N n x :
    pv n (map g (seq 0 N)) x = fsum N (fun i => snd (g i) * mv n (fst (g i)) x)%K.
  Proof.
    induction N as [|N IH]; [reflexivity|]. rewrite seq_S, map_app, (pv_app HK), IH. cbn [map Nat.add]. rewrite pv_cons, pv_nil. cbn [fsum]. ring.
  Qed.

  Lemma shift_pow_ok n j (d : nat) (s : K) : j < n -> 0 < d -> (Z.of_nat d < 2 ^ 32)%Z -> characteristic_above K d ->
    NoDup (map fst (shift_pow n j (Z.of_nat d) s)) /\ pure n j (shift_pow n j (Z.of_nat d) s) /\
    shift_pow n j (Z.of_nat d) s <> [] /\
    forall x, pv n (shift_pow n j (Z.of_nat d) s) x = pw (x j + s)%K d.
  Proof.
    intros Hj Hd Hd2 Hc. unfold shift_pow. rewrite (fl_gtb0 K HK). destruct (feqb s f0) eqn:Es; cbn [negb].
    - apply (fl_eqb K HK) in Es. subst s. split; [|split; [|split]].
      + cbn. constructor; [intros []|constructor].
      + constructor; [|constructor]. exists (Z.of_nat d). split; [lia|reflexivity].
      + discriminate.
      + intros x. rewrite pv_cons, pv_nil. cbn [fst snd]. rewrite mv_unit. nb1. rewrite Nat2Z.id.
        assert (E : (x j + f0)%K = x j) by ring. rewrite E. ring.
    - rewrite Nat2Z.id.
      set (g := fun k : nat => if (Z.of_nat k =? 0)%Z then f1 else if (Z.of_nat k =? Z.of_nat d)%Z then fpow s (Z.of_nat d) else fmul (bin_coef (Z.of_nat d) (Z.of_nat k)) (fpow s (Z.of_nat k))).
      assert (Eq : fold_left (fun m k => let kz := Z.of_nat k in pemplace m (unit_mon n j (Z.of_nat d - kz))
            (if (kz =? 0)%Z then f1 else if (kz =? Z.of_nat d)%Z then fpow s (Z.of_nat d) else fmul (bin_coef (Z.of_nat d) kz) (fpow s kz)))
            (seq 0 (S d)) [] = map (fun k => (unit_mon n j (Z.of_nat d - Z.of_nat k), g k)) (seq 0 (S d))).
      { rewrite (fold_pemplace (fun k => unit_mon n j (Z.of_nat d - Z.of_nat k)) g); [reflexivity|].
        cbn [map app]. change (NoDup (map (fun k => unit_mon n j (Z.of_nat d - Z.of_nat k)) (seq 0 (S d)))).
        assert (G : forall a N, NoDup (map (fun k => unit_mon n j (Z.of_nat d - Z.of_nat k)) (seq a N))).
        { intros a N. revert a. induction N as [|N IH]; intros a; cbn [seq map]; [constructor|]. constructor; [|apply IH].
          intros Hin. apply in_map_iff in Hin as [k [E Hin]]. apply in_seq in Hin. apply unit_inj in E; [lia|exact Hj]. }
        apply G. }
      cbn zeta in Eq. rewrite Eq. split; [|split; [|split]].
      + rewrite map_map. cbn [fst].
        assert (G : forall a N, NoDup (map (fun k => unit_mon n j (Z.of_nat d - Z.of_nat k)) (seq a N))).
        { intros a N. revert a. induction N as [|N IH]; intros a; cbn [seq map]; [constructor|]. constructor; [|apply IH].
          intros Hin. apply in_map_iff in Hin as [k [E Hin]]. apply in_seq in Hin. apply unit_inj in E; [lia|exact Hj]. }
        apply G.
      + apply Forall_forall. intros kc Hin. apply in_map_iff in Hin as [k [<- Hin]]. apply in_seq in Hin. cbn [fst].
        exists (Z.of_nat d - Z.of_nat k)%Z. split; [lia|reflexivity].
      + discriminate.
      + intros x. rewrite fsum_fold. rewrite (binomial HK). apply fsum_ext. intros k Hk. cbn [fst snd].
        rewrite mv_unit. nb1. replace (Z.to_nat (Z.of_nat d - Z.of_nat k)) with (d - k) by lia.
        unfold g. destruct (Z.eqb_spec (Z.of_nat k) 0) as [E|E].
        * replace k with 0 by lia. rewrite binom_0_r. cbn [pw nsum]. ring.
        * destruct (Z.eqb_spec (Z.of_nat k) (Z.of_nat d)) as [E'|E'].
          -- replace k with d by lia. rewrite binom_nn. rewrite (fl_pow K HK), Nat2Z.id by (unfold two64; lia). cbn [nsum]. ring.
          -- rewrite bin_coef_ok by (exact Hc || unfold two32; lia). rewrite (fl_pow K HK), Nat2Z.id by (unfold two64; lia). ring.
  Qed.

  (** product of (x_j + s_j)^e_j for j < J *)
  Fixpoint shifted (J : nat) e x (s : nat -> K) : K :=
    match J with O => f1 | S j => (shifted j e x s * pw (x j + s j)%K (Z.to_nat (nth j e 0%Z)))%K end.
  Lemma shifted_mv J e x s : shifted J e x s = mv J e (fun i => x i + s i)%K.
  Proof. induction J as [|J IH]; [reflexivity|]. cbn [shifted monomial_value]. rewrite IH. reflexivity. Qed.
  Lemma shifted_1 J e s : shifted J e (fun i => f1 - s i)%K s = f1.
  Proof.
    induction J as [|J IH]; [reflexivity|]. cbn [shifted]. rewrite IH. assert (E : (f1 - s J + s J)%K = f1) by ring. rewrite E, (pw_1 HK). ring.
  Qed.

  Section Ord.
    Variable ord : pmap -> pmap.
    Hypothesis Ho : any_order ord.

    (** keys of exponents vanishing from position J on *)
    Definition low n J m : Prop := NoDup (map fst m) /\ Forall (fun kc => exponents_ok n (fst kc) /\ forall i, J <= i -> nth i (fst kc) 0%Z = 0%Z) m.

    Lemma set_at_nth n k j v i : length k = n -> nth i (set_at k j v) 0%Z = if i =? j then (if i <? n then v else 0%Z) else nth i k 0%Z.
    Proof.
      intros Hl. unfold set_at. rewrite Hl. destruct (Nat.ltb_spec i n) as [H|H].
      - rewrite nth_map_seq by exact H. reflexivity.
      - rewrite nth_overflow by (rewrite map_length, seq_length; exact H). rewrite (nth_overflow k) by lia. destruct (i =? j); reflexivity.
    Qed.

    Lemma mul_shift_ok n j P T : low n j P -> j < n -> NoDup (map fst T) -> pure n j T ->
      low n (S j) (mul_shift ord P T j) /\
      forall x, pv n (mul_shift ord P T j) x = (pv n P x * pv n T x)%K.
    Proof.
      intros [HP1 HP2] Hj HT1 HT2.
      assert (XP : forall k, In k (map fst P) -> exponents_ok n k /\ forall i, j <= i -> nth i k 0%Z = 0%Z).
      { intros k Hin. apply in_map_iff in Hin as [kc [<- Hin]]. rewrite Forall_forall in HP2. apply HP2; exact Hin. }
      assert (XT : forall k, In k (map fst T) -> exists d, (0 <= d < 2 ^ 32)%Z /\ k = unit_mon n j d).
      { intros k Hin. apply in_map_iff in Hin as [kc [<- Hin]]. unfold pure in HT2. rewrite Forall_forall in HT2. apply HT2; exact Hin. }
      assert (U : forall d, nth j (unit_mon n j d) 0%Z = d) by (intros d; unfold unit_mon; rewrite nth_map_seq, Nat.eqb_refl by exact Hj; reflexivity).
      set (G := fun k1 k2 : list Z => set_at k1 j (expo k2 j)).
      assert (HG : forall k1 k2 k1' k2', In k1 (map fst P) -> In k2 (map fst T) -> In k1' (map fst P) -> In k2' (map fst T) ->
         G k1 k2 = G k1' k2' -> k1 = k1' /\ k2 = k2').
      { intros k1 k2 k1' k2' I1 I2 I3 I4 E. destruct (XP _ I1) as [[L1 _] Z1], (XP _ I3) as [[L2 _] Z2].
        destruct (XT _ I2) as [d [_ ->]], (XT _ I4) as [d' [_ ->]]. unfold G, expo in E. rewrite !U in E. split.
        - apply list_ext_nth; [congruence|]. intros i Hi. apply (f_equal (fun l => nth i l 0%Z)) in E.
          rewrite !(set_at_nth n) in E by assumption. destruct (Nat.eqb_spec i j) as [Eij|]; [rewrite Z1, Z2 by lia; reflexivity|exact E].
        - apply (f_equal (fun l => nth j l 0%Z)) in E. rewrite !(set_at_nth n) in E by assumption. rewrite Nat.eqb_refl in E.
          destruct (j <? n) eqn:F; [congruence|nb1]. }
      pose proof (double_loop ord Ho G P T HP1 HT1 HG) as D.
      assert (E : mul_shift ord P T j = filter nzf (flat_map (fun ka => map (fun kb => (G (fst ka) (fst kb), (snd ka * snd kb)%K)) (ord T)) (ord P))) by exact D.
      split.
      - split.
        + unfold mul_shift.
          assert (GG : forall (l : pmap) m, NoDup (map fst m) -> NoDup (map fst (fold_left emp_nz l m))).
          { clear. induction l as [|[k c] l IH]; intros m H; [exact H|]. cbn [fold_left]. apply IH. unfold emp_nz. cbn [fst snd].
            destruct (feqb c f0); [exact H|]. unfold pemplace. destruct (pfind m k) eqn:P; [exact H|]. apply nodup_app_one; [exact H|]. apply pfind_None; exact P. }
          pose proof (fold_flat emp_nz (fun ka kb => (G (fst ka) (fst kb), (snd ka * snd kb)%K)) (ord T) (ord P) []) as F.
          unfold emp_nz in F at 1. cbn [fst snd] in F. unfold G in F at 1. rewrite F. apply GG. constructor.
        + rewrite E. apply Forall_forall. intros kc Hin. apply filter_In in Hin as [Hin _]. apply in_flat_map in Hin as [ka [I1 Hin]].
          apply in_map_iff in Hin as [kb [<- I2]]. cbn [fst]. rewrite (in_ord ord Ho) in I1, I2.
          apply (in_map fst) in I1. apply (in_map fst) in I2. destruct (XP _ I1) as [[L1 F1] Z1]. destruct (XT _ I2) as [d [Hd Ed]]. unfold G, expo. rewrite Ed, U.
          split; [split|].
          * unfold set_at. rewrite map_length, seq_length. exact L1.
          * apply Forall_forall. intros z Hz. unfold set_at in Hz. apply in_map_iff in Hz as [i [<- _]]. destruct (i =? j); [lia|].
            apply (expo_range n). split; assumption.
          * intros i Hi. rewrite (set_at_nth n) by exact L1. destruct (Nat.eqb_spec i j) as [->|]; [lia|]. apply Z1. lia.
      - intros x. rewrite E. unfold nzf. rewrite (pv_filter_nz HK).
        rewrite (pv_flat HK n G).
        + rewrite (pv_perm HK n _ _ x (Ho P)), (pv_perm HK n _ _ x (Ho T)). reflexivity.
        + intros k1 k2 I1 I2. rewrite (in_ord_key ord Ho) in I1, I2. destruct (XP _ I1) as [[L1 _] Z1]. destruct (XT _ I2) as [d [_ ->]].
          unfold G, expo. rewrite U, mv_unit.
          assert (GG : forall N, N <= n -> mv N (set_at k1 j d) x = (mv N k1 x * (if j <? N then pw (x j) (Z.to_nat d) else f1))%K).
          { induction N as [|N IH]; intros HN; cbn [monomial_value]; [nb; ring|]. rewrite IH by lia. rewrite (set_at_nth n) by exact L1.
            destruct (Nat.eqb_spec N j) as [->|Ne].
            - rewrite Z1 by lia. change (Z.to_nat 0) with 0. cbn [pw]. nb; ring.
            - nb; ring. }
          apply GG. lia.
    Qed.

    Lemma pure_low n j m : j < n -> NoDup (map fst m) -> pure n j m -> low n (S j) m.
    Proof.
      intros Hj H1 H2. split; [exact H1|]. unfold pure in H2. rewrite Forall_forall in *. intros kc Hin. destruct (H2 kc Hin) as [d [Hd E]]. rewrite E.
      split; [apply unit_ok; exact Hd|]. intros i Hi. unfold unit_mon. destruct (Nat.lt_ge_cases i n) as [C|C].
      - rewrite nth_map_seq by exact C. nb.
      - apply nth_overflow. rewrite map_length, seq_length. exact C.
    Qed.

    Lemma pscale_nil m c n : pf_coefs (pscale (mk_polyff n m) c) = [] -> m = [].
    Proof. cbn. destruct m; [reflexivity|discriminate]. Qed.

    (** loop invariant over the variables *)
    Lemma shift_vars_ok n e (c : K) (s : nat -> K) : exponents_ok n e ->
      (forall i, characteristic_above K (Z.to_nat (nth i e 0%Z))) ->
      forall J, J <= n -> let P := fold_left (shift_var ord n (e, c) s) (seq 0 J) [] in
        low n J P /\ ((forall x, pv n P x = (c * shifted J e x s)%K) /\ (exists i, i < J /\ (0 < nth i e 0)%Z) \/ P = [] /\ forall i, i < J -> nth i e 0%Z = 0%Z).
    Proof.
      intros He Hch. induction J as [|J IH]; intros HJ P.
      - split; [split; constructor|]. right. split; [reflexivity|]. intros; lia.
      - unfold P. rewrite seq_S, fold_left_app. cbn [fold_left Nat.add]. specialize (IH ltac:(lia)). cbn zeta in IH.
        set (Q := fold_left (shift_var ord n (e, c) s) (seq 0 J) []) in *. clearbody Q. clear P.
        destruct IH as [HL HV]. pose proof (expo_range n e J He) as HR.
        unfold shift_var. cbn [fst snd]. unfold expo. destruct (Z.ltb_spec 0 (nth J e 0%Z)) as [Hpos|H0].
        + set (d := Z.to_nat (nth J e 0%Z)). replace (nth J e 0%Z) with (Z.of_nat d) by (unfold d; lia).
          destruct (shift_pow_ok n J d (s J) ltac:(lia) ltac:(unfold d; lia) ltac:(unfold d; lia) (Hch J)) as [T1 [T2 [T3 T4]]].
          set (T := shift_pow n J (Z.of_nat d) (s J)) in *. clearbody T.
          assert (ES : forall x, shifted (S J) e x s = (shifted J e x s * pw (x J + s J)%K d)%K) by reflexivity.
          destruct Q as [|q Q'].
          * assert (Z : c = f0 \/ forall i, i < J -> nth i e 0%Z = 0%Z).
            { destruct HV as [[HV _]|[_ HV]]; [left|right; exact HV]. specialize (HV (fun i => f1 - s i)%K). rewrite shifted_1, pv_nil in HV.
              transitivity (c * f1)%K; [ring|]. symmetry; exact HV. }
            destruct (pscale_ok HK (mk_polyff n T) c) as [_ PS].
            { split; [exact T1|]. eapply Forall_impl; [|exact (proj2 (pure_low n J T ltac:(lia) T1 T2))]. intros kc [A _]. exact A. }
            split.
            -- apply pure_low; [lia| |].
               ++ cbn [pf_coefs pscale]. rewrite map_map. cbn [fst]. exact T1.
               ++ unfold pure in *. cbn [pf_coefs pscale]. rewrite Forall_forall in *. intros kc Hin. apply in_map_iff in Hin as [kc' [<- Hin]]. cbn [fst]. apply T2; exact Hin.
            -- left. split.
               ++ intros x. rewrite PS, ES. cbn [pf_coefs]. rewrite T4. destruct Z as [->|Z]; [ring|].
                  assert (E1 : shifted J e x s = f1).
                  { clear -Z HK. induction J as [|J IH]; [reflexivity|]. cbn [shifted]. rewrite Z, IH by (intros; try apply Z; lia). change (Z.to_nat 0) with 0. cbn [pw]. ring. }
                  rewrite E1. ring.
               ++ exists J. split; [lia|exact Hpos].
          * destruct HV as [[HV _]|[HV _]]; [|discriminate].
            destruct (mul_shift_ok n J (q :: Q') T HL ltac:(lia) T1 T2) as [M1 M2]. split; [exact M1|]. left. split.
            -- intros x. rewrite M2, HV, T4, ES. ring.
            -- exists J. split; [lia|exact Hpos].
        + assert (EZ : nth J e 0%Z = 0%Z) by lia. split.
          * destruct HL as [A B]. split; [exact A|]. eapply Forall_impl; [|exact B]. intros kc [C D]. split; [exact C|]. intros i Hi. apply D; lia.
          * destruct HV as [[HV [i [Hi1 Hi2]]]|[HV1 HV2]].
            -- left. split; [|exists i; split; [lia|exact Hi2]]. intros x. rewrite HV. cbn [shifted]. rewrite EZ. change (Z.to_nat 0) with 0. cbn [pw]. ring.
            -- right. split; [exact HV1|]. intros i Hi. destruct (Nat.eq_dec i J) as [->|]; [exact EZ|apply HV2; lia].
    Qed.

    Definition is_const_mon n e : bool := forallb (fun i => (nth i e 0 =? 0)%Z) (seq 0 n).
    (** coefficient of the constant monomial *)
    Definition const_sum n m : K := fold_right (fun kc acc => if is_const_mon n (fst kc) then fadd (snd kc) acc else acc) f0 m.

    Lemma is_const_true n e : is_const_mon n e = true <-> forall i, i < n -> nth i e 0%Z = 0%Z.
    Proof.
      unfold is_const_mon. rewrite forallb_forall. split.
      - intros H i Hi. apply Z.eqb_eq. apply H. apply in_seq. lia.
      - intros H i Hi. apply Z.eqb_eq. apply H. apply in_seq in Hi. lia.
    Qed.
    Lemma mv_const n e x : is_const_mon n e = true -> mv n e x = f1.
    Proof.
      rewrite is_const_true. induction n as [|n IH]; intros H; [reflexivity|]. cbn [monomial_value]. rewrite IH, H by (intros; try apply H; lia).
      change (Z.to_nat 0) with 0. cbn [pw]. ring.
    Qed.

    Definition add_shift_step n (s : nat -> K) (res : polyff) (kc : list Z * K) : polyff :=
      let P := fold_left (shift_var ord n kc s) (seq 0 n) [] in
      match P with
      | [] => res
      | _ => match pf_coefs res with [] => mk_polyff n P | _ => padd_assign ord res (mk_polyff n P) end
      end.
    Lemma add_shift_unfold (a : polyff) ls s : add_shift ord a ls s =
      if negb (ls =? pf_n a) then Throw else Ret (fold_left (add_shift_step (pf_n a) s) (ord (pf_coefs a)) (mk_polyff (pf_n a) [])).
    Proof. reflexivity. Qed.

    Theorem add_shift_ok (a : polyff) (s : nat -> K) : poly_ok (pf_n a) (pf_coefs a) ->
      (forall k i, In k (map fst (pf_coefs a)) -> characteristic_above K (Z.to_nat (nth i k 0%Z))) ->
      exists r, add_shift ord a (pf_n a) s = Ret r /\ pf_n r = pf_n a /\ poly_ok (pf_n a) (pf_coefs r) /\
        forall x, (pv (pf_n a) (pf_coefs r) x + const_sum (pf_n a) (pf_coefs a))%K = pv (pf_n a) (pf_coefs a) (fun i => x i + s i)%K.
    Proof.
      intros [H1 H2] Hc. rewrite add_shift_unfold, Nat.eqb_refl. cbn [negb]. set (n := pf_n a) in *.
      eexists. split; [reflexivity|].
      assert (X : Forall (fun kc => exponents_ok n (fst kc) /\ forall i, characteristic_above K (Z.to_nat (nth i (fst kc) 0%Z))) (ord (pf_coefs a))).
      { apply Forall_forall. intros kc Hin. rewrite (in_ord ord Ho) in Hin. split; [rewrite Forall_forall in H2; apply H2; exact Hin|].
        intros i. apply Hc. apply in_map. exact Hin. }
      assert (CS : const_sum n (ord (pf_coefs a)) = const_sum n (pf_coefs a)).
      { generalize (Ho (pf_coefs a)). generalize (ord (pf_coefs a)). intros l P. clear -P HK. induction P; cbn [const_sum fold_right]; fold (const_sum n) in *.
        - reflexivity.
        - unfold const_sum in *. cbn [fold_right]. rewrite IHP. reflexivity.
        - unfold const_sum. cbn [fold_right]. destruct (is_const_mon n (fst x)), (is_const_mon n (fst y)); ring.
        - congruence. }
      assert (G : forall (l : pmap) (r : polyff), Forall (fun kc => exponents_ok n (fst kc) /\ forall i, characteristic_above K (Z.to_nat (nth i (fst kc) 0%Z))) l ->
        pf_n r = n -> poly_ok n (pf_coefs r) ->
        let r' := fold_left (add_shift_step n s) l r in pf_n r' = n /\ poly_ok n (pf_coefs r') /\
        forall x, (pv n (pf_coefs r') x + const_sum n l)%K = (pv n (pf_coefs r) x + pv n l (fun i => x i + s i))%K).
      { clear X CS. induction l as [|[e c] l IH]; intros r Hl Hr Hok r'.
        - split; [exact Hr|]. split; [exact Hok|]. intros x. cbn. ring.
        - unfold r'. cbn [fold_left]. apply Forall_cons_iff in Hl as [[A1 A2] B]. cbn [fst] in A1, A2.
          assert (S : let r1 := add_shift_step n s r (e, c) in pf_n r1 = n /\ poly_ok n (pf_coefs r1) /\
            forall x, (pv n (pf_coefs r1) x + (if is_const_mon n e then c else f0))%K = (pv n (pf_coefs r) x + c * mv n e (fun i => x i + s i))%K).
          { cbn zeta. unfold add_shift_step. cbn zeta. destruct (shift_vars_ok n e c s A1 A2 n (le_n n)) as [[L1 L2] L3].
            set (P := fold_left (shift_var ord n (e, c) s) (seq 0 n) []) in *. clearbody P.
            assert (PO : poly_ok n P) by (split; [exact L1|eapply Forall_impl; [|exact L2]; intros kc [C _]; exact C]).
            assert (V : forall x, (pv n P x + (if is_const_mon n e then c else f0))%K = (c * mv n e (fun i => x i + s i))%K).
            { intros x. destruct L3 as [[L3 [i [Hi1 Hi2]]]|[L3 L4]].
              - destruct (is_const_mon n e) eqn:C; [rewrite is_const_true in C; rewrite C in Hi2 by exact Hi1; lia|].
                rewrite L3, shifted_mv. ring.
              - rewrite L3. assert (C : is_const_mon n e = true) by (apply is_const_true; exact L4). rewrite C, mv_const by exact C. rewrite pv_nil. ring. }
            destruct P as [|q P'].
            - split; [exact Hr|]. split; [exact Hok|]. intros x. rewrite <- V, pv_nil. ring.
            - destruct (pf_coefs r) as [|q' R'] eqn:ER.
              + split; [reflexivity|]. split; [exact PO|]. intros x. cbn [pf_coefs]. rewrite V, pv_nil. ring.
              + pose proof (padd_assign_ok HK ord Ho r (mk_polyff n (q :: P'))) as PA. rewrite Hr in PA.
                rewrite ER in PA. cbn [pf_coefs] in PA. destruct (PA Hok PO) as [PA1 PA2]. split; [exact Hr|]. split; [exact PA1|].
                intros x. rewrite PA2, <- V. ring. }
          destruct S as [S1 [S2 S3]]. destruct (IH _ B S1 S2) as [I1 [I2 I3]]. split; [exact I1|]. split; [exact I2|].
          intros x. specialize (I3 x). specialize (S3 x). rewrite pv_cons. cbn [fst snd].
          unfold const_sum in *. cbn [fold_right fst snd]. 
          set (r2 := fold_left (add_shift_step n s) l (add_shift_step n s r (e, c))) in *.
          transitivity (pv n (pf_coefs r2) x + fold_right (fun kc acc => if is_const_mon n (fst kc) then (snd kc + acc)%K else acc) f0 l + (if is_const_mon n e then c else f0))%K.
          { destruct (is_const_mon n e); ring. }
          rewrite I3. transitivity ((pv n (pf_coefs (add_shift_step n s r (e, c))) x + (if is_const_mon n e then c else f0)) + pv n l (fun i => x i + s i))%K; [ring|].
          rewrite S3. ring. }
      destruct (G (ord (pf_coefs a)) (mk_polyff n []) X eq_refl) as [G1 [G2 G3]]; [split; constructor|].
      split; [exact G1|]. split; [exact G2|]. intros x. specialize (G3 x). rewrite CS in G3. rewrite G3. cbn [pf_coefs]. rewrite pv_nil.
      rewrite (pv_perm HK n _ _ _ (Ho (pf_coefs a))). ring.
    Qed.
  End Ord.

  (** ---- Vandermonde ---- *)
  Lemma vdm_nodes_mv n degs (val : nat -> K) i : (forall j, (0 <= nth j (nth i degs []) 0 < two64)%Z) ->
    vdm_nodes n degs val i = mv n (tl (nth i degs [])) val.
  Proof.
    intros H. unfold vdm_nodes. induction n as [|n IH]; [reflexivity|]. rewrite seq_S, fold_left_app. cbn [fold_left Nat.add].
    rewrite IH. cbn [monomial_value]. unfold expo. rewrite (fl_pow K HK) by apply H. f_equal. f_equal. f_equal.
    destruct (nth i degs []); [cbn; destruct n; reflexivity|reflexivity].
  Qed.

  Lemma pw_mv n e x k : mv n e (fun i => pw (x i) k) = pw (mv n e x) k.
  Proof.
    induction n as [|n IH]; cbn [monomial_value]; [symmetry; apply (pw_1 HK)|]. rewrite IH, (pw_mul HK), !(pw_pw HK). f_equal. f_equal. lia.
  Qed.

  Theorem solve_vandermonde_ok n (degs : list (list Z)) (nums val : nat -> K) :
    degs <> [] -> NoDup degs -> Forall (exponents_ok (S n)) degs ->
    (forall i, i < length degs -> mv n (tl (nth i degs [])) val <> f0) ->
    (forall i j, i < length degs -> j < length degs -> mv n (tl (nth i degs [])) val = mv n (tl (nth j degs [])) val -> i = j) ->
    exists r, solve_vandermonde_system n degs nums val = Ret r /\ pf_n r = S n /\ map fst (pf_coefs r) = degs /\
      forall k, 0 < k <= length degs ->
        pv (S n) (pf_coefs r) (fun i => match i with O => f1 | S j => pw (val j) k end) = nums (k - 1).
  Proof.
    intros Hne Hd Hx Hnz Hinj. destruct degs as [|d0 degs0] eqn:ED; [contradiction|]. rewrite <- ED in *. clear Hne.
    assert (W : forall i, i < length degs -> vdm_nodes n degs val i = mv n (tl (nth i degs [])) val).
    { intros i Hi. apply vdm_nodes_mv. intros j. rewrite Forall_forall in Hx. pose proof (expo_range (S n) _ j (Hx _ (nth_In degs [] Hi))). unfold two64. lia. }
    eexists. split; [unfold solve_vandermonde_system; rewrite ED; rewrite <- ED; reflexivity|]. split; [reflexivity|].
    cbn [pf_coefs]. set (N := length degs) in *. set (sol := vdm_solve N (vdm_nodes n degs val) nums).
    assert (Em : map (fun i => nth i degs []) (seq 0 N) = degs).
    { unfold N. clear. induction degs as [|d l IH]; [reflexivity|]. cbn [length seq map nth]. f_equal. rewrite <- seq_shift, map_map. exact IH. }
    rewrite (fold_pemplace (fun i => nth i degs []) sol) by (cbn [map app]; rewrite Em; exact Hd). cbn [app].
    split; [rewrite map_map; cbn [fst]; exact Em|].
    intros k Hk. rewrite fsum_fold. cbn [fst snd].
    rewrite (fsum_ext N _ (fun i => sol i * pw (vdm_nodes n degs val i) k)%K).
    - apply (vdm_solve_ok HK N); [lia| | |exact Hk].
      + intros i j Hi Hj E. rewrite !W in E by assumption. apply Hinj; assumption.
      + intros i Hi. rewrite W by exact Hi. apply Hnz. exact Hi.
    - intros i Hi. rewrite W by exact Hi. f_equal. rewrite Forall_forall in Hx. destruct (Hx _ (nth_In degs [] Hi)) as [L _].
      destruct (nth i degs []) as [|z e]; [discriminate|]. rewrite (mv_cons HK). cbn [tl]. rewrite (pw_1 HK), <- pw_mv. 
      assert (E : forall y : nat -> K, (f1 * mv n e y)%K = mv n e y) by (intros; ring). apply E.
  Qed.
End Proofs.

(** FFInt has characteristic p *)
Lemma ffint_characteristic p (Hp : prime p) (Hlt : (p < 2 ^ 63)%Z) b : (Z.of_nat b < p)%Z -> characteristic_above (FFint_ops p Hp Hlt) b.
Proof.
  intros Hb j Hj E. pose proof (ffint_laws p Hp Hlt) as HK.
  assert (Q : @fofZ (FFint_ops p Hp Hlt) (Z.of_nat j) = f0) by (rewrite (fl_ofZ _ HK), Nat2Z.id by (unfold two64; lia); exact E).
  apply (f_equal (fun x : FFint_ops p Hp Hlt => proj1_sig (x : ffint p))) in Q.
  rewrite v_ofZ in Q by (exact Hp || exact Hlt || unfold two64; lia). rewrite v_0 in Q. rewrite Z.mod_small in Q by lia. lia.
Qed.

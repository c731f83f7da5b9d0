(** Proofs for PolyReconst, part 5: change of the stage, lowest stage, the whole run for one prime *)
From Coq Require Import Permutation.
From Verif Require Import Machine FField FSum LinAlg LinAlgProofs FPoly Vandermonde VandermondeProofs PolyFF PolySpec PolyFFProofs PolyFFProofs2 Thiele ThieleSpec ThieleProofs Newton NewtonProofs BM BMSpec BMProofs BTProofs RatUni RatUniThiele PolyRec PolyRecSpec PolyRecKey PolyRecMath PolyRecFile PolyRecStage PolyRecRunSpec.
Open Scope nat_scope.

Lemma NoDup_app_l {A} (l l' : list A) : NoDup (l ++ l') -> NoDup l.
Proof. induction l as [|x l IH]; intros N; [constructor|]. inversion N as [|? ? N1 N2]; subst. constructor; [intros H; apply N1, in_or_app; left; exact H|apply IH; exact N2]. Qed.
Lemma filter_true' {A} (l : list A) : filter (fun _ => true) l = l.
Proof. induction l as [|x l IH]; [reflexivity|]. cbn. rewrite IH. reflexivity. Qed.

Lemma mul_le3 n d l : 0 < n -> 0 < l -> d <= n * d * l.
Proof. intros H1 H2. destruct n as [|n]; [lia|]. destruct l as [|l]; [lia|]. cbn [Nat.mul]. rewrite Nat.mul_add_distr_r, !Nat.mul_succ_r. lia. Qed.
Lemma mul_le2 n d l : 0 < n -> d * l <= n * d * l.
Proof. intros H1. destruct n as [|n]; [lia|]. cbn [Nat.mul]. rewrite Nat.mul_add_distr_r. lia. Qed.
Lemma mul_le1 k d l : S k <= d -> k * l + l <= d * l.
Proof. intros H. rewrite Nat.add_comm. change (l + k * l) with (S k * l). apply Nat.mul_le_mono_r. exact H. Qed.

Section Main.
  Context {K : fops} (HK : flaws K).
  Add Field KS : (fl_field K HK).
  Variable ord : forall A : Type, list A -> list A.
  Hypothesis Ho : forall A (l : list A), Permutation (ord A l) l.
  Variable c : pcfg.
  Notation n := (pc_n c).
  Notation deg := (pc_deg c).
  Variables (D : nat) (f : list (list Z * K)) (y : nat -> K).
  Hypothesis Hf : polynomial n D f.
  Hypothesis Hc : config_fits c D f y.
  Hypothesis Hs : suitable (pc_newton c) (pc_bt c) n D f y.
  Notation keys := (keys n f).
  Notation co := (co n f y).
  Notation sl := (sl n f y).
  Notation sterms := (sterms n f y).
  Notation ext := (ext n f).
  Notation trunc := (trunc n).
  Notation sv := (sv c f y).
  Notation filed := (filed c f y).
  Notation fkeys := (fkeys c f).
  Notation st_ok := (st_ok c f y).
  Notation mv := monomial_value.
  Lemma n_pos : 0 < n. Proof. apply Hc. Qed.
  Lemma f_pos : 0 < length f. Proof. destruct Hf as [H _]. clear - H. destruct f; [contradiction|cbn; lia]. Qed.

  (** ---- monomials of the full degree ---- *)
  Lemma total_eq' (e : list Z) j : (forall i, (0 <= nth i e 0)%Z) -> forall m s,
    fold_right Z.add 0%Z (map (fun i => if Nat.ltb i j then nth i e 0 else 0)%Z (seq s m)) = fold_right Z.add 0%Z (map (fun i => nth i e 0)%Z (seq s m)) ->
    forall i, s <= i < s + m -> j <= i -> nth i e 0%Z = 0%Z.
  Proof.
    intros H. induction m as [|m IH]; intros s E i Hi Hj; [lia|]. cbn [seq map fold_right] in E. pose proof (H s) as Hs0. pose proof (total_trunc' e j H m (S s)) as T.
    destruct (Nat.eq_dec i s) as [->|N].
    - destruct (Nat.ltb_spec s j); [lia|]. lia.
    - apply (IH (S s)); [|lia|exact Hj]. destruct (Nat.ltb_spec s j); lia.
  Qed.
  Lemma trunc_full j e : length e = n -> (forall i, (0 <= nth i e 0)%Z) -> total (trunc j e) = total e -> trunc j e = e.
  Proof.
    intros L H E. apply list_ext_nth; rewrite trunc_len; [symmetry; exact L|]. intros i Hi. rewrite trunc_nth by exact Hi. destruct (Nat.ltb_spec i j) as [|G]; [reflexivity|].
    symmetry. apply (total_eq' e j H n 0); [|lia|exact G]. unfold total in E. rewrite <- (as_nths e) in E at 2. rewrite L in E. exact E.
  Qed.
  Lemma full_term j q e : In q (keys j) -> tot q = deg -> In e (map fst f) -> trunc j e = q -> e = q.
  Proof.
    intros I E Ie Et. destruct (keys_total n D f Hf _ _ I) as [e' [_ [_ T]]]. rewrite tot_total in E.
    destruct Hc as [_ [_ [[Hd|[_ Hd]] _]]]; [rewrite Hd in E; lia|]. specialize (Hd e Ie). rewrite <- Et. symmetry.
    assert (R : forall i, (0 <= nth i e 0)%Z) by (intros i; apply (f_range n D f Hf); exact Ie).
    apply trunc_full; [apply (f_length n D f Hf); exact Ie|exact R|]. pose proof (total_trunc n j e (f_length n D f Hf e Ie) R) as T2. rewrite Et in *. lia.
  Qed.
  Lemma mv_units m e (x : nat -> K) : (forall i, i < m -> x i = f1 \/ nth i e 0%Z = 0%Z) -> mv m e x = f1.
  Proof.
    induction m as [|m IH]; intros H; [reflexivity|]. cbn [monomial_value]. rewrite IH by (intros i Hi; apply H; lia). destruct (H m ltac:(lia)) as [E|E]; rewrite E; [rewrite (pw_1 HK); ring|].
    change (Z.to_nat 0) with 0. cbn [pw]. ring.
  Qed.
  Lemma full_lift j j' q : j <= j' -> In q (keys j) -> tot q = deg -> In q (keys j') /\ co j' q = co j q /\ (forall q', In q' (keys j') -> trunc j q' = q -> q' = q).
  Proof.
    intros Hj I E. pose proof I as I0. apply in_keys in I0 as [e [Ie Ee]]. pose proof (full_term j q e I E Ie Ee) as ->. pose proof (keys_self n f j q I) as Sj.
    assert (Sj' : trunc j' q = q) by (rewrite <- Sj at 1; rewrite trunc_trunc_ge by exact Hj; exact Sj).
    split; [apply in_keys; exists q; split; assumption|]. split.
    - assert (S1 : sub n f j' q = sub n f j q).
      { unfold sub. apply filter_ext_in. intros t Ht. destruct (mon_eqb_spec (trunc j' (fst t)) q) as [A|A]; destruct (mon_eqb_spec (trunc j (fst t)) q) as [B|B]; try reflexivity; exfalso.
        - apply B. rewrite <- (trunc_trunc n j j') by exact Hj. rewrite A. exact Sj.
        - apply A. rewrite (full_term j q (fst t) I E (in_map fst f t Ht) B). exact Sj'. }
      unfold PolyRecMath.co. rewrite S1, !pv_lsum. apply lsum_ext. intros t Ht. apply in_sub in Ht as [It Et]. rewrite (full_term j q (fst t) I E (in_map fst f t It) Et). f_equal.
      rewrite !mv_units; [reflexivity| |]; intros i Hi.
      + destruct (Nat.ltb_spec i j); [left; reflexivity|right; apply (keys_high n f j q i I); lia].
      + destruct (Nat.ltb_spec i j'); [left; reflexivity|right; apply (keys_high n f j q i I); lia].
    - intros q' I' E'. apply in_keys in I' as [e' [Ie' <-]]. rewrite trunc_trunc in E' by exact Hj. rewrite (full_term j q e' I E Ie' E'). exact Sj'.
  Qed.

  (** ---- first values of a stage ---- *)
  Definition seed1 (v : K) : bm K := match bm_step (pc_thr c) bm_init [v] with Ret (_, st) => st | _ => bm_init end.
  Lemma seed_ok l : (forall kv, In kv l -> snd kv <> f0) -> seed_bt c l = Ret (map (fun kv : list Z * K => (fst kv, (seed1 (snd kv), [snd kv]))) l).
  Proof.
    induction l as [|[k v] l IH]; intros H; [reflexivity|]. cbn [seed_bt map fst snd].
    destruct (bm_first HK (pc_thr c) (fun _ => v) [v] eq_refl (H (k, v) (or_introl eq_refl))) as [st [E _]]; [cbn; lia|].
    rewrite (IH (fun kv I => H kv (or_intror I))). unfold seed1. rewrite E. reflexivity.
  Qed.

  Lemma nodup_keys_perm (m : pmap K) z R b : Permutation m (filed z R b) -> NoDup (map fst m).
  Proof. intros P. apply (Permutation_NoDup (Permutation_map fst (Permutation_sym P))). rewrite filed_keys. apply fkeys_nodup. Qed.

  (** ---- the next stage ---- *)
  Lemma next_stage z (pol solved : pmap K) : S z < n -> st_ok z [] (solved, pol) -> pol <> [] ->
    forall l, Permutation l pol -> in_stage c D f y (S z) (map fst l) 0 1
      (mk_pst (S (S z)) (set_order c (S (S z)) 2) (seed_ais l) (map (fun kv : list Z * K => (fst kv, (seed1 (snd kv), [snd kv]))) l) [] (map fst l) solved []).
  Proof.
    intros Hz [S1 S2] Ne l Pl. cbn [fst snd] in S1, S2. pose proof (Permutation_trans Pl S2) as PF. set (R := map fst l).
    assert (PR : Permutation R (fkeys z [] false)) by (unfold R; rewrite <- (filed_keys c f y z [] false); apply Permutation_map; exact PF).
    assert (NR : NoDup R) by (apply (Permutation_NoDup (Permutation_sym PR)), fkeys_nodup).
    assert (KR : forall q, In q R <-> In q (keys (S z)) /\ tot q <> deg).
    { intros q. split.
      - intros H. apply (Permutation_in q PR) in H. apply in_fkeys in H as [A [B _]]. apply Z.eqb_neq in B. split; assumption.
      - intros [A B]. apply (Permutation_in q (Permutation_sym PR)). apply in_fkeys. split; [exact A|]. split; [apply Z.eqb_neq; exact B|intros []]. }
    assert (VL : forall kv, In kv l -> In (fst kv) (keys (S z)) /\ snd kv = co (S z) (fst kv)).
    { intros kv H. apply (Permutation_in kv PF) in H. unfold PolyRecFile.filed in H. apply in_map_iff in H as [q [<- H]]. apply in_fkeys in H as [H _]. split; [exact H|reflexivity]. }
    constructor; cbn [ps_zi ps_order ps_rec ps_nums ps_solved ps_tmp ps_ais ps_bt].
    - reflexivity.
    - apply set_order_at.
    - reflexivity.
    - exact NR.
    - intros q Hq. apply KR. exact Hq.
    - reflexivity.
    - unfold R. rewrite map_length, (Permutation_length Pl). destruct pol; [contradiction|cbn; lia].
    - split; cbn [fst snd].
      + rewrite S1. assert (PK : Permutation (fkeys z [] true) (fkeys (S z) R true)).
        { apply NoDup_Permutation; [apply fkeys_nodup|apply fkeys_nodup|]. intros q. rewrite !in_fkeys. split.
          - intros [A [B _]]. apply Z.eqb_eq in B. destruct (full_lift (S z) (S (S z)) q ltac:(lia) A B) as [L1 [L2 L3]]. split; [exact L1|]. split; [apply Z.eqb_eq; exact B|].
            rewrite (keys_self n f (S z) q A). intros H. apply KR in H as [_ H]. contradiction.
          - intros [A [B C]]. apply Z.eqb_eq in B. pose proof (keys_trunc n f (S z) (S (S z)) q ltac:(lia) A) as A'.
            destruct (Z.eq_dec (tot (trunc (S z) q)) deg) as [E|E]; [|exfalso; apply C; apply KR; split; assumption].
            destruct (full_lift (S z) (S (S z)) _ ltac:(lia) A' E) as [_ [_ L3]]. rewrite (L3 q A eq_refl) at 1. split; [exact A'|]. split; [apply Z.eqb_eq; exact B|intros []]. }
        unfold PolyRecFile.filed. rewrite <- (Permutation_map (fun q => (q, co (S (S z)) q)) PK). erewrite map_ext_in; [apply Permutation_refl|].
        intros q Hq. apply in_fkeys in Hq as [A [B _]]. apply Z.eqb_eq in B. destruct (full_lift (S z) (S (S z)) q ltac:(lia) A B) as [_ [L2 _]]. rewrite L2. reflexivity.
      + assert (E : fkeys (S z) R false = []).
        { destruct (fkeys (S z) R false) as [|q l0] eqn:E; [reflexivity|]. exfalso. assert (H : In q (fkeys (S z) R false)) by (rewrite E; left; reflexivity).
          apply in_fkeys in H as [A [B C]]. apply Z.eqb_neq in B. pose proof (keys_trunc n f (S z) (S (S z)) q ltac:(lia) A) as A'.
          destruct (Z.eq_dec (tot (trunc (S z) q)) deg) as [E'|E']; [|apply C; apply KR; split; assumption].
          destruct (full_lift (S z) (S (S z)) _ ltac:(lia) A' E') as [_ [_ L3]]. rewrite <- (L3 q A eq_refl) in E'. contradiction. }
        unfold PolyRecFile.filed. rewrite E. constructor.
    - intros q Hq. apply in_map_iff in Hq as [kv [<- Hq]]. destruct (VL kv Hq) as [A B].
      assert (V0 : sv (S z) (fst kv) 0 = snd kv) by (rewrite B; apply (sv_0 HK c f y (S z) Hz)).
      split; intros X.
      + unfold seed_ais. rewrite (aget_map fst (fun el => [snd el])); [|exact NR|exact Hq]. f_equal. unfold dlist. cbn [seq map]. change (dd (y (S z)) (sv (S z) (fst kv)) 0 0) with (sv (S z) (fst kv) 0). rewrite V0. reflexivity.
      + exists (seed1 (snd kv), [snd kv]). split; [apply (aget_map fst (fun el : list Z * K => (seed1 (snd el), [snd el]))); [exact NR|exact Hq]|].
        destruct (bt_seed HK c D f y Hf Hs (S z) Hz (fst kv) A) as [x [E [Bx Ex]]]. unfold seed1. rewrite V0 in E. rewrite E. destruct x as [st nums]. cbn [fst snd] in *. rewrite V0 in Ex. subst nums. exact Bx.
    - lia.
    - pose proof f_pos. split; intros X; [split; [lia|]|lia]. intros Nd. destruct R as [|q0 R0] eqn:ER; [unfold R in ER; apply map_eq_nil in ER; subst l; apply Permutation_nil in Pl; contradiction|].
      destruct (proj1 (KR q0) (or_introl eq_refl)) as [A B]. destruct (keys_total n D f Hf _ _ A) as [e [Ie [_ T]]]. rewrite tot_total in B.
      destruct Hc as [_ [_ [[Hd|[_ Hd]] _]]]; [contradiction|]. specialize (Hd e Ie). lia.
  Qed.

  (** ---- the result ---- *)
  Lemma fold_pemplace_self (l m : pmap K) : NoDup (map fst m ++ map fst l) -> fold_left (fun m el => pemplace m (fst el) (snd el)) l m = m ++ l.
  Proof.
    intros N. rewrite (fold_pemplace (fun el : list Z * K => fst el) (fun el => snd el)) by exact N. f_equal. rewrite <- (map_id l) at 2. apply map_ext. intros a. symmetry. apply surjective_pairing.
  Qed.
  Lemma fold_seeds (l : pmap K) : forall m, NoDup (map fst m ++ map fst l) ->
    fold_left (fun m (a : list Z * list K) => fold_left (fun m el => pemplace m (fst el) (snd el)) (tmp_canonical ord c y n (fst a) (snd a)) m) (seed_ais l) m = m ++ l.
  Proof.
    induction l as [|[k v] l IH]; intros m N; [rewrite app_nil_r; reflexivity|]. cbn [seed_ais map fold_left fst snd] in *.
    assert (E : tmp_canonical ord c y n k [v] = [(k, v)]) by (unfold tmp_canonical; cbn [length]; rewrite !Nat.eqb_refl; reflexivity). rewrite E. cbn [fold_left fst snd].
    rewrite pemplace_new by (apply NoDup_remove_2 in N; intros X; apply N; apply in_or_app; left; exact X). unfold seed_ais in IH. rewrite IH.
    - rewrite <- app_assoc. reflexivity.
    - rewrite map_app. cbn [map fst]. rewrite <- app_assoc. exact N.
  Qed.
  Lemma final_ok (l solved : pmap K) : NoDup (map fst l ++ map fst solved) -> Permutation (final_poly ord c y n (seed_ais l) solved) (l ++ solved).
  Proof.
    intros N. unfold final_poly. destruct (Permutation_map_inv _ _ (Ho _ (seed_ais l))) as [l2 [E2 P2]]. rewrite E2. fold (seed_ais l2).
    assert (NL : NoDup (map fst l2)) by (apply (Permutation_NoDup (Permutation_map fst P2)); exact (NoDup_app_l _ _ N)).
    rewrite fold_seeds by exact NL. cbn [app]. rewrite fold_pemplace_self.
    - apply Permutation_app; [symmetry; exact P2|apply Ho].
    - apply (Permutation_NoDup (l := map fst l ++ map fst solved)); [|exact N]. apply Permutation_app; apply Permutation_map; [exact P2|apply Permutation_sym, Ho].
  Qed.

  Lemma filed_all (solved pol : pmap K) z : S z = n -> st_ok z [] (solved, pol) -> Permutation (pol ++ solved) f.
  Proof.
    intros Hz [S1 S2]. cbn [fst snd] in *. rewrite S1, S2. unfold PolyRecFile.filed. rewrite <- map_app. apply (Permutation_trans (l' := map (fun q => (q, co n q)) (keys n))); [|rewrite (all_terms HK n D f y Hf); apply Permutation_refl]. rewrite Hz. apply Permutation_map.
    apply NoDup_Permutation; [|apply keys_nodup|].
    - apply NoDup_app_intro; [apply fkeys_nodup|apply fkeys_nodup|]. intros q A B. apply in_fkeys in A as [_ [A _]]. apply in_fkeys in B as [_ [B _]]. congruence.
    - intros q. rewrite in_app_iff, !in_fkeys, Hz. split; [intros [[A _]|[A _]]; exact A|]. intros H. destruct (tot q =? deg)%Z; [right|left]; (split; [exact H|]; split; [reflexivity|intros []]).
  Qed.
  Lemma filed_full (solved : pmap K) z : S z < n -> st_ok z [] (solved, []) -> Permutation solved f.
  Proof.
    intros Hz [S1 S2]. cbn [fst snd] in *. apply Permutation_nil in S2. unfold PolyRecFile.filed in S2. apply map_eq_nil in S2.
    assert (All : forall q, In q (keys (S z)) -> tot q = deg).
    { intros q I. destruct (Z.eq_dec (tot q) deg) as [E|E]; [exact E|]. exfalso. assert (X : In q (fkeys z [] false)) by (apply in_fkeys; split; [exact I|split; [apply Z.eqb_neq; exact E|intros []]]). rewrite S2 in X. exact X. }
    rewrite S1. unfold PolyRecFile.filed. apply (Permutation_trans (l' := map (fun q => (q, co n q)) (keys n))); [|rewrite (all_terms HK n D f y Hf); apply Permutation_refl].
    assert (PK : Permutation (fkeys z [] true) (keys n)).
    { apply NoDup_Permutation; [apply fkeys_nodup|apply keys_nodup|]. intros q. rewrite in_fkeys. split.
      - intros [A _]. apply (full_lift (S z) n q ltac:(lia) A (All q A)).
      - intros A. pose proof (keys_trunc n f (S z) n q ltac:(lia) A) as A'. destruct (full_lift (S z) n _ ltac:(lia) A' (All _ A')) as [_ [_ L3]]. rewrite (L3 q A eq_refl).
        split; [exact A'|]. split; [apply Z.eqb_eq, All, A'|intros []]. }
    rewrite <- (Permutation_map (fun q => (q, co n q)) PK). erewrite map_ext_in; [apply Permutation_refl|]. intros q Hq. apply in_fkeys in Hq as [A _].
    destruct (full_lift (S z) n q ltac:(lia) A (All q A)) as [_ [L2 _]]. rewrite L2. reflexivity.
  Qed.

  Definition combine_core (zi : nat) (nums : list K) (solved pol : pmap K) : outcome (pfed K) :=
    let rec := map fst (ord _ pol) in
    do bt <- seed_bt c (ord _ pol);
    let zi' := if (length rec =? 0) && negb (zi =? n) then n else zi in
    if negb (zi' =? n)
    then Ret (PMore (mk_pst (S zi') (set_order c (S zi') 2) (seed_ais (ord _ pol)) bt nums rec solved []))
    else Ret (PPoly (final_poly ord c y zi' (seed_ais (ord _ pol)) solved)).
  Definition advanced (z : nat) (out : pfed K) : Prop :=
    match out with PMore s => S z < n /\ exists R, in_stage c D f y (S z) R 0 1 s | PPoly r => Permutation r f end.
  Lemma combine_core_ok z solved pol : z < n -> st_ok z [] (solved, pol) -> exists out, combine_core (S z) [] solved pol = Ret out /\ advanced z out.
  Proof.
    intros Hz St. pose proof St as [S1 S2]. cbn [fst snd] in S1, S2. unfold combine_core. pose proof (Permutation_trans (Ho _ pol) S2) as PF.
    assert (Nz : forall kv, In kv (ord _ pol) -> snd kv <> f0).
    { intros kv H. apply (Permutation_in kv PF) in H. apply in_map_iff in H as [q [<- H]]. cbn [snd]. apply in_fkeys in H as [H _]. apply (co_nz c D f y Hf Hs); [lia|exact H]. }
    rewrite (seed_ok _ Nz). cbn [obind]. rewrite map_length, (Permutation_length (Ho _ pol)).
    assert (Dis : NoDup (map fst (ord _ pol) ++ map fst solved)).
    { apply NoDup_app_intro; [apply (nodup_keys_perm _ z [] false PF)|apply (nodup_keys_perm _ z [] true S1)|]. intros q A B.
      apply (Permutation_in q (Permutation_map fst PF)) in A. apply (Permutation_in q (Permutation_map fst S1)) in B. rewrite filed_keys in A, B. apply in_fkeys in A as [_ [A _]]. apply in_fkeys in B as [_ [B _]]. congruence. }
    destruct (Nat.eqb_spec (S z) n) as [En|Nn].
    - cbn [negb]. rewrite andb_false_r. rewrite En, Nat.eqb_refl. cbn [negb]. eexists. split; [reflexivity|]. cbn [advanced].
      rewrite (final_ok _ _ Dis). rewrite (Ho _ pol). apply (filed_all solved pol z En St).
    - cbn [negb]. rewrite andb_true_r. destruct (Nat.eqb_spec (length pol) 0) as [Ep|Np].
      + rewrite Nat.eqb_refl. cbn [negb]. eexists. split; [reflexivity|]. cbn [advanced]. rewrite (final_ok _ _ Dis). rewrite (Ho _ pol).
        destruct pol; [|discriminate]. cbn [app]. apply (filed_full solved z); [lia|exact St].
      + destruct (Nat.eqb_spec (S z) n) as [|_]; [contradiction|]. cbn [negb]. eexists. split; [reflexivity|]. cbn [advanced]. split; [lia|]. eexists. apply (next_stage z pol solved); [lia|exact St|intros ->; apply Np; reflexivity|apply Ho].
  Qed.
  Lemma combine_above z s : z < n -> 0 < z -> stage_end c f y z s -> exists out, combine_stage ord c y s = Ret out /\ advanced z out.
  Proof.
    intros Hz Z0 [E1 [E2 St]]. unfold combine_stage. rewrite E1, E2. destruct (Nat.ltb_spec 1 n); [|lia]. destruct (Nat.eqb_spec (S z) 1); [lia|]. cbn [andb].
    apply (combine_core_ok z (ps_solved s) (ps_tmp s) Hz St).
  Qed.

  (** ---- the lowest stage ---- *)
  Notation zk := (zero_key c).
  Lemma zk_key : In zk (keys 0). Proof. rewrite (keys_0 n D f Hf). left. reflexivity. Qed.
  Record in_first (k : nat) (s : pst K) : Prop := mk_in_first {
    if_zi : ps_zi s = 1;
    if_order : ps_order s = order_at c 0 1 (S k);
    if_ais : ps_ais s = [(zk, if pc_newton c then dlist (y 0) (sv 0 zk) k else [])];
    if_bt : pc_bt c = true -> if k =? 0 then True else exists x, afind (ps_bt s) zk = Some x /\ bts c f y 0 zk k x;
    if_nums : ps_nums s = [];
    if_st : ps_solved s = [] /\ ps_tmp s = [];
    if_within : within c D f k }.
  Lemma start_ok : in_first 0 (ps_start c).
  Proof.
    pose proof f_pos. constructor; cbn [ps_start ps_zi ps_order ps_ais ps_nums ps_solved ps_tmp]; try reflexivity.
    - apply start_order.
    - unfold dlist. cbn [seq map]. destruct (pc_newton c); reflexivity.
    - split; reflexivity.
    - split; intros X; [split; [lia|]|lia]. intros Nd. destruct (keys_total n D f Hf 0 zk zk_key) as [e [Ie [_ T]]]. destruct Hc as [_ [_ [[Hd|[_ Hd]] _]]]; [contradiction|]. specialize (Hd e Ie). lia.
  Qed.
  Lemma bt_first_ok : exists x, bt_part c y 1 zk None (sv 0 zk 0) = Ret (None, x) /\ bts c f y 0 zk 1 x.
  Proof.
    destruct (bt_seed HK c D f y Hf Hs 0 n_pos zk zk_key) as [x [E [B Ex]]]. unfold bt_part. cbn [app]. rewrite E. cbn [obind]. exists (fst x, [sv 0 zk 0]).
    split; [reflexivity|]. rewrite <- Ex, <- surjective_pairing. exact B.
  Qed.
  Lemma st_first : st_ok 0 [zk] ([], []).
  Proof.
    assert (E : forall b, fkeys 0 [zk] b = []).
    { intros b. destruct (fkeys 0 [zk] b) as [|q l] eqn:E; [reflexivity|]. exfalso. assert (X : In q (fkeys 0 [zk] b)) by (rewrite E; left; reflexivity).
      apply in_fkeys in X as [_ [_ X]]. apply X. left. symmetry. apply trunc_0. }
    split; cbn [fst snd]; unfold PolyRecFile.filed; rewrite E; constructor.
  Qed.
  Lemma aset_one {A} (a b : A) k : aset [(k, a)] k b = [(k, b)].
  Proof. unfold aset. cbn [afind map fst]. rewrite mon_eqb_refl. reflexivity. Qed.
  Lemma aerase_one' {A} (a : A) k : aerase [(k, a)] k = [].
  Proof. unfold aerase. cbn [filter fst]. rewrite mon_eqb_refl. reflexivity. Qed.

  (** what stage_one leaves when it is finished *)
  Definition first_end (s : pst K) : Prop := ps_zi s = 1 /\ ps_nums s = [] /\
    ((exists k, pc_newton c = true /\ 0 < k <= D + 2 /\ below (sterms 0 zk) k /\ ps_ais s = [(zk, dlist (y 0) (sv 0 zk) k)] /\ ps_solved s = [] /\ ps_tmp s = []) \/
     (exists p, ps_ais s = [] /\ Permutation p (sterms 0 zk) /\ (ps_solved s, ps_tmp s) = file_bt ord c (bt_map 1 zk p) ([], []))).
  Lemma probe_first k : black_box n f y (order_at c 0 1 (S k)) = sv 0 zk k.
  Proof.
    rewrite (probe_value HK c f y 0 n_pos) by lia. unfold rest. rewrite (keys_0 n D f Hf). rewrite lsum_cons. cbn [monomial_value]. replace (S k - 1) with k by lia.
    rewrite (pw_1 HK). fold zk. unfold lsum. cbn [fold_right]. ring.
  Qed.
  Lemma stage_one_ok k s : in_first k s -> exists fl s', stage_one ord c y s (black_box n f y (ps_order s)) = Ret (fl, s') /\
    (fl = true /\ first_end s' \/ fl = false /\ in_first (S k) s').
  Proof.
    intros [Ez Eo Ea Eb En [Es Et] W]. rewrite Eo, probe_first. unfold stage_one. rewrite Eo. pose proof n_pos as Np. rewrite !order_nth by exact Np. cbn [Nat.ltb Nat.leb Nat.eqb].
    replace (S k - 1) with k by lia. rewrite Ea, Es, Et, En. cbn [afind]. rewrite mon_eqb_refl. rewrite set_order_at. pose proof (proj1 Hc) as On. pose proof W as [W1 W2].
    assert (BTcase : pc_bt c = true -> (exists x', bt_part c y 1 zk (if k =? 0 then None else afind (ps_bt s) zk) (sv 0 zk k) = Ret (None, x') /\ bts c f y 0 zk (S k) x' /\ S k < 2 * length f + Nat.max 1 (pc_thr c)) \/
      (exists x' p, bt_part c y 1 zk (if k =? 0 then None else afind (ps_bt s) zk) (sv 0 zk k) = Ret (Some p, x') /\ Permutation p (sterms 0 zk))).
    { intros HB. specialize (Eb HB). destruct (Nat.eqb_spec k 0) as [->|Nk].
      - left. destruct bt_first_ok as [x [E B]]. exists x. split; [exact E|]. split; [exact B|]. pose proof f_pos. lia.
      - destruct Eb as [x [Ex Bx]]. rewrite Ex. apply (bt_ok HK c D f y Hf Hc Hs 0 n_pos zk zk_key k x HB Bx). }
    destruct (Bool.bool_dec (pc_newton c) true) as [BN|BN].
    - rewrite BN. destruct (newton_ok HK c D f y Hf Hc Hs 0 n_pos zk zk_key k BN (proj1 (W1 BN))) as [[k' [E [Hk' B]]]|[E Hk']]; rewrite E; rewrite aset_one.
      + eexists. eexists. split; [reflexivity|]. left. split; [reflexivity|]. split; [reflexivity|]. split; [reflexivity|]. left. exists k'. cbn [ps_ais ps_solved ps_tmp]. repeat (split; [assumption || reflexivity|]). reflexivity.
      + destruct (Bool.bool_dec (pc_bt c) true) as [BB|BB].
        * rewrite BB. destruct (BTcase BB) as [[x' [E' [Bx Kx]]]|[x' [p [E' P]]]]; rewrite E'; cbn [obind fst snd].
          -- eexists. eexists. split; [reflexivity|]. right. split; [reflexivity|]. constructor; cbn [ps_zi ps_order ps_ais ps_bt ps_nums ps_solved ps_tmp]; try reflexivity.
             ++ rewrite BN. reflexivity.
             ++ intros _. cbn [Nat.eqb]. exists x'. split; [rewrite aget_set, mon_eqb_refl; reflexivity|exact Bx].
             ++ split; reflexivity.
             ++ split; intros _; [lia|exact Kx].
          -- eexists. eexists. split; [reflexivity|]. left. split; [reflexivity|]. split; [reflexivity|]. split; [reflexivity|]. right. exists p. cbn [ps_ais ps_solved ps_tmp]. rewrite aerase_one'.
             split; [reflexivity|]. split; [exact P|]. symmetry. apply surjective_pairing.
        * apply Bool.not_true_is_false in BB. rewrite BB. eexists. eexists. split; [reflexivity|]. right. split; [reflexivity|]. constructor; cbn [ps_zi ps_order ps_ais ps_bt ps_nums ps_solved ps_tmp]; try reflexivity.
          -- rewrite BN. reflexivity.
          -- intros X. rewrite BB in X. discriminate X.
          -- split; reflexivity.
          -- split; intros X; [lia|rewrite BB in X; discriminate X].
    - apply Bool.not_true_is_false in BN. rewrite BN in On. cbn [orb] in On. rewrite BN, On. destruct (BTcase On) as [[x' [E' [Bx Kx]]]|[x' [p [E' P]]]]; rewrite E'; cbn [obind fst snd].
      + eexists. eexists. split; [reflexivity|]. right. split; [reflexivity|]. constructor; cbn [ps_zi ps_order ps_ais ps_bt ps_nums ps_solved ps_tmp]; try reflexivity.
        * rewrite BN. reflexivity.
        * intros _. cbn [Nat.eqb]. exists x'. split; [rewrite aget_set, mon_eqb_refl; reflexivity|exact Bx].
        * split; reflexivity.
        * split; intros X; [rewrite BN in X; discriminate X|exact Kx].
      + eexists. eexists. split; [reflexivity|]. left. split; [reflexivity|]. split; [reflexivity|]. split; [reflexivity|]. right. exists p. cbn [ps_ais ps_solved ps_tmp]. rewrite aerase_one'.
        split; [reflexivity|]. split; [exact P|]. symmetry. apply surjective_pairing.
  Qed.

  Lemma kterms_all : n = 1 -> kterms c f y 0 zk = f.
  Proof.
    intros En. transitivity (map (fun q => (q, co n q)) (keys n)); [|apply (all_terms HK n D f y Hf)]. unfold kterms.
    assert (E : ext 0 zk = keys 1) by (unfold PolyRecMath.ext; rewrite <- (filter_true' (PolyRecMath.keys n f 1)) at 2; apply filter_ext; intros q; rewrite trunc_0; apply mon_eqb_refl).
    rewrite E, En. reflexivity.
  Qed.
  Lemma combine_first s : first_end s -> exists out, combine_stage ord c y s = Ret out /\ advanced 0 out.
  Proof.
    intros [E1 [E2 H]]. unfold combine_stage. rewrite E1, E2. pose proof n_pos as Np. destruct (Nat.ltb_spec 1 n) as [N1|N1].
    - change (1 =? 1) with true. cbn [andb]. destruct H as [[k [BN [Hk [B [Ea [Es Et]]]]]]|[p [Ea [P Est]]]]; rewrite Ea.
      + rewrite BN. cbn [afind]. rewrite mon_eqb_refl. rewrite Es, Et. match goal with |- context [file_newton ord c ?a ?b] => destruct (file_newton ord c a b) as [solved pol] eqn:EF end.
        apply (combine_core_ok 0 solved pol Np). rewrite <- EF. rewrite file_newton_fold.
        apply (file_ok HK ord Ho c D f y Hf Hs 0 Np _ zk [zk] []); [apply (canonical_ok HK ord Ho c D f y Hf Hc Hs 0 Np zk zk_key k); [lia|lia|exact B]|exact zk_key|constructor; [intros []|constructor]|apply Permutation_refl|exact st_first].
      + assert (St : st_ok 0 [] (ps_solved s, ps_tmp s)).
        { rewrite Est, file_bt_fold by lia. apply (file_ok HK ord Ho c D f y Hf Hs 0 Np _ zk [zk] []); [apply (bt_map_ok c D f y Hf 0 Np zk zk_key); exact P|exact zk_key|constructor; [intros []|constructor]|apply Permutation_refl|exact st_first]. }
        cbn [afind]. pose proof (combine_core_ok 0 _ _ Np St) as CC. destruct (pc_newton c).
        * assert (EC : tmp_canonical ord c y 1 zk [] = []).
          { unfold tmp_canonical. cbn [length Nat.eqb andb]. unfold newton_canonical. cbn [length Nat.eqb].
            assert (EL : ord (list Z * K)%type [(repeat 0%Z n, f0)] = [(repeat 0%Z n, f0)]) by (apply Permutation_length_1_inv; apply Permutation_sym, Ho). rewrite EL. cbn [fold_left snd]. rewrite (feqb_refl HK). reflexivity. }
          rewrite EC. unfold file_newton. assert (EN : ord (list Z * K)%type [] = []) by (apply Permutation_nil; apply Permutation_sym, Ho). rewrite EN. cbn [fold_left].
          exact CC.
        * exact CC.
    - assert (En : n = 1) by lia. eexists. split; [reflexivity|]. cbn [advanced]. unfold final_poly. destruct H as [[k [BN [Hk [B [Ea [Es Et]]]]]]|[p [Ea [P Est]]]]; rewrite Ea.
      + rewrite Es. assert (EN : ord (list Z * K)%type [] = []) by (apply Permutation_nil; apply Permutation_sym, Ho). rewrite EN. cbn [fold_left].
        assert (EL : ord (list Z * list K)%type [(zk, dlist (y 0) (sv 0 zk) k)] = [(zk, dlist (y 0) (sv 0 zk) k)]) by (apply Permutation_length_1_inv; apply Permutation_sym, Ho). rewrite EL. cbn [fold_left fst snd].
        pose proof (canonical_ok HK ord Ho c D f y Hf Hc Hs 0 Np zk zk_key k ltac:(lia) ltac:(lia) B) as PC. rewrite kterms_all in PC by exact En.
        rewrite fold_pemplace_self; [exact PC|]. cbn [map app]. apply (Permutation_NoDup (Permutation_map fst (Permutation_sym PC))). apply Hf.
      + assert (EN : ord (list Z * list K)%type [] = []) by (apply Permutation_nil; apply Permutation_sym, Ho). rewrite EN. cbn [fold_left].
        pose proof (bt_map_ok c D f y Hf 0 Np zk zk_key p P) as PB. rewrite kterms_all in PB by exact En. pose proof (Permutation_trans (Ho _ (bt_map 1 zk p)) PB) as PL.
        assert (ES : ps_solved s = ord _ (bt_map 1 zk p)).
        { apply (f_equal fst) in Est. cbn [fst] in Est. rewrite Est. unfold file_bt. rewrite En. cbn [Nat.eqb]. set (l := ord _ (bt_map 1 zk p)) in *.
          assert (NL : NoDup (map fst ([] : pmap K) ++ map fst l)) by (cbn [map app]; apply (Permutation_NoDup (Permutation_map fst (Permutation_sym PL))); apply Hf).
          rewrite <- (fold_pemplace_self l [] NL) at 2. generalize (@nil (list Z * K)) at 1 3. generalize (@nil (list Z * K)). clear. induction l as [|el l IH]; intros b a; [reflexivity|]. cbn [fold_left].
          destruct ((tot (fst el) =? deg)%Z && negb (feqb (snd el) f0)); cbn [fst snd]; apply IH. }
        rewrite ES. rewrite fold_pemplace_self; [cbn [app]; rewrite Ho; exact PL|]. cbn [map app]. apply (Permutation_NoDup (Permutation_map fst (Permutation_sym (Permutation_trans (Ho _ _) PL)))). apply Hf.
  Qed.

  (** ---- the run ---- *)
  Notation depth := (depth c D f).
  Lemma within_depth k : within c D f k -> S k <= depth.
  Proof. intros [W1 W2]. pose proof (proj1 Hc) as On. unfold PolyRecRunSpec.depth. destruct (pc_newton c); destruct (pc_bt c); try discriminate On; try specialize (W1 eq_refl); try specialize (W2 eq_refl); lia. Qed.
  Inductive running : nat -> pst K -> Prop :=
  | run_first k s : in_first k s -> running (n * depth * length f - k) s
  | run_above z R i k s : 0 < z < n -> in_stage c D f y z R i k s -> running ((n - z) * depth * length f - k * length f - i) s.
  Definition progress (m : nat) (out : pfed K) : Prop := match out with PMore s => exists m', m' < m /\ running m' s | PPoly r => Permutation r f end.
  Lemma R_len z R i k s : in_stage c D f y z R i k s -> length R <= length f.
  Proof. intros I. apply Nat.le_trans with (length (keys z)); [|apply keys_len]. apply NoDup_incl_length; [apply (is_nodup c D f y z R i k s I)|]. exact (is_keys c D f y z R i k s I). Qed.
  Lemma pstep_ok m s : running m s -> exists out, pstep ord c y s (black_box n f y (ps_order s)) = Ret out /\ progress m out.
  Proof.
    pose proof n_pos as Np. pose proof f_pos as Fp. intros H. inversion H as [k s' I E1 E2|z R i k s' Hz I E1 E2]; subst; unfold pstep.
    - rewrite (if_zi k s I). cbn [Nat.eqb]. destruct (stage_one_ok k s I) as [fl [s1 [E [[-> Fe]|[-> In1]]]]]; rewrite E; cbn [obind fst snd].
      + destruct (combine_first s1 Fe) as [out [Ec A]]. exists out. split; [exact Ec|]. destruct out as [s2|r]; cbn [advanced progress] in *; [|exact A].
        destruct A as [N1 [R I2]]. eexists. split; [|apply (run_above 1 R 0 1); [lia|exact I2]]. pose proof (within_depth k (if_within k s I)) as Wd.
        pose proof (mul_le1 k depth (length f) Wd) as M. assert (B1 : n * depth * length f = (n - 1) * depth * length f + depth * length f) by (replace n with (S (n - 1)) at 1 by lia; cbn [Nat.mul]; rewrite Nat.mul_add_distr_r; lia).
        pose proof (mul_le1 0 (length f) depth Fp). rewrite (Nat.mul_comm (length f)) in *. lia.
      + eexists. split; [reflexivity|]. cbn [progress]. eexists. split; [|apply (run_first (S k)); exact In1]. pose proof (within_depth (S k) (if_within (S k) s1 In1)) as Wd.
        pose proof (mul_le3 n depth (length f) Np Fp). lia.
    - rewrite (is_zi c D f y z R i k s I). destruct (Nat.eqb_spec (S z) 1) as [|_]; [lia|]. pose proof (R_len z R i k s I) as Rl. pose proof (is_i c D f y z R i k s I) as Il. pose proof (within_depth k (is_within c D f y z R i k s I)) as Wd.
      assert (B1 : (n - z) * depth * length f = (n - S z) * depth * length f + depth * length f) by (replace (n - z) with (S (n - S z)) by lia; cbn [Nat.mul]; rewrite Nat.mul_add_distr_r; lia).
      pose proof (mul_le1 k depth (length f) ltac:(eassumption)) as B2.
      destruct (stage_next_ok HK ord Ho c D f y Hf Hc Hs z ltac:(lia) R i k s ltac:(lia) I) as [fl [s1 [E [[-> Fe]|[-> In1]]]]]; rewrite E; cbn [obind fst snd].
      + destruct (combine_above z s1 ltac:(lia) ltac:(lia) Fe) as [out [Ec A]]. exists out. split; [exact Ec|]. destruct out as [s2|r]; cbn [advanced progress] in *; [|exact A].
        destruct A as [N1 [R2 I2]]. eexists. split; [|apply (run_above (S z) R2 0 1); [lia|exact I2]]. lia.
      + eexists. split; [reflexivity|]. cbn [progress]. destruct In1 as [In1|[R' [In1 Lr]]].
        * eexists. split; [|apply (run_above z R (S i) k); [lia|exact In1]]. rewrite B1. clear - B2 Il Rl. revert B2. generalize ((n - S z) * depth * length f) (k * length f) (depth * length f). lia.
        * eexists. split; [|apply (run_above z R' 0 (S k)); [lia|exact In1]]. rewrite B1. pose proof (is_within c D f y z R' 0 (S k) s1 In1) as Wd'. apply within_depth in Wd'. cbn [Nat.mul]. clear - B2 Il Rl. revert B2. generalize ((n - S z) * depth * length f) (k * length f) (depth * length f). lia.
  Qed.
  Lemma drive_ok : forall m N s, running N s -> exists out, drive ord c y (black_box n f y) m s = Ret out /\
    match out with PMore s' => exists N', N' + m <= N /\ running N' s' | PPoly r => Permutation r f end.
  Proof.
    induction m as [|m IH]; intros N s H.
    - exists (PMore s). split; [reflexivity|]. exists N. split; [lia|exact H].
    - cbn [drive]. unfold pfeed. destruct (list_eq_dec Nat.eq_dec (ps_order s) (ps_order s)) as [_|X]; [|contradiction].
      destruct (pstep_ok N s H) as [out [E P]]. rewrite E. cbn [obind]. destruct out as [s'|r]; cbn [progress] in P.
      + destruct P as [N' [L R]]. destruct (IH N' s' R) as [out [E' P']]. exists out. split; [exact E'|]. destruct out as [s2|r]; [|exact P']. destruct P' as [N2 [L2 R2]]. exists N2. split; [lia|exact R2].
      + exists (PPoly r). split; [reflexivity|exact P].
  Qed.
  Lemma running_start : running (n * depth * length f) (ps_start c).
  Proof. pose proof (run_first 0 _ start_ok) as R. rewrite Nat.sub_0_r in R. exact R. Qed.
  Lemma running_pos m s : running m s -> 0 < m.
  Proof.
    intros H. pose proof n_pos as Np. pose proof f_pos as Fp. inversion H as [k s' I E1 E2|z R i k s' Hz I E1 E2]; subst.
    - pose proof (within_depth k (if_within k s I)). pose proof (mul_le3 n depth (length f) Np Fp). lia.
    - pose proof (R_len z R i k s I). pose proof (is_i c D f y z R i k s I). pose proof (within_depth k (is_within c D f y z R i k s I)).
      pose proof (mul_le1 k depth (length f) ltac:(eassumption)) as B2. pose proof (mul_le2 (n - z) depth (length f) ltac:(lia)). lia.
  Qed.
  Theorem run_ok m : exists out, drive ord c y (black_box n f y) m (ps_start c) = Ret out /\
    match out with PMore _ => m < n * depth * length f | PPoly r => Permutation r f end.
  Proof.
    destruct (drive_ok m _ _ running_start) as [out [E P]]. exists out. split; [exact E|]. destruct out as [s|r]; [|exact P]. destruct P as [N' [L R]]. pose proof (running_pos _ _ R). lia.
  Qed.
  (** the requests of a run: stage, orders, and how far they go *)
  Lemma run_state m s : drive ord c y (black_box n f y) m (ps_start c) = Ret (PMore s) ->
    exists z i k, z < n /\ ps_zi s = S z /\ ps_order s = order_at c z (S i) (S k) /\ i < length f /\ within c D f k.
  Proof.
    intros E. destruct (drive_ok m _ _ running_start) as [out [E' P]]. rewrite E in E'. injection E' as <-. destruct P as [N' [_ R]].
    inversion R as [k s' I E1 E2|z Rr i k s' Hz I E1 E2]; subst.
    - exists 0, 0, k. split; [exact n_pos|]. split; [apply (if_zi k s I)|]. split; [apply (if_order k s I)|]. split; [exact f_pos|apply (if_within k s I)].
    - exists z, i, k. split; [lia|]. split; [apply (is_zi c D f y z Rr i k s I)|]. split; [apply (is_order c D f y z Rr i k s I)|]. pose proof (R_len z Rr i k s I). pose proof (is_i c D f y z Rr i k s I). split; [lia|apply (is_within c D f y z Rr i k s I)].
  Qed.
End Main.

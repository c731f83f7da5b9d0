(** Proofs for the shifted systems of RatReconst over a further prime, part 4: the equations of the rays, both sides, the end of the prime. *)
From Coq Require Import Permutation.
From Verif Require Import Machine FField FSum LinAlg FPoly PolyFF PolySpec PolyFFProofs PolyFFProofs2 Vandermonde RatUni RatUniSpec RatUniFirst Newton PolyRec PolyRecSpec PolyRecMath RatMulti RatMultiSpec RatMultiMath RatMultiShift RatMultiRay RatMultiClean RatMultiQ RatMultiQCoef RatMultiQSide RatMultiQMaps RatSing RatSingSub.
Open Scope nat_scope.

(** what the rays need of a side: [St r]: its states after r rays, [L]: the rays it needs, [rvf d i]: the coefficient of t^d on the ray i, [c0]: the coefficient of
    t^0 if it is not an unknown, [Q]: the polynomial with the shift, [cf]: the coefficients of the one without *)
Record side_ok {K : fops} (ord : forall A : Type, list A -> list A) (c : mcfg) (y s : nat -> K) (g : scfg) (ns0 : list (nat * list mon)) (st0 : sside K) (L : nat)
    (St : nat -> sside K -> Prop) (rvf : nat -> nat -> K) (c0 : K) (Q : list (list Z * K)) (cf : mon -> K) (Su : list (nat * polyff K) -> Prop) : Prop := mk_side_ok {
  so_nd : NoDup (map fst ns0);
  so_small : forall d, In d (map fst ns0) -> (Z.of_nat d < 2 ^ 31)%Z;
  so_L : 0 < L /\ (Z.of_nat L < 2 ^ 31)%Z;
  so_begin : St 0 st0;
  so_ray : forall r st l, St r st -> Permutation (map fst l) (map fst (ss_ns st)) -> (forall d w, In (d, w) l -> w = rvf d (S r)) ->
    exists st', sing_file ord c y s g l st = Ret st' /\ St (S r) st';
  so_nil : forall r st, St r st -> (ss_mat st = [] <-> L <= r) /\ (L <= r -> ss_ns st = []) /\ length (ss_ns st) + ss_count st = length ns0;
  so_open : forall r st, St r st -> r < L -> ss_ns st <> [];
  so_perm : forall r st, St r st -> Permutation (map fst (ss_solved st) ++ map fst (ss_ns st)) (map fst ns0);
  so_known : forall r st order t, (Z.of_nat order < 2 ^ 31)%Z -> St r st ->
    lsum (fun e : nat * K => fmul (snd e) (fpow t (Z.of_nat (fst e)))) (ord _ (sing_known ord c y g order st)) = lsum (fun d => fmul (rvf d order) (pw t d)) (map fst (ss_solved st));
  so_total : forall i t, poly_value (mc_n c) Q (fun j => fmul t (diag y i j)) = fadd (lsum (fun d => fmul (rvf d i) (pw t d)) (map fst ns0)) c0;
  so_sum : forall r st, St r st -> L <= r -> NoDup (map fst (pf_coefs (sing_sum ord c g st))) /\ clean c (sing_sum ord c g st) /\ forall k, coef_at (pf_coefs (sing_sum ord c g st)) k = cf k;
  so_subs : forall r st, St r st -> L <= r -> Su (ss_sub st)
}.

Lemma nodup_app_r {A} (l l' : list A) : NoDup (l ++ l') -> NoDup l'.
Proof. induction l as [|a l IH]; intros N; [exact N|]. cbn in N. inversion N; subst. auto. Qed.

Section Rays.
  Context {K : fops} (HK : flaws K).
  Add Field KSRY : (fl_field K HK).
  Local Notation pv := (@poly_value K).
  Variable ord : forall A : Type, list A -> list A.
  Hypothesis Ho : forall A (l : list A), Permutation (ord A l) l.
  Variable c : mcfg.
  Local Notation n := (mc_n c).
  Variables y s : nat -> K.
  Hypothesis Hn : 2 <= n.
  Variables (gn gd : scfg) (nsN nsD : list (nat * list mon)) (beginN beginD : sside K) (LN LD : nat) (SN SD : nat -> sside K -> Prop) (rN rD : nat -> nat -> K) (cN cD : K) (N D Ns Ds : list (list Z * K)).
  Variables SuN SuD : list (nat * polyff K) -> Prop.
  Hypothesis ON : side_ok ord c y s gn nsN beginN LN SN rN cN Ns (coef_at N) SuN.
  Hypothesis OD : side_ok ord c y s gd nsD beginD LD SD rD cD Ds (coef_at D) SuD.
  Hypothesis Hc : if mc_norm_den c then cN = f0 /\ cD = f1 else cN = f1 /\ cD = f0.
  Hypothesis HVN : forall x, pv n Ns x = pv n N (fun i => x i + s i)%K.
  Hypothesis HVD : forall x, pv n Ds x = pv n D (fun i => x i + s i)%K.
  Variables (bb : list nat -> K -> K) (ts : list K).
  Local Notation Z0 := (length nsN + length nsD).
  Local Notation R0 := (Nat.max LN LD).
  Local Notation pnt := (fun i => nth i ts (@f0 K)).
  Hypothesis Hvals : forall o t, bb o t = ray_value n N D y s o t.
  Hypothesis Henough : R0 * Z0 <= length ts.
  Hypothesis Hpoles : forall i j, 1 <= i <= R0 -> j < length ts -> pv n D (ray_point y s (repeat i (n - 1)) (pnt j)) <> f0.
  Hypothesis Hreg : forall i j UN UD, 1 <= i <= R0 -> NoDup UN -> NoDup UD -> incl UN (map fst nsN) -> incl UD (map fst nsD) -> j + (length UN + length UD) <= length ts ->
    determined UN UD (fun k => pnt (j + k)) (fun k => bb (repeat i (n - 1)) (pnt (j + k))) (length UN + length UD).
  Variables (norm_den : bool) (norm : mon) (gni gdi : list mon).

  Lemma ray_diag j t i : i < n -> ray_point y s (repeat j (n - 1)) t i = (t * diag y j i + s i)%K.
  Proof.
    intros Hi. unfold ray_point, diag, x1. destruct i as [|i]; [ring|]. rewrite (nth_indep _ 0 j) by (rewrite repeat_length; lia). rewrite nth_repeat. reflexivity.
  Qed.
  Lemma vN t j : pv n N (ray_point y s (repeat j (n - 1)) t) = pv n Ns (fun i => t * diag y j i)%K.
  Proof. rewrite HVN. apply pv_ext_x. intros i Hi. apply ray_diag. exact Hi. Qed.
  Lemma vD t j : pv n D (ray_point y s (repeat j (n - 1)) t) = pv n Ds (fun i => t * diag y j i)%K.
  Proof. rewrite HVD. apply pv_ext_x. intros i Hi. apply ray_diag. exact Hi. Qed.
  (** a stage: j rays are done, the equations of the next one use the points from b on *)
  Definition ti (b i : nat) : K := pnt (b + i).
  Definition vi (j b i : nat) : K := bb (repeat (S j) (n - 1)) (ti b i).
  Definition solvedN (j b : nat) (num : sside K) (i : nat) : K := lsum (fun d => rN d (S j) * pw (ti b i) d)%K (map fst (ss_solved num)).
  Definition solvedD (j b : nat) (den : sside K) (i : nat) : K := lsum (fun d => rD d (S j) * pw (ti b i) d)%K (map fst (ss_solved den)).
  Definition rhs (j b : nat) (num den : sside K) (i : nat) : K := (((if mc_norm_den c then vi j b i else - f1) - solvedN j b num i) + solvedD j b den i * vi j b i)%K.
  Definition srow (j b : nat) (num den : sside K) (i : nat) : list K := sys_row (map fst (ss_ns num)) (map fst (ss_ns den)) (ti b) (vi j b) (rhs j b num den) i.
  Definition unk (w : swork K) : nat := length (ss_ns (sw_num w)) + length (ss_ns (sw_den w)).
  Record swinv (j b k : nat) (w : swork K) : Prop := mk_swinv {
    sv_n : SN j (sw_num w);
    sv_d : SD j (sw_den w);
    sv_order : sw_order w = S j;
    sv_rows : sw_rows w = map (srow j b (sw_num w) (sw_den w)) (seq 0 k);
    sv_subs : 0 < k -> sw_subs w = (sing_known ord c y gn (S j) (sw_num w), sing_known ord c y gd (S j) (sw_den w));
    sv_k : k < unk w;
    sv_b : b <= j * Z0
  }.
  Lemma eqn_ok w j : SN j (sw_num w) -> SD j (sw_den w) -> sing_eqn Z0 w = unk w /\ unk w <= Z0.
  Proof.
    intros A B. destruct (so_nil _ _ _ _ _ _ _ _ _ _ _ _ _ _ ON j _ A) as [_ [_ A3]]. destruct (so_nil _ _ _ _ _ _ _ _ _ _ _ _ _ _ OD j _ B) as [_ [_ B3]]. unfold sing_eqn, unk. clear - A3 B3. lia.
  Qed.
  Lemma swinv_bound j b k w : swinv j b k w -> j < R0 /\ b + unk w <= length ts /\ (Z.of_nat (S j) < 2 ^ 31)%Z.
  Proof.
    intros W. pose proof (sv_n _ _ _ _ W) as A. pose proof (sv_d _ _ _ _ W) as B. destruct (eqn_ok w j A B) as [_ E]. pose proof (sv_k _ _ _ _ W) as Hk. pose proof (sv_b _ _ _ _ W) as Hb.
    destruct (so_nil _ _ _ _ _ _ _ _ _ _ _ _ _ _ ON j _ A) as [_ [A2 _]]. destruct (so_nil _ _ _ _ _ _ _ _ _ _ _ _ _ _ OD j _ B) as [_ [B2 _]].
    assert (Hj : j < R0). { destruct (Nat.lt_ge_cases j R0) as [L|L]; [exact L|]. exfalso. unfold unk in Hk. rewrite A2, B2 in Hk by (clear - L; lia). cbn in Hk. clear - Hk. lia. }
    split; [exact Hj|]. split.
    - assert (X : S j * Z0 <= R0 * Z0) by (apply Nat.mul_le_mono_r; exact Hj). cbn [Nat.mul] in X. clear - X E Hb Henough. lia.
    - destruct (so_L _ _ _ _ _ _ _ _ _ _ _ _ _ _ ON) as [_ X]. destruct (so_L _ _ _ _ _ _ _ _ _ _ _ _ _ _ OD) as [_ Y]. clear - Hj X Y. lia.
  Qed.
  Lemma row_ok j b k w : swinv j b k w ->
    sing_row ord c y gn gd w (ti b k) (vi j b k) = mk_swork (sw_num w) (sw_den w) (sw_order w) (sing_known ord c y gn (S j) (sw_num w), sing_known ord c y gd (S j) (sw_den w))
      (map (srow j b (sw_num w) (sw_den w)) (seq 0 (S k))).
  Proof.
    intros W. destruct (swinv_bound j b k w W) as [Hj [_ So]]. unfold sing_row. cbn zeta.
    assert (Es : match sw_rows w with [] => (sing_known ord c y gn (sw_order w) (sw_num w), sing_known ord c y gd (sw_order w) (sw_den w)) | _ => sw_subs w end
      = (sing_known ord c y gn (S j) (sw_num w), sing_known ord c y gd (S j) (sw_den w))).
    { rewrite (sv_rows _ _ _ _ W), (sv_order _ _ _ _ W). destruct k as [|k]; [reflexivity|]. cbn [seq map]. apply (sv_subs _ _ _ _ W). lia. }
    rewrite Es. cbn [fst snd].
    rewrite (fold_sub_lsum HK (fun e : nat * K => snd e * fpow (ti b k) (Z.of_nat (fst e)))%K), (fold_add_lsum HK (fun e : nat * K => snd e * fpow (ti b k) (Z.of_nat (fst e)) * vi j b k)%K), (lsum_mul_r HK).
    rewrite (so_known _ _ _ _ _ _ _ _ _ _ _ _ _ _ ON j (sw_num w) (S j) (ti b k) So (sv_n _ _ _ _ W)), (so_known _ _ _ _ _ _ _ _ _ _ _ _ _ _ OD j (sw_den w) (S j) (ti b k) So (sv_d _ _ _ _ W)).
    f_equal. rewrite (sv_rows _ _ _ _ W), seq_S, map_app. f_equal. cbn [map Nat.add]. f_equal. unfold srow, sys_row. rewrite !map_map. reflexivity.
  Qed.
  Lemma true_equation j b i num den : j < R0 -> b + i < length ts -> SN j num -> SD j den ->
    (lsum (fun e => rN e (S j) * pw (ti b i) e) (map fst (ss_ns num)) - vi j b i * lsum (fun e => rD e (S j) * pw (ti b i) e) (map fst (ss_ns den)))%K = rhs j b num den i.
  Proof.
    intros Hj Hb IN ID. pose proof (Hpoles (S j) (b + i) ltac:(clear - Hj; lia) Hb) as Hp. cbn beta in Hp. change (nth (b + i) ts f0) with (ti b i) in Hp.
    assert (EV : (vi j b i * pv n Ds (fun l => ti b i * diag y (S j) l) = pv n Ns (fun l => ti b i * diag y (S j) l))%K). { unfold vi. rewrite Hvals. unfold ray_value. rewrite <- vN, <- vD in *. field. exact Hp. }
    rewrite (so_total _ _ _ _ _ _ _ _ _ _ _ _ _ _ ON), (so_total _ _ _ _ _ _ _ _ _ _ _ _ _ _ OD) in EV.
    rewrite <- (lsum_perm HK _ _ _ (so_perm _ _ _ _ _ _ _ _ _ _ _ _ _ _ ON j num IN)), <- (lsum_perm HK _ _ _ (so_perm _ _ _ _ _ _ _ _ _ _ _ _ _ _ OD j den ID)), !(lsum_app HK) in EV.
    unfold rhs, solvedN, solvedD. set (sn := lsum _ (map fst (ss_solved num))) in *. set (sd := lsum _ (map fst (ss_solved den))) in *. set (un := lsum _ (map fst (ss_ns num))) in *. set (ud := lsum _ (map fst (ss_ns den))) in *.
    transitivity ((sn + un + cN) - vi j b i * ud - sn - cN)%K; [ring|]. rewrite <- EV. destruct (mc_norm_den c); destruct Hc as [-> ->]; ring.
  Qed.
  Lemma solve_ok j b k w : swinv j b k w -> S k = unk w -> forall w', sw_num w' = sw_num w -> sw_den w' = sw_den w -> sw_rows w' = map (srow j b (sw_num w) (sw_den w)) (seq 0 (S k)) ->
    exists ln ld, sing_solve Z0 w' = Ret (ln, ld) /\ map fst ln = map fst (ss_ns (sw_num w)) /\ map fst ld = map fst (ss_ns (sw_den w)) /\
      (forall d u, In (d, u) ln -> u = rN d (S j)) /\ (forall d u, In (d, u) ld -> u = rD d (S j)).
  Proof.
    intros W Hk w' E1 E2 E3. destruct (swinv_bound _ _ _ _ W) as [Hj [Hb _]]. pose proof (sv_n _ _ _ _ W) as IN. pose proof (sv_d _ _ _ _ W) as ID.
    assert (Eq : sing_eqn Z0 w' = unk w). { assert (X : sing_eqn Z0 w' = sing_eqn Z0 w) by (unfold sing_eqn; rewrite E1, E2; reflexivity). rewrite X. apply (eqn_ok w j IN ID). }
    unfold unk in *. set (num := sw_num w) in *. set (den := sw_den w) in *.
    pose proof (so_perm _ _ _ _ _ _ _ _ _ _ _ _ _ _ ON j num IN) as PN. pose proof (so_perm _ _ _ _ _ _ _ _ _ _ _ _ _ _ OD j den ID) as PD.
    assert (InN : incl (map fst (ss_ns num)) (map fst nsN)) by (intros d X; apply (Permutation_in _ PN); apply in_or_app; right; exact X).
    assert (InD : incl (map fst (ss_ns den)) (map fst nsD)) by (intros d X; apply (Permutation_in _ PD); apply in_or_app; right; exact X).
    assert (NN : NoDup (map fst (ss_ns num))) by (apply (nodup_app_r (map fst (ss_solved num))); apply (Permutation_NoDup (Permutation_sym PN)); apply (so_nd _ _ _ _ _ _ _ _ _ _ _ _ _ _ ON)).
    assert (ND : NoDup (map fst (ss_ns den))) by (apply (nodup_app_r (map fst (ss_solved den))); apply (Permutation_NoDup (Permutation_sym PD)); apply (so_nd _ _ _ _ _ _ _ _ _ _ _ _ _ _ OD)).
    destruct (sys_solve HK (map fst (ss_ns num)) (map fst (ss_ns den)) (ti b) (vi j b) (rhs j b num den) (fun e => rN e (S j)) (fun e => rD e (S j)) (sw_rows w')) as [x [Ex [XN XD]]].
    - exact NN.
    - exact ND.
    - intros e [X|X]; [apply (so_small _ _ _ _ _ _ _ _ _ _ _ _ _ _ ON); apply InN; exact X|apply (so_small _ _ _ _ _ _ _ _ _ _ _ _ _ _ OD); apply InD; exact X].
    - intros i Hi. rewrite E3, !map_length in *. rewrite <- Hk in Hi. rewrite (nth_indep _ [] (srow j b num den 0)) by (rewrite map_length, seq_length; exact Hi). rewrite map_nth, seq_nth by exact Hi. reflexivity.
    - apply (Hreg (S j) b); [clear - Hj; lia|exact NN|exact ND|exact InN|exact InD|]. rewrite !map_length. exact Hb.
    - intros i Hi. rewrite !map_length in Hi. apply (true_equation j b i num den Hj); [clear - Hi Hb; lia|exact IN|exact ID].
    - rewrite !map_length. clear - Hk. lia.
    - destruct (combine_nth_keys (ss_ns num) x 0 (fun e => rN e (S j))) as [KN VN]; [intros i Hi; apply XN; rewrite map_length; exact Hi|].
      destruct (combine_nth_keys (ss_ns den) x (length (ss_ns num)) (fun e => rD e (S j))) as [KD VD]; [intros i Hi; rewrite <- (map_length fst (ss_ns num)); apply XD; rewrite map_length; exact Hi|].
      unfold sing_solve. rewrite Eq, E1, E2. fold num den. rewrite !map_length in Ex. rewrite Ex. cbn [obind]. eexists _, _. split; [reflexivity|]. split; [exact KN|]. split; [exact KD|]. split; [exact VN|exact VD].
  Qed.
  Hypothesis Hnorm : norm <> zero_mon c \/ norm_den <> mc_norm_den c.
  Definition divisor : K := coef_at (if norm_den then D else N) norm.
  Hypothesis NN0 : NoDup (map fst N).
  Hypothesis ND0 : NoDup (map fst D).
  Hypothesis NzN : forall e a, In (e, a) N -> a <> f0.
  Hypothesis NzD : forall e a, In (e, a) D -> a <> f0.
  Hypothesis Hdiv : divisor <> f0.
  (** the coefficients of P that are still unknown, divided by that of the normaliser *)
  Definition still (ks : list mon) (P : list (list Z * K)) : pmap K := map (fun t => (fst t, fdiv (snd t) divisor)) (filter (fun t => negb (existsb (mon_eqb (fst t)) ks)) P).

  Lemma without_entry ks : forall (m : pmap K) e a, In (e, a) (without m ks) <-> In (e, a) m /\ ~ In e ks.
  Proof.
    unfold without. induction ks as [|k ks IH]; intros m e a; [cbn; tauto|]. cbn [fold_left]. rewrite IH. unfold perase. rewrite filter_In. cbn [fst In]. destruct (mon_eqb_spec k e) as [->|Ne]; cbn [negb]; intuition (try discriminate; try congruence).
  Qed.
  Lemma without_nodup ks : forall (m : pmap K), NoDup (map fst m) -> NoDup (map fst (without m ks)).
  Proof. unfold without. induction ks as [|k ks IH]; intros m H; [exact H|]. cbn [fold_left]. apply IH. unfold perase. apply NoDup_keys_filter. exact H. Qed.
  Lemma existsb_in (e : mon) ks : existsb (mon_eqb e) ks = true <-> In e ks.
  Proof. rewrite existsb_exists. split; [intros [k [I E]]; destruct (mon_eqb_spec e k) as [->|]; [exact I|discriminate]|intros I; exists e; split; [exact I|apply mon_eqb_refl]]. Qed.
  Lemma nodup_keys_list (A : pmap K) : NoDup (map fst A) -> NoDup A.
  Proof. apply NoDup_map_inv. Qed.
  Lemma combine_side (q : polyff K) (P : list (list Z * K)) ks : NoDup (map fst (pf_coefs q)) -> clean c q -> (forall k, coef_at (pf_coefs q) k = coef_at P k) -> NoDup (map fst P) -> (forall e a, In (e, a) P -> a <> f0) ->
    Permutation (drop_zero c (pf_coefs (pscale (mk_polyff (pf_n q) (without (pf_coefs q) ks)) (fdiv f1 divisor)))) (still ks P).
  Proof.
    intros Nq C E NP Nz. set (m := pf_coefs (pscale (mk_polyff (pf_n q) (without (pf_coefs q) ks)) (fdiv f1 divisor))).
    assert (Km : map fst m = map fst (without (pf_coefs q) ks)) by (unfold m, pscale; cbn [pf_coefs]; rewrite map_map; reflexivity).
    assert (Nm : NoDup (map fst m)) by (rewrite Km; apply without_nodup; exact Nq).
    assert (Em : forall e a, In (e, a) m <-> exists a0, a = (a0 * fdiv f1 divisor)%K /\ In (e, a0) (pf_coefs q) /\ ~ In e ks).
    { intros e a. unfold m, pscale. cbn [pf_coefs]. rewrite in_map_iff. split.
      - intros [[e0 a0] [X I]]. cbn [fst snd] in X. injection X as <- <-. apply without_entry in I. exists a0. auto.
      - intros [a0 [-> I]]. exists (e, a0). split; [reflexivity|]. apply without_entry. exact I. }
    assert (Nz' : (fdiv f1 divisor : K) <> f0). { intros X. apply (F_1_neq_0 (fl_field K HK)). transitivity (fdiv f1 divisor * divisor)%K; [field; exact Hdiv|rewrite X; ring]. }
    assert (Hd : forall e a, In (e, a) (drop_zero c m) <-> In (e, a) m /\ a <> f0).
    { intros e a. assert (Z : In (e, a) m -> a = f0 -> e = zero_mon c).
      { intros I ->. apply Em in I as [a0 [X [I _]]]. destruct (C e a0 I) as [Na|Z]; [|exact Z]. exfalso. symmetry in X. apply (fmul_0 HK) in X as [X|X]; contradiction. }
      unfold drop_zero. destruct (pfind m (zero_mon c)) as [a1|] eqn:F; [destruct (feqb a1 f0) eqn:F0|].
      - apply (fl_eqb K HK) in F0. subst a1. apply (pfind_In m _ _ Nm) in F. unfold perase. rewrite filter_In. cbn [fst]. destruct (mon_eqb_spec (zero_mon c) e) as [<-|Ne]; cbn [negb]; [split; intros [X Y]; [discriminate|exfalso]|split; intros [X Y]; (split; [exact X|])].
        + apply Y. rewrite <- (coef_in m (zero_mon c) a Nm X). apply coef_in; assumption.
        + intros ->. apply Ne. symmetry. apply Z; [exact X|reflexivity].
        + reflexivity.
      - apply (feqb_neq HK) in F0. apply (pfind_In m _ _ Nm) in F. split; [|tauto]. intros I. split; [exact I|]. intros ->. pose proof (Z I eq_refl) as ->. apply F0. rewrite <- (coef_in m (zero_mon c) a1 Nm F). apply coef_in; assumption.
      - apply pfind_None in F. split; [|tauto]. intros I. split; [exact I|]. intros ->. pose proof (Z I eq_refl) as ->. apply F. apply in_map_iff. exists (zero_mon c, f0). auto. }
    apply NoDup_Permutation.
    - apply nodup_keys_list. unfold drop_zero. destruct (pfind m (zero_mon c)) as [a|]; [destruct (feqb a f0)|]; [unfold perase; apply NoDup_keys_filter; exact Nm|exact Nm|exact Nm].
    - apply nodup_keys_list. unfold still. rewrite map_map. cbn [fst]. apply NoDup_keys_filter. exact NP.
    - intros [e a]. rewrite Hd, Em. unfold still. rewrite in_map_iff. split.
      + intros [[a0 [-> [I Nk]]] Na]. assert (E0 : a0 = coef_at P e) by (rewrite <- E; symmetry; apply coef_in; assumption).
        assert (J : In e (map fst P)). { destruct (in_dec (list_eq_dec Z.eq_dec) e (map fst P)) as [J|J]; [exact J|]. exfalso. apply Na. rewrite E0, coef_out by exact J. ring. }
        apply in_map_iff in J as [[e1 a1] [X J]]. cbn [fst] in X. subst e1. rewrite (coef_in P e a1 NP J) in E0. subst a0. exists (e, a1). split; [f_equal; cbn [snd]; field; exact Hdiv|]. apply filter_In. split; [exact J|]. cbn [fst].
        destruct (existsb (mon_eqb e) ks) eqn:X; [exfalso; apply Nk; apply existsb_in; exact X|reflexivity].
      + intros [[e1 a1] [X J]]. cbn [fst snd] in X. injection X as <- <-. apply filter_In in J as [J Nk]. cbn [fst] in Nk. pose proof (Nz e1 a1 J) as Na. split.
        * exists a1. split; [field; exact Hdiv|]. split.
          -- pose proof (E e1) as X. rewrite (coef_in P e1 a1 NP J) in X. assert (Jq : In e1 (map fst (pf_coefs q))). { destruct (in_dec (list_eq_dec Z.eq_dec) e1 (map fst (pf_coefs q))) as [Jq|Jq]; [exact Jq|]. exfalso. apply Na. rewrite <- X. apply coef_out. exact Jq. }
             apply in_map_iff in Jq as [[e2 a2] [Y Jq]]. cbn [fst] in Y. subst e2. rewrite (coef_in _ e1 a2 Nq Jq) in X. subst a2. exact Jq.
          -- intros Z. apply existsb_in in Z. rewrite Z in Nk. discriminate.
        * intros X. apply Na. transitivity (fdiv a1 divisor * divisor)%K; [field; exact Hdiv|rewrite X; ring].
  Qed.
  Lemma combine_ok r num den : SN r num -> SD r den -> LN <= r -> LD <= r ->
    exists nu de, sing_combine ord c gn gd norm_den norm gni gdi num den = (nu, de) /\ Permutation nu (still gni N) /\ Permutation de (still gdi D).
  Proof.
    intros IN ID L1 L2. destruct (so_sum _ _ _ _ _ _ _ _ _ _ _ _ _ _ ON r num IN L1) as [A1 [A2 A3]]. destruct (so_sum _ _ _ _ _ _ _ _ _ _ _ _ _ _ OD r den ID L2) as [B1 [B2 B3]].
    unfold sing_combine. cbn zeta. assert (T : Bool.eqb norm_den (mc_norm_den c) && mon_eqb norm (zero_mon c) = false).
    { destruct Hnorm as [X|X]; [destruct (mon_eqb_spec norm (zero_mon c)); [contradiction|apply Bool.andb_false_r]|]. destruct (Bool.eqb norm_den (mc_norm_den c)) eqn:E; [|reflexivity]. apply Bool.eqb_prop in E. contradiction. }
    rewrite T. assert (Ed : (if norm_den then coef_at (pf_coefs (sing_sum ord c gd den)) norm else coef_at (pf_coefs (sing_sum ord c gn num)) norm) = divisor) by (unfold divisor; destruct norm_den; [apply B3|apply A3]).
    assert (Ed' : coef_at (pf_coefs (if norm_den then sing_sum ord c gd den else sing_sum ord c gn num)) norm = divisor) by (rewrite <- Ed; destruct norm_den; reflexivity). rewrite Ed'.
    eexists _, _. split; [reflexivity|]. split; [apply combine_side; assumption|apply combine_side; assumption].
  Qed.

  Local Notation feed := (sing_feed ord c y s gn gd Z0 norm_den norm gni gdi).
  Local Notation drive := (sing_drive ord c y s gn gd Z0 norm_den norm gni gdi).
  Definition done (f : outcome (sfed K)) : Prop := exists nu de un ud, f = Ret (SResult nu de un ud) /\ Permutation nu (still gni N) /\ Permutation de (still gdi D) /\ SuN un /\ SuD ud.
  Lemma feed_ok j b k w : swinv j b k w ->
    done (feed w (ti b k) (vi j b k)) \/ exists j' b' k' w2, feed w (ti b k) (vi j b k) = Ret (SMore w2) /\ swinv j' b' k' w2 /\ b' + k' = S (b + k).
  Proof.
    intros W. pose proof (sv_n _ _ _ _ W) as IN. pose proof (sv_d _ _ _ _ W) as ID. pose proof (sv_k _ _ _ _ W) as Hk. unfold sing_feed. rewrite (row_ok j b k w W). cbn zeta. set (w' := mk_swork _ _ _ _ _).
    assert (Eq : sing_eqn Z0 w' = unk w) by (transitivity (sing_eqn Z0 w); [reflexivity|apply (eqn_ok w j IN ID)]). rewrite Eq. assert (El : length (sw_rows w') = S k) by (cbn [w' sw_rows]; rewrite map_length, seq_length; reflexivity). rewrite El. destruct (Nat.eqb_spec (unk w) (S k)) as [E|E].
    - destruct (solve_ok j b k w W (eq_sym E) w' eq_refl eq_refl eq_refl) as [ln [ld [Es [Kn [Kd [Vn Vd]]]]]]. rewrite Es. cbn [obind fst snd]. cbn [w' sw_num sw_den sw_order].
      destruct (so_ray _ _ _ _ _ _ _ _ _ _ _ _ _ _ ON j (sw_num w) ln IN) as [num' [FE1 IN']]; [rewrite Kn; apply Permutation_refl|exact Vn|].
      destruct (so_ray _ _ _ _ _ _ _ _ _ _ _ _ _ _ OD j (sw_den w) ld ID) as [den' [FE2 ID']]; [rewrite Kd; apply Permutation_refl|exact Vd|].
      rewrite FE1. cbn [obind]. rewrite FE2. cbn [obind]. destruct (so_nil _ _ _ _ _ _ _ _ _ _ _ _ _ _ ON (S j) _ IN') as [M1 _]. destruct (so_nil _ _ _ _ _ _ _ _ _ _ _ _ _ _ OD (S j) _ ID') as [M2 _].
      assert (Cont : (ss_mat num' <> [] \/ ss_mat den' <> []) -> swinv (S j) (b + unk w) 0 (mk_swork num' den' (S (sw_order w)) ([], []) [])).
      { intros Ne. constructor; cbn [sw_num sw_den sw_order sw_rows sw_subs]; try assumption; try reflexivity.
        - rewrite (sv_order _ _ _ _ W). reflexivity.
        - intros X. lia.
        - unfold unk. cbn [sw_num sw_den]. destruct (so_nil _ _ _ _ _ _ _ _ _ _ _ _ _ _ ON (S j) _ IN') as [_ [_ C1]]. destruct (Nat.eq_dec (length (ss_ns num') + length (ss_ns den')) 0) as [Z|Z]; [exfalso|lia].
          destruct Ne as [X|X]; apply X.
          + apply M1. destruct (Nat.le_gt_cases LN (S j)) as [Y|Y]; [exact Y|]. exfalso. apply (so_open _ _ _ _ _ _ _ _ _ _ _ _ _ _ ON (S j) num' IN' Y). apply length_zero_iff_nil. clear - Z. lia.
          + apply M2. destruct (Nat.le_gt_cases LD (S j)) as [Y|Y]; [exact Y|]. exfalso. apply (so_open _ _ _ _ _ _ _ _ _ _ _ _ _ _ OD (S j) den' ID' Y). apply length_zero_iff_nil. clear - Z. lia.
        - pose proof (sv_b _ _ _ _ W) as Hb. destruct (eqn_ok w j IN ID) as [_ B]. cbn [Nat.mul]. clear - Hb B. lia. }
      destruct (ss_mat num') as [|e1 l1] eqn:E1.
      + destruct (ss_mat den') as [|e2 l2] eqn:E2.
        * left. destruct (combine_ok (S j) num' den' IN' ID' (proj1 M1 eq_refl) (proj1 M2 eq_refl)) as [nu [de [Ec [P1 P2]]]]. rewrite Ec. exists nu, de, (ss_sub num'), (ss_sub den'). split; [reflexivity|]. split; [exact P1|]. split; [exact P2|]. split; [exact (so_subs _ _ _ _ _ _ _ _ _ _ _ _ _ _ ON (S j) num' IN' (proj1 M1 eq_refl))|exact (so_subs _ _ _ _ _ _ _ _ _ _ _ _ _ _ OD (S j) den' ID' (proj1 M2 eq_refl))].
        * right. exists (S j), (b + unk w), 0. eexists. split; [reflexivity|]. split; [apply Cont; right; discriminate|]. rewrite E. clear. lia.
      + right. exists (S j), (b + unk w), 0. eexists. split; [reflexivity|]. split; [apply Cont; left; discriminate|]. rewrite E. clear. lia.
    - right. exists j, b, (S k), w'. split; [reflexivity|]. split; [|clear; lia]. destruct W as [A1 A2 A3 A4 A5 A6 A7]. constructor; cbn [w' sw_num sw_den sw_order sw_rows sw_subs]; try assumption; try reflexivity. unfold unk in *. cbn [w' sw_num sw_den]. clear - A6 E. lia.
  Qed.
  Lemma drive_later : forall r j b k w, swinv j b k w -> length ts - (b + k) = r -> done (drive bb (skipn (b + k) ts) w).
  Proof.
    induction r as [|r IH]; intros j b k w W Er; destruct (swinv_bound _ _ _ _ W) as [Hj [Hb _]]; pose proof (sv_k _ _ _ _ W) as Hk; [clear - Er Hb Hk; lia|].
    assert (Hl : b + k < length ts) by (clear - Hb Hk; lia). rewrite (skipn_nth f0 ts (b + k) Hl). cbn [sing_drive]. rewrite (sv_order _ _ _ _ W). change (nth (b + k) ts f0) with (ti b k). change (bb (repeat (S j) (n - 1)) (ti b k)) with (vi j b k).
    destruct (feed_ok j b k w W) as [[nu [de [un [ud [E H]]]]]|[j' [b' [k' [w2 [E [W2 S]]]]]]]; rewrite E; cbn [obind].
    - exists nu, de, un, ud. split; [reflexivity|exact H].
    - rewrite <- S. apply (IH j' b' k' w2 W2). clear - S Er. lia.
  Qed.
  Theorem drive_ok : done (drive bb ts (mk_swork beginN beginD 1 ([], []) [])).
  Proof.
    pose proof (so_begin _ _ _ _ _ _ _ _ _ _ _ _ _ _ ON) as IN. pose proof (so_begin _ _ _ _ _ _ _ _ _ _ _ _ _ _ OD) as ID.
    apply (drive_later (length ts) 0 0 0); [|clear; lia]. constructor; cbn [sw_num sw_den sw_order sw_rows sw_subs]; try assumption; try reflexivity; [intros X; lia|].
    unfold unk. cbn [sw_num sw_den]. destruct (so_L _ _ _ _ _ _ _ _ _ _ _ _ _ _ ON) as [X _]. destruct (ss_ns beginN) eqn:E; [|cbn [length]; lia]. exfalso. apply (so_open _ _ _ _ _ _ _ _ _ _ _ _ _ _ ON 0 beginN IN X E).
  Qed.
End Rays.

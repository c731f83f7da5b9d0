(** Proofs for RatReconst in several variables, part 6: the equations of a ray and the choice of the next ray. *)
From Coq Require Import Permutation Sorted.
From Verif Require Import Machine FField FSum LinAlg LinSpec LinAlgProofs FPoly PolyFF PolySpec PolyFFProofs PolyFFProofs2 RatUni RatUniSpec RatUniRows BM Newton Combi CombiProofs PolyRec PolyRecSpec PolyRecRunSpec PolyRecMath PolyRecFile PolyRecStage RatMulti RatMultiSpec RatMultiMath RatMultiShift RatMultiSub RatMultiTraj RatMultiSide.
Open Scope nat_scope.

Section System.
  Context {K : fops} (HK : flaws K).
  Add Field KRY : (fl_field K HK).
  Variables (SN SD : list nat) (ti vi rhs a b : nat -> K) (rows : list (list K)).
  Local Notation ln := (length SN).
  Local Notation ld := (length SD).
  Definition sys_row (i : nat) : list K := map (fun d => fpow (ti i) (Z.of_nat d)) SN ++ map (fun d => fmul (fopp (vi i)) (fpow (ti i) (Z.of_nat d))) SD ++ [rhs i].
  Hypothesis NN : NoDup SN.
  Hypothesis ND : NoDup SD.
  Hypothesis small : forall e, In e SN \/ In e SD -> (Z.of_nat e < 2 ^ 31)%Z.
  Hypothesis Hr : forall i, i < ln + ld -> nth i rows [] = sys_row i.
  Hypothesis HD : determined SN SD ti vi (ln + ld).
  Hypothesis true_eq : forall i, i < ln + ld -> (lsum (fun e => a e * pw (ti i) e) SN - vi i * lsum (fun e => b e * pw (ti i) e) SD)%K = rhs i.
  Hypothesis pos : 0 < ln + ld.
  Local Notation mat := (fun r c => nth c (nth r rows []) f0).

  Lemma fpow_small (x : K) e : (Z.of_nat e < 2 ^ 31)%Z -> fpow x (Z.of_nat e) = pw x e.
  Proof. clear - HK. intros H. rewrite (fl_pow K HK) by (unfold two64; lia). rewrite Nat2Z.id. reflexivity. Qed.
  Lemma sys_n i k : k < ln -> nth k (sys_row i) f0 = pw (ti i) (nth k SN 0).
  Proof.
    intros Hk. unfold sys_row. rewrite app_nth1 by (rewrite map_length; exact Hk). rewrite (nth_indep _ f0 (fpow (ti i) (Z.of_nat 0))) by (rewrite map_length; exact Hk).
    rewrite (map_nth (fun d => fpow (ti i) (Z.of_nat d))). apply fpow_small. apply small. left. apply nth_In. exact Hk.
  Qed.
  Lemma sys_d i k : k < ld -> nth (ln + k) (sys_row i) f0 = (- vi i * pw (ti i) (nth k SD 0%nat))%K.
  Proof.
    intros Hk. unfold sys_row. rewrite app_nth2 by (rewrite map_length; lia). rewrite map_length. replace (ln + k - ln) with k by lia.
    rewrite app_nth1 by (rewrite map_length; exact Hk). rewrite (nth_indep _ f0 (fmul (fopp (vi i)) (fpow (ti i) (Z.of_nat 0)))) by (rewrite map_length; exact Hk).
    rewrite (map_nth (fun d => fmul (fopp (vi i)) (fpow (ti i) (Z.of_nat d)))). f_equal. apply fpow_small. apply small. right. apply nth_In. exact Hk.
  Qed.
  Lemma sys_rhs i : nth (ln + ld) (sys_row i) f0 = rhs i.
  Proof. unfold sys_row. rewrite app_nth2 by (rewrite map_length; lia). rewrite app_nth2 by (rewrite !map_length; lia). rewrite !map_length. replace (ln + ld - ln - ld) with 0 by lia. reflexivity. Qed.
  Lemma sys_sum i (a' b' x : nat -> K) : i < ln + ld -> (forall k, k < ln -> x k = a' (nth k SN 0)) -> (forall k, k < ld -> x (ln + k) = b' (nth k SD 0)) ->
    fsum (ln + ld) (fun k => mat i k * x k)%K = (lsum (fun e => a' e * pw (ti i) e) SN - vi i * lsum (fun e => b' e * pw (ti i) e) SD)%K.
  Proof.
    intros Hi Ha Hb. rewrite (fsum_split HK). rewrite (Hr i Hi). rewrite !(lsum_fsum HK 0).
    rewrite (fsum_ext ln _ (fun k => a' (nth k SN 0%nat) * pw (ti i) (nth k SN 0%nat))%K) by (intros k Hk; rewrite sys_n, Ha by exact Hk; ring).
    rewrite (fsum_ext ld _ (fun k => (- vi i) * (b' (nth k SD 0%nat) * pw (ti i) (nth k SD 0%nat)))%K) by (intros k Hk; rewrite sys_d, Hb by exact Hk; ring).
    rewrite (fsum_mul_l HK). ring.
  Qed.
  Lemma sys_nonsingular : nonsingular (ln + ld) mat.
  Proof.
    intros x Hx. set (a' := fun e => x (idx e SN)). set (b' := fun e => x (ln + idx e SD)).
    assert (Ha : forall k, k < ln -> x k = a' (nth k SN 0)) by (intros k Hk; unfold a'; rewrite idx_nth by assumption; reflexivity).
    assert (Hb : forall k, k < ld -> x (ln + k) = b' (nth k SD 0)) by (intros k Hk; unfold b'; rewrite idx_nth by assumption; reflexivity).
    destruct (HD a' b') as [Za Zb].
    - intros i Hi. specialize (Hx i Hi). rewrite (sys_sum i a' b' x Hi Ha Hb) in Hx. apply (fsub_0 HK) in Hx. exact Hx.
    - intros k Hk. destruct (Nat.lt_ge_cases k ln) as [L|L].
      + rewrite Ha by exact L. apply Za. apply nth_In. exact L.
      + replace k with (ln + (k - ln)) by lia. rewrite Hb by lia. apply Zb. apply nth_In. lia.
  Qed.
  Lemma sys_solve : exists x, solve_gauss_system (ln + ld) mat false = Ret x /\ (forall k, k < ln -> x k = a (nth k SN 0)) /\ (forall k, k < ld -> x (ln + k) = b (nth k SD 0)).
  Proof.
    destruct (solve_gauss_ok HK (ln + ld) mat false pos sys_nonsingular) as [x [Ex [_ Hu]]]. exists x. split; [exact Ex|].
    set (x' := fun k => if k <? ln then a (nth k SN 0) else b (nth (k - ln) SD 0)).
    assert (X1 : forall k, k < ln -> x' k = a (nth k SN 0)) by (intros k Hk; unfold x'; destruct (Nat.ltb_spec k ln); [reflexivity|lia]).
    assert (X2 : forall k, k < ld -> x' (ln + k) = b (nth k SD 0)) by (intros k Hk; unfold x'; destruct (Nat.ltb_spec (ln + k) ln); [lia|]; replace (ln + k - ln) with k by lia; reflexivity).
    assert (HS : solves (ln + ld) mat (fun r => mat r (ln + ld)) x').
    { intros i Hi. rewrite (sys_sum i a b x' Hi X1 X2), (true_eq i Hi). cbv beta. rewrite (Hr i Hi), sys_rhs. reflexivity. }
    split; intros k Hk; rewrite <- (Hu x' HS) by lia; [apply X1|apply X2]; exact Hk.
  Qed.
End System.

Section Ray.
  Context {K : fops} (HK : flaws K).
  Add Field KRZ : (fl_field K HK).
  Local Notation pv := (@poly_value K).
  Variable ord : forall A : Type, list A -> list A.
  Hypothesis Ho : forall A (l : list A), Permutation (ord A l) l.
  Variable c : mcfg.
  Local Notation n := (mc_n c).
  Variables (y s : nat -> K) (GN GD : nat) (N D Ns Ds : list (list Z * K)) (vn vd : nat -> K).
  Hypothesis SHN : side_hyp c y s true GN N Ns vn.
  Hypothesis SHD : side_hyp c y s false GD D Ds vd.
  Variables (point : nat -> K) (L T Gm : nat).
  Hypothesis HT : length N <= T /\ length Ns <= T /\ length D <= T /\ length Ds <= T.
  Hypothesis HGm : GN <= Gm /\ GD <= Gm.
  Hypothesis poles : forall o i, probe_order (n - 1) T Gm o -> i < L -> pv n D (ray_point y s o (point i)) <> f0.
  Hypothesis regular : forall o i SN SD, probe_order (n - 1) T Gm o -> NoDup SN -> NoDup SD ->
        (forall d, In d SN -> 0 < d /\ hom d Ns <> []) -> (forall d, In d SD -> 0 < d /\ hom d Ds <> []) -> i + (length SN + length SD) <= L ->
        determined SN SD (fun j => point (i + j)) (fun j => ray_value n N D y s o (point (i + j))) (length SN + length SD).
  Local Notation invN := (inv ord c y s true GN N Ns).
  Local Notation invD := (inv ord c y s false GD D Ds).
  Local Notation Hn := (RatMultiSub.Hs c Ns).
  Local Notation Hd := (RatMultiSub.Hs c Ds).
  Local Notation bb := (ray_value n N D y s).

  Lemma ray_value_sum (P : list (list Z * K)) o t : pv n P (fun i => t * ray_x y o i + s i)%K = pv n P (ray_point y s o t).
  Proof. apply pv_ext_x. intros i _. unfold ray_x, x1, ray_point. destruct i; [ring|reflexivity]. Qed.

  (** a pending polynomial waits for this ray *)
  Definition asks (l : list (nat * pst K)) (zi : nat) (o : list nat) : Prop := exists d st, In (d, st) l /\ zi = S (ps_zi st) /\ o = ps_order st.
  Definition good_ray (num den : side K) (zi : nat) (o : list nat) : Prop := asks (sd_coef num) zi o \/ asks (sd_coef den) zi o.
  Lemma asks_order num den bn bd zi o : invN (sd_coef num) num bn -> invD (sd_coef den) den bd -> good_ray num den zi o -> probe_order (n - 1) T Gm o /\ small_order o.
  Proof.
    intros IN ID [[d [st [I [-> ->]]]]|[d [st [I [-> ->]]]]].
    - destruct (request_ok HK ord Ho c y s true GN N Ns vn SHN _ _ _ _ _ IN I) as [z [i [k [Hz [_ [Eo [Hi [Hk [Hd [_ So]]]]]]]]]]. split; [|exact So]. exists z, (S i), (S k). split; [exact Hz|]. split; [lia|]. split; [lia|]. exact Eo.
    - destruct (request_ok HK ord Ho c y s false GD D Ds vd SHD _ _ _ _ _ ID I) as [z [i [k [Hz [_ [Eo [Hi [Hk [Hd [_ So]]]]]]]]]]. split; [|exact So]. exists z, (S i), (S k). split; [exact Hz|]. split; [lia|]. split; [lia|]. exact Eo.
  Qed.

  (** ---- select ---- *)
  Lemma order_grt_first z i k m : z = 0 -> 0 < m -> 0 < k -> order_grt (map (fun j => if j <? z then i else if j =? z then S k else 1) (seq 0 m)) (repeat 1 m) = true.
  Proof.
    intros -> Hm Hk. unfold order_grt. set (a := map Z.of_nat (map _ (seq 0 m))). set (b := map Z.of_nat (repeat 1 m)).
    assert (La : length a = m) by (unfold a; rewrite !map_length, seq_length; reflexivity). assert (Lb : length b = m) by (unfold b; rewrite map_length, repeat_length; reflexivity).
    destruct (a_grt_b_spec a b ltac:(congruence)) as [r [Er Hr]]. rewrite Er. apply Hr.
    assert (Na : forall j, j < m -> nth j a 0%Z = if j =? 0 then Z.of_nat (S k) else 1%Z).
    { intros j Hj. unfold a. rewrite map_map. rewrite (nth_map_seq (fun x => Z.of_nat (if x <? 0 then i else if x =? 0 then S k else 1))) by exact Hj. destruct j; reflexivity. }
    assert (Nb : forall j, j < m -> nth j b 0%Z = 1%Z).
    { intros j Hj. unfold b. rewrite (nth_indep _ 0%Z (Z.of_nat 1)) by (rewrite map_length, repeat_length; exact Hj). rewrite map_nth. rewrite nth_repeat. reflexivity. }
    exists 0. split; [lia|]. rewrite Na, Nb by exact Hm. split; [cbn; lia|]. intros j Hj. rewrite Na, Nb by lia. destruct j; [lia|reflexivity].
  Qed.
  Lemma select_ok (l : list (nat * pst K)) : l <> [] ->
    (forall d st, In (d, st) l -> exists z i k, z < n - 1 /\ S (ps_zi st) = S (S z) /\ ps_order st = map (fun j => if j <? z then S i else if j =? z then S k else 1) (seq 0 (n - 1))) ->
    asks l (fst (select c l)) (snd (select c l)).
  Proof.
    intros Ne Hl. unfold select. set (f := fun (acc : nat * list nat) (e : nat * pst K) => let tzi := S (ps_zi (snd e)) in
      if fst acc <? tzi then (tzi, ps_order (snd e)) else if (fst acc =? tzi) && order_grt (ps_order (snd e)) (snd acc) then (fst acc, ps_order (snd e)) else acc).
    assert (Step : forall acc e, f acc e = acc \/ f acc e = (S (ps_zi (snd e)), ps_order (snd e))).
    { intros acc e. unfold f. cbv zeta. destruct (fst acc <? S (ps_zi (snd e))); [right; reflexivity|]. destruct (Nat.eqb_spec (fst acc) (S (ps_zi (snd e)))) as [->|]; [|left; reflexivity]. cbn [andb]. destruct (order_grt _ _); [right|left]; reflexivity. }
    assert (Fold : forall l' acc, fold_left f l' acc = acc \/ asks l' (fst (fold_left f l' acc)) (snd (fold_left f l' acc))).
    { induction l' as [|[d st] l' IH]; intros acc; [left; reflexivity|]. cbn [fold_left]. destruct (IH (f acc (d, st))) as [E|[d' [st' [I E]]]].
      - rewrite E. destruct (Step acc (d, st)) as [E'|E']; [left; exact E'|right]. rewrite E'. exists d, st. split; [left; reflexivity|]. split; reflexivity.
      - right. exists d', st'. split; [right; exact I|exact E]. }
    destruct l as [|[d st] l]; [contradiction|]. cbn [fold_left].
    assert (F1 : asks ((d, st) :: l) (fst (f (2, repeat 1 (n - 1)) (d, st))) (snd (f (2, repeat 1 (n - 1)) (d, st)))).
    { destruct (Hl d st (or_introl eq_refl)) as [z [i [k [Hz [Ez Eo]]]]]. exists d, st. split; [left; reflexivity|]. unfold f. cbv zeta. cbn [fst snd]. rewrite Ez. destruct (Nat.ltb_spec 2 (S (S z))) as [Lz|Lz]; [split; reflexivity|].
      assert (z = 0) by lia. subst z. cbn [Nat.eqb andb]. destruct (order_grt _ _) eqn:Eg; [split; reflexivity|]. cbn [fst snd]. split; [reflexivity|].
      destruct k as [|k]; [|exfalso; rewrite Eo, (order_grt_first 0 (S i) (S k) (n - 1) eq_refl ltac:(lia) ltac:(lia)) in Eg; discriminate Eg].
      rewrite Eo. pose proof (start_order (poly_cfg c true 0) (S i)) as X. exact X. }
    destruct (Fold l (f (2, repeat 1 (n - 1)) (d, st))) as [E|[d' [st' [I E]]]]; [rewrite E; exact F1|]. exists d', st'. split; [right; exact I|exact E].
  Qed.

  (** ---- the equations ---- *)
  Lemma fold_sub_lsum {A} (g : A -> K) l : forall r, fold_left (fun r e => fsub r (g e)) l r = (r - lsum g l)%K.
  Proof. clear - HK. induction l as [|e l IH]; intros r; [cbn; ring|]. cbn [fold_left]. rewrite IH, lsum_cons. ring. Qed.
  Lemma fold_add_lsum {A} (g : A -> K) l : forall r, fold_left (fun r e => fadd r (g e)) l r = (r + lsum g l)%K.
  Proof. clear - HK. induction l as [|e l IH]; intros r; [cbn; ring|]. cbn [fold_left]. rewrite IH, lsum_cons. ring. Qed.
  Lemma known_sum (F : nat -> K) (l : list (nat * K)) keys t : Permutation (map fst l) keys -> (forall d w, In (d, w) l -> w = F d) -> (forall d, In d keys -> (Z.of_nat d < 2 ^ 31)%Z) ->
    lsum (fun e => snd e * fpow t (Z.of_nat (fst e)))%K (ord _ l) = lsum (fun e => F e * pw t e)%K keys.
  Proof.
    clear - HK Ho. intros Pm Hv Sm. rewrite (lsum_perm HK _ _ _ (Ho _ l)). rewrite <- (lsum_perm HK _ _ _ Pm), lsum_map. apply lsum_ext. intros [d w] I. cbn [fst snd]. rewrite (Hv d w I), (fpow_small HK); [reflexivity|].
    apply Sm. apply (Permutation_in _ Pm). apply in_map_iff. exists (d, w). split; [reflexivity|exact I].
  Qed.
  Definition subs_of (o : list nat) (num den : side K) : list (nat * K) * list (nat * K) := (known_values ord y o num, known_values ord y o den).
  Definition res_of (o : list nat) (num den : side K) (t v : K) : K :=
    (v * lsum (fun e => Hd e (ray_x y o) * pw t e) (map fst (sd_solved den)) - lsum (fun e => Hn e (ray_x y o) * pw t e) (map fst (sd_solved num)))%K.
  Lemma small_keys num den bn bd : invN (sd_coef num) num bn -> invD (sd_coef den) den bd ->
    (forall e, In e (map fst (sd_coef num)) \/ In e (map fst (sd_coef den)) -> (Z.of_nat e < 2 ^ 31)%Z) /\ (forall e, In e (map fst (sd_solved num)) -> (Z.of_nat e < 2 ^ 31)%Z) /\ (forall e, In e (map fst (sd_solved den)) -> (Z.of_nat e < 2 ^ 31)%Z).
  Proof.
    intros [CN _] [CD _]. pose proof (sh_G _ _ _ _ _ _ _ _ SHN). pose proof (sh_G _ _ _ _ _ _ _ _ SHD). split; [|split].
    - intros e [I|I]; [destruct (co_pend _ _ _ _ _ _ _ _ _ _ CN e I) as [_ [X _]]; lia|destruct (co_pend _ _ _ _ _ _ _ _ _ _ CD e I) as [_ [X _]]; lia].
    - intros e I. apply (co_iff _ _ _ _ _ _ _ _ _ _ CN e) in I as [[X _] _]. lia.
    - intros e I. apply (co_iff _ _ _ _ _ _ _ _ _ _ CD e) in I as [[X _] _]. lia.
  Qed.
  Lemma build_row_ok o num den bn bd t v : small_order o -> invN (sd_coef num) num bn -> invD (sd_coef den) den bd ->
    build_row ord num den (subs_of o num den) t v = sys_row (map fst (sd_coef num)) (map fst (sd_coef den)) (fun _ => t) (fun _ => v) (fun _ => res_of o num den t v) 0.
  Proof.
    intros So IN ID. destruct (small_keys num den bn bd IN ID) as [_ [SmN SmD]]. unfold build_row, sys_row. rewrite !map_map. f_equal. f_equal. f_equal.
    destruct (known_ok HK ord Ho c y s true GN N Ns vn SHN o _ num bn So IN) as [PN VN]. destruct (known_ok HK ord Ho c y s false GD D Ds vd SHD o _ den bd So ID) as [PD VD].
    unfold subs_of. cbn [fst snd]. rewrite (fold_sub_lsum (fun e : nat * K => snd e * fpow t (Z.of_nat (fst e)))%K), (fold_add_lsum (fun e : nat * K => snd e * fpow t (Z.of_nat (fst e)) * v)%K), (lsum_mul_r HK).
    rewrite (known_sum (fun e => Hn e (ray_x y o)) _ _ t PN VN SmN), (known_sum (fun e => Hd e (ray_x y o)) _ _ t PD VD SmD). unfold res_of. ring.
  Qed.
  Lemma num_eqn_ok num den bn bd : invN (sd_coef num) num bn -> invD (sd_coef den) den bd -> num_eqn num den = length (map fst (sd_coef num)) + length (map fst (sd_coef den)).
  Proof. intros [_ [_ [_ [_ [CN MN]]]]] [_ [_ [_ [_ [CD MD]]]]]. unfold num_eqn. rewrite !map_length. lia. Qed.
  Lemma combine_nth_keys {A} (l : list (nat * A)) (x : nat -> K) m F : (forall k, k < length l -> x (m + k) = F (nth k (map fst l) 0)) ->
    map fst (map (fun e : nat * A * nat => (fst (fst e), x (snd e))) (combine l (seq m (length l)))) = map fst l /\
    forall d w, In (d, w) (map (fun e : nat * A * nat => (fst (fst e), x (snd e))) (combine l (seq m (length l)))) -> w = F d.
  Proof.
    clear. revert m. induction l as [|[d a] l IH]; intros m H; [split; [reflexivity|intros d w []]|]. cbn [length seq combine map fst snd]. destruct (IH (S m)) as [E V].
    - intros k Hk. replace (S m + k) with (m + S k) by lia. apply (H (S k)). cbn. lia.
    - split; [cbn [map fst]; f_equal; exact E|]. intros d' w [X|X]; [|apply V; exact X]. injection X as <- <-. rewrite <- (Nat.add_0_r m). apply (H 0). cbn. lia.
  Qed.
  Lemma solve_rows_ok o zi m0 num den bn bd rows : invN (sd_coef num) num bn -> invD (sd_coef den) den bd -> good_ray num den zi o ->
    m0 + num_eqn num den <= L ->
    (forall i, i < num_eqn num den -> nth i rows [] = build_row ord num den (subs_of o num den) (point (m0 + i)) (bb o (point (m0 + i)))) ->
    exists ln ld, solve_rows num den rows = Ret (ln, ld) /\ map fst ln = map fst (sd_coef num) /\ map fst ld = map fst (sd_coef den) /\
      (forall d w, In (d, w) ln -> w = Hn d (ray_x y o)) /\ (forall d w, In (d, w) ld -> w = Hd d (ray_x y o)).
  Proof.
    intros IN ID GR LL Hr. destruct (asks_order _ _ _ _ _ _ IN ID GR) as [PO So]. pose proof (num_eqn_ok _ _ _ _ IN ID) as EE. rewrite EE in *.
    destruct (small_keys num den bn bd IN ID) as [SmP [SmN SmD]].
    assert (NN : NoDup (map fst (sd_coef num))) by (apply sorted_nodup; apply IN). assert (NdD : NoDup (map fst (sd_coef den))) by (apply sorted_nodup; apply ID).
    assert (PosE : 0 < length (map fst (sd_coef num)) + length (map fst (sd_coef den))). { rewrite !map_length. destruct GR as [[d [st [I _]]]|[d [st [I _]]]]; [destruct (sd_coef num); [contradiction|cbn; lia]|destruct (sd_coef den); [contradiction|cbn; lia]]. }
    destruct (sys_solve HK (map fst (sd_coef num)) (map fst (sd_coef den)) (fun j => point (m0 + j)) (fun j => bb o (point (m0 + j)))
      (fun j => res_of o num den (point (m0 + j)) (bb o (point (m0 + j)))) (fun e => Hn e (ray_x y o)) (fun e => Hd e (ray_x y o)) rows) as [x [Ex [XN XD]]]; try assumption.
    - intros i Hi. rewrite (Hr i Hi). apply (build_row_ok o num den bn bd _ _ So IN ID).
    - apply regular; try assumption.
      + intros d I. destruct IN as [CN _]. destruct (co_pend _ _ _ _ _ _ _ _ _ _ CN d I) as [X [_ Y]]. split; assumption.
      + intros d I. destruct ID as [CD _]. destruct (co_pend _ _ _ _ _ _ _ _ _ _ CD d I) as [X [_ Y]]. split; assumption.
    - intros i Hi. set (t := point (m0 + i)). pose proof (side_sum HK ord c y s true GN N Ns vn SHN _ num bn (ray_x y o) t IN) as EN. pose proof (side_sum HK ord c y s false GD D Ds vd SHD _ den bd (ray_x y o) t ID) as ED.
      rewrite ray_value_sum in EN, ED. assert (Dn : pv n D (ray_point y s o t) <> f0) by (apply poles; [exact PO|lia]).
      unfold res_of. assert (EV : (bb o t * pv n D (ray_point y s o t))%K = pv n N (ray_point y s o t)) by (unfold ray_value; field; exact Dn).
      rewrite <- EN, <- ED in EV. apply (fsub_0 HK). set (w := bb o t) in *.
      match type of EV with (?w * (?a + ?b))%K = (?c0 + ?d0)%K => transitivity ((c0 + d0) - w * (a + b))%K; [ring|rewrite EV; ring] end.
    - destruct (combine_nth_keys (sd_coef num) x 0 (fun e => Hn e (ray_x y o))) as [KN VN]; [intros k Hk; apply XN; rewrite map_length; exact Hk|].
      destruct (combine_nth_keys (sd_coef den) x (length (sd_coef num)) (fun e => Hd e (ray_x y o))) as [KD VD]; [intros k Hk; rewrite <- (map_length fst (sd_coef num)); apply XD; rewrite map_length; exact Hk|].
      eexists. eexists. split; [unfold solve_rows; rewrite EE, Ex; cbn [obind]; reflexivity|]. split; [exact KN|]. split; [exact KD|]. split; [exact VN|exact VD].
  Qed.

  (** ---- the end of a ray ---- *)
  Definition done_ok (num den : side K) : Prop := (exists b, invN [] num b) /\ (exists b, invD [] den b).
  Lemma asks_shape num den bn bd : invN (sd_coef num) num bn -> invD (sd_coef den) den bd -> forall d st, In (d, st) (sd_coef num ++ sd_coef den) ->
    exists z i k, z < n - 1 /\ S (ps_zi st) = S (S z) /\ ps_order st = map (fun j => if j <? z then S i else if j =? z then S k else 1) (seq 0 (n - 1)).
  Proof.
    intros IN ID d st I. apply in_app_or in I as [I|I].
    - destruct (request_ok HK ord Ho c y s true GN N Ns vn SHN _ _ _ _ _ IN I) as [z [i [k [Hz [Ez [Eo _]]]]]]. exists z, i, k. auto.
    - destruct (request_ok HK ord Ho c y s false GD D Ds vd SHD _ _ _ _ _ ID I) as [z [i [k [Hz [Ez [Eo _]]]]]]. exists z, i, k. auto.
  Qed.
  Lemma finish_ok o zi ln ld num den bn bd : invN (sd_coef num) num bn -> invD (sd_coef den) den bd -> sd_restart num = false -> sd_restart den = false ->
    map fst ln = map fst (sd_coef num) -> map fst ld = map fst (sd_coef den) -> (forall d w, In (d, w) ln -> w = Hn d (ray_x y o)) -> (forall d w, In (d, w) ld -> w = Hd d (ray_x y o)) ->
    exists num1 den1 bn1 bd1, invN (sd_coef num1) num1 bn1 /\ invD (sd_coef den1) den1 bd1 /\ sd_restart num1 = false /\ sd_restart den1 = false /\
      bn1 + bd1 <= bn + bd /\ (good_ray num den zi o -> bn1 + bd1 < bn + bd) /\
      ((sd_coef num1 = [] /\ sd_coef den1 = [] /\ finish_ray ord c y s o zi ln ld num den = do r <- combine_results ord c s num1 den1; Ret (MResult r)) \/
       (exists zi' o', good_ray num1 den1 zi' o' /\ finish_ray ord c y s o zi ln ld num den = Ret (MMore (MRay num1 den1 (mk_ray zi' o' ([], []) []))))).
  Proof.
    intros IN ID RN RD KN KD VN VD. unfold finish_ray.
    pose proof (save_ok HK ord Ho c y s true GN N Ns vn SHN o zi ln _ num bn VN IN) as IN0. pose proof (save_ok HK ord Ho c y s false GD D Ds vd SHD o zi ld _ den bd VD ID) as ID0.
    set (num0 := save_values ord o zi ln num) in *. set (den0 := save_values ord o zi ld den) in *.
    assert (RN0 : sd_restart num0 = false) by exact RN. assert (RD0 : sd_restart den0 = false) by exact RD.
    destruct (feed_side_ok HK ord Ho c y s true GN N Ns vn SHN o (sd_coef num0) [] num0 bn) as [num1 [bn1 [EN [IN1 [_ [RN1 [LN StN]]]]]]]; [rewrite RN0; exact IN0|].
    destruct (feed_side_ok HK ord Ho c y s false GD D Ds vd SHD o (sd_coef den0) [] den0 bd) as [den1 [bd1 [ED [ID1 [_ [RD1 [LD StD]]]]]]]; [rewrite RD0; exact ID0|].
    exists num1, den1, bn1, bd1. split; [exact IN1|]. split; [exact ID1|]. split; [exact RN1|]. split; [exact RD1|]. split; [lia|]. split.
    - intros [[d [st [I [Ez Eo]]]]|[d [st [I [Ez Eo]]]]].
      + assert (bn1 < bn); [|lia]. apply StN; [exact RN0|]. exists d, st. split; [exact I|]. split; [symmetry; exact Eo|]. rewrite <- Ez.
        destruct (request_ok HK ord Ho c y s true GN N Ns vn SHN _ _ _ _ _ IN I) as [z [i [k [Hz [Ez' [_ [_ [_ [_ [Gt _]]]]]]]]]].
        assert (J : exists w, In (d, w) ln). { assert (In d (map fst ln)) by (rewrite KN; apply in_map_iff; exists (d, st); split; [reflexivity|exact I]). apply in_map_iff in H as [[d' w] [<- J]]. exists w. exact J. }
        destruct J as [w J]. apply (save_found ord Ho o zi ln d w num J). rewrite Ez, Ez', Eo. replace (S (S z) - 2) with z by lia. exact Gt.
      + assert (bd1 < bd); [|lia]. apply StD; [exact RD0|]. exists d, st. split; [exact I|]. split; [symmetry; exact Eo|]. rewrite <- Ez.
        destruct (request_ok HK ord Ho c y s false GD D Ds vd SHD _ _ _ _ _ ID I) as [z [i [k [Hz [Ez' [_ [_ [_ [_ [Gt _]]]]]]]]]].
        assert (J : exists w, In (d, w) ld). { assert (In d (map fst ld)) by (rewrite KD; apply in_map_iff; exists (d, st); split; [reflexivity|exact I]). apply in_map_iff in H as [[d' w] [<- J]]. exists w. exact J. }
        destruct J as [w J]. apply (save_found ord Ho o zi ld d w den J). rewrite Ez, Ez', Eo. replace (S (S z) - 2) with z by lia. exact Gt.
    - rewrite EN. cbn [obind]. rewrite ED. cbn [obind].
      assert (CaseM : sd_coef num1 ++ sd_coef den1 <> [] -> exists zi' o', good_ray num1 den1 zi' o' /\ (let sel := select c (sd_coef num1 ++ sd_coef den1) in Ret (MMore (MRay num1 den1 (mk_ray (fst sel) (snd sel) ([], []) [])))) = Ret (MMore (MRay num1 den1 (mk_ray zi' o' ([], []) [])))).
      { intros Ne. destruct (select_ok (sd_coef num1 ++ sd_coef den1) Ne (asks_shape num1 den1 bn1 bd1 IN1 ID1)) as [d [st [I E]]]. exists (fst (select c (sd_coef num1 ++ sd_coef den1))), (snd (select c (sd_coef num1 ++ sd_coef den1))).
        split; [|reflexivity]. apply in_app_or in I as [I|I]; [left|right]; exists d, st; auto. }
      destruct (sd_coef num1) as [|e1 l1] eqn:E1; [destruct (sd_coef den1) as [|e2 l2] eqn:E2|].
      + left. split; [reflexivity|]. split; reflexivity.
      + right. destruct (CaseM ltac:(discriminate)) as [zi' [o' [GR' E']]]. exists zi', o'. split; [exact GR'|exact E'].
      + right. destruct (CaseM ltac:(discriminate)) as [zi' [o' [GR' E']]]. exists zi', o'. split; [exact GR'|]. destruct (sd_coef den1); exact E'.
  Qed.

  (** ---- one probe ---- *)
  (** m probes have been fed, the current ray has k equations, at most M further rays are necessary *)
  Definition ray_state (m k M : nat) (st : mst K) : Prop :=
    exists num den r bn bd, st = MRay num den r /\ invN (sd_coef num) num bn /\ invD (sd_coef den) den bd /\ sd_restart num = false /\ sd_restart den = false /\
      good_ray num den (ra_zi r) (ra_order r) /\ M = bn + bd /\ k <= m /\ k < num_eqn num den /\ length (ra_rows r) = k /\
      (0 < k -> ra_subs r = subs_of (ra_order r) num den) /\
      forall i, i < k -> nth i (ra_rows r) [] = build_row ord num den (subs_of (ra_order r) num den) (point (m - k + i)) (bb (ra_order r) (point (m - k + i))).
  Lemma finish_state o zi ln ld num den bn bd m : invN (sd_coef num) num bn -> invD (sd_coef den) den bd -> sd_restart num = false -> sd_restart den = false ->
    map fst ln = map fst (sd_coef num) -> map fst ld = map fst (sd_coef den) -> (forall d w, In (d, w) ln -> w = Hn d (ray_x y o)) -> (forall d w, In (d, w) ld -> w = Hd d (ray_x y o)) ->
    (exists num1 den1, done_ok num1 den1 /\ finish_ray ord c y s o zi ln ld num den = do r <- combine_results ord c s num1 den1; Ret (MResult r)) \/
    (exists st' M', finish_ray ord c y s o zi ln ld num den = Ret (MMore st') /\ ray_state m 0 M' st' /\ M' <= bn + bd /\ (good_ray num den zi o -> M' < bn + bd)).
  Proof.
    intros IN ID RN RD KN KD VN VD. destruct (finish_ok o zi ln ld num den bn bd IN ID RN RD KN KD VN VD) as [num1 [den1 [bn1 [bd1 [IN1 [ID1 [RN1 [RD1 [Le [Lt [[E1 [E2 E]]|[zi' [o' [GR E]]]]]]]]]]]]]].
    - left. exists num1, den1. split; [|exact E]. rewrite E1 in IN1. rewrite E2 in ID1. split; eexists; eassumption.
    - right. exists (MRay num1 den1 (mk_ray zi' o' ([], []) [])), (bn1 + bd1). split; [exact E|]. split; [|split; [|exact Lt]].
      + exists num1, den1, (mk_ray zi' o' ([], []) []), bn1, bd1. cbn [ra_zi ra_order ra_rows ra_subs]. split; [reflexivity|]. split; [exact IN1|]. split; [exact ID1|]. split; [exact RN1|]. split; [exact RD1|]. split; [exact GR|]. split; [reflexivity|]. split; [lia|].
        split; [|split; [reflexivity|split; [lia|intros i Hi; lia]]]. rewrite (num_eqn_ok _ _ _ _ IN1 ID1), !map_length. destruct GR as [[d [st [I _]]]|[d [st [I _]]]]; [destruct (sd_coef num1); [contradiction|cbn; lia]|destruct (sd_coef den1); [contradiction|cbn; lia]].
      + exact Le.
  Qed.
  Lemma ray_step m k M st : ray_state m k M st -> m < L ->
    exists out, minterpolate ord c y s st (point m) (bb (requested c st) (point m)) = out /\
      ((exists num1 den1, done_ok num1 den1 /\ out = do r <- combine_results ord c s num1 den1; Ret (MResult r)) \/
       (exists st' k' M', out = Ret (MMore st') /\ ray_state (S m) k' M' st' /\ (M' < M /\ k' = 0 \/ M' = M /\ k' = S k))).
  Proof.
    intros [num [den [r [bn [bd [-> [IN [ID [RN [RD [GR [-> [Km [Kl [Lr [Hs Hr]]]]]]]]]]]]]]]] Lm. eexists. split; [reflexivity|]. cbn [requested minterpolate].
    set (o := ra_order r) in *. assert (Esub : (match ra_rows r with [] => (known_values ord y o num, known_values ord y o den) | _ => ra_subs r end) = subs_of o num den).
    { destruct (ra_rows r); [reflexivity|]. apply Hs. rewrite <- Lr. cbn. lia. }
    rewrite Esub. set (rows := ra_rows r ++ _). assert (Lrows : length rows = S k) by (unfold rows; rewrite app_length, Lr; cbn; lia).
    assert (Hr' : forall i, i < S k -> nth i rows [] = build_row ord num den (subs_of o num den) (point (m - k + i)) (bb o (point (m - k + i)))).
    { intros i Hi. unfold rows. destruct (Nat.lt_ge_cases i k) as [Li|Li]; [rewrite app_nth1 by lia; apply Hr; exact Li|]. rewrite app_nth2 by lia. rewrite Lr. replace (i - k) with 0 by lia. replace (m - k + i) with m by lia. reflexivity. }
    rewrite Lrows. destruct (Nat.eqb_spec (num_eqn num den) (S k)) as [Ee|Ne].
    - destruct (solve_rows_ok o (ra_zi r) (m - k) num den bn bd rows IN ID GR) as [ln [ld [E [KN [KD [VN VD]]]]]]; [lia|rewrite Ee; exact Hr'|]. rewrite E. cbn [obind fst snd].
      destruct (finish_state o (ra_zi r) ln ld num den bn bd (S m) IN ID RN RD KN KD VN VD) as [H|[st' [M' [E' [RS [_ Lt]]]]]]; [left; exact H|right]. exists st', 0, M'. split; [exact E'|]. split; [exact RS|]. left. split; [apply Lt; exact GR|reflexivity].
    - right. eexists. exists (S k), (bn + bd). split; [reflexivity|]. split; [|right; auto]. exists num, den, (mk_ray (ra_zi r) o (subs_of o num den) rows), bn, bd. cbn [ra_zi ra_order ra_rows ra_subs]. split; [reflexivity|]. split; [exact IN|]. split; [exact ID|]. split; [exact RN|]. split; [exact RD|]. split; [exact GR|]. split; [reflexivity|].
      split; [lia|]. split; [lia|]. split; [exact Lrows|]. split; [reflexivity|]. replace (S m - S k) with (m - k) by lia. exact Hr'.
  Qed.
  Lemma ray_measure m k M st : ray_state m k M st -> k < GN + GD /\ 0 < M.
  Proof.
    intros [num [den [r [bn [bd [-> [IN [ID [RN [RD [GR [-> [Km [Kl [Lr [Hs Hr]]]]]]]]]]]]]]]]. split.
    - rewrite (num_eqn_ok _ _ _ _ IN ID), !map_length in Kl.
      assert (Sub : forall l G, NoDup l -> (forall d, In d l -> 0 < d <= G) -> length l <= G). { clear. intros l G ND H. rewrite <- (seq_length G 1). apply NoDup_incl_length; [exact ND|]. intros d I. apply in_seq. specialize (H d I). lia. }
      pose proof (Sub (map fst (sd_coef num)) GN (sorted_nodup _ (co_sorted _ _ _ _ _ _ _ _ _ _ (proj1 IN)))) as A. pose proof (Sub (map fst (sd_coef den)) GD (sorted_nodup _ (co_sorted _ _ _ _ _ _ _ _ _ _ (proj1 ID)))) as B.
      rewrite map_length in A, B. assert (length (sd_coef num) <= GN) by (apply A; intros d I; destruct (co_pend _ _ _ _ _ _ _ _ _ _ (proj1 IN) d I) as [X [Y _]]; lia).
      assert (length (sd_coef den) <= GD) by (apply B; intros d I; destruct (co_pend _ _ _ _ _ _ _ _ _ _ (proj1 ID) d I) as [X [Y _]]; lia). lia.
    - destruct GR as [[d [st [I _]]]|[d [st [I _]]]].
      + destruct IN as [C [_ [B _]]]. destruct (co_pend _ _ _ _ _ _ _ _ _ _ C d (in_map fst _ _ I)) as [X Y]. apply in_split in I as [l1 [l2 E]]. rewrite E in B. destruct (budget_at _ _ _ _ _ _ _ _ _ _ _ _ B) as [j [b1 [b2 [TT [_ [_ Eb]]]]]].
        pose proof (cost_pos HK ord Ho c y s true GN N Ns vn SHN d _ j st Y X TT). lia.
      + destruct ID as [C [_ [B _]]]. destruct (co_pend _ _ _ _ _ _ _ _ _ _ C d (in_map fst _ _ I)) as [X Y]. apply in_split in I as [l1 [l2 E]]. rewrite E in B. destruct (budget_at _ _ _ _ _ _ _ _ _ _ _ _ B) as [j [b1 [b2 [TT [_ [_ Eb]]]]]].
        pose proof (cost_pos HK ord Ho c y s false GD D Ds vd SHD d _ j st Y X TT). lia.
  Qed.
End Ray.

(** Proofs for the shifted systems of RatReconst over a further prime, part 3: the stages of one side and its sum. *)
From Coq Require Import Permutation.
From Verif Require Import Machine FField FSum LinAlg FPoly PolyFF PolySpec PolyFFProofs PolyFFProofs2 PolyFFProofs3 Vandermonde ThieleProofs RatUni Newton PolyRec PolyRecSpec PolyRecMath RatMulti RatMultiSpec RatMultiMath RatMultiShift RatMultiSub RatMultiClean RatMultiSide RatMultiQ RatMultiQCoef RatMultiQSide RatSing RatSingSub RatSingSide Props_PolyFF.
Open Scope nat_scope.

Lemma nfind_nodup {A} (m : list (nat * A)) k a : NoDup (map fst m) -> In (k, a) m -> nfind m k = Some a.
Proof.
  induction m as [|[k' b] m IH]; intros N I; [contradiction|]. cbn [map fst nfind] in *. inversion N as [|? ? N1 N2]; subst. destruct I as [E|I].
  - injection E as -> ->. rewrite Nat.eqb_refl. reflexivity.
  - destruct (Nat.eqb_spec k k') as [->|Ne]; [exfalso; apply N1; apply in_map_iff; exists (k', a); auto|]. apply IH; assumption.
Qed.
Section Sum.
  Context {K : fops} (HK : flaws K).
  Add Field KSM : (fl_field K HK).
  Local Notation pv := (@poly_value K).
  Variable ord : forall A : Type, list A -> list A.
  Hypothesis Ho : forall A (l : list A), Permutation (ord A l) l.
  Variable c : mcfg.
  Local Notation n := (mc_n c).
  Variables y s : nat -> K.
  Variables (G : nat) (P Ps : list (list Z * K)) (v : nat -> K).
  Hypothesis Hn : 2 <= n.
  Hypothesis HP : wf n G P.
  Hypothesis HPs : wf n G Ps.
  Hypothesis NP : NoDup (map fst P).
  Hypothesis NPs : NoDup (map fst Ps).
  Hypothesis HV : forall x, pv n Ps x = pv n P (fun i => x i + s i)%K.
  Hypothesis Hv : distinct (S G) v.
  Hypothesis Hchar : characteristic_above K G.
  Hypothesis HG : (Z.of_nat G < 2 ^ 31)%Z.
  Hypothesis anchors : forall i, i < n - 1 -> y i <> f0.
  Variables (g : scfg) (ns0 : list (nat * list mon)).
  Hypothesis PL : plan n G P Ps y g ns0.
  Local Notation Hp' := (Hp c P).
  Local Notation Hs' := (Hs c Ps).
  Local Notation lmax' := (lmax g ns0).
  Hypothesis Hmax : (Z.of_nat lmax' < 2 ^ 31)%Z.
  Local Notation rv' := (rv c y Ps).
  Local Notation stateA' := (stateA c y G Ps g ns0).
  Local Notation invB' := (invB ord c y s G P Ps g ns0).
  Local Notation above' := (above ord c s G P).

  Definition sstate (r : nat) (st : sside K) : Prop := if r <? lmax' then stateA' r st else invB' 0 true st.
  Definition sing_begin : sside K := mk_sside ns0 (map (fun e => (fst e, [])) ns0) [] (sub0 c G) 0.
  Lemma lmax_pos : 0 < lmax'.
  Proof.
    pose proof (pl_max _ _ _ _ _ _ _ PL) as I. apply nfind_in_iff in I as [l E]. destruct (pl_len _ _ _ _ _ _ _ PL _ l E) as [Ne _]. unfold lmax, nget. rewrite E. destruct l; [contradiction|cbn; lia].
  Qed.
  Lemma begin_ok : sstate 0 sing_begin.
  Proof.
    unfold sstate. pose proof lmax_pos as L. destruct (Nat.ltb_spec 0 lmax'); [|lia]. unfold stateA.
    assert (D0 : forall d, dnr g ns0 0 d = false).
    { intros d. unfold dnr. destruct (nmem d (map fst ns0)) eqn:M; [|rewrite Bool.andb_false_r; reflexivity]. apply nmem_In in M. apply nfind_in_iff in M as [l E]. destruct (pl_len _ _ _ _ _ _ _ PL _ l E) as [Ne _].
      destruct (Nat.leb_spec (len ns0 d) 0) as [X|X]; [|apply Bool.andb_false_r]. exfalso. unfold len, nget in X. rewrite E in X. destruct l; [contradiction|cbn in X; lia]. }
    constructor; cbn [sing_begin ss_ns ss_mat ss_solved ss_sub ss_count].
    - intros d. rewrite D0. reflexivity.
    - intros d. rewrite D0. clear. induction ns0 as [|[k l] r IH]; [reflexivity|]. cbn [map fst nfind]. destruct (d =? k); [reflexivity|exact IH].
    - intros d. cbn. apply D0.
    - intros d Hd. rewrite D0 in Hd. discriminate.
    - reflexivity.
    - lia.
    - apply (pl_nd _ _ _ _ _ _ _ PL).
    - constructor.
  Qed.
  Lemma sray r st l : sstate r st -> Permutation (map fst l) (map fst (ss_ns st)) -> (forall d w, In (d, w) l -> w = rv' d (S r)) ->
    exists st', sing_file ord c y s g l st = Ret st' /\ sstate (S r) st'.
  Proof.
    unfold sstate. intros I Pm H. destruct (Nat.ltb_spec r lmax') as [L|L].
    - destruct (Nat.ltb_spec (S r) lmax') as [L'|L'].
      + apply (rayA HK ord Ho c y s G P Ps Hn NPs anchors g ns0 PL r st l I L' Pm H).
      + apply (rayB HK ord Ho c y s G P Ps v Hn HP HPs NP HV Hv Hchar HG anchors g ns0 PL Hmax r st l I ltac:(lia) Pm H).
    - destruct (Nat.ltb_spec (S r) lmax') as [L'|L']; [lia|]. destruct (invB_done _ _ _ _ _ _ _ _ _ _ I) as [N _]. rewrite N in Pm. cbn in Pm. apply Permutation_sym, Permutation_nil in Pm. destruct l; [|discriminate].
      exists st. split; [apply rayC; exact Ho|exact I].
  Qed.
  Lemma sstate_nil r st : sstate r st -> (ss_mat st = [] <-> lmax' <= r) /\ (lmax' <= r -> ss_ns st = []) /\ length (ss_ns st) + ss_count st = length ns0.
  Proof.
    unfold sstate. intros I. destruct (Nat.ltb_spec r lmax') as [L|L].
    - split; [|split; [lia|apply (ia_cnt _ _ _ _ _ _ _ _ _ I)]]. split; [|lia]. intros E. exfalso. pose proof (ia_mat _ _ _ _ _ _ _ _ _ I (sc_max g)) as M. rewrite E in M. cbn in M.
      unfold dnr in M. rewrite (pl_max_sparse _ _ _ _ _ _ _ PL) in M. cbn [andb] in M. pose proof (pl_max _ _ _ _ _ _ _ PL) as J. apply nfind_in_iff in J as [l El]. rewrite El in M. discriminate.
    - destruct (invB_done _ _ _ _ _ _ _ _ _ _ I) as [N [M C]]. split; [split; auto|]. split; [auto|]. rewrite N. exact C.
  Qed.
  Lemma sstate_nodup r st : sstate r st -> NoDup (map fst (ss_ns st)) /\ NoDup (map fst (ss_solved st)).
  Proof. unfold sstate. intros I. destruct (r <? lmax'); [split; [apply (ia_nd _ _ _ _ _ _ _ _ _ I)|apply (ia_nds _ _ _ _ _ _ _ _ _ I)]|split; [apply (ib_nd _ _ _ _ _ _ _ _ _ _ _ _ I)|apply (ib_nds _ _ _ _ _ _ _ _ _ _ _ _ I)]]. Qed.
  Lemma sstate_keys r st : sstate r st -> forall d, (In d (map fst (ss_solved st)) \/ In d (map fst (ss_ns st))) <-> In d (map fst ns0).
  Proof.
    unfold sstate. intros I d. rewrite !nfind_in_iff. destruct (r <? lmax').
    - rewrite (ia_ns _ _ _ _ _ _ _ _ _ I d). pose proof (ia_sol _ _ _ _ _ _ _ _ _ I d) as C. destruct (nfind (ss_solved st) d) as [q|].
      + destruct C as [C _]. destruct (ia_dn _ _ _ _ _ _ _ _ _ I d C) as [_ J]. apply nfind_in_iff in J. split; [auto|]. intros _. left. exists q. reflexivity.
      + rewrite C. split; [intros [[? X]|X]; [discriminate|exact X]|auto].
    - rewrite (ib_ns _ _ _ _ _ _ _ _ _ _ _ _ I d). pose proof (ib_sol _ _ _ _ _ _ _ _ _ _ _ _ I d) as C. assert (X : hp_known g 0 true d = true) by (destruct d; unfold hp_known; cbn; rewrite !Bool.orb_true_r; reflexivity). rewrite X in *. destruct (nfind (ss_solved st) d) as [q|].
      + destruct C as [C _]. apply nfind_in_iff in C. split; [auto|]. intros _. left. exists q. reflexivity.
      + destruct C as [C|C]; [|discriminate]. split; [intros [[? Y]|[? Y]]; discriminate|]. intros J. exfalso. apply C. apply nfind_in_iff. exact J.
  Qed.
  Lemma sstate_perm r st : sstate r st -> Permutation (map fst (ss_solved st) ++ map fst (ss_ns st)) (map fst ns0).
  Proof.
    intros I. destruct (sstate_nodup r st I) as [A B]. apply NoDup_Permutation.
    - assert (Dj : forall d, In d (map fst (ss_solved st)) -> ~ In d (map fst (ss_ns st))).
      { intros d X Y. unfold sstate in I. apply nfind_in_iff in X as [q X], Y as [l Y]. destruct (r <? lmax').
        - pose proof (ia_sol _ _ _ _ _ _ _ _ _ I d) as C. rewrite X in C. destruct C as [C _]. rewrite (ia_ns _ _ _ _ _ _ _ _ _ I d), C in Y. discriminate.
        - rewrite (ib_ns _ _ _ _ _ _ _ _ _ _ _ _ I d) in Y. assert (Z : hp_known g 0 true d = true) by (destruct d; unfold hp_known; cbn; rewrite !Bool.orb_true_r; reflexivity). rewrite Z in Y. discriminate. }
      clear I. revert B Dj. generalize (map fst (ss_solved st)). intros l9; induction l9 as [|a l9 IH]; intros B Dj; [exact A|]. inversion B as [|? ? B1 B2]; subst. cbn. constructor.
      + intros X. apply in_app_or in X as [X|X]; [contradiction|]. apply (Dj a (or_introl eq_refl) X).
      + apply IH; [exact B2|]. intros d X. apply Dj. right. exact X.
    - apply (pl_nd _ _ _ _ _ _ _ PL).
    - intros d. rewrite in_app_iff. apply (sstate_keys r st I).
  Qed.
  Lemma above_0 d x : d <= G -> above' 0 d x = above' d d x.
  Proof. intros L. unfold above. apply fsum_ext. intros j Hj. destruct (Nat.ltb_spec 0 j); destruct (Nat.ltb_spec d j); try reflexivity; lia. Qed.
  Lemma hs_split d x : d <= G -> Hs' d x = (Hp' d x + above' 0 d x)%K.
  Proof. intros L. rewrite above_0 by exact L. apply (part_above HK ord Ho c s G P Ps v Hn HP HPs NP HV Hv Hchar HG d x L). Qed.
  (** the solved parts *)
  Lemma solved_entry r st d q : sstate r st -> In (d, q) (ss_solved st) -> d <= G /\ In d (map fst ns0) /\
    if nmem d (sc_dense g) then hrepr c d (Hs' d) q else invB' 0 true st /\ (if nmem d (sc_zero g) then q = zero_poly c else hrepr c d (Hp' d) q).
  Proof.
    intros I J. destruct (sstate_nodup r st I) as [_ N]. apply nfind_nodup in J; [|exact N]. unfold sstate in I. destruct (r <? lmax').
    - pose proof (ia_sol _ _ _ _ _ _ _ _ _ I d) as C. rewrite J in C. destruct C as [C R]. destruct (ia_dn _ _ _ _ _ _ _ _ _ I d C) as [D1 D2]. split; [apply (pl_le _ _ _ _ _ _ _ PL d D2)|]. split; [exact D2|]. rewrite D1. exact R.
    - pose proof (ib_sol _ _ _ _ _ _ _ _ _ _ _ _ I d) as C. rewrite J in C. destruct C as [D2 C]. split; [apply (pl_le _ _ _ _ _ _ _ PL d D2)|]. split; [exact D2|]. destruct (nmem d (sc_dense g)); [exact C|]. split; [exact I|apply C].
  Qed.
  Lemma hp_zero_value d x : hom d P = [] -> Hp' d x = f0.
  Proof. intros E. unfold Hp. rewrite E. reflexivity. Qed.
  Lemma calc_zero_poly order : (Z.of_nat order < 2 ^ 31)%Z -> calc_n_m_1 (ord _) (zero_poly c) (rand_vec y (repeat order (n - 1))) = f0.
  Proof. intros L. rewrite (calc_ray HK ord Ho c y G Hn 0 (fun _ => f0)) by (try exact L; apply (zero_poly_sub HK c G Hn)). destruct (zero_poly_sub HK c G Hn 0) as [_ [_ [_ D]]]. apply D. Qed.
  Lemma known_entry r st order d q : (Z.of_nat order < 2 ^ 31)%Z -> sstate r st -> In (d, q) (ss_solved st) ->
    (let w := calc_n_m_1 (ord _) q (rand_vec y (repeat order (n - 1))) in
     if nmem d (sc_dense g) then w else fadd w (calc_n_m_1 (ord _) (nget no_poly (ss_sub st) d) (rand_vec y (repeat order (n - 1))))) = rv' d order.
  Proof.
    intros L I J. destruct (solved_entry r st d q I J) as [Ld [Jd C]]. cbn zeta. destruct (nmem d (sc_dense g)).
    - rewrite (calc_ray HK ord Ho c y G Hn d (Hs' d)) by (try exact L; apply (hrepr_sub c); exact C). destruct C as [_ [_ [_ C]]]. rewrite C. reflexivity.
    - destruct C as [IB C]. rewrite (calc_ray HK ord Ho c y G Hn d (above' 0 d) (nget no_poly (ss_sub st) d)) by (try exact L; apply (ib_sub _ _ _ _ _ _ _ _ _ _ _ _ IB d Ld)).
      destruct (ib_sub _ _ _ _ _ _ _ _ _ _ _ _ IB d Ld) as [_ [_ [_ V]]]. rewrite V. unfold rv. rewrite (hs_split d _ Ld). f_equal. destruct (nmem d (sc_zero g)) eqn:Z.
      + subst q. rewrite calc_zero_poly by exact L. symmetry. apply hp_zero_value. apply (pl_zero _ _ _ _ _ _ _ PL d Z).
      + rewrite (calc_ray HK ord Ho c y G Hn d (Hp' d)) by (try exact L; apply (hrepr_sub c); exact C). destruct C as [_ [_ [_ C]]]. rewrite C. reflexivity.
  Qed.
  Lemma known_sum r st order t : (Z.of_nat order < 2 ^ 31)%Z -> sstate r st ->
    lsum (fun e : nat * K => snd e * fpow t (Z.of_nat (fst e)))%K (ord _ (sing_known ord c y g order st)) = lsum (fun d => rv' d order * pw t d)%K (map fst (ss_solved st)).
  Proof.
    intros L I. rewrite (lsum_perm HK _ _ _ (Ho _ _)). unfold sing_known. rewrite !lsum_map, (lsum_perm HK _ _ _ (Ho _ _)). apply lsum_ext. intros [d q] J. cbn [fst snd].
    pose proof (known_entry r st order d q L I J) as KE. cbn zeta in KE. rewrite KE. f_equal. destruct (solved_entry r st d q I J) as [Ld _]. rewrite (fl_pow K HK) by (unfold two64; lia). rewrite Nat2Z.id. reflexivity.
  Qed.
  (** a sum over all degrees is a sum over those of ns0 *)
  Lemma lsum_keys (h : nat -> K) ks : NoDup ks -> (forall d, In d ks -> d <= G) -> (forall d, d <= G -> ~ In d ks -> h d = f0) -> lsum h ks = fsum (S G) h.
  Proof.
    intros N L Z. transitivity (lsum h (seq 0 (S G))).
    - rewrite (lsum_filter HK (fun d => nmem d ks) h (seq 0 (S G))). rewrite (lsum_0 HK h (filter (fun d => negb (nmem d ks)) (seq 0 (S G)))).
      + rewrite (lsum_perm HK h ks (filter (fun d => nmem d ks) (seq 0 (S G)))); [ring|]. apply NoDup_Permutation; [exact N|apply NoDup_filter; apply seq_NoDup|]. intros d. rewrite filter_In, in_seq, nmem_In. split; [intros J; specialize (L d J); split; [lia|exact J]|tauto].
      + intros d J. apply filter_In in J as [J1 J2]. apply in_seq in J1. apply Bool.negb_true_iff, nmem_false in J2. apply Z; [lia|exact J2].
    - rewrite (lsum_fsum HK 0%nat). rewrite seq_length. apply fsum_ext. intros i Hi. rewrite seq_nth by exact Hi. reflexivity.
  Qed.
  (** the polynomial with the shift on a ray; c0: its constant, if degree 0 is not in the system *)
  Lemma ray_total i t c0 : (if nmem 0 (map fst ns0) then c0 = f0 else forall x, Hs' 0 x = c0) ->
    pv n Ps (fun j => t * diag y i j)%K = (lsum (fun d => rv' d i * pw t d) (map fst ns0) + c0)%K.
  Proof.
    intros H0. rewrite (hom_value HK n G Ps (diag y i) t HPs). unfold ueval. change (fun d => (pv n (hom d Ps) (diag y i) * pw t d)%K) with (fun d => (rv' d i * pw t d)%K).
    destruct (nmem 0 (map fst ns0)) eqn:M.
    - subst c0. rewrite (lsum_keys (fun d => rv' d i * pw t d)%K); [ring|apply (pl_nd _ _ _ _ _ _ _ PL)|apply (pl_le _ _ _ _ _ _ _ PL)|]. intros d Ld Nd. destruct (pl_absent _ _ _ _ _ _ _ PL d Ld Nd) as [_ X]. unfold rv, Hs. rewrite X; [ring|]. destruct d; [|lia]. exfalso. apply Nd. apply nmem_In. exact M.
    - rewrite (fsum_upd HK (S G) 0 _ (fun d => if d =? 0 then f0 else rv' d i * pw t d)%K); [|lia|intros d _ Nd; destruct (Nat.eqb_spec d 0); [contradiction|reflexivity]]. cbn [Nat.eqb pw].
      rewrite <- (lsum_keys (fun d => if d =? 0 then f0 else rv' d i * pw t d)%K (map fst ns0)); [|apply (pl_nd _ _ _ _ _ _ _ PL)|apply (pl_le _ _ _ _ _ _ _ PL)|].
      + rewrite (lsum_ext (fun d => if d =? 0 then f0 else (rv' d i * pw t d)%K) (fun d => (rv' d i * pw t d)%K)); [unfold rv at 2; rewrite H0; ring|]. intros d J. destruct (Nat.eqb_spec d 0) as [->|]; [|reflexivity]. apply nmem_false in M. contradiction.
      + intros d Ld Nd. destruct (Nat.eqb_spec d 0) as [|N0]; [reflexivity|]. destruct (pl_absent _ _ _ _ _ _ _ PL d Ld Nd) as [_ X]. unfold rv, Hs. rewrite X by lia. ring.
  Qed.
  (** the sum of the parts is the polynomial without the shift *)
  Lemma part_value st d q x : invB' 0 true st -> d <= G -> nmem d (sc_zero g) = false -> (if nmem d (sc_dense g) then hrepr c d (Hs' d) q else hrepr c d (Hp' d) q) ->
    poly_ok n (pf_coefs (sing_part ord g st (d, q))) /\ pv n (pf_coefs (sing_part ord g st (d, q))) x = Hp' d x.
  Proof.
    intros I Ld Z C. unfold sing_part. cbn [fst snd]. destruct (nmem d (sc_dense g)).
    - destruct C as [C1 [C2 [_ C3]]]. destruct (ib_sub _ _ _ _ _ _ _ _ _ _ _ _ I d Ld) as [_ [S2 [_ S3]]]. pose proof (psub_ok HK (ord _) (ord_any ord Ho) q (nget no_poly (ss_sub st) d)) as X. rewrite C1 in X. destruct (X C2 S2) as [X1 X2]. split; [exact X1|].
      rewrite X2, C3, S3, (hs_split d x Ld). ring.
    - destruct C as [C1 [C2 [_ C3]]]. split; [exact C2|apply C3].
  Qed.
  Lemma sum_fold st x l : invB' 0 true st -> (forall d q, In (d, q) l -> d <= G /\ (nmem d (sc_zero g) = false -> if nmem d (sc_dense g) then hrepr c d (Hs' d) q else hrepr c d (Hp' d) q)) ->
    forall r, pf_n r = n -> poly_ok n (pf_coefs r) -> let r' := fold_left (fun r e => if nmem (fst e) (sc_zero g) then r else padd_assign (ord _) r (sing_part ord g st e)) l r in
    pf_n r' = n /\ poly_ok n (pf_coefs r') /\ pv n (pf_coefs r') x = (pv n (pf_coefs r) x + lsum (fun d => if nmem d (sc_zero g) then f0 else Hp' d x) (map fst l))%K.
  Proof.
    intros I. induction l as [|[d q] l IH]; intros H r N O; cbn zeta.
    - cbn [fold_left map]. split; [exact N|]. split; [exact O|]. unfold lsum. cbn. ring.
    - cbn [fold_left map fst]. rewrite lsum_cons. destruct (H d q (or_introl eq_refl)) as [Ld C]. assert (H' : forall d' q', In (d', q') l -> d' <= G /\ (nmem d' (sc_zero g) = false -> if nmem d' (sc_dense g) then hrepr c d' (Hs' d') q' else hrepr c d' (Hp' d') q')) by (intros d' q' J; apply H; right; exact J).
      destruct (nmem d (sc_zero g)) eqn:Z.
      + destruct (IH H' r N O) as [A [B V]]. split; [exact A|]. split; [exact B|]. rewrite V. ring.
      + destruct (part_value st d q x I Ld Z (C eq_refl)) as [O2 V2]. pose proof (padd_assign_ok HK (ord _) (ord_any ord Ho) r (sing_part ord g st (d, q))) as X. rewrite N in X. destruct (X O O2) as [X1 X2].
        destruct (IH H' (padd_assign (ord _) r (sing_part ord g st (d, q))) N X1) as [A [B V]]. split; [exact A|]. split; [exact B|]. rewrite V, X2, V2. ring.
  Qed.
  Lemma clean_fold st l : invB' 0 true st -> (forall d q, In (d, q) l -> d <= G /\ (nmem d (sc_zero g) = false -> if nmem d (sc_dense g) then hrepr c d (Hs' d) q else hrepr c d (Hp' d) q)) ->
    forall r, pf_n r = n -> poly_ok n (pf_coefs r) -> clean c r -> clean c (fold_left (fun r e => if nmem (fst e) (sc_zero g) then r else padd_assign (ord _) r (sing_part ord g st e)) l r).
  Proof.
    intros I. induction l as [|[d q] l IH]; intros H r N O C0; [exact C0|]. cbn [fold_left fst]. destruct (H d q (or_introl eq_refl)) as [Ld C]. assert (H' : forall d' q', In (d', q') l -> d' <= G /\ (nmem d' (sc_zero g) = false -> if nmem d' (sc_dense g) then hrepr c d' (Hs' d') q' else hrepr c d' (Hp' d') q')) by (intros d' q' J; apply H; right; exact J).
    destruct (nmem d (sc_zero g)) eqn:Z; [apply (IH H' r N O C0)|].
    destruct (part_value st d q (fun _ => f0) I Ld Z (C eq_refl)) as [O2 _]. pose proof (padd_assign_ok HK (ord _) (ord_any ord Ho) r (sing_part ord g st (d, q))) as X. rewrite N in X. destruct (X O O2) as [X1 _].
    apply (IH H' (padd_assign (ord _) r (sing_part ord g st (d, q))) N X1). apply (clean_padd HK ord Ho c r _ N O O2 C0).
  Qed.
  Theorem sum_clean r st : sstate r st -> lmax' <= r -> clean c (sing_sum ord c g st).
  Proof.
    intros I L. pose proof I as IB. unfold sstate in IB. destruct (Nat.ltb_spec r lmax') as [|_]; [lia|]. destruct (zero_poly_sub HK c G Hn 0) as [Z1 [Z2 _]]. unfold sing_sum. apply (clean_fold st _ IB); [|exact Z1|exact Z2|intros e a [J|[]]; injection J as <- _; right; reflexivity].
    intros d q J. rewrite (in_ord_any ord Ho) in J. destruct (solved_entry r st d q I J) as [Ld [_ C]]. split; [exact Ld|]. intros Z. rewrite Z in C. destruct (nmem d (sc_dense g)); [exact C|apply C].
  Qed.
  Theorem sstate_open r st : sstate r st -> r < lmax' -> ss_ns st <> [].
  Proof.
    unfold sstate. intros I L. destruct (Nat.ltb_spec r lmax') as [_|]; [|lia]. intros E. pose proof (ia_ns _ _ _ _ _ _ _ _ _ I (sc_max g)) as M. rewrite E in M. cbn in M. unfold dnr in M. rewrite (pl_max_sparse _ _ _ _ _ _ _ PL) in M. cbn [andb] in M.
    pose proof (pl_max _ _ _ _ _ _ _ PL) as J. apply nfind_in_iff in J as [l El]. rewrite El in M. discriminate.
  Qed.
  Theorem sum_ok r st : sstate r st -> lmax' <= r -> pf_n (sing_sum ord c g st) = n /\ poly_ok n (pf_coefs (sing_sum ord c g st)) /\ forall x, pv n (pf_coefs (sing_sum ord c g st)) x = pv n P x.
  Proof.
    intros I L. pose proof I as IB. unfold sstate in IB. destruct (Nat.ltb_spec r lmax') as [|_]; [lia|]. destruct (zero_poly_sub HK c G Hn 0) as [Z1 [Z2 [_ Z4]]].
    assert (F : forall x, let r' := sing_sum ord c g st in pf_n r' = n /\ poly_ok n (pf_coefs r') /\ pv n (pf_coefs r') x = (f0 + lsum (fun d => if nmem d (sc_zero g) then f0 else Hp' d x) (map fst (ord _ (ss_solved st))))%K).
    { intros x. assert (H : forall d q, In (d, q) (ord _ (ss_solved st)) -> d <= G /\ (nmem d (sc_zero g) = false -> if nmem d (sc_dense g) then hrepr c d (Hs' d) q else hrepr c d (Hp' d) q)).
      { intros d q J. rewrite (in_ord_any ord Ho) in J. destruct (solved_entry r st d q I J) as [Ld [_ C]]. split; [exact Ld|]. intros Z. rewrite Z in C. destruct (nmem d (sc_dense g)); [exact C|apply C]. }
      pose proof (sum_fold st x (ord _ (ss_solved st)) IB H (zero_poly c) Z1 Z2) as X. cbn zeta in X. rewrite Z4 in X. exact X. }
    split; [apply (F (fun _ => f0))|]. split; [apply (F (fun _ => f0))|]. intros x. destruct (F x) as [_ [_ V]]. rewrite V.
    rewrite (lsum_perm HK _ _ _ (Permutation_map fst (Ho _ (ss_solved st)))). pose proof (sstate_perm r st I) as Pm. rewrite (proj1 (proj2 (sstate_nil r st I)) L), app_nil_r in Pm. rewrite (lsum_perm HK _ _ _ Pm).
    rewrite (lsum_keys _ (map fst ns0)); [|apply (pl_nd _ _ _ _ _ _ _ PL)|apply (pl_le _ _ _ _ _ _ _ PL)|].
    - rewrite (hom_sum HK n G P x HP). rewrite (fsum_ext (S G) _ (fun d => pv n (hom d P) x)); [ring|]. intros d _. destruct (nmem d (sc_zero g)) eqn:Z; [|reflexivity]. rewrite (pl_zero _ _ _ _ _ _ _ PL d Z). reflexivity.
    - intros d Ld Nd. destruct (nmem d (sc_zero g)); [reflexivity|]. apply hp_zero_value. apply (pl_absent _ _ _ _ _ _ _ PL d Ld Nd).
  Qed.
  Definition low (m : list (mon * K)) : Prop := forall e a, In (e, a) m -> a <> f0 -> (total e <= Z.of_nat G)%Z.
  Lemma low_update m k (f : K -> K) : NoDup (map fst m) -> low m -> (forall a, In (k, a) m -> f a <> f0 -> (total k <= Z.of_nat G)%Z) -> low (pupdate m k f).
  Proof.
    intros N L H e w I Nw. unfold pupdate in I. apply in_map_iff in I as [[k1 c1] [E1 I]]. cbn [fst snd] in E1. destruct (mon_eqb_spec k k1) as [->|N1]; injection E1 as <- <-; [apply (H c1 I Nw)|apply (L k1 c1 I Nw)].
  Qed.
  Lemma low_erase m k : low m -> low (perase (K:=K) m k).
  Proof. intros L e w I. apply filter_In in I as [I _]. apply (L e w I). Qed.
  Lemma low_sub_term m kc : NoDup (map fst m) -> low m -> (snd kc <> f0 -> (total (fst kc) <= Z.of_nat G)%Z) -> low (sub_term (K:=K) m kc).
  Proof.
    destruct kc as [k u]. cbn [fst snd]. intros N L H. unfold sub_term. cbn [fst snd]. destruct (pfind m k) as [a|] eqn:E.
    - assert (Hu : low (pupdate m k (fun _ => fsub a u))).
      { apply low_update; [exact N|exact L|]. intros a' I Nz. apply (pfind_In m k a' N) in I. rewrite E in I. injection I as <-. destruct (feqb a f0) eqn:Za.
        - apply (fl_eqb K HK) in Za. subst a. apply H. intros ->. apply Nz. ring.
        - apply (L k a); [apply (pfind_In m k a N); exact E|apply (feqb_neq HK); exact Za]. }
      cbn zeta. destruct (feqb (fsub a u) f0); [apply low_erase; exact Hu|exact Hu].
    - unfold pemplace. rewrite E. intros e w I Nw. apply in_app_or in I as [I|[I|[]]]; [apply (L e w I Nw)|]. injection I as <- <-. apply H. intros ->. apply Nw. ring.
  Qed.
  Lemma low_sub l : forall m, poly_ok n m -> (forall t, In t l -> exponents_ok n (fst t)) -> low m -> low l -> low (fold_left (sub_term (K:=K)) l m).
  Proof.
    induction l as [|[k u] l IH]; intros m O F Lm Ll; [exact Lm|]. cbn [fold_left]. apply IH.
    - apply (sub_term_good HK n m (k, u) O). apply (F (k, u)). left. reflexivity.
    - intros t J. apply F. right. exact J.
    - apply low_sub_term; [apply O|exact Lm|]. intros Nu. apply (Ll k u); [left; reflexivity|exact Nu].
    - intros e w J. apply Ll. right. exact J.
  Qed.
  Lemma low_of d F q : d <= G -> subrepr c d F q -> low (pf_coefs q).
  Proof. intros L [_ [_ [T _]]] e a I Na. rewrite (T e a I Na). lia. Qed.
  Lemma low_part st d q : invB' 0 true st -> d <= G -> (if nmem d (sc_dense g) then hrepr c d (Hs' d) q else hrepr c d (Hp' d) q) -> low (pf_coefs (sing_part ord g st (d, q))).
  Proof.
    intros I Ld C. unfold sing_part. cbn [fst snd]. destruct (nmem d (sc_dense g)).
    - pose proof (ib_sub _ _ _ _ _ _ _ _ _ _ _ _ I d Ld) as R. unfold psub. cbn [pf_coefs]. apply low_sub.
      + apply C.
      + intros t J. rewrite (in_ord_any ord Ho) in J. destruct R as [_ [[_ F] _]]. rewrite Forall_forall in F. apply (F t J).
      + apply (low_of d (Hs' d) q Ld). apply (hrepr_sub c). exact C.
      + intros e a J. rewrite (in_ord_any ord Ho) in J. apply (low_of d _ _ Ld R e a J).
    - apply (low_of d (Hp' d) q Ld). apply (hrepr_sub c). exact C.
  Qed.
  Lemma low_sum st l : invB' 0 true st -> (forall d q, In (d, q) l -> d <= G /\ (nmem d (sc_zero g) = false -> if nmem d (sc_dense g) then hrepr c d (Hs' d) q else hrepr c d (Hp' d) q)) ->
    forall r, low (pf_coefs r) -> low (pf_coefs (fold_left (fun r e => if nmem (fst e) (sc_zero g) then r else padd_assign (ord _) r (sing_part ord g st e)) l r)).
  Proof.
    intros I. induction l as [|[d q] l IH]; intros H r L; [exact L|]. cbn [fold_left fst]. assert (H' : forall d' q', In (d', q') l -> d' <= G /\ (nmem d' (sc_zero g) = false -> if nmem d' (sc_dense g) then hrepr c d' (Hs' d') q' else hrepr c d' (Hp' d') q')) by (intros d' q' J; apply H; right; exact J).
    destruct (H d q (or_introl eq_refl)) as [Ld C]. destruct (nmem d (sc_zero g)) eqn:Z; [apply (IH H' r L)|]. apply (IH H').
    intros e a J Na. unfold padd_assign in J. cbn [pf_coefs] in J. apply (add_entry HK) in J as [J|[a' [Na' J]]]; [apply (L e a J Na)|]. rewrite (in_ord_any ord Ho) in J. apply (low_part st d q I Ld (C eq_refl) e a' J Na').
  Qed.
  Theorem sum_coef r st k : sstate r st -> lmax' <= r -> coef_at (pf_coefs (sing_sum ord c g st)) k = coef_at P k.
  Proof.
    intros I L. destruct (sum_ok r st I L) as [_ [O V]]. pose proof I as IB. unfold sstate in IB. destruct (Nat.ltb_spec r lmax') as [|_]; [lia|]. apply (coefs_of_values HK c G v Hn Hv _ _ G (le_n G) O); [|intros e a J Na|exact V].
    - split; [exact NP|]. apply Forall_forall. intros [e a] J. destruct (HP e a J) as [A [B T]]. cbn [fst]. split; [exact A|]. apply Forall_forall. intros z Jz. apply (In_nth _ _ 0%Z) in Jz as [i [_ <-]]. pose proof (nth_total e i B). specialize (B i). lia.
    - apply in_app_or in J as [J|J]; [|apply (HP e a J)]. revert e a J Na. unfold sing_sum. apply (low_sum st _ IB).
      + intros d q J. rewrite (in_ord_any ord Ho) in J. destruct (solved_entry r st d q I J) as [Ld [_ C]]. split; [exact Ld|]. intros Z. rewrite Z in C. destruct (nmem d (sc_dense g)); [exact C|apply C].
      + apply (low_of 0 (fun _ => f0)); [lia|]. apply (zero_poly_sub HK c G Hn).
  Qed.
End Sum.

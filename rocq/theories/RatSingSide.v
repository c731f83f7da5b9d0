(** Proofs for the shifted systems of RatReconst over a further prime, part 2: one side. *)
From Coq Require Import Permutation.
From Verif Require Import Machine FField FSum LinAlg FPoly PolyFF PolySpec PolyFFProofs PolyFFProofs2 PolyFFProofs3 Vandermonde ThieleProofs RatUni Newton PolyRec PolyRecSpec PolyRecMath RatMulti RatMultiSpec RatMultiMath RatMultiShift RatMultiSub RatMultiClean RatMultiSide RatMultiQ RatMultiQCoef RatMultiQSide RatSing RatSingSub Props_PolyFF.
Open Scope nat_scope.

Lemma nerase_length {A} (m : list (nat * A)) k : NoDup (map fst m) -> In k (map fst m) -> S (length (nerase m k)) = length m.
Proof.
  unfold nerase. induction m as [|[k' a] m IH]; intros N I; [contradiction|]. cbn [map fst] in *. inversion N as [|? ? N1 N2]; subst. cbn [filter fst]. destruct (Nat.eqb_spec k k') as [->|Ne]; cbn [negb length].
  - f_equal. assert (X : forall l : list (nat * A), ~ In k' (map fst l) -> filter (fun e => negb (k' =? fst e)) l = l).
    { induction l as [|[j b] l IHl]; intros H; [reflexivity|]. cbn [filter fst]. destruct (Nat.eqb_spec k' j) as [->|Nj]; [exfalso; apply H; left; reflexivity|]. cbn [negb]. rewrite IHl; [reflexivity|]. intros X; apply H; right; exact X. }
    rewrite X by exact N1. reflexivity.
  - f_equal. destruct I as [->|I]; [contradiction|]. apply IH; assumption.
Qed.
Lemma nerase_nodup {A} (m : list (nat * A)) k : NoDup (map fst m) -> NoDup (map fst (nerase m k)).
Proof. intros N. rewrite nerase_keys. apply NoDup_filter. exact N. Qed.
Lemma nfind_none_nil {A} (m : list (nat * A)) : (forall d, nfind m d = None) -> m = [].
Proof. destruct m as [|[k a] m]; intros H; [reflexivity|]. specialize (H k). cbn [nfind] in H. rewrite Nat.eqb_refl in H. discriminate. Qed.
Lemma nfind_in_iff {A} (m : list (nat * A)) k : In k (map fst m) <-> exists a, nfind m k = Some a.
Proof.
  pose proof (nfind_None m k) as H. split.
  - intros I. destruct (nfind m k) as [a|] eqn:E; [exists a; reflexivity|]. exfalso. apply (proj1 H eq_refl). exact I.
  - intros [a E]. destruct (in_dec Nat.eq_dec k (map fst m)) as [I|I]; [exact I|]. apply (proj2 H) in I. congruence.
Qed.

(** what is solved with the shift, without it, and what has to be zero: [g] and [ns0] at the beginning of a prime *)
Record plan {K : fops} (n G : nat) (P Ps : list (list Z * K)) (y : nat -> K) (g : scfg) (ns0 : list (nat * list (list Z))) : Prop := mk_plan {
  pl_nd : NoDup (map fst ns0);
  pl_deg : sc_deg g = G;
  pl_max : In (sc_max g) (map fst ns0);
  pl_max_sparse : nmem (sc_max g) (sc_dense g) = false;
  pl_le : forall d, In d (map fst ns0) -> d <= G;
  pl_len : forall d l, nfind ns0 d = Some l -> l <> [] /\ NoDup l /\ length l <= length (nget [] ns0 (sc_max g));
  pl_apart : forall d l, nfind ns0 d = Some l -> forall k k', In k l -> In k' l -> monomial_value (n - 1) (tl k) y = monomial_value (n - 1) (tl k') y -> k = k';
  pl_dense : forall d l, nfind ns0 d = Some l -> nmem d (sc_dense g) = true ->
    length l < length (nget [] ns0 (sc_max g)) /\ Forall (fun k => exponents_ok n k /\ total k = Z.of_nat d) l /\ incl (map fst (hom d Ps)) l;
  pl_sparse : forall d l, nfind ns0 d = Some l -> nmem d (sc_dense g) = false -> nmem d (sc_zero g) = false ->
    Forall (fun k => exponents_ok n k /\ total k = Z.of_nat d) l /\ incl (map fst (hom d P)) l;
  pl_zero : forall d, nmem d (sc_zero g) = true -> hom d P = [];
  pl_const : In 0 (map fst ns0) -> nmem 0 (sc_dense g) = true \/ nmem 0 (sc_zero g) = true;
  pl_top : 0 < G /\ hom G P <> [];
  pl_absent : forall d, d <= G -> ~ In d (map fst ns0) -> hom d P = [] /\ (0 < d -> forall x, poly_value n (hom d Ps) x = f0)
}.

Section Side.
  Context {K : fops} (HK : flaws K).
  Add Field KSI : (fl_field K HK).
  Local Notation pv := (@poly_value K).
  Variable ord : forall A : Type, list A -> list A.
  Hypothesis Ho : forall A (l : list A), Permutation (ord A l) l.
  Variable c : mcfg.
  Local Notation n := (mc_n c).
  Variables y s : nat -> K.
  Variables (G : nat) (P Ps : list (list Z * K)) (v : nat -> K).
  Hypothesis Hn : 2 <= n.
  Hypothesis HP : wf n G P.
  Hypothesis HPs : wf n G Ps.
  Hypothesis NP : NoDup (map fst P).
  Hypothesis NPs : NoDup (map fst Ps).
  Hypothesis HV : forall x, pv n Ps x = pv n P (fun i => x i + s i)%K.
  Hypothesis Hv : distinct (S G) v.
  Hypothesis Hchar : characteristic_above K G.
  Hypothesis HG : (Z.of_nat G < 2 ^ 31)%Z.
  Hypothesis anchors : forall i, i < n - 1 -> y i <> f0.
  Variables (g : scfg) (ns0 : list (nat * list mon)).
  Hypothesis PL : plan n G P Ps y g ns0.

  Local Notation Hp' := (Hp c P).
  Local Notation Hs' := (Hs c Ps).
  Local Notation contrib' := (contrib ord c s P).
  Local Notation subrepr' := (subrepr c).
  Local Notation hrepr' := (hrepr c).
  Definition lmax : nat := length (nget [] ns0 (sc_max g)).
  Hypothesis Hmax : (Z.of_nat lmax < 2 ^ 31)%Z.
  Definition sub0 : list (nat * polyff K) := map (fun i => (i, zero_poly c)) (seq 0 (S G)).
  (** the value of the part of degree d on the ray i *)
  Definition rv (d i : nat) : K := Hs' d (diag y i).

  Record invA (lev : nat -> nat) (dn : nat -> bool) (st : sside K) : Prop := mk_invA {
    ia_ns : forall d, nfind (ss_ns st) d = if dn d then None else nfind ns0 d;
    ia_mat : forall d, nfind (ss_mat st) d = if dn d then None else option_map (fun l => map (fun j => rv d (S j)) (seq 0 (Nat.min (lev d) (length l)))) (nfind ns0 d);
    ia_sol : forall d, match nfind (ss_solved st) d with Some q => dn d = true /\ hrepr' d (Hs' d) q | None => dn d = false end;
    ia_dn : forall d, dn d = true -> nmem d (sc_dense g) = true /\ In d (map fst ns0);
    ia_sub : ss_sub st = sub0;
    ia_cnt : length (ss_ns st) + ss_count st = length ns0;
    ia_nd : NoDup (map fst (ss_ns st));
    ia_nds : NoDup (map fst (ss_solved st))
  }.
  Lemma invA_ext lev lev' dn dn' st : (forall d, dn d = dn' d) -> (forall d, dn d = false -> In d (map fst ns0) -> Nat.min (lev d) (length (nget [] ns0 d)) = Nat.min (lev' d) (length (nget [] ns0 d))) -> invA lev dn st -> invA lev' dn' st.
  Proof.
    intros E1 E2 [A B C D E F H I]. constructor; try assumption.
    - intros d. rewrite A, E1. reflexivity.
    - intros d. rewrite B, <- E1. destruct (dn d) eqn:Ed; [reflexivity|]. destruct (nfind ns0 d) as [l|] eqn:El; [|reflexivity]. cbn [option_map].
      assert (X := E2 d Ed (proj2 (nfind_in_iff ns0 d) (ex_intro _ l El))). unfold nget in X. rewrite El in X. rewrite X. reflexivity.
    - intros d. specialize (C d). rewrite <- E1. exact C.
    - intros d. rewrite <- E1. apply D.
  Qed.
  Lemma push_ok lev dn st d : invA lev dn st -> dn d = false -> In d (map fst ns0) ->
    invA (fun e => if e =? d then S (lev d) else lev e) dn (sing_push st (d, rv d (S (lev d)))).
  Proof.
    intros [A B C D E F H I] Ed Id. apply nfind_in_iff in Id as [l El]. unfold sing_push. cbn [fst snd].
    assert (M : nget [] (ss_mat st) d = map (fun j => rv d (S j)) (seq 0 (Nat.min (lev d) (length l)))) by (unfold nget; rewrite B, Ed, El; reflexivity).
    assert (N : nget [] (ss_ns st) d = l) by (unfold nget; rewrite A, Ed, El; reflexivity).
    rewrite M, N, map_length, seq_length.
    assert (Ev : (if Nat.min (lev d) (length l) <? length l then map (fun j => rv d (S j)) (seq 0 (Nat.min (lev d) (length l))) ++ [rv d (S (lev d))] else map (fun j => rv d (S j)) (seq 0 (Nat.min (lev d) (length l))))
      = map (fun j => rv d (S j)) (seq 0 (Nat.min (S (lev d)) (length l)))).
    { destruct (Nat.ltb_spec (Nat.min (lev d) (length l)) (length l)) as [L|L].
      - rewrite (Nat.min_l (lev d)) by lia. rewrite (Nat.min_l (S (lev d))) by lia. rewrite seq_S, map_app. reflexivity.
      - rewrite (Nat.min_r (lev d)) by lia. rewrite (Nat.min_r (S (lev d))) by lia. reflexivity. }
    rewrite Ev. constructor; cbn [ss_ns ss_mat ss_solved ss_sub ss_count]; try assumption.
    intros e. rewrite nfind_set. destruct (Nat.eqb_spec e d) as [->|Ne]; [rewrite Ed, El; reflexivity|apply B].
  Qed.
  Lemma pushes_ok r l : forall lev dn st, invA lev dn st -> NoDup (map fst l) -> (forall d w, In (d, w) l -> dn d = false /\ In d (map fst ns0) /\ lev d = r /\ w = rv d (S r)) ->
    invA (fun e => if nmem e (map fst l) then S r else lev e) dn (fold_left sing_push l st).
  Proof.
    induction l as [|[d w] l IH]; intros lev dn st I N H.
    - cbn [fold_left]. apply (invA_ext lev _ dn dn st); [reflexivity|intros; reflexivity|exact I].
    - cbn [fold_left]. cbn [map fst] in N. inversion N as [|? ? N1 N2]; subst. destruct (H d w (or_introl eq_refl)) as [H1 [H2 [H3 ->]]].
      eapply invA_ext; [| |apply (IH (fun e => if e =? d then S (lev d) else lev e) dn)]; [reflexivity| | |exact N2|].
      + intros e He _. cbn beta. cbn [map fst]. unfold nmem at 2. cbn [existsb]. fold (nmem e (map fst l)). destruct (Nat.eqb_spec e d) as [->|Ne]; cbn [orb]; [|reflexivity]. rewrite H3. destruct (nmem d (map fst l)); reflexivity.
      + rewrite <- H3. apply push_ok; assumption.
      + intros e w' J. assert (Ne : e <> d) by (intros ->; apply N1; apply in_map_iff; exists (d, w'); auto). destruct (Nat.eqb_spec e d) as [X|_]; [contradiction|]. apply (H e w'). right. exact J.
  Qed.

  (** ---- a dense degree is complete ---- *)
  Lemma hom_value_ray d : d <= G -> forall i, pv n (hom d Ps) (diag y i) = rv d i.
  Proof. reflexivity. Qed.
  Lemma nodup_hom d (Q : list (list Z * K)) : NoDup (map fst Q) -> NoDup (map fst (hom d Q)).
  Proof. intros N. unfold hom. apply NoDup_keys_filter. exact N. Qed.
  Lemma dense_ok lev dn st d l : invA lev dn st -> dn d = false -> nfind ns0 d = Some l -> nmem d (sc_dense g) = true -> length l <= lev d ->
    exists q, solve_vandermonde_system (n - 1) (nget [] (ss_ns st) d) (fun i => nth i (nget [] (ss_mat st) d) f0) y = Ret q /\
      invA lev (fun e => dn e || (e =? d)) (sing_set st d q (ss_sub st)).
  Proof.
    intros [A B C D E F H I] Ed El Dd Ll. destruct (pl_dense _ _ _ _ _ _ _ PL d l El Dd) as [_ [F1 F2]]. destruct (pl_len _ _ _ _ _ _ _ PL d l El) as [Ne [Nd _]].
    assert (M : nget [] (ss_mat st) d = map (fun j => rv d (S j)) (seq 0 (length l))) by (unfold nget; rewrite B, Ed, El; cbn [option_map]; rewrite Nat.min_r by exact Ll; reflexivity).
    assert (N : nget [] (ss_ns st) d = l) by (unfold nget; rewrite A, Ed, El; reflexivity). rewrite M, N.
    destruct (solve_superset HK c y G Hn anchors l (hom d Ps) (fun i => nth i (map (fun j => rv d (S j)) (seq 0 (length l))) f0) d Ne Nd F1 (nodup_hom d Ps NPs) F2) as [q [Eq R]].
    - apply (pl_apart _ _ _ _ _ _ _ PL d l El).
    - intros i Hi. rewrite (nth_indep _ f0 (rv d (S 0))) by (rewrite map_length, seq_length; exact Hi). rewrite (map_nth (fun j => rv d (S j))), seq_nth by exact Hi. reflexivity.
    - exists q. split; [exact Eq|]. assert (Jd : In d (map fst (ss_ns st))) by (apply nfind_in_iff; exists l; rewrite A, Ed; exact El).
      constructor; cbn [sing_set ss_ns ss_mat ss_solved ss_sub ss_count].
      + intros e. rewrite nfind_erase, A. destruct (Nat.eqb_spec e d) as [->|Ne']; [rewrite Bool.orb_true_r; reflexivity|rewrite Bool.orb_false_r; reflexivity].
      + intros e. rewrite nfind_erase, B. destruct (Nat.eqb_spec e d) as [->|Ne']; [rewrite Bool.orb_true_r; reflexivity|rewrite Bool.orb_false_r; reflexivity].
      + intros e. rewrite nfind_set. destruct (Nat.eqb_spec e d) as [->|Ne']; [rewrite Bool.orb_true_r; split; [reflexivity|exact R]|rewrite Bool.orb_false_r; apply C].
      + intros e He. apply Bool.orb_true_iff in He as [He|He]; [apply D; exact He|]. apply Nat.eqb_eq in He. subst e. split; [exact Dd|]. apply nfind_in_iff. exists l. exact El.
      + exact E.
      + pose proof (nerase_length (ss_ns st) d H Jd). lia.
      + apply nerase_nodup. exact H.
      + apply nset_nodup. exact I.
  Qed.
  (** ---- the loop while the greatest part is incomplete ---- *)
  Definition len (d : nat) : nat := length (nget [] ns0 d).
  Definition dnr (r d : nat) : bool := nmem d (sc_dense g) && nmem d (map fst ns0) && (len d <=? r).
  Lemma mat_len lev dn st d : invA lev dn st -> dn d = false -> In d (map fst ns0) -> length (nget [] (ss_mat st) d) = Nat.min (lev d) (len d) /\ length (nget [] (ss_ns st) d) = len d.
  Proof.
    intros [A B _ _ _ _ _ _] Ed Id. apply nfind_in_iff in Id as [l El]. unfold len, nget. rewrite A, B, Ed, El. cbn [option_map]. rewrite map_length, seq_length. auto.
  Qed.
  Lemma loop_dense r l : forall lev dn st, S r < lmax -> invA lev dn st -> NoDup (map fst l) -> (forall d w, In (d, w) l -> dn d = false /\ In d (map fst ns0) /\ lev d = S r) ->
    exists st', sing_loop ord c y s g l st = Ret st' /\ invA lev (fun e => dn e || (nmem e (map fst l) && nmem e (sc_dense g) && (len e <=? S r))) st'.
  Proof.
    induction l as [|[d w] l IH]; intros lev dn st L I N H.
    - exists st. split; [reflexivity|]. apply (invA_ext lev lev dn _ st); [intros e; cbn; rewrite Bool.orb_false_r; reflexivity|intros; reflexivity|exact I].
    - cbn [sing_loop]. cbn [map fst] in N. inversion N as [|? ? N1 N2]; subst. destruct (H d w (or_introl eq_refl)) as [H1 [H2 H3]]. destruct (mat_len lev dn st d I H1 H2) as [M1 M2]. rewrite M1, M2, H3.
      assert (Nl : nmem d (map fst l) = false) by (apply nmem_false; exact N1).
      destruct (Nat.eqb_spec (Nat.min (S r) (len d)) (len d)) as [E|E]; [destruct (nmem d (sc_dense g)) eqn:Dd|].
      + cbn [orb andb]. destruct (Nat.eqb_spec d (sc_max g)) as [X|X]; [exfalso; rewrite X, (pl_max_sparse _ _ _ _ _ _ _ PL) in Dd; discriminate|].
        apply nfind_in_iff in H2 as [ld El]. assert (Ll : length ld <= lev d) by (rewrite H3; unfold len, nget in E; rewrite El in E; lia).
        destruct (dense_ok lev dn st d ld I H1 El Dd Ll) as [q [Eq I']]. rewrite Eq. cbn [obind].
        destruct (IH lev (fun e => dn e || (e =? d)) _ L I' N2) as [st' [Es I2]].
        * intros e w' J. assert (Ne : e <> d) by (intros ->; apply N1; apply in_map_iff; exists (d, w'); auto). destruct (H e w' (or_intror J)) as [X1 X2]. split; [|exact X2]. rewrite X1. apply Nat.eqb_neq. exact Ne.
        * exists st'. split; [exact Es|]. apply (invA_ext lev lev _ _ st') with (3 := I2); [|intros; reflexivity]. intros e. cbn beta. cbn [map fst]. unfold nmem at 3. cbn [existsb]. fold (nmem e (map fst l)).
          destruct (Nat.eqb_spec e d) as [->|Ne]; cbn [orb andb]; [|destruct (dn e); reflexivity]. rewrite Nl, Dd. destruct (Nat.leb_spec (len d) (S r)); [|lia]. destruct (dn d); reflexivity.
      + cbn [orb]. destruct (Nat.eqb_spec d (sc_max g)) as [X|X]; [exfalso; subst d; unfold lmax in L; unfold len in E; lia|]. cbn [andb].
        destruct (IH lev dn st L I N2) as [st' [Es I2]]; [intros e w' J; apply (H e w'); right; exact J|]. exists st'. split; [exact Es|].
        apply (invA_ext lev lev _ _ st') with (3 := I2); [|intros; reflexivity]. intros e. cbn beta. cbn [map fst]. unfold nmem at 3. cbn [existsb]. fold (nmem e (map fst l)).
        destruct (Nat.eqb_spec e d) as [->|Ne]; cbn [orb andb]; [|reflexivity]. rewrite Nl, Dd. reflexivity.
      + rewrite Bool.andb_false_r. destruct (IH lev dn st L I N2) as [st' [Es I2]]; [intros e w' J; apply (H e w'); right; exact J|]. exists st'. split; [exact Es|].
        apply (invA_ext lev lev _ _ st') with (3 := I2); [|intros; reflexivity]. intros e. cbn beta. cbn [map fst]. unfold nmem at 3. cbn [existsb]. fold (nmem e (map fst l)).
        destruct (Nat.eqb_spec e d) as [->|Ne]; cbn [orb andb]; [|reflexivity]. rewrite Nl. destruct (Nat.leb_spec (len d) (S r)); [lia|]. destruct (dn d), (nmem d (sc_dense g)); reflexivity.
  Qed.
  (** a ray before the greatest part is complete *)
  Definition stateA (r : nat) (st : sside K) : Prop := invA (fun _ => r) (dnr r) st.
  Lemma keysA r st d : stateA r st -> (In d (map fst (ss_ns st)) <-> In d (map fst ns0) /\ dnr r d = false).
  Proof.
    intros I. rewrite nfind_in_iff, (ia_ns _ _ _ I d). destruct (dnr r d); [split; [intros [a X]; discriminate|intros [_ X]; discriminate]|]. rewrite <- nfind_in_iff. tauto.
  Qed.
  Lemma push_rayA r st (l : list (nat * K)) : stateA r st -> Permutation (map fst l) (map fst (ss_ns st)) -> (forall d w, In (d, w) l -> w = rv d (S r)) ->
    invA (fun _ => S r) (dnr r) (fold_left sing_push (ord _ l) st) /\ NoDup (map fst (ord _ l)) /\ (forall d w, In (d, w) (ord _ l) -> dnr r d = false /\ In d (map fst ns0)) /\
    (forall d, In d (map fst (ord _ l)) <-> In d (map fst ns0) /\ dnr r d = false).
  Proof.
    intros I Pm H. assert (Pm' : Permutation (map fst (ord _ l)) (map fst (ss_ns st))) by (eapply Permutation_trans; [apply Permutation_map; apply Ho|exact Pm]).
    assert (N : NoDup (map fst (ord _ l))) by (apply (Permutation_NoDup (Permutation_sym Pm')); apply (ia_nd _ _ _ I)).
    assert (Kk : forall d, In d (map fst (ord _ l)) <-> In d (map fst ns0) /\ dnr r d = false).
    { intros d. rewrite <- (keysA r st d I). split; intros X; [apply (Permutation_in _ Pm'); exact X|apply (Permutation_in _ (Permutation_sym Pm')); exact X]. }
    assert (Kw : forall d w, In (d, w) (ord _ l) -> dnr r d = false /\ In d (map fst ns0)) by (intros d w J; destruct (proj1 (Kk d)) as [X1 X2]; [apply in_map_iff; exists (d, w); auto|auto]).
    split; [|split; [exact N|split; [exact Kw|exact Kk]]].
    eapply invA_ext; [| |apply (pushes_ok r (ord _ l) (fun _ => r) (dnr r) st I N)]; [reflexivity| |].
    - intros d Hd Id. cbn beta. rewrite (proj2 (nmem_In d (map fst (ord _ l)))); [reflexivity|]. apply Kk. auto.
    - intros d w J. destruct (Kw d w J) as [X1 X2]. rewrite (in_ord_any ord Ho) in J. repeat split; try assumption. apply H. exact J.
  Qed.
  Theorem rayA r st l : stateA r st -> S r < lmax -> Permutation (map fst l) (map fst (ss_ns st)) -> (forall d w, In (d, w) l -> w = rv d (S r)) ->
    exists st', sing_file ord c y s g l st = Ret st' /\ stateA (S r) st'.
  Proof.
    intros I L Pm H. destruct (push_rayA r st l I Pm H) as [I1 [N [Kw Kk]]]. unfold sing_file.
    destruct (loop_dense r (ord _ l) (fun _ => S r) (dnr r) _ L I1 N) as [st' [Es I2]]; [intros d w J; destruct (Kw d w J); auto|].
    exists st'. split; [exact Es|]. apply (invA_ext _ _ _ _ st') with (3 := I2); [|intros; reflexivity]. intros d. cbn beta.
    destruct (nmem d (map fst (ord _ l))) eqn:M.
    - apply nmem_In in M. apply Kk in M as [X1 X2]. rewrite X2. cbn [orb andb]. unfold dnr. rewrite (proj2 (nmem_In d (map fst ns0)) X1). rewrite Bool.andb_true_r. reflexivity.
    - cbn [andb]. rewrite Bool.orb_false_r. unfold dnr. destruct (nmem d (sc_dense g)) eqn:Dd; [|reflexivity]. destruct (nmem d (map fst ns0)) eqn:Nd; [|reflexivity]. cbn [andb].
      assert (X : dnr r d = true). { destruct (dnr r d) eqn:Z; [reflexivity|]. exfalso. apply nmem_false in M. apply M. apply Kk. split; [apply nmem_In; exact Nd|exact Z]. }
      unfold dnr in X. rewrite Dd, Nd in X. cbn [andb] in X. rewrite X. symmetry. apply Nat.leb_le. apply Nat.leb_le in X. lia.
  Qed.

  (** ---- the greatest part is complete: all other degrees are solved, from the highest down ---- *)
  (** the contributions of the degrees above k to degree d *)
  Definition above (k d : nat) (x : nat -> K) : K := fsum (S G) (fun j => if (k <? j) && (d <? j) then contrib' j d x else f0).
  Lemma above_step k d x : 0 < k <= G -> above (k - 1) d x = (above k d x + (if d <? k then contrib' k d x else f0))%K.
  Proof.
    intros L. unfold above. rewrite (fsum_upd HK (S G) k _ (fun j => if (k <? j) && (d <? j) then contrib' j d x else f0)); [|lia|].
    - destruct (Nat.ltb_spec (k - 1) k); [|lia]. destruct (Nat.ltb_spec k k); [lia|]. cbn [andb]. destruct (d <? k); ring.
    - intros j Hj Nj. destruct (Nat.ltb_spec (k - 1) j); destruct (Nat.ltb_spec k j); try reflexivity; lia.
  Qed.
  Lemma above_top d x : above G d x = f0.
  Proof. unfold above. apply (fsum_0 HK). intros j Hj. destruct (Nat.ltb_spec G j); [lia|reflexivity]. Qed.
  Lemma part_above d x : d <= G -> Hs' d x = (Hp' d x + above d d x)%K.
  Proof.
    intros L. rewrite (translated_part HK ord Ho c s G P Ps v Hn HP HPs NP HV Hv Hchar HG d x L). f_equal. unfold above. apply fsum_ext. intros j Hj. destruct (d <? j); reflexivity.
  Qed.

  Definition hp_known (k : nat) (b : bool) (d : nat) : bool := nmem d (sc_dense g) || (k <? d) || ((d =? 0) && b).
  Record invB (k : nat) (b : bool) (st : sside K) : Prop := mk_invB {
    ib_ns : forall d, nfind (ss_ns st) d = if hp_known k b d then None else nfind ns0 d;
    ib_mat : forall d, nfind (ss_mat st) d = if hp_known k b d then None else option_map (fun l => map (fun j => rv d (S j)) (seq 0 (length l))) (nfind ns0 d);
    ib_sol : forall d, match nfind (ss_solved st) d with
      | Some q => In d (map fst ns0) /\ if nmem d (sc_dense g) then hrepr' d (Hs' d) q else hp_known k b d = true /\ (if nmem d (sc_zero g) then q = zero_poly c else hrepr' d (Hp' d) q)
      | None => ~ In d (map fst ns0) \/ hp_known k b d = false end;
    ib_keys : map fst (ss_sub st) = seq 0 (S G);
    ib_sub : forall d, d <= G -> subrepr' d (above k d) (nget no_poly (ss_sub st) d);
    ib_clean : forall d, clean c (nget no_poly (ss_sub st) d);
    ib_cnt : length (ss_ns st) + ss_count st = length ns0;
    ib_nd : NoDup (map fst (ss_ns st));
    ib_nds : NoDup (map fst (ss_solved st))
  }.
  Lemma sub0_get d : d <= G -> nget no_poly sub0 d = zero_poly c.
  Proof.
    intros L. unfold sub0. assert (X : forall l, In d l -> nget no_poly (map (fun i => (i, zero_poly (K:=K) c)) l) d = zero_poly c).
    { induction l as [|i l IH]; intros I; [contradiction|]. unfold nget. cbn. destruct (Nat.eqb_spec d i) as [->|Ne]; [reflexivity|]. destruct I as [->|I]; [contradiction|]. apply IH. exact I. }
    apply X. apply in_seq. lia.
  Qed.
  Lemma sub0_out d : G < d -> nget no_poly sub0 d = no_poly.
  Proof. intros L. apply nget_out. unfold sub0. rewrite map_map. cbn [fst]. rewrite map_id. intros X. apply in_seq in X. lia. Qed.
  Lemma invAB r st : S r = lmax -> invA (fun _ => S r) (dnr r) st -> invB G false st.
  Proof.
    intros L [A B C D E F H I]. assert (DN : forall d, In d (map fst ns0) -> dnr r d = nmem d (sc_dense g)).
    { intros d J. unfold dnr. rewrite (proj2 (nmem_In d (map fst ns0)) J). destruct (nmem d (sc_dense g)) eqn:Dd; [|reflexivity]. cbn [andb]. apply nfind_in_iff in J as [l El].
      destruct (pl_dense _ _ _ _ _ _ _ PL d l El Dd) as [X _]. fold lmax in X. apply Nat.leb_le. unfold len, nget. rewrite El. lia. }
    assert (HK0 : forall d, In d (map fst ns0) -> hp_known G false d = nmem d (sc_dense g)).
    { intros d J. unfold hp_known. pose proof (pl_le _ _ _ _ _ _ _ PL d J). destruct (Nat.ltb_spec G d); [lia|]. rewrite Bool.andb_false_r, !Bool.orb_false_r. reflexivity. }
    constructor; try assumption.
    - intros d. rewrite A. destruct (nfind ns0 d) as [l|] eqn:El; [|destruct (dnr r d), (hp_known G false d); reflexivity]. assert (J : In d (map fst ns0)) by (apply nfind_in_iff; exists l; exact El). rewrite DN, HK0 by exact J. reflexivity.
    - intros d. rewrite B. destruct (nfind ns0 d) as [l|] eqn:El; [|destruct (dnr r d), (hp_known G false d); reflexivity]. assert (J : In d (map fst ns0)) by (apply nfind_in_iff; exists l; exact El). rewrite DN, HK0 by exact J.
      destruct (nmem d (sc_dense g)); [reflexivity|]. cbn [option_map]. destruct (pl_len _ _ _ _ _ _ _ PL d l El) as [_ [_ X]]. fold lmax in X. rewrite Nat.min_r by lia. reflexivity.
    - intros d. specialize (C d). destruct (nfind (ss_solved st) d) as [q|].
      + destruct C as [C1 C2]. destruct (D d C1) as [D1 D2]. split; [exact D2|]. rewrite D1. exact C2.
      + destruct (in_dec Nat.eq_dec d (map fst ns0)) as [J|J]; [|left; exact J]. right. rewrite HK0, <- DN by exact J. exact C.
    - rewrite E. unfold sub0. rewrite map_map. cbn [fst]. apply map_id.
    - intros d Ld. rewrite E, sub0_get by exact Ld. apply (subrepr_ext c d (fun _ => f0)); [intros x; symmetry; apply above_top|]. apply (zero_poly_sub HK c G Hn).
    - intros d. rewrite E. destruct (Nat.le_gt_cases d G) as [Ld|Ld]; [rewrite sub0_get by exact Ld; apply clean_zero|]. rewrite sub0_out by exact Ld. intros e a [].
  Qed.
  (** a degree without contributions *)
  Lemma no_contrib k st d : 0 < k <= G -> hom k P = [] -> d <= G -> subrepr' d (above k d) (nget no_poly (ss_sub st) d) -> subrepr' d (above (k - 1) d) (nget no_poly (ss_sub st) d).
  Proof.
    intros Lk E Ld R. apply (subrepr_ext c d (above k d)); [|exact R]. intros x. rewrite above_step by exact Lk. destruct (Nat.ltb_spec d k) as [L|L]; [|ring].
    rewrite (contrib_absent HK ord Ho c s G P v Hn HP NP Hv Hchar HG k d x Lk) by (try exact E; lia). ring.
  Qed.
  Lemma poly_ok_sub k b st : invB k b st -> forall d, poly_ok n (pf_coefs (nget no_poly (ss_sub st) d)) /\ clean c (nget no_poly (ss_sub st) d).
  Proof.
    intros I d. split; [|apply (ib_clean _ _ _ I)]. destruct (Nat.le_gt_cases d G) as [L|L]; [apply (ib_sub _ _ _ I d L)|]. rewrite nget_out; [split; constructor|]. rewrite (ib_keys _ _ _ I). intros X. apply in_seq in X. lia.
  Qed.
  (** the contributions of degree k are added *)
  Lemma add_contrib k b st l : 0 < k <= G -> invB k b st -> map fst l = seq 0 k -> (forall e, e < k -> subrepr' e (contrib' k e) (nget no_poly l e)) ->
    map fst (add_subs ord (ss_sub st) l) = seq 0 (S G) /\ (forall d, d <= G -> subrepr' d (above (k - 1) d) (nget no_poly (add_subs ord (ss_sub st) l) d)) /\
    (forall d, clean c (nget no_poly (add_subs ord (ss_sub st) l) d)).
  Proof.
    intros Lk I Kl Hl. destruct (add_subs_ok HK ord Ho c l (ss_sub st) (above k) (contrib' k)) as [S1 S2].
    - rewrite Kl. apply seq_NoDup.
    - intros d. rewrite Kl, (ib_keys _ _ _ I), !in_seq. lia.
    - intros d. rewrite (ib_keys _ _ _ I), in_seq. intros Ld. apply (ib_sub _ _ _ I). lia.
    - intros d. rewrite Kl, in_seq. intros Ld. apply Hl. lia.
    - split; [rewrite S1; apply (ib_keys _ _ _ I)|]. split.
      + intros d Ld. eapply subrepr_ext; [|apply S2; rewrite (ib_keys _ _ _ I); apply in_seq; lia]. intros x. cbn beta. rewrite above_step by exact Lk. rewrite Kl, nmem_seq. reflexivity.
      + apply (clean_add_subs HK ord Ho c).
        * intros d q J. assert (Jd : In d (map fst l)) by (apply in_map_iff; exists (d, q); auto). rewrite Kl in Jd. apply in_seq in Jd. assert (Ld : d < k) by lia. destruct (Hl d Ld) as [_ [O1 _]].
          rewrite (nget_in l no_poly d q) in O1; [exact O1|rewrite Kl; apply seq_NoDup|exact J].
        * apply (poly_ok_sub k b st I).
  Qed.
  Lemma hp_zero k b d : hp_known k true d = hp_known k b d || (d =? 0).
  Proof. unfold hp_known. destruct (nmem d (sc_dense g)), (k <? d), (d =? 0), b; reflexivity. Qed.
  (** degree 0 *)
  Lemma zero_ok k b st : invB k b st -> exists st', sing_zero ord c y g st = Ret st' /\ invB k true st'.
  Proof.
    intros I. unfold sing_zero. rewrite (ib_mat _ _ _ I). destruct (hp_known k b 0) eqn:HK0; [|destruct (nfind ns0 0) as [l|] eqn:El; cbn [option_map]].
    - exists st. split; [reflexivity|]. destruct I as [A B C D E F H I J]. assert (X : forall d, hp_known k true d = hp_known k b d) by (intros d; rewrite (hp_zero k b); destruct (Nat.eqb_spec d 0) as [->|]; [rewrite HK0; reflexivity|apply Bool.orb_false_r]).
      constructor; try assumption; intros d; rewrite X; [apply A|apply B|apply C].
    - assert (Jd : In 0 (map fst ns0)) by (apply nfind_in_iff; exists l; exact El). destruct (pl_const _ _ _ _ _ _ _ PL Jd) as [X|X]; [unfold hp_known in HK0; rewrite X in HK0; discriminate|]. rewrite X.
      assert (Dk : nmem 0 (sc_dense g) = false) by (unfold hp_known in HK0; destruct (nmem 0 (sc_dense g)); [discriminate|reflexivity]).
      eexists. split; [reflexivity|]. destruct I as [A B C D E F H I J].
      assert (Jn : In 0 (map fst (ss_ns st))) by (apply nfind_in_iff; exists l; rewrite A, HK0; exact El).
      constructor; cbn [sing_set ss_ns ss_mat ss_solved ss_sub ss_count]; try assumption.
      + intros d. rewrite nfind_erase, A, (hp_zero k b d). destruct (Nat.eqb_spec d 0); [rewrite Bool.orb_true_r; reflexivity|rewrite Bool.orb_false_r; reflexivity].
      + intros d. rewrite nfind_erase, B, (hp_zero k b d). destruct (Nat.eqb_spec d 0); [rewrite Bool.orb_true_r; reflexivity|rewrite Bool.orb_false_r; reflexivity].
      + intros d. rewrite nfind_set. destruct (Nat.eqb_spec d 0) as [->|Ne].
        * split; [exact Jd|]. rewrite Dk, X. split; [rewrite (hp_zero k b 0); apply Bool.orb_true_r|reflexivity].
        * specialize (C d). rewrite (hp_zero k b d). destruct (Nat.eqb_spec d 0) as [|_]; [contradiction|]. rewrite Bool.orb_false_r. exact C.
      + pose proof (nerase_length (ss_ns st) 0 I Jn). lia.
      + apply nerase_nodup. exact I.
      + apply nset_nodup. exact J.
    - exists st. split; [reflexivity|]. destruct I as [A B C D E F H I J]. assert (X : forall d, d <> 0 -> hp_known k true d = hp_known k b d) by (intros d Nd; rewrite (hp_zero k b); destruct (Nat.eqb_spec d 0); [contradiction|apply Bool.orb_false_r]).
      constructor; try assumption; intros d.
      + destruct (Nat.eq_dec d 0) as [->|Nd]; [rewrite A, El; destruct (hp_known k b 0), (hp_known k true 0); reflexivity|rewrite X by exact Nd; apply A].
      + destruct (Nat.eq_dec d 0) as [->|Nd]; [rewrite B, El; destruct (hp_known k b 0), (hp_known k true 0); reflexivity|rewrite X by exact Nd; apply B].
      + destruct (Nat.eq_dec d 0) as [->|Nd]; [|rewrite X by exact Nd; apply C]. specialize (C 0). assert (N0 : ~ In 0 (map fst ns0)) by (apply nfind_None; exact El). destruct (nfind (ss_solved st) 0) as [q|]; [destruct C; contradiction|left; exact N0].
  Qed.
  Lemma tail_ok k b st : invB k b st -> exists st', (if sc_den g then sing_zero ord c y g st else Ret st) = Ret st' /\ invB k (b || sc_den g) st'.
  Proof. intros I. destruct (sc_den g); [rewrite Bool.orb_true_r; apply (zero_ok k b st I)|rewrite Bool.orb_false_r; exists st; auto]. Qed.
  Lemma hp_step k b d : 0 < k -> hp_known (k - 1) b d = hp_known k b d || (d =? k).
  Proof. intros L. unfold hp_known. destruct (nmem d (sc_dense g)); [reflexivity|]. cbn [orb]. destruct (Nat.ltb_spec (k - 1) d); destruct (Nat.ltb_spec k d); destruct (Nat.eqb_spec d k); destruct (Nat.eqb_spec d 0); destruct b; try reflexivity; lia. Qed.
  (** a degree is solved: the lists *)
  Lemma set_step k b st q sub l : 0 < k <= G -> invB k b st -> nfind ns0 k = Some l -> nmem k (sc_dense g) = false -> (if nmem k (sc_zero g) then q = zero_poly c else hrepr' k (Hp' k) q) ->
    map fst sub = seq 0 (S G) -> (forall d, d <= G -> subrepr' d (above (k - 1) d) (nget no_poly sub d)) -> (forall d, clean c (nget no_poly sub d)) -> invB (k - 1) b (sing_set st k q sub).
  Proof.
    intros Lk I El Dk Hq S1 S2 S3. destruct I as [A B C D E F H I J]. assert (HKk : hp_known k b k = false) by (unfold hp_known; rewrite Dk; destruct (Nat.ltb_spec k k); [lia|]; destruct (Nat.eqb_spec k 0); [lia|reflexivity]).
    assert (Jd : In k (map fst (ss_ns st))) by (apply nfind_in_iff; exists l; rewrite A, HKk; exact El).
    constructor; cbn [sing_set ss_ns ss_mat ss_solved ss_sub ss_count]; try assumption.
    - intros d. rewrite nfind_erase, A, (hp_step k b d (proj1 Lk)). destruct (Nat.eqb_spec d k); [rewrite Bool.orb_true_r; reflexivity|rewrite Bool.orb_false_r; reflexivity].
    - intros d. rewrite nfind_erase, B, (hp_step k b d (proj1 Lk)). destruct (Nat.eqb_spec d k); [rewrite Bool.orb_true_r; reflexivity|rewrite Bool.orb_false_r; reflexivity].
    - intros d. rewrite nfind_set. destruct (Nat.eqb_spec d k) as [->|Ne].
      + split; [apply nfind_in_iff; exists l; exact El|]. rewrite Dk. split; [rewrite (hp_step k b k (proj1 Lk)), Nat.eqb_refl; apply Bool.orb_true_r|exact Hq].
      + specialize (C d). destruct (nfind (ss_solved st) d) as [q'|].
        * destruct C as [C1 C2]. split; [exact C1|]. destruct (nmem d (sc_dense g)); [exact C2|]. destruct C2 as [C2 C3]. split; [rewrite (hp_step k b d (proj1 Lk)), C2; reflexivity|exact C3].
        * destruct C as [C|C]; [left; exact C|right]. rewrite (hp_step k b d (proj1 Lk)), C. cbn [orb]. apply Nat.eqb_neq. exact Ne.
    - pose proof (nerase_length (ss_ns st) k I Jd). lia.
    - apply nerase_nodup. exact I.
    - apply nset_nodup. exact J.
  Qed.
  (** nothing but the subtraction terms changes *)
  Lemma sub_step k b st sub : 0 < k <= G -> invB k b st -> nfind ns0 k = None \/ nmem k (sc_dense g) = true ->
    map fst sub = seq 0 (S G) -> (forall d, d <= G -> subrepr' d (above (k - 1) d) (nget no_poly sub d)) -> (forall d, clean c (nget no_poly sub d)) ->
    invB (k - 1) b (mk_sside (ss_ns st) (ss_mat st) (ss_solved st) sub (ss_count st)).
  Proof.
    intros Lk I Hk S1 S2 S3. destruct I as [A B C D E F H I J]. assert (X : forall d, nfind ns0 d <> None -> hp_known (k - 1) b d = hp_known k b d).
    { intros d Nd. rewrite (hp_step k b d (proj1 Lk)). destruct (Nat.eqb_spec d k) as [->|Ne]; [|apply Bool.orb_false_r]. destruct Hk as [Hk|Hk]; [contradiction|]. unfold hp_known. rewrite Hk. reflexivity. }
    constructor; cbn [ss_ns ss_mat ss_solved ss_sub ss_count]; try assumption.
    - intros d. rewrite A. destruct (nfind ns0 d) eqn:Ed; [rewrite X by (rewrite Ed; discriminate); reflexivity|destruct (hp_known k b d), (hp_known (k - 1) b d); reflexivity].
    - intros d. rewrite B. destruct (nfind ns0 d) eqn:Ed; [rewrite X by (rewrite Ed; discriminate); reflexivity|destruct (hp_known k b d), (hp_known (k - 1) b d); reflexivity].
    - intros d. specialize (C d). destruct (nfind (ss_solved st) d) as [q'|].
      + destruct C as [C1 C2]. split; [exact C1|]. destruct (nmem d (sc_dense g)); [exact C2|]. destruct C2 as [C2 C3]. split; [rewrite (hp_step k b d (proj1 Lk)), C2; reflexivity|exact C3].
      + destruct (nfind ns0 d) as [l|] eqn:Ed; [|left; apply nfind_None; exact Ed]. right. rewrite X by (rewrite Ed; discriminate). destruct C as [C|C]; [|exact C]. exfalso. apply C. apply nfind_in_iff. exists l. exact Ed.
  Qed.
  Lemma seq_val {A} (h : nat -> A) (d0 : A) m i : i < m -> nth i (map h (seq 0 m)) d0 = h i.
  Proof. intros L. rewrite (nth_indep _ d0 (h 0)) by (rewrite map_length, seq_length; exact L). rewrite map_nth, seq_nth by exact L. reflexivity. Qed.
  Lemma remove_shift_val k b st (l : list mon) i : k <= G -> invB k b st -> length l <= lmax -> i < length l ->
    nth i (remove_shift ord c y (nget no_poly (ss_sub st) k) (map (fun j => rv k (S j)) (seq 0 (length l)))) f0 = Hp' k (diag y (S i)).
  Proof.
    intros Lk I Ll Hi. unfold remove_shift. rewrite map_length, seq_length.
    assert (E : combine (seq 0 (length l)) (map (fun j => rv k (S j)) (seq 0 (length l))) = map (fun j => (j, rv k (S j))) (seq 0 (length l))) by (generalize (seq 0 (length l)); intros l9; induction l9 as [|a l9 IH]; [reflexivity|cbn [combine map]; rewrite IH; reflexivity]).
    rewrite E, map_map. cbn [fst snd]. rewrite (seq_val (fun x => fsub (rv k (S x)) (calc_n_m_1 (ord _) (nget no_poly (ss_sub st) k) (ray_vec c y x)))) by exact Hi.
    unfold ray_vec. rewrite (calc_ray HK ord Ho c y G Hn k (above k k)) by (try (apply (ib_sub _ _ _ I k Lk)); lia).
    destruct (ib_sub _ _ _ I k Lk) as [_ [_ [_ V]]]. rewrite V. unfold rv. rewrite (part_above k (diag y (S i)) Lk). ring.
  Qed.
  Lemma finish k b st j : 0 < k -> invB j b st -> exists st' b', (if sc_den g then sing_zero ord c y g st else Ret st) = Ret st' /\ invB j b' st' /\ (b = true \/ (k = G /\ sc_den g = true) -> b' = true).
  Proof. intros L I. destruct (tail_ok j b st I) as [st' [E I']]. exists st', (b || sc_den g). split; [exact E|]. split; [exact I'|]. intros [->|[_ ->]]; [reflexivity|apply Bool.orb_true_r]. Qed.
  Theorem sparse_step k b st : 0 < k <= G -> invB k b st -> exists st' b', sing_sparse ord c y s g k st = Ret st' /\ invB (k - 1) b' st' /\ (b = true \/ (k = G /\ sc_den g = true) -> b' = true).
  Proof.
    intros Lk I. unfold sing_sparse. rewrite (ib_mat _ _ _ I). destruct (hp_known k b k) eqn:HKk; [|destruct (nfind ns0 k) as [l|] eqn:El; cbn [option_map]].
    - (* solved with the shift *)
      assert (Dk : nmem k (sc_dense g) = true) by (unfold hp_known in HKk; destruct (Nat.ltb_spec k k); [lia|]; destruct (Nat.eqb_spec k 0); [lia|]; cbn [andb] in HKk; rewrite !Bool.orb_false_r in HKk; exact HKk).
      pose proof (ib_sol _ _ _ I k) as C. destruct (nfind (ss_solved st) k) as [q|] eqn:Es.
      + destruct C as [C1 C2]. rewrite Dk in C2. destruct (nmem k (sc_zero g)) eqn:Zk.
        * cbn [obind]. assert (I' : invB (k - 1) b st).
          { destruct st as [a a2 d e f]. apply (sub_step k b (mk_sside a a2 d e f) e Lk I); [right; exact Dk|apply (ib_keys _ _ _ I)| |apply (ib_clean _ _ _ I)].
            intros j Lj. apply (no_contrib k (mk_sside a a2 d e f) j Lk (pl_zero _ _ _ _ _ _ _ PL k Zk) Lj). apply (ib_sub _ _ _ I j Lj). }
          apply (finish k b st (k - 1) (proj1 Lk) I').
        * pose proof (ib_sub _ _ _ I k (proj2 Lk)) as R.
          assert (HQ : hrepr' k (Hp' k) (psub_assign (ord _) q (nget no_poly (ss_sub st) k))).
          { destruct C2 as [Q1 [Q2 [Q3 Q4]]]. destruct R as [R1 [R2 [R3 R4]]]. pose proof (psub_assign_ok HK (ord _) (ord_any ord Ho) q (nget no_poly (ss_sub st) k)) as X. rewrite Q1 in X. destruct (X Q2 R2) as [X1 X2].
            split; [exact Q1|]. split; [exact X1|]. split.
            - intros e a J. unfold psub_assign in J. cbn [pf_coefs] in J. apply (sub_entry HK) in J as [J|[a' [Na J]]]; [apply (Q3 e a J)|]. rewrite (in_ord_any ord Ho) in J. apply (R3 e a' J Na).
            - intros x. rewrite X2, Q4, R4. rewrite (part_above k x (proj2 Lk)). ring. }
          destruct (shift_polys_h HK ord Ho c s G P v Hn HP NP Hv Hchar HG _ k Lk HQ) as [l [El [Kl Hl]]]. rewrite El. cbn [obind].
          destruct (add_contrib k b st l Lk I Kl Hl) as [S1 [S2 S3]].
          pose proof (sub_step k b st _ Lk I (or_intror Dk) S1 S2 S3) as I'. apply (finish k b _ (k - 1) (proj1 Lk) I').
      + destruct C as [C|C]; [|rewrite HKk in C; discriminate]. destruct (pl_absent _ _ _ _ _ _ _ PL k (proj2 Lk) C) as [Pk Vk].
        assert (Z : pzero (nget no_poly (ss_sub st) k) = true).
        { apply (pzero_sub HK c G v Hn Hv k (above k k)); [lia|apply (ib_sub _ _ _ I k (proj2 Lk))|apply (ib_clean _ _ _ I)|]. intros x. pose proof (part_above k x (proj2 Lk)) as X. unfold Hs, Hp in X. rewrite (Vk (proj1 Lk) x), Pk in X. cbn in X. rewrite X. ring_simplify. reflexivity. }
        rewrite Z. rewrite Bool.andb_false_r. cbn [obind]. apply (finish k b st (k - 1) (proj1 Lk)).
          destruct st as [a a2 d e f]. apply (sub_step k b (mk_sside a a2 d e f) e Lk I); [right; exact Dk|apply (ib_keys _ _ _ I)| |apply (ib_clean _ _ _ I)].
          intros j Lj. apply (no_contrib k (mk_sside a a2 d e f) j Lk Pk Lj). apply (ib_sub _ _ _ I j Lj).
    - (* solved now *)
      assert (Dk : nmem k (sc_dense g) = false) by (unfold hp_known in HKk; destruct (nmem k (sc_dense g)); [discriminate|reflexivity]).
      destruct (pl_len _ _ _ _ _ _ _ PL k l El) as [Ne [Nd Ll]]. fold lmax in Ll. destruct (nmem k (sc_zero g)) eqn:Zk.
      + exists (sing_set st k (zero_poly c) (ss_sub st)), b. split; [reflexivity|]. split; [|intros [X|[X _]]; [exact X|subst k; exfalso; apply (proj2 (pl_top _ _ _ _ _ _ _ PL)); apply (pl_zero _ _ _ _ _ _ _ PL G Zk)]]. apply (set_step k b st _ _ l Lk I El Dk); [rewrite Zk; reflexivity|apply (ib_keys _ _ _ I)| |apply (ib_clean _ _ _ I)].
        intros j Lj. apply (no_contrib k st j Lk (pl_zero _ _ _ _ _ _ _ PL k Zk) Lj). apply (ib_sub _ _ _ I j Lj).
      + destruct (pl_sparse _ _ _ _ _ _ _ PL k l El Dk Zk) as [F1 F2].
        assert (N : nget [] (ss_ns st) k = l) by (unfold nget; rewrite (ib_ns _ _ _ I), HKk, El; reflexivity). rewrite N.
        set (vals := if k <? sc_deg g then _ else _).
        assert (Hvals : forall i, i < length l -> nth i vals f0 = Hp' k (diag y (S i))).
        { intros i Hi. unfold vals. rewrite (pl_deg _ _ _ _ _ _ _ PL). destruct (Nat.ltb_spec k G) as [L|L].
          - apply (remove_shift_val k b); [lia|exact I|exact Ll|exact Hi].
          - assert (k = G) by lia. subst k. rewrite (seq_val (fun j => rv G (S j))) by exact Hi. unfold rv. rewrite (part_above G _ (le_n G)), above_top. ring. }
        destruct (solve_superset HK c y G Hn anchors l (hom k P) (fun i => nth i vals f0) k Ne Nd F1 (nodup_hom k P NP) F2 (pl_apart _ _ _ _ _ _ _ PL k l El) Hvals) as [q [Eq Rq]].
        rewrite Eq. cbn [obind]. destruct (shift_polys_h HK ord Ho c s G P v Hn HP NP Hv Hchar HG q k Lk Rq) as [ls [Es [Kl Hl]]]. rewrite Es. cbn [obind].
        destruct (add_contrib k b st ls Lk I Kl Hl) as [S1 [S2 S3]].
        assert (I' : invB (k - 1) b (sing_set st k q (add_subs ord (ss_sub st) ls))) by (apply (set_step k b st q _ l Lk I El Dk); [rewrite Zk; exact Rq|exact S1|exact S2|exact S3]).
        apply (finish k b _ (k - 1) (proj1 Lk) I').
    - (* no such degree *)
      assert (C : ~ In k (map fst ns0)) by (apply nfind_None; exact El). pose proof (ib_sol _ _ _ I k) as X. destruct (nfind (ss_solved st) k) as [q|]; [destruct X; contradiction|]. clear X.
      destruct (pl_absent _ _ _ _ _ _ _ PL k (proj2 Lk) C) as [Pk Vk].
      assert (Z : pzero (nget no_poly (ss_sub st) k) = true).
      { apply (pzero_sub HK c G v Hn Hv k (above k k)); [lia|apply (ib_sub _ _ _ I k (proj2 Lk))|apply (ib_clean _ _ _ I)|]. intros x. pose proof (part_above k x (proj2 Lk)) as X. unfold Hs, Hp in X. rewrite (Vk (proj1 Lk) x), Pk in X. cbn in X. rewrite X. ring_simplify. reflexivity. }
      rewrite Z. rewrite Bool.andb_false_r. cbn [obind]. apply (finish k b st (k - 1) (proj1 Lk)).
        destruct st as [a a2 d e f]. apply (sub_step k b (mk_sside a a2 d e f) e Lk I); [left; exact El|apply (ib_keys _ _ _ I)| |apply (ib_clean _ _ _ I)].
        intros j Lj. apply (no_contrib k (mk_sside a a2 d e f) j Lk Pk Lj). apply (ib_sub _ _ _ I j Lj).
  Qed.
  Lemma sparse_all m : forall b st, m <= G -> invB m b st -> exists st' b', sing_sparse_all ord c y s g (rev (seq 1 m)) st = Ret st' /\ invB 0 b' st' /\ (b = true \/ (m = G /\ sc_den g = true) -> b' = true).
  Proof.
    induction m as [|m IH]; intros b st L I.
    - exists st, b. split; [reflexivity|]. split; [exact I|]. intros [X|[X _]]; [exact X|]. pose proof (proj1 (pl_top _ _ _ _ _ _ _ PL)). lia.
    - rewrite seq_S, rev_app_distr. cbn [rev app sing_sparse_all]. replace (1 + m) with (S m) by lia.
      destruct (sparse_step (S m) b st ltac:(lia) I) as [st1 [b1 [E1 [I1 T1]]]]. rewrite E1. cbn [obind]. replace (S m - 1) with m in I1 by lia.
      destruct (IH b1 st1 ltac:(lia) I1) as [st2 [b2 [E2 [I2 T2]]]]. exists st2, b2. split; [exact E2|]. split; [exact I2|]. intros X. apply T2. left. apply T1. exact X.
  Qed.
  (** the side is complete *)
  Lemma invB_done st : invB 0 true st -> ss_ns st = [] /\ ss_mat st = [] /\ ss_count st = length ns0.
  Proof.
    intros I. assert (X : forall d, hp_known 0 true d = true) by (intros [|d]; unfold hp_known; cbn; rewrite !Bool.orb_true_r; reflexivity).
    assert (N : ss_ns st = []) by (apply nfind_none_nil; intros d; rewrite (ib_ns _ _ _ I), X; reflexivity).
    split; [exact N|]. split; [apply nfind_none_nil; intros d; rewrite (ib_mat _ _ _ I), X; reflexivity|].
    pose proof (ib_cnt _ _ _ I) as C. rewrite N in C. exact C.
  Qed.
  Lemma loop_sparse r l : forall st, S r = lmax -> invA (fun _ => S r) (dnr r) st -> (forall d w, In (d, w) l -> dnr r d = false /\ In d (map fst ns0)) -> In (sc_max g) (map fst l) ->
    exists st', sing_loop ord c y s g l st = Ret st' /\ invB 0 true st'.
  Proof.
    induction l as [|[d w] l IH]; intros st L I H J; [contradiction|]. cbn [sing_loop]. destruct (H d w (or_introl eq_refl)) as [H1 H2]. destruct (mat_len _ _ st d I H1 H2) as [M1 M2]. rewrite M1, M2.
    destruct (Nat.eqb_spec d (sc_max g)) as [->|Ne].
    - rewrite Bool.orb_true_r. unfold len at 1 2. fold lmax. rewrite <- L, Nat.min_id, Nat.eqb_refl. cbn [andb]. rewrite (pl_deg _ _ _ _ _ _ _ PL).
      destruct (sparse_all G false st (le_n G) (invAB r st L I)) as [st' [b' [E [I' T]]]]. rewrite E. cbn [obind]. destruct (sc_den g) eqn:Dn.
      + exists st'. split; [reflexivity|]. rewrite (T (or_intror (conj eq_refl eq_refl))) in I'. exact I'.
      + apply (zero_ok 0 b' st' I').
    - assert (Dd : nmem d (sc_dense g) = false).
      { destruct (nmem d (sc_dense g)) eqn:Dd; [|reflexivity]. exfalso. unfold dnr in H1. rewrite Dd, (proj2 (nmem_In d (map fst ns0)) H2) in H1. cbn [andb] in H1. apply Nat.leb_gt in H1.
        apply nfind_in_iff in H2 as [ld El]. destruct (pl_dense _ _ _ _ _ _ _ PL d ld El Dd) as [X _]. fold lmax in X. unfold len, nget in H1. rewrite El in H1. lia. }
      rewrite Dd. cbn [orb andb]. apply IH; [exact L|exact I|intros e w' J'; apply (H e w'); right; exact J'|]. destruct J as [J|J]; [exfalso; apply Ne; exact J|exact J].
  Qed.
  Theorem rayB r st l : stateA r st -> S r = lmax -> Permutation (map fst l) (map fst (ss_ns st)) -> (forall d w, In (d, w) l -> w = rv d (S r)) ->
    exists st', sing_file ord c y s g l st = Ret st' /\ invB 0 true st'.
  Proof.
    intros I L Pm H. destruct (push_rayA r st l I Pm H) as [I1 [N [Kw Kk]]]. unfold sing_file. apply (loop_sparse r (ord _ l)); [exact L|exact I1|exact Kw|]. apply Kk. split; [apply (pl_max _ _ _ _ _ _ _ PL)|].
    unfold dnr. rewrite (pl_max_sparse _ _ _ _ _ _ _ PL). reflexivity.
  Qed.
  (** nothing happens afterwards *)
  Lemma rayC st : sing_file ord c y s g [] st = Ret st.
  Proof. unfold sing_file. assert (E : ord (nat * K)%type [] = []) by (apply Permutation_nil; apply Permutation_sym; apply Ho). rewrite E. reflexivity. Qed.
End Side.

(** For a fixed univariate polynomial only few base points end a univariate interpolation too early (no modelling here). *)
From Coq Require Import Permutation.
From Verif Require Import Machine FField FSum FPoly LinAlg LinAlgProofs Det BMSpec BTProofs RatUniThiele PolyRecSpec PolyRecMath AnchorLead.
Open Scope nat_scope.

Section Terms.
  Context {K : fops} (HK : flaws K).
  Add Field KF : (fl_field K HK).
  Implicit Types (ts : list (nat * K)).

  Lemma max_term : forall ts, ts <> [] -> NoDup (map fst ts) -> exists M c rest, Permutation ts ((M, c) :: rest) /\ forall t, In t rest -> fst t < M.
  Proof.
    induction ts as [|[m a] ts IH]; intros N D; [congruence|]. cbn [map fst] in D. apply NoDup_cons_iff in D as [D1 D2]. destruct ts as [|t0 ts'] eqn:E; [exists m, a, []; split; [reflexivity|intros ? []]|]. rewrite <- E in *.
    destruct (IH ltac:(rewrite E; discriminate) D2) as [M [c [rest [P H]]]]. assert (Nm : m <> M) by (intros ->; apply D1; apply (Permutation_in _ (Permutation_map fst (Permutation_sym P))); left; reflexivity).
    destruct (Nat.lt_ge_cases m M) as [L|L].
    - exists M, c, ((m, a) :: rest). split; [rewrite P; apply perm_swap|]. intros t [<-|I]; [exact L|apply H; exact I].
    - exists m, a, ts. split; [reflexivity|]. intros t I. apply (Permutation_in _ P) in I as [<-|I]; [cbn [fst]; lia|]. specialize (H t I). lia.
  Qed.
  Lemma sorted_terms : forall ts, NoDup (map fst ts) -> exists ts', Permutation ts ts' /\ forall i j, i < j -> j < length ts' -> fst (nth j ts' (0, f0)) < fst (nth i ts' (0, f0)).
  Proof.
    intros ts. remember (length ts) as k eqn:E. revert ts E. induction k as [|k IH]; intros ts E N; [exists []; split; [destruct ts; [reflexivity|discriminate E]|cbn; lia]|].
    destruct (max_term ts) as [M [c [rest [P H]]]]; [intros ->; discriminate E|exact N|]. assert (Lr : length rest = k) by (apply Permutation_length in P; cbn [length] in P; lia).
    assert (Nr : NoDup (map fst rest)) by (apply (Permutation_NoDup (Permutation_map fst P)) in N; cbn [map] in N; apply NoDup_cons_iff in N as [_ N]; exact N).
    destruct (IH rest ltac:(lia) Nr) as [ts' [P' H']]. exists ((M, c) :: ts'). split; [rewrite P; constructor; exact P'|]. intros [|i] [|j] Hi Hj; try lia; cbn [nth length] in *.
    - apply H. apply (Permutation_in _ (Permutation_sym P')). apply nth_In. lia.
    - apply H'; lia.
  Qed.
  Lemma tval_perm ts ts' x : Permutation ts ts' -> tval ts x = tval ts' x.
  Proof. intros P. rewrite !tval_lsum. apply (lsum_perm HK). exact P. Qed.
  Lemma lsum_lead0 d (phi : nat -> K -> K) ts : (forall t, In t ts -> lead d f0 (phi (fst t))) -> lead d f0 (fun z => lsum (fun t => snd t * phi (fst t) z)%K ts).
  Proof.
    induction ts as [|t ts IH]; intros H; [apply (lead_zero HK)|]. apply (lead_ext _ _ (fun z => snd t * phi (fst t) z + lsum (fun t => snd t * phi (fst t) z) ts)%K); [|intros; reflexivity].
    replace (@f0 K) with (snd t * f0 + f0)%K at 1 by ring. apply (lead_add HK); [apply (lead_scale HK); apply H; left; reflexivity|apply IH; intros; apply H; right; assumption].
  Qed.
  Lemma lsum_lead d a (phi : nat -> K -> K) ts M c rest : Permutation ts ((M, c) :: rest) -> lead d a (phi M) -> (forall t, In t rest -> lead d f0 (phi (fst t))) -> lead d (c * a)%K (fun z => lsum (fun t => snd t * phi (fst t) z)%K ts).
  Proof.
    intros P H0 H. apply (lead_ext _ _ (fun z => c * phi M z + lsum (fun t => snd t * phi (fst t) z) rest)%K); [|intros z; rewrite (lsum_perm HK _ _ _ P); reflexivity].
    replace (c * a)%K with (c * a + f0)%K by ring. apply (lead_add HK); [apply (lead_scale HK); exact H0|apply lsum_lead0; exact H].
  Qed.

  (** ---- Newton: differences at the powers of z ---- *)
  Fixpoint dd (z : K) (k : nat) (u : nat -> K) : nat -> K := match k with O => u | S s => fun i => (dd z s u (S i) - pw z s * dd z s u i)%K end.
  Lemma dd_ext z k : forall u v i, (forall l, l <= k -> u (i + l) = v (i + l)) -> dd z k u i = dd z k v i.
  Proof.
    induction k as [|k IH]; intros u v i H; cbn [dd]; [specialize (H 0 ltac:(lia)); rewrite Nat.add_0_r in H; exact H|]. rewrite (IH u v (S i)), (IH u v i); [reflexivity| |]; intros l Hl; [apply H; lia|replace (S i + l) with (i + S l) by lia; apply H; lia].
  Qed.
  Lemma dd_terms z k ts : forall i, dd z k (fun i => tval ts (pw z (S i))) i = lsum (fun t => snd t * (pw (pw z (fst t)) (S i) * nodal k (pw z) (pw z (fst t))))%K ts.
  Proof.
    induction k as [|k IH]; intros i; cbn [dd nodal].
    - rewrite tval_lsum. apply lsum_ext. intros t _. rewrite !(pw_pw HK), (Nat.mul_comm (S i)). ring.
    - rewrite !IH. clear IH. induction ts as [|t ts IH]; [unfold lsum; cbn; ring|]. rewrite !lsum_cons, <- IH. cbn [pw]. ring.
  Qed.
  Lemma ueval_terms k a (x : K) : ueval k a x = tval (map (fun m => (m, a m)) (seq 0 k)) x.
  Proof.
    unfold ueval. induction k as [|k IH]; [reflexivity|]. cbn [fsum]. rewrite IH, seq_S, map_app, !tval_lsum, (lsum_app HK). cbn [map Nat.add]. rewrite lsum_cons. cbn [fst snd]. unfold lsum at 3. cbn [fold_right]. ring.
  Qed.
  Lemma terms_low k ts : (forall t, In t ts -> fst t < k) -> exists a, forall x, tval ts x = ueval k a x.
  Proof.
    induction ts as [|[m c] ts IH]; intros H; [exists (fun _ => f0); intros x; symmetry; apply (ueval_0 HK); intros; reflexivity|]. destruct IH as [a A]; [intros; apply H; right; assumption|]. pose proof (H _ (or_introl eq_refl)) as Lm. cbn [fst] in Lm.
    pose proof (lead_deg _ _ _ (lead_pw HK m)) as Dm. apply (deg_up HK _ (k - 1)) in Dm; [|lia]. destruct Dm as [b [b' [_ B]]]. replace (S (k - 1)) with k in B by lia. exists (fun i => c * b' i + a i)%K. intros x. rewrite (ueval_add HK), (ueval_scale HK), <- B, <- A. reflexivity.
  Qed.
  Lemma newton_poly D ts k : ts <> [] -> NoDup (map fst ts) -> (forall t, In t ts -> fst t <= D) -> k <= D ->
    exists a g d, d <= D * (D + 1) /\ lead d a g /\ ((forall t, In t ts -> snd t <> f0) -> a <> f0) /\ forall z, distinct (D + 2) (pw z) -> g z <> f0 ->
      forall h, of_degree_below k h -> (forall i, i <= k -> h (pw z (S i)) = tval ts (pw z (S i))) -> forall x, h x = tval ts x.
  Proof.
    intros Ne N HD Hk. destruct (max_term ts Ne N) as [M [c [rest [P H]]]]. assert (IM : In (M, c) ts) by (apply (Permutation_in _ (Permutation_sym P)); left; reflexivity). pose proof (HD _ IM) as LM. cbn [fst] in LM.
    destruct (Nat.le_gt_cases k M) as [C|C].
    - pose (phi := fun (m : nat) (z : K) => (pw z m * nodal k (pw z) (pw z m))%K). exists (c * f1)%K, (fun z => lsum (fun t => snd t * phi (fst t) z)%K ts), (M + k * M). split; [nia|]. split; [|split].
      + apply (lsum_lead (M + k * M) f1 phi ts M c rest P).
        * unfold phi. replace (@f1 K) with (@f1 K * f1)%K by ring. apply (lead_mul HK); [apply (lead_pw HK)|]. apply (lead_nodal_hi HK (fun l => l)). intros; lia.
        * intros [m b] I. cbn [fst]. specialize (H _ I). cbn [fst] in H. unfold phi. destruct (Nat.lt_ge_cases m k) as [L|L].
          -- apply (lead_ext _ _ (fun _ => f0)); [apply (lead_zero HK)|]. intros z. assert (Z : nodal k (pw z) (pw z m) = f0) by (apply (nodal_0 HK); exists m; split; [exact L|reflexivity]). rewrite Z. ring.
          -- apply (deg_lead0 HK (m + k * m)); [|nia]. apply (deg_mul HK); [apply (lead_deg _ _ _ (lead_pw HK m))|]. apply (lead_deg _ _ _ (lead_nodal_hi HK (fun l => l) m k ltac:(intros; lia))).
      + intros Nz. pose proof (Nz _ IM) as Nc. cbn [snd] in Nc. intros E. apply Nc. rewrite <- E. ring.
      + intros z _ Gz h [a Ha] Hh. exfalso. apply Gz.
        assert (E1 : dd z k (fun i => tval ts (pw z (S i))) 0 = dd z k (fun i => tval (map (fun m => (m, a m)) (seq 0 k)) (pw z (S i))) 0).
        { apply dd_ext. intros l Hl. cbn [Nat.add]. rewrite <- ueval_terms, <- Ha. symmetry. apply Hh. exact Hl. }
        rewrite !dd_terms in E1. transitivity (lsum (fun t => snd t * (pw (pw z (fst t)) 1 * nodal k (pw z) (pw z (fst t))))%K ts).
        * apply lsum_ext. intros t _. unfold phi. cbn [pw]. ring.
        * rewrite E1. apply (lsum_0 HK). intros t I. apply in_map_iff in I as [m [<- I]]. apply in_seq in I. cbn [fst snd]. assert (Z : nodal k (pw z) (pw z m) = f0) by (apply (nodal_0 HK); exists m; split; [lia|reflexivity]). rewrite Z. ring.
    - exists f1, (fun _ => f1), 0. split; [lia|]. split; [apply (lead_const HK)|]. split; [intros _; apply (f1_neq_0 HK)|]. intros z Hz _ h [a Ha] Hh x.
      destruct (terms_low k ts) as [b Hb]; [intros t I; apply (Permutation_in _ P) in I as [<-|I]; [exact C|specialize (H t I); lia]|]. rewrite Ha, Hb. apply ueval_ext.
      apply (interp_unique HK k a b (fun i => pw z (S i))); [intros i j Hi Hj E; apply Hz in E; lia|]. intros i Hi. rewrite <- Ha, <- Hb. apply Hh. lia.
  Qed.

  (** ---- Ben-Or/Tiwari: Hankel matrices in the basis of Newton ---- *)
  Lemma nodal_lead L (w : nat -> K) : lead L f1 (nodal L w).
  Proof.
    induction L as [|L IH]; [apply (lead_ext _ _ (fun _ => f1)); [apply (lead_const HK)|reflexivity]|]. apply (lead_ext _ _ (fun x => nodal L w x * (x - w L))%K); [|intros; reflexivity]. replace (S L) with (L + 1) by lia. replace (@f1 K) with (@f1 K * f1)%K by ring. apply (lead_mul HK); [exact IH|].
    exists (fun i => match i with O => (- w L)%K | S _ => f1 end). split; [reflexivity|]. intros x. unfold ueval. cbn [fsum pw]. ring.
  Qed.
  Lemma newton_basis L : forall b (w : nat -> K), exists al, al L = b L /\ forall x, ueval (S L) b x = fsum (S L) (fun k => al k * nodal k w x)%K.
  Proof.
    induction L as [|L IH]; intros b w; [exists b; split; [reflexivity|]; intros x; unfold ueval; cbn [fsum pw nodal]; ring|].
    destruct (nodal_lead (S L) w) as [nb [N1 N2]].
    destruct (IH (fun i => b i - b (S L) * nb i)%K w) as [al [_ A]]. exists (fun k => if k =? S L then b (S L) else al k). split; [rewrite Nat.eqb_refl; reflexivity|]. intros x.
    rewrite ueval_S. change (fsum (S (S L)) ?g) with (fsum (S L) g + g (S L))%K. cbn beta. rewrite Nat.eqb_refl.
    rewrite (fsum_ext (S L) _ (fun k => al k * nodal k w x)%K) by (intros i Hi; destruct (Nat.eqb_spec i (S L)); [lia|reflexivity]). rewrite <- A, (ueval_sub HK), (ueval_scale HK), N2, (ueval_S (S L) nb), N1. ring.
  Qed.
    Lemma fprod_nz (cc : nat -> K) L : (forall j, j < L -> cc j <> f0) -> fprod L cc <> f0.
    Proof. induction L as [|L IH]; intros H; cbn [fprod]; [apply (f1_neq_0 HK)|]. apply (fmul_neq0 HK); [apply IH; auto|apply H; lia]. Qed.
  Section Sorted.
    Variables (T D : nat) (mm : nat -> nat) (cc : nat -> K).
    Hypothesis HT : 0 < T.
    Hypothesis Hm : forall i j, i < j -> j < T -> mm j < mm i.
    Hypothesis HD : forall j, j < T -> mm j <= D.
    Definition gram (z : K) (r c : nat) : K := fsum T (fun j => cc j * (pw z (mm j) * (nodal r (fun l => pw z (mm l)) (pw z (mm j)) * nodal c (fun l => pw z (mm l)) (pw z (mm j)))))%K.
    Definition gterm (r c j : nat) (z : K) : K := (cc j * (pw z (mm j) * (nodal r (fun l => pw z (mm l)) (pw z (mm j)) * nodal c (fun l => pw z (mm l)) (pw z (mm j)))))%K.
    Lemma gterm_zero r c j z : j < Nat.max r c -> gterm r c j z = f0.
    Proof.
      intros H. unfold gterm. destruct (Nat.lt_ge_cases j r) as [L|L].
      - assert (Z : nodal r (fun l => pw z (mm l)) (pw z (mm j)) = f0) by (apply (nodal_0 HK); exists j; split; [exact L|reflexivity]). rewrite Z. ring.
      - assert (Z : nodal c (fun l => pw z (mm l)) (pw z (mm j)) = f0) by (apply (nodal_0 HK); exists j; split; [lia|reflexivity]). rewrite Z. ring.
    Qed.
    Lemma gterm_lead r c j : Nat.max r c <= j -> j < T -> lead (nsm r mm + nsm c mm + mm j) (cc j * (f1 * (pw (- f1) r * pw (- f1) c)))%K (gterm r c j).
    Proof.
      intros H Hj. unfold gterm. apply (lead_scale HK). replace (nsm r mm + nsm c mm + mm j) with (mm j + (nsm r mm + nsm c mm)) by lia. apply (lead_mul HK); [apply (lead_pw HK)|]. apply (lead_mul HK); apply (lead_nodal_lo HK); intros l Hl; apply Hm; lia.
    Qed.
    Lemma mm_le i j : i <= j -> j < T -> mm j <= mm i. Proof. intros L H. destruct (Nat.eq_dec i j) as [->|N]; [lia|]. specialize (Hm i j ltac:(lia) H). lia. Qed.
    Lemma gram_deg r c : r < T -> c < T -> deg (nsm r mm + nsm c mm + mm (Nat.max r c)) (fun z => gram z r c).
    Proof.
      intros Hr Hc. apply (deg_ext _ (fun z => fsum T (fun j => gterm r c j z))); [|reflexivity]. apply (deg_fsum HK). intros j Hj. destruct (Nat.lt_ge_cases j (Nat.max r c)) as [L|L].
      - exists f0. apply (lead_ext _ _ (fun _ => f0)); [apply (lead_zero HK)|]. intros z. apply gterm_zero. exact L.
      - apply (deg_up HK _ _ _ (lead_deg _ _ _ (gterm_lead r c j L Hj))). pose proof (mm_le _ _ L Hj). lia.
    Qed.
    Lemma gram_lead r : r < T -> lead (nsm r mm + nsm r mm + mm r) (cc r) (fun z => gram z r r).
    Proof.
      intros Hr. apply (lead_ext _ _ (fun z => fsum T (fun j => gterm r r j z))); [|reflexivity]. apply (lead_fsum1 HK) with (j0 := r); [exact Hr| |].
      - pose proof (gterm_lead r r r ltac:(lia) Hr) as H. rewrite (pw_opp1_sq HK) in H. replace (cc r) with (cc r * (f1 * f1))%K by ring. exact H.
      - intros j Hj N. destruct (Nat.lt_ge_cases j r) as [L|L].
        + apply (lead_ext _ _ (fun _ => f0)); [apply (lead_zero HK)|]. intros z. apply gterm_zero. lia.
        + apply (deg_lead0 HK _ _ _ (lead_deg _ _ _ (gterm_lead r r j ltac:(lia) Hj))). specialize (Hm r j ltac:(lia) Hj). lia.
    Qed.
    Lemma gram_det L : L < T -> lead (nsm (S L) (fun r => nsm r mm) + nsm (S L) (fun r => nsm r mm) + nsm (S L) mm) (fprod (S L) cc) (fun z => det (S L) (gram z)).
    Proof. intros HL. apply (det_lead HK); [intros i j Hi Hj; apply Hm; lia|intros r c Hr Hc; apply gram_deg; lia|intros r Hr; apply gram_lead; lia]. Qed.
    Lemma gram_degree L : L < T -> nsm (S L) (fun r => nsm r mm) + nsm (S L) (fun r => nsm r mm) + nsm (S L) mm <= D * ((L + 1) * (L + 1)).
    Proof.
      intros HL. assert (A : forall r, r <= T -> nsm r mm <= r * D) by (induction r as [|r IH]; intros Hr; cbn [nsm]; [lia|]; specialize (IH ltac:(lia)); pose proof (HD r ltac:(lia)); lia).
      assert (B : nsm (S L) (fun r => nsm r mm) <= nsm (S L) (fun r => r * D)) by (apply nsm_le; intros r Hr; apply A; lia).
      assert (C : forall k, 2 * nsm (S k) (fun r => r * D) = k * (k + 1) * D) by (induction k as [|k IH]; [reflexivity|]; change (nsm (S (S k)) ?f) with (nsm (S k) f + S k * D); nia).
      specialize (C L). specialize (A (S L) ltac:(lia)). nia.
    Qed.
    (** a recurrence of length L for the first 2 L + 1 values makes the determinant vanish *)
    Lemma gram_kernel L a z : L < T -> recurrence a L (exponential_sum T cc (fun j => pw z (mm j))) (2 * L + 1) -> det (S L) (gram z) = f0.
    Proof.
      intros HL [R1 [_ R3]]. set (w := fun j => pw z (mm j)) in *. destruct (newton_basis L (fun i => a (L - i)) w) as [al [A1 A2]]. rewrite Nat.sub_diag, R1 in A1.
      apply (det_kernel HK (S L) (gram z) al L); [lia|rewrite A1; apply (f1_neq_0 HK)|]. intros c Hc.
      destruct (nodal_lead c w) as [nb [_ N]].
      rewrite (fsum_ext (S L) _ (fun r => fsum T (fun j => al r * (cc j * (w j * (nodal r w (w j) * nodal c w (w j))))))%K) by (intros r Hr; unfold gram; rewrite <- (fsum_mul_l HK); reflexivity).
      rewrite (fsum_swap HK). rewrite (fsum_ext T _ (fun j => fsum (S c) (fun i => nb i * (cc j * fsum (S L) (fun k => a k * pw (w j) (L - k)) * pw (w j) (S i))))%K).
      2:{ intros j Hj. rewrite (fsum_ext (S L) _ (fun r => (al r * nodal r w (w j)) * (cc j * w j * nodal c w (w j)))%K) by (intros; ring). rewrite (fsum_mul_r HK), <- A2, N. unfold ueval at 1. rewrite <- (rev_sum HK). unfold ueval.
          rewrite <- (fsum_mul_l HK), <- (fsum_mul_l HK). apply fsum_ext. intros i Hi. cbn [pw]. ring. }
      rewrite (fsum_swap HK). apply (fsum_0 HK). intros i Hi. rewrite (fsum_mul_l HK). rewrite (fsum_ext T _ (fun j => cc j * fsum (S L) (fun k => a k * pw (w j) (L - k)) * pw (w j) (S (L + i - L)))%K) by (intros; replace (L + i - L) with i by lia; reflexivity).
      rewrite <- (conv_sum HK T cc w HT a L (L + i)) by lia. rewrite R3 by lia. ring.
    Qed.
  End Sorted.
  Lemma rec_ext a L (s s' : nat -> K) n : (forall k, s k = s' k) -> recurrence a L s n -> recurrence a L s' n.
  Proof. intros E [A [B C]]. split; [exact A|]. split; [exact B|]. intros k H1 H2. rewrite <- (C k H1 H2). apply fsum_ext. intros i _. rewrite E. reflexivity. Qed.
  Lemma tval_sum ts z k : tval ts (pw z (S k)) = exponential_sum (length ts) (fun j => snd (nth j ts (0, f0))) (fun j => pw z (fst (nth j ts (0, f0)))) k.
  Proof. rewrite tval_lsum, (lsum_fsum HK (0, f0)). unfold exponential_sum. apply fsum_ext. intros i Hi. rewrite !(pw_pw HK), (Nat.mul_comm (S k)). reflexivity. Qed.
  (** long recurrences are right *)
  Lemma bt_big D ts L a z : ts <> [] -> NoDup (map fst ts) -> (forall t, In t ts -> fst t <= D /\ snd t <> f0) -> length ts <= L -> z <> f0 -> distinct (D + 2) (pw z) ->
    recurrence a L (fun k => tval ts (pw z (S k))) (2 * L + 1) -> forall m, recurrence a L (fun k => tval ts (pw z (S k))) m.
  Proof.
    intros Ne N H HL Hz Hd R m. set (T := length ts) in *. set (cc := fun j => snd (nth j ts (0, f0))). set (w := fun j => pw z (fst (nth j ts (0, f0)))).
    assert (HT : 0 < T) by (unfold T; destruct ts; [congruence|cbn; lia]).
    apply (rec_ext _ _ _ (exponential_sum T cc w)) in R; [|intros k; apply tval_sum]. apply (rec_ext _ _ (exponential_sum T cc w)); [intros k; symmetry; apply tval_sum|].
    assert (Rt : forall j, j < T -> fsum (S L) (fun i => a i * pw (w j) (L - i))%K = f0).
    { apply (rec_roots HK T cc w HT) with (n := 2 * L + 1); [| | |exact R|lia].
      - intros i j Hi Hj E. unfold w in E. apply Hd in E; [|apply (Nat.le_lt_trans _ D); [apply H; apply nth_In; exact Hi|lia]|apply (Nat.le_lt_trans _ D); [apply H; apply nth_In; exact Hj|lia]].
        assert (Q : nth i (map fst ts) 0 = nth j (map fst ts) 0) by (change 0 with (fst (0, @f0 K)); rewrite !map_nth; exact E). apply (proj1 (NoDup_nth (map fst ts) 0) N); [rewrite map_length; exact Hi|rewrite map_length; exact Hj|exact Q].
      - intros j Hj. apply (pw_neq0 HK). exact Hz.
      - intros j Hj. apply H. apply nth_In. exact Hj. }
    destruct R as [R1 [R2 _]]. split; [exact R1|]. split; [exact R2|]. intros k Hk _. rewrite (conv_sum HK T cc w HT a L k Hk). apply (fsum_0 HK). intros j Hj. rewrite (Rt j Hj). ring.
  Qed.
  Lemma bt_poly D ts L : ts <> [] -> NoDup (map fst ts) -> (forall t, In t ts -> fst t <= D) -> L <= D ->
    exists a g d, d <= D * ((D + 1) * (D + 1)) /\ lead d a g /\ ((forall t, In t ts -> snd t <> f0) -> a <> f0) /\ forall z, z <> f0 -> distinct (D + 2) (pw z) -> (forall t, In t ts -> snd t <> f0) -> g z <> f0 ->
      forall b, recurrence b L (fun k => tval ts (pw z (S k))) (2 * L + 1) -> forall m, recurrence b L (fun k => tval ts (pw z (S k))) m.
  Proof.
    intros Ne N HD HL. destruct (Nat.le_gt_cases (length ts) L) as [C|C].
    - exists f1, (fun _ => f1), 0. split; [lia|]. split; [apply (lead_const HK)|]. split; [intros _; apply (f1_neq_0 HK)|]. intros z Hz Hd Nz _ b R. apply (bt_big D); try assumption. intros t I. split; [apply HD|apply Nz]; exact I.
    - destruct (sorted_terms ts N) as [ts' [P S']]. pose proof (Permutation_length P) as Lp. set (T := length ts') in *. set (cc := fun j => snd (nth j ts' (0, f0))). set (mm := fun j => fst (nth j ts' (0, f0))).
      assert (In' : forall j, j < T -> In (nth j ts' (0, f0)) ts) by (intros j Hj; apply (Permutation_in _ (Permutation_sym P)); apply nth_In; exact Hj).
      assert (Dm : forall j, j < T -> mm j <= D) by (intros j Hj; apply HD; apply In'; exact Hj).
      exists (fprod (S L) cc), (fun z => det (S L) (gram T mm cc z)), (nsm (S L) (fun r => nsm r mm) + nsm (S L) (fun r => nsm r mm) + nsm (S L) mm).
      split; [pose proof (gram_degree T D mm ltac:(lia) Dm L ltac:(lia)); nia|]. split; [apply (gram_det T mm cc ltac:(lia) S'); lia|]. split; [intros Nz; apply fprod_nz; intros j Hj; apply Nz; apply In'; lia|].
      intros z _ _ _ G b R. exfalso. apply G. apply (gram_kernel T mm cc ltac:(lia) L b z); [lia|]. apply (rec_ext _ _ _ (exponential_sum T cc (fun j => pw z (mm j)))) in R; [exact R|]. intros k. rewrite (tval_perm _ _ _ P). apply tval_sum.
  Qed.
End Terms.

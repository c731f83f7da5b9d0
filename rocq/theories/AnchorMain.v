(** Almost all anchor points are suitable (proofs for C46). *)
From Coq Require Import Permutation.
From Verif Require Import Machine FField FSum FPoly LinAlg PolySpec PolyFF PolyFFProofs BMSpec RatUniThiele PolyRecSpec PolyRecMath AnchorLead AnchorFew AnchorTerms.
Open Scope nat_scope.

Section Main.
  Context {K : fops} (HK : flaws K).
  Add Field KF : (fl_field K HK).
  Variables (n D : nat) (f : list (list Z * K)) (S0 : list K).
  Hypothesis Hf : polynomial n D f.
  Hypothesis HS : NoDup S0.
  Notation few := (few S0 n). Notation vec := (vec S0).
  Notation at_ i w x := (fn (ins i x w)).

  (** zeros of a function of one coordinate *)
  Lemma few_root i d (Q P : (nat -> K) -> Prop) : i < n ->
    (forall w, vec (n - 1) w -> exists a g d', d' <= d /\ lead d' a g /\ forall x, In x S0 -> Q (at_ i w x) -> a <> f0 /\ (g x <> f0 -> P (at_ i w x))) -> few d (fun y => Q y -> P y).
  Proof.
    intros Hi H. replace d with (0 + d) by lia. apply (few_step S0 n i d 0 _ (fun _ => True) Hi); [apply few_true; intros; exact I|]. intros w V. destruct (H w V) as [a [g [d' [Ld [Lg Hg]]]]].
    destruct (K_dec HK a f0) as [E|N].
    - exists []. split; [cbn; lia|]. intros x Ix _ _ q. destruct (Hg x Ix q) as [A _]. contradiction.
    - exists (filter (fun x => feqb (g x) f0) S0). split; [pose proof (lead_roots HK d' a g S0 Lg N HS); lia|]. intros x Ix Nx _ q. destruct (Hg x Ix q) as [_ G]. apply G. intros E. apply Nx. apply filter_In. split; [exact Ix|apply (fl_eqb K HK); exact E].
  Qed.
  Definition Q1 (y : nat -> K) : Prop := forall j, j < n -> y j <> f0.
  Definition Q2 (y : nat -> K) : Prop := forall j, j < n -> distinct (D + 2) (pw (y j)).
  Definition Q3 (y : nat -> K) : Prop := forall j q, j <= n -> In q (keys n f j) -> co n f y j q <> f0.
  Lemma wlen w : vec (n - 1) w -> length w = n - 1. Proof. intros [H _]. exact H. Qed.

  Lemma few_Q1 : few (n * 1) Q1.
  Proof.
    apply few_nat. intros j Hj. apply (few_weaken S0 n 1 1 (fun y => True -> y j <> f0)); [|lia|intros v _ H; apply H; exact I].
    apply (few_root j 1 (fun _ => True) (fun y => y j <> f0) Hj). intros w V. exists f1, (fun x => pw x 1), 1. split; [lia|]. split; [apply (lead_pw HK)|]. intros x Ix _. split; [apply (f1_neq_0 HK)|]. intros G. rewrite ins_at by (rewrite (wlen w V); lia). intros E. apply G. cbn [pw]. rewrite E. ring.
  Qed.
  Lemma few_Q2 : few (n * ((D + 1) * (D + 1))) (fun y => Q1 y -> Q2 y).
  Proof.
    eapply (few_weaken S0 n _ _ (fun y => forall j, j < n -> forall d, d < D + 1 -> True -> pw (y j) (S d) <> f1)).
    - apply few_nat. intros j Hj. apply few_nat. intros d Hd. apply (few_root j (D + 1) (fun _ => True) (fun y => pw (y j) (S d) <> f1) Hj). intros w V. exists f1, (fun x => pw x (S d) - pw x 0)%K, (S d). split; [lia|]. split; [apply (lead_diff_hi HK); lia|].
      intros x Ix _. split; [apply (f1_neq_0 HK)|]. intros G. rewrite ins_at by (rewrite (wlen w V); lia). intros E. apply G. rewrite E. cbn [pw]. ring.
    - lia.
    - intros v V H Nz j Hj. set (x := fn v j) in *. assert (Nx : x <> f0) by (apply Nz; exact Hj).
      assert (A : forall a b, a < b -> b < D + 2 -> pw x a = pw x b -> False).
      { intros a b L1 L2 E. apply (H j Hj (b - a - 1) ltac:(lia) I). fold x. replace (S (b - a - 1)) with (b - a) by lia. replace b with (a + (b - a)) in E by lia. rewrite (pw_add HK) in E. apply (fmul_cancel HK (pw x a)); [apply (pw_neq0 HK); exact Nx|]. rewrite <- E. ring. }
      intros a b La Lb E. destruct (Nat.lt_trichotomy a b) as [L|[L|L]]; [exfalso; apply (A a b); assumption|exact L|exfalso; apply (A b a); auto].
  Qed.
  Lemma co_ext y y' j q : (forall i, j <= i -> y i = y' i) -> co n f y j q = co n f y' j q.
  Proof.
    intros H. unfold co. rewrite !pv_lsum. apply lsum_ext. intros t _. f_equal. apply mv_ext_x. intros i Hi. destruct (Nat.ltb_spec i j); [reflexivity|apply H; assumption].
  Qed.
  Lemma sterms_ext y y' j q : (forall i, S j <= i -> y i = y' i) -> sterms n f y j q = sterms n f y' j q.
  Proof. intros H. unfold sterms. apply map_ext. intros q'. f_equal. apply co_ext. exact H. Qed.
  Lemma sterms_at j w x q : j < n -> vec (n - 1) w -> sterms n f (at_ j w x) j q = sterms n f (at_ j w f0) j q.
  Proof. intros Hj V. apply sterms_ext. intros i Hi. apply ins_other; [lia|rewrite (wlen w V); lia]. Qed.
  Lemma sl_at j w x q t : j < n -> vec (n - 1) w -> sl n f (at_ j w x) j q t = tval (sterms n f (at_ j w f0) j q) t.
  Proof. intros Hj V. rewrite (sl_terms HK) by exact Hj. rewrite sterms_at by assumption. reflexivity. Qed.
  (** the terms of a slice *)
  Lemma st_ne y j q : j < n -> In q (keys n f j) -> sterms n f y j q <> [].
  Proof.
    intros Hj I. apply in_keys in I as [e [Ie E]]. assert (J : In (trunc n (S j) e) (ext n f j q)) by (apply in_ext; split; [apply in_keys; exists e; split; [exact Ie|reflexivity]|rewrite trunc_trunc by lia; exact E]).
    unfold sterms. destruct (ext n f j q); [destruct J|discriminate].
  Qed.
  Lemma st_nodup y j q : NoDup (map fst (sterms n f y j q)).
  Proof.
    unfold sterms. rewrite map_map. cbn [fst]. assert (N : NoDup (ext n f j q)) by (unfold ext; apply NoDup_filter, keys_nodup).
    assert (In' : forall q', In q' (ext n f j q) -> In q' (keys n f (S j)) /\ trunc n j q' = q) by (intros q' J; apply in_ext; exact J).
    induction (ext n f j q) as [|a l IH]; [constructor|]. apply NoDup_cons_iff in N as [N1 N2]. cbn [map]. constructor; [|apply IH; [exact N2|intros; apply In'; right; assumption]].
    intros J. apply in_map_iff in J as [b [E J]]. apply N1. destruct (In' a (or_introl eq_refl)) as [A1 A2]. destruct (In' b (or_intror J)) as [B1 B2]. replace a with b; [exact J|].
    apply (keys_split n f j b a); [exact B1|exact A1|congruence|]. unfold expo in E. pose proof (keys_range n D f Hf (S j) a j A1). pose proof (keys_range n D f Hf (S j) b j B1). lia.
  Qed.
  Lemma st_le y j q t : In t (sterms n f y j q) -> fst t <= D.
  Proof. intros I. unfold sterms in I. apply in_map_iff in I as [q' [<- I]]. apply in_ext in I as [I _]. cbn [fst]. unfold expo. pose proof (keys_range n D f Hf (S j) q' j I). lia. Qed.
  Lemma st_nz y j q : j < n -> Q3 y -> forall t, In t (sterms n f y j q) -> snd t <> f0.
  Proof. intros Hj H t I. unfold sterms in I. apply in_map_iff in I as [q' [<- I]]. apply in_ext in I as [I _]. cbn [snd]. apply H; [lia|exact I]. Qed.

  Lemma few_keys B (P : (list Z) -> (nat -> K) -> Prop) j : (forall q, In q (keys n f j) -> few B (P q)) -> few (length f * B) (fun y => forall q, In q (keys n f j) -> P q y).
  Proof. intros H. apply (few_weaken S0 n (length (keys n f j) * B) _ (fun y => forall q, In q (keys n f j) -> P q y)); [apply few_list; exact H|apply Nat.mul_le_mono_r; apply keys_len|intros v _ A; exact A]. Qed.
  Lemma few_Q3 : few (n * (length f * D)) Q3.
  Proof.
    assert (G : forall m, m <= n -> few (m * (length f * D)) (fun y => forall j q, n - m <= j <= n -> In q (keys n f j) -> co n f y j q <> f0)).
    { induction m as [|m IH]; intros Hm.
      - apply few_true. intros v _ j q Hj I. assert (j = n) as -> by lia. rewrite (keys_n n D f Hf) in I. apply in_map_iff in I as [t [<- I]]. rewrite (co_n HK n D f _ Hf t I). destruct t as [e a]. destruct Hf as [_ [_ F]]. apply (F e a I).
      - specialize (IH ltac:(lia)). set (j := n - S m).
        assert (B : few (length f * D) (fun y => forall q, In q (keys n f j) -> (forall q', In q' (keys n f (S j)) -> co n f y (S j) q' <> f0) -> co n f y j q <> f0)).
        { apply few_keys. intros q Iq. apply (few_root j D (fun y => forall q', In q' (keys n f (S j)) -> co n f y (S j) q' <> f0) (fun y => co n f y j q <> f0)); [lia|]. intros w V.
          set (ts := sterms n f (at_ j w f0) j q). destruct (max_term ts (st_ne _ j q ltac:(lia) Iq) (st_nodup _ j q)) as [M [c [rest [P H]]]]. assert (IM : In (M, c) ts) by (apply (Permutation_in _ (Permutation_sym P)); left; reflexivity).
          exists (c * f1)%K, (fun x => lsum (fun t => snd t * pw x (fst t))%K ts), M. split; [apply (st_le _ j q (M, c) IM)|]. split.
          - apply (lsum_lead HK M f1 (fun m x => pw x m) ts M c rest P); [apply (lead_pw HK)|]. intros t I. apply (deg_lead0 HK (fst t)); [apply (lead_deg _ _ _ (lead_pw HK _))|apply H; exact I].
          - intros x Ix A. split.
            + assert (Nc : c <> f0). { unfold ts in IM. rewrite <- (sterms_at j w x q ltac:(lia) V) in IM. unfold sterms in IM. apply in_map_iff in IM as [q' [E IM]]. injection E as _ <-. apply in_ext in IM as [IM _]. apply A. exact IM. }
              intros E. apply Nc. rewrite <- E. ring.
            + intros G. rewrite <- (sl_at_anchor n f (at_ j w x) j q), sl_at by (try exact V; lia). rewrite ins_at by (rewrite (wlen w V); lia). rewrite tval_lsum. exact G. }
        eapply (few_weaken S0 n _ _ _ _ (few_and S0 n _ _ _ _ IH B)); [cbn; lia|]. intros v _ [A1 A2] j' q Hj I. destruct (Nat.eq_dec j' j) as [->|N]; [|apply A1; [lia|exact I]]. apply A2; [exact I|]. intros q' I'. apply A1; [lia|exact I']. }
    eapply (few_weaken S0 n _ _ _ _ (G n (le_n n))); [lia|]. intros v _ H j q Hj I. apply H; [lia|exact I].
  Qed.
  (** different monomials of the lower variables *)
  Definition mono_ok (e e' : list Z) (j : nat) (y : nat -> K) : Prop := monomial_value j e y = monomial_value j e' y -> firstn j e = firstn j e'.
  Lemma mv_coord j i e (y : nat -> K) : i < j -> monomial_value j e y = (monomial_value j e (fun l => if l =? i then f1 else y l) * pw (y i) (Z.to_nat (nth i e 0%Z)))%K.
  Proof. intros H. rewrite <- (mv_at HK j i e (y i) H), <- (mv_prod HK). apply mv_ext_x. intros l _. destruct (Nat.eqb_spec l i) as [->|]; ring. Qed.
  Lemma few_mono e e' j : In e (map fst f) -> In e' (map fst f) -> j <= n -> few D (fun y => Q1 y -> mono_ok e e' j y).
  Proof.
    intros Ie Ie' Hj. pose proof (f_length n D f Hf e Ie) as Le. pose proof (f_length n D f Hf e' Ie') as Le'.
    destruct (list_eq_dec Z.eq_dec (firstn j e) (firstn j e')) as [E|N]; [apply (few_weaken S0 n 0 D (fun _ => True)); [apply few_true; intros; exact I|lia|intros v _ _ _ _; exact E]|].
    assert (Di : exists i, i < j /\ nth i e 0%Z <> nth i e' 0%Z).
    { destruct (existsb (fun i => negb (nth i e 0 =? nth i e' 0)%Z) (seq 0 j)) eqn:X.
      - apply existsb_exists in X as [i [I X]]. apply in_seq in I. exists i. split; [lia|]. intros Q. rewrite Q, Z.eqb_refl in X. discriminate X.
      - exfalso. apply N. apply (nth_ext _ _ 0%Z 0%Z); [rewrite !firstn_length; lia|]. intros i Hi. rewrite firstn_length in Hi. rewrite !nth_firstn' by lia. assert (Y : forall l, existsb (fun i => negb (nth i e 0 =? nth i e' 0)%Z) l = false -> In i l -> nth i e 0%Z = nth i e' 0%Z).
        { induction l as [|a l IH]; intros Z0 J; [destruct J|]. cbn [existsb] in Z0. apply orb_false_iff in Z0 as [Z1 Z2]. destruct J as [->|J]; [apply negb_false_iff in Z1; apply Z.eqb_eq; exact Z1|apply IH; assumption]. }
        apply (Y _ X). apply in_seq. lia. }
    destruct Di as [i [Hi Ni]]. pose proof (f_range n D f Hf e i Ie) as R. pose proof (f_range n D f Hf e' i Ie') as R'. set (a := Z.to_nat (nth i e 0%Z)) in *. set (a' := Z.to_nat (nth i e' 0%Z)) in *. assert (Na : a <> a') by lia.
    apply (few_root i D Q1 (mono_ok e e' j)); [lia|]. intros w V. set (u := fun l => if l =? i then f1 else at_ i w f0 l). set (A := monomial_value j e u). set (A' := monomial_value j e' u).
    assert (Ex : forall e0 x, monomial_value j e0 (fun l => if l =? i then f1 else at_ i w x l) = monomial_value j e0 u).
    { intros e0 x. apply mv_ext_x. intros l _. unfold u. destruct (Nat.eqb_spec l i); [reflexivity|]. apply ins_other; [assumption|rewrite (wlen w V); lia]. }
    assert (Un : forall x, Q1 (at_ i w x) -> forall l, l < j -> u l <> f0).
    { intros x q l Hl. unfold u. destruct (Nat.eqb_spec l i); [apply (f1_neq_0 HK)|]. rewrite (ins_other i f0 x) by (try assumption; rewrite (wlen w V); lia). apply q. lia. }
    assert (Go : forall x, (A * pw x a - A' * pw x a' <> f0)%K -> mono_ok e e' j (at_ i w x)).
    { intros x G E. exfalso. apply G. rewrite (mv_coord j i e), (mv_coord j i e'), !Ex, ins_at in E by (try lia; rewrite (wlen w V); lia). fold A A' a a' in E. rewrite E. ring. }
    destruct (Nat.lt_ge_cases a' a) as [L|L].
    - exists A, (fun x => A * pw x a - A' * pw x a')%K, a. split; [lia|]. split.
      + apply (lead_ext _ _ (fun x => A * pw x a + (- A') * pw x a')%K); [|intros; ring]. assert (Z1 : A = (A * f1 + - A' * f0)%K) by ring. rewrite Z1 at 1. apply (lead_add HK); apply (lead_scale HK); [apply (lead_pw HK)|apply (deg_lead0 HK a'); [apply (lead_deg _ _ _ (lead_pw HK _))|exact L]].
      + intros x Ix q. split; [apply (mv_nz HK); apply (Un x q)|apply Go].
    - exists (- A')%K, (fun x => A * pw x a - A' * pw x a')%K, a'. split; [lia|]. split.
      + apply (lead_ext _ _ (fun x => A * pw x a + (- A') * pw x a')%K); [|intros; ring]. assert (Z1 : (- A' = A * f0 + - A' * f1)%K) by ring. rewrite Z1 at 1. apply (lead_add HK); apply (lead_scale HK); [apply (deg_lead0 HK a); [apply (lead_deg _ _ _ (lead_pw HK _))|lia]|apply (lead_pw HK)].
      + intros x Ix q. split; [apply (fopp_neq0 HK); apply (mv_nz HK); apply (Un x q)|apply Go].
  Qed.
  Lemma few_monos : few (n * (length f * (length f * D))) (fun y => Q1 y -> forall j e e', j < n -> In e (map fst f) -> In e' (map fst f) -> mono_ok e e' j y).
  Proof.
    apply (few_weaken S0 n (n * (length (map fst f) * (length (map fst f) * D))) _ (fun y => forall j, j < n -> forall e, In e (map fst f) -> forall e', In e' (map fst f) -> Q1 y -> mono_ok e e' j y)).
    - apply few_nat. intros j Hj. apply few_list. intros e Ie. apply few_list. intros e' Ie'. apply few_mono; try assumption; lia.
    - rewrite map_length. lia.
    - intros v _ H q j e e' Hj Ie Ie'. apply H; assumption.
  Qed.
  (** Newton *)
  Definition Qa (y : nat -> K) : Prop := Q1 y /\ Q2 y /\ Q3 y.
  Definition newton_ok (j : nat) (q : list Z) (k : nat) (y : nat -> K) : Prop := forall h, of_degree_below k h -> (forall i, i <= k -> h (pw (y j) (S i)) = sl n f y j q (pw (y j) (S i))) -> forall x, h x = sl n f y j q x.
  Lemma few_newton j q k : j < n -> In q (keys n f j) -> k <= D -> few (D * (D + 1)) (fun y => Qa y -> newton_ok j q k y).
  Proof.
    intros Hj Iq Hk. apply (few_root j (D * (D + 1)) Qa (newton_ok j q k) Hj). intros w V. destruct (newton_poly HK D (sterms n f (at_ j w f0) j q) k (st_ne _ j q Hj Iq) (st_nodup _ j q) (st_le _ j q) Hk) as [a [g [d [Ld [Lg [Na G]]]]]].
    exists a, g, d. split; [exact Ld|]. split; [exact Lg|]. intros x Ix [q1 [q2 q3]]. split; [apply Na; rewrite <- (sterms_at j w x q Hj V); apply st_nz; assumption|].
    assert (Ax : at_ j w x j = x) by (apply ins_at; rewrite (wlen w V); lia). intros Gx h Hh Hp t. rewrite sl_at by assumption. apply (G x); [rewrite <- Ax; apply q2; exact Hj|exact Gx|exact Hh|]. intros i Hi. rewrite <- (sl_at j w x) by assumption. rewrite <- Ax at 1 3. apply Hp. exact Hi.
  Qed.
  Lemma few_newtons : few (n * (length f * ((D + 1) * (D * (D + 1))))) (fun y => Qa y -> forall j q k, j < n -> In q (keys n f j) -> k <= D -> newton_ok j q k y).
  Proof.
    eapply (few_weaken S0 n _ _ (fun y => forall j, j < n -> forall q, In q (keys n f j) -> forall k, k < D + 1 -> Qa y -> newton_ok j q k y)).
    - apply few_nat. intros j Hj. apply few_keys. intros q Iq. apply few_nat. intros k Hk. apply few_newton; [exact Hj|exact Iq|lia].
    - lia.
    - intros v _ H q0 j q k Hj Iq Hk. apply H; try assumption. lia.
  Qed.
  (** Ben-Or/Tiwari *)
  Definition bt_ok (j : nat) (q : list Z) (L : nat) (y : nat -> K) : Prop := forall a, recurrence a L (fun k => sl n f y j q (pw (y j) (S k))) (2 * L + 1) -> forall m, recurrence a L (fun k => sl n f y j q (pw (y j) (S k))) m.
  Lemma few_bt j q L : j < n -> In q (keys n f j) -> L <= D -> few (D * ((D + 1) * (D + 1))) (fun y => Qa y -> bt_ok j q L y).
  Proof.
    intros Hj Iq HL. apply (few_root j (D * ((D + 1) * (D + 1))) Qa (bt_ok j q L) Hj). intros w V. destruct (bt_poly HK D (sterms n f (at_ j w f0) j q) L (st_ne _ j q Hj Iq) (st_nodup _ j q) (st_le _ j q) HL) as [a [g [d [Ld [Lg [Na G]]]]]].
    exists a, g, d. split; [exact Ld|]. split; [exact Lg|]. intros x Ix [q1 [q2 q3]].
    assert (Nt : forall t, In t (sterms n f (at_ j w f0) j q) -> snd t <> f0) by (rewrite <- (sterms_at j w x q Hj V); apply st_nz; assumption). split; [apply Na; exact Nt|].
    assert (Ax : at_ j w x j = x) by (apply ins_at; rewrite (wlen w V); lia). intros Gx b R m. apply (rec_ext b L (fun k => tval (sterms n f (at_ j w f0) j q) (pw x (S k)))); [intros k; rewrite sl_at by assumption; rewrite Ax; reflexivity|].
    apply (G x); [rewrite <- Ax; apply q1; exact Hj|rewrite <- Ax; apply q2; exact Hj|exact Nt|exact Gx|]. apply (rec_ext b L (fun k => sl n f (at_ j w x) j q (pw (at_ j w x j) (S k)))); [intros k; rewrite sl_at by assumption; rewrite Ax; reflexivity|exact R].
  Qed.
  Lemma few_bts : few (n * (length f * ((D + 1) * (D * ((D + 1) * (D + 1)))))) (fun y => Qa y -> forall j q L, j < n -> In q (keys n f j) -> L <= D -> bt_ok j q L y).
  Proof.
    eapply (few_weaken S0 n _ _ (fun y => forall j, j < n -> forall q, In q (keys n f j) -> forall L, L < D + 1 -> Qa y -> bt_ok j q L y)).
    - apply few_nat. intros j Hj. apply few_keys. intros q Iq. apply few_nat. intros L HL. apply few_bt; [exact Hj|exact Iq|lia].
    - lia.
    - intros v _ H q0 j q L Hj Iq HL. apply H; try assumption. lia.
  Qed.
  Lemma terms_few (l : list (nat * K)) : NoDup (map fst l) -> (forall t, In t l -> fst t <= D) -> length l <= D + 1.
  Proof.
    intros N H. rewrite <- (map_length fst l). replace (D + 1) with (length (seq 0 (D + 1))) by apply seq_length. apply NoDup_incl_length; [exact N|]. intros m I. apply in_map_iff in I as [t [<- I]]. apply in_seq. specialize (H t I). lia.
  Qed.
  Lemma bt_all y j q L : Qa y -> j < n -> In q (keys n f j) -> (L <= D -> bt_ok j q L y) -> bt_ok j q L y.
  Proof.
    intros [q1 [q2 q3]] Hj Iq H. destruct (Nat.le_gt_cases L D) as [C|C]; [exact (H C)|]. intros a R m. apply (rec_ext a L (fun k => tval (sterms n f y j q) (pw (y j) (S k)))); [intros k; rewrite <- (sl_terms HK) by exact Hj; reflexivity|].
    apply (bt_big HK D); [apply st_ne; assumption|apply st_nodup|intros t I; split; [apply (st_le y j q); exact I|apply (st_nz y j q Hj q3); exact I]|pose proof (terms_few _ (st_nodup y j q) (st_le y j q)); lia|apply q1; exact Hj|apply q2; exact Hj|].
    apply (rec_ext a L (fun k => sl n f y j q (pw (y j) (S k)))); [intros k; rewrite <- (sl_terms HK) by exact Hj; reflexivity|exact R].
  Qed.
  Theorem few_suitable newton bt : few (n * (length f * length f) * ((D + 2) * (D + 2) * (D + 2) * (D + 2))) (fun y => suitable newton bt n D f y).
  Proof.
    pose proof (few_and S0 n _ _ _ _ few_Q1 (few_and S0 n _ _ _ _ few_Q2 (few_and S0 n _ _ _ _ few_Q3 (few_and S0 n _ _ _ _ few_monos (few_and S0 n _ _ _ _ few_newtons few_bts))))) as F.
    eapply (few_weaken S0 n _ _ _ _ F).
    - assert (Hn : 1 <= length f) by (destruct Hf as [N _]; destruct f; [congruence|cbn; lia]). clear - Hn. set (T := length f) in *. clearbody T. assert (T <= T * T) by nia.
      set (a := (D + 1) * (D + 1)). set (c := (D + 1) * (D * (D + 1))). set (d := (D + 1) * (D * a)). set (W := (D + 2) * (D + 2) * (D + 2) * (D + 2)).
      assert (EW : 1 + a + D + D + c + d <= W) by (unfold a, c, d, W; clear; nia). clearbody a c d W.
      assert (E : 1 + (a + (T * D + (T * (T * D) + (T * c + T * d)))) <= T * T * (1 + a + D + D + c + d)) by (clear - Hn H; nia).
      assert (E2 : 1 + (a + (T * D + (T * (T * D) + (T * c + T * d)))) <= T * T * W) by (apply (Nat.le_trans _ _ _ E); apply Nat.mul_le_mono_l; exact EW).
      apply (Nat.mul_le_mono_l _ _ n) in E2. clear - E2. lia.
    - intros v _ [q1 [q2 [q3 [m [nw b]]]]]. specialize (q2 q1). assert (A : Qa (fn v)) by (repeat split; assumption). specialize (nw A). specialize (b A). constructor.
      + intros j Hj. split; [apply q1; exact Hj|apply q2; exact Hj].
      + intros j e Hj Ie. rewrite <- (co_spec n D f _ Hf j e Hj Ie). apply q3; [exact Hj|]. apply in_keys. exists e. split; [exact Ie|reflexivity].
      + intros j e e' Hj Ie Ie'. apply (m q1 j e e' Hj Ie Ie').
      + intros _ j e Hj Ie k h Hk Hh Hp x. rewrite <- (sl_spec n D f _ Hf j e x) by (try exact Ie; lia). apply (nw j (trunc n j e) k Hj); [apply in_keys; exists e; split; [exact Ie|reflexivity]|exact Hk|exact Hh|]. intros i Hi. rewrite (sl_spec n D f _ Hf j e) by (try exact Ie; lia). apply Hp. exact Hi.
      + intros _ j e Hj Ie L a es R _ _ mm. assert (Ik : In (trunc n j e) (keys n f j)) by (apply in_keys; exists e; split; [exact Ie|reflexivity]).
        apply (rec_ext a L (fun k => sl n f (fn v) j (trunc n j e) (pw (fn v j) (S k)))); [intros k; apply (sl_spec n D f _ Hf j e); [lia|exact Ie]|]. apply (bt_all (fn v) j (trunc n j e) L A Hj Ik (fun C => b j (trunc n j e) L Hj Ik C)).
        apply (rec_ext a L (fun k => slice n (fn v) f j (firstn j e) (pw (fn v j) (S k)))); [intros k; symmetry; apply (sl_spec n D f _ Hf j e); [lia|exact Ie]|exact R].
  Qed.
End Main.

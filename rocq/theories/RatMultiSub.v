(** Proofs for RatReconst in several variables, part 3: calculate_shift_polynomials and the subtraction terms. *)
From Coq Require Import Permutation.
From Verif Require Import Machine FField FSum LinAlg FPoly PolyFF PolySpec PolyFFProofs PolyFFProofs2 PolyFFProofs3 ThieleProofs RatUni RatUniThiele PolyRec PolyRecSpec PolyRecMath RatMulti RatMultiSpec RatMultiMath RatMultiShift Props_PolyFF.
Open Scope nat_scope.

Section Sub.
  Context {K : fops} (HK : flaws K).
  Add Field KSB : (fl_field K HK).
  Local Notation pv := (@poly_value K).
  Local Notation mv := (@monomial_value K).
  Variable ord : forall A : Type, list A -> list A.
  Hypothesis Ho : forall A (l : list A), Permutation (ord A l) l.
  Variable c : mcfg.
  Local Notation n := (mc_n c).
  Variable s : nat -> K.
  Variables (G : nat) (P Ps : list (list Z * K)) (v : nat -> K).
  Hypothesis Hn : 2 <= n.
  Hypothesis HP : wf n G P.
  Hypothesis HPs : wf n G Ps.
  Hypothesis NP : NoDup (map fst P).
  Hypothesis HV : forall x, pv n Ps x = pv n P (fun i => x i + s i)%K.
  Hypothesis Hv : distinct (S G) v.
  Hypothesis Hchar : characteristic_above K G.
  Hypothesis HG : (Z.of_nat G < 2 ^ 31)%Z.

  (** the homogeneous parts before and after the translation *)
  Definition Hp (d : nat) (x : nat -> K) : K := pv n (hom d P) x.
  Definition Hs (d : nat) (x : nat -> K) : K := pv n (hom d Ps) x.

  Lemma wf_exp d (Q : list (list Z * K)) : d <= G -> wf n d Q -> Forall (fun kc => exponents_ok n (fst kc)) Q.
  Proof.
    intros L H. apply Forall_forall. intros [e a] I. destruct (H e a I) as [Le [P0 T]]. split; [exact Le|]. apply Forall_forall. intros z Iz. cbn [fst] in Iz. apply (In_nth _ _ 0%Z) in Iz as [i [_ <-]].
    pose proof (nth_total e i P0). split; [apply P0|]. lia.
  Qed.
  Lemma char_le b : b <= G -> characteristic_above K b.
  Proof. intros L j Hj. apply Hchar. lia. Qed.

  (** a polynomial all of whose terms have degree d, with the value F; [subrepr]: zero coefficients are allowed *)
  Definition repr (d : nat) (F : (nat -> K) -> K) (q : polyff K) : Prop :=
    pf_n q = n /\ poly_ok n (pf_coefs q) /\ no_zero_coefficient (pf_coefs q) /\ (forall e a, In (e, a) (pf_coefs q) -> total e = Z.of_nat d) /\ forall x, pv n (pf_coefs q) x = F x.
  Definition subrepr (d : nat) (F : (nat -> K) -> K) (q : polyff K) : Prop :=
    pf_n q = n /\ poly_ok n (pf_coefs q) /\ (forall e a, In (e, a) (pf_coefs q) -> a <> f0 -> total e = Z.of_nat d) /\ forall x, pv n (pf_coefs q) x = F x.
  Lemma repr_sub d F q : repr d F q -> subrepr d F q.
  Proof. intros [A [B [C [D E]]]]. split; [exact A|]. split; [exact B|]. split; [intros e a I _; apply (D e a I)|exact E]. Qed.
  Lemma repr_ext d F F' q : (forall x, F x = F' x) -> repr d F q -> repr d F' q.
  Proof. intros H [A [B [C [D E]]]]. repeat (split; [assumption|]). intros x. rewrite E. apply H. Qed.
  Lemma subrepr_ext d F F' q : (forall x, F x = F' x) -> subrepr d F q -> subrepr d F' q.
  Proof. intros H [A [B [C D]]]. repeat (split; [assumption|]). intros x. rewrite D. apply H. Qed.
  Lemma poly_ok_pos (q : list (list Z * K)) e a : poly_ok n q -> In (e, a) q -> length e = n /\ forall i, (0 <= nth i e 0)%Z.
  Proof. intros [_ F] I. rewrite Forall_forall in F. specialize (F _ I). cbn [fst] in F. split; [apply F|]. intros i. apply (expo_range n e i F). Qed.

  Lemma padd_repr d F F' q q' : subrepr d F q -> subrepr d F' q' -> subrepr d (fun x => F x + F' x)%K (padd_assign (ord _) q q').
  Proof.
    intros [A [B [C D]]] [A' [B' [C' D']]]. pose proof (padd_assign_ok HK (ord _) (ord_any ord Ho) q q') as X. rewrite A in X. destruct (X B B') as [X1 X2].
    split; [exact A|]. split; [exact X1|]. split.
    - intros e a I Na. unfold padd_assign in I. cbn [pf_coefs] in I. apply (add_entry HK) in I as [I|[a' [Na' I]]]; [apply (C e a I Na)|]. rewrite (in_ord_any ord Ho) in I. apply (C' e a' I Na').
    - intros x. rewrite X2, D, D'. reflexivity.
  Qed.
  Lemma psub_repr d F F' q q' : repr d F q -> subrepr d F' q' -> repr d (fun x => F x - F' x)%K (psub_assign (ord _) q q').
  Proof.
    intros [A [B [C [D E]]]] [A' [B' [C' D']]]. pose proof (psub_assign_ok HK (ord _) (ord_any ord Ho) q q') as X. rewrite A in X. destruct (X B B') as [X1 X2].
    split; [exact A|]. split; [exact X1|]. split; [|split].
    - unfold psub_assign. cbn [pf_coefs]. apply (assign_fold_nz HK n false); [exact B|exact C|]. destruct (ord_ok (ord _) (ord_any ord Ho) n _ B') as [_ F0]. exact F0.
    - intros e a I. unfold psub_assign in I. cbn [pf_coefs] in I. apply (sub_entry HK) in I as [I|[a' [Na' I]]]; [apply (D e a I)|]. rewrite (in_ord_any ord Ho) in I. apply (C' e a' I Na').
    - intros x. rewrite X2, E, D'. reflexivity.
  Qed.

  (** ---- the contributions of the part of degree k to the degree d ---- *)
  Definition tr (k : nat) : list (list Z * K) := match add_shift (ord _) (mk_polyff n (hom k P)) n s with Ret r => pf_coefs r | _ => [] end.
  Definition contrib (k d : nat) (x : nat -> K) : K := pv n (hom d (tr k)) x.

  Lemma hom_ok k : k <= G -> poly_ok n (hom k P).
  Proof. intros L. split; [unfold hom; apply NoDup_keys_filter; exact NP|]. apply (wf_exp k); [exact L|]. apply (wf_hom n k P G HP). Qed.
  Lemma total_zero m : forall e, length e = m -> (forall i, i < m -> nth i e 0%Z = 0%Z) -> total e = 0%Z.
  Proof.
    induction m as [|m IHm]; intros e Le Ec; [destruct e; [reflexivity|discriminate Le]|].
    destruct e as [|z e]; [discriminate Le|]. rewrite total_cons. pose proof (Ec 0 (Nat.lt_0_succ m)) as E0. cbn [nth] in E0. rewrite IHm; [lia|cbn in Le; lia|]. intros i Hi. apply (Ec (S i)). lia.
  Qed.
  Lemma no_constant k (Q : list (list Z * K)) : 0 < k -> poly_ok n Q -> (forall e a, In (e, a) Q -> total e = Z.of_nat k) -> const_sum n Q = f0.
  Proof.
    intros Lk Ok T. unfold const_sum. assert (X : forall l, (forall t, In t l -> In t Q) -> fold_right (fun kc acc => if is_const_mon n (fst kc) then (snd kc + acc)%K else acc) f0 l = f0); [|apply X; auto].
    induction l as [|[e a] l IH]; intros Hl; [reflexivity|]. cbn [fold_right fst snd]. rewrite IH by (intros t I; apply Hl; right; exact I).
    destruct (is_const_mon n e) eqn:Ec; [|reflexivity]. exfalso. rewrite is_const_true in Ec. pose proof (Hl _ (or_introl eq_refl)) as I. pose proof (T e a I) as Te.
    destruct (poly_ok_pos _ _ _ Ok I) as [Le _]. pose proof (total_zero n e Le Ec). lia.
  Qed.
  (** the translation of a polynomial of degree k *)
  Lemma translate q k : 0 < k <= G -> pf_n q = n -> poly_ok n (pf_coefs q) -> (forall e a, In (e, a) (pf_coefs q) -> total e = Z.of_nat k) ->
    exists r, add_shift (ord _) q n s = Ret r /\ pf_n r = n /\ poly_ok n (pf_coefs r) /\ wf n k (pf_coefs r) /\ forall x, pv n (pf_coefs r) x = pv n (pf_coefs q) (fun i => x i + s i)%K.
  Proof.
    intros Lk En Ok T. pose proof (add_shift_ok HK (ord _) (ord_any ord Ho) q s) as X. rewrite En in X. specialize (X Ok).
    destruct X as [r [E [Er [Or V]]]].
    { intros e i I. apply in_map_iff in I as [[e' a] [<- I]]. cbn [fst]. apply char_le. destruct (poly_ok_pos _ _ _ Ok I) as [_ P0]. pose proof (nth_total e' i P0). rewrite (T _ _ I) in H. specialize (P0 i). lia. }
    exists r. split; [exact E|]. split; [exact Er|]. split; [exact Or|]. split.
    - intros e a I. destruct (poly_ok_pos _ _ _ Or I) as [L P0]. split; [exact L|]. split; [exact P0|].
      apply (add_shift_keys HK ord Ho n k q s r En) with (c := a); [|exact E|exact I]. intros e' a' I'. destruct (poly_ok_pos _ _ _ Ok I') as [L' P0']. split; [exact L'|]. split; [exact P0'|]. rewrite (T _ _ I'). lia.
    - intros x. rewrite <- V.
      rewrite (no_constant k (pf_coefs q) (proj1 Lk) Ok T). ring.
  Qed.
  Lemma tr_ok k : 0 < k <= G -> wf n k (tr k) /\ forall x, pv n (tr k) x = Hp k (fun i => x i + s i)%K.
  Proof.
    intros L. destruct (translate (mk_polyff n (hom k P)) k L eq_refl (hom_ok k (proj2 L))) as [r [E [_ [_ [W V]]]]]; [intros e a I; apply in_hom in I; apply I|].
    unfold tr. rewrite E. split; [exact W|exact V].
  Qed.
  Lemma dist_le k : k <= G -> distinct (S k) v. Proof. intros L i j Hi Hj. apply Hv; lia. Qed.
  Lemma contrib_char k d (Q : list (list Z * K)) x : 0 < k <= G -> d <= k -> wf n k Q -> (forall x, pv n Q x = Hp k (fun i => x i + s i)%K) -> pv n (hom d Q) x = contrib k d x.
  Proof.
    intros L Ld W V. destruct (tr_ok k L) as [W' V']. unfold contrib. apply (hom_determined HK n k Q v x (fun d => pv n (hom d (tr k)) x)); [apply dist_le; apply L|exact W| |exact Ld].
    intros t. rewrite <- (hom_value HK n k (tr k)) by exact W'. rewrite V, V'. reflexivity.
  Qed.
  Lemma contrib_top k x : 0 < k <= G -> contrib k k x = Hp k x.
  Proof.
    intros L. destruct (tr_ok k L) as [W V].
    destruct (pv_shift_top HK n k (hom k P) x s) as [g [[a Hg] E]].
    { intros e b I. pose proof (wf_hom n k P G HP e b I) as [A [B _]]. apply in_hom in I as [_ I]. auto. }
    unfold contrib. apply (hom_determined HK n k (tr k) v x (fun d => if d <? k then a d else Hp k x)) with (d := k) in W; [|apply dist_le; apply L| |lia].
    - rewrite W. destruct (Nat.ltb_spec k k); [lia|reflexivity].
    - intros t. rewrite V. unfold Hp. rewrite E, Hg. rewrite ueval_S. destruct (Nat.ltb_spec k k); [lia|]. fold (Hp k x). rewrite (ueval_ext k (fun d => if d <? k then a d else Hp k x) a); [ring|].
      intros i Hi. destruct (Nat.ltb_spec i k); [reflexivity|lia].
  Qed.
  Lemma contrib_absent k d x : 0 < k <= G -> d <= k -> hom k P = [] -> contrib k d x = f0.
  Proof.
    intros L Ld E. rewrite <- (contrib_char k d []); [reflexivity|exact L|exact Ld|intros e a []|]. intros z. unfold Hp. rewrite E. reflexivity.
  Qed.
  (** the part of degree d after the translation: the original one and the contributions of the higher degrees *)
  Theorem translated_part d x : d <= G -> Hs d x = (Hp d x + fsum (S G) (fun k => if d <? k then contrib k d x else f0))%K.
  Proof.
    intros Ld. unfold Hs. apply (hom_determined HK n G Ps v x (fun d => Hp d x + fsum (S G) (fun k => if d <? k then contrib k d x else f0))%K Hv HPs); [|exact Ld].
    intros t. rewrite HV. rewrite (hom_sum HK n G P) by exact HP.
    transitivity (fsum (S G) (fun k => Hp k x * pw t k + fsum (S G) (fun d => if d <? k then contrib k d x * pw t d else f0)))%K.
    - apply fsum_ext. intros k Hk. fold (Hp k (fun i => t * x i + s i)%K). destruct (Nat.eq_dec k 0) as [->|Nk].
      + rewrite (fsum_0 HK) by (intros i Hi; destruct (Nat.ltb_spec i 0); [lia|reflexivity]). cbn [pw]. 
        destruct (pv_shift_top HK n 0 (hom 0 P) x s) as [g [[a Hg] E]].
        { intros e b I. pose proof (wf_hom n 0 P G HP e b I) as [A [B _]]. apply in_hom in I as [_ I]. auto. }
        unfold Hp. rewrite E, Hg. cbn. ring.
      + assert (L : 0 < k <= G) by lia. destruct (tr_ok k L) as [W V]. rewrite <- (V (fun i => t * x i)%K). rewrite (hom_value HK n k) by exact W. rewrite ueval_S. fold (contrib k k x). rewrite contrib_top by exact L.
        rewrite (fsum_trunc HK (S G) k); [|lia|intros j Hj; destruct (Nat.ltb_spec j k); [lia|reflexivity]]. 
        rewrite (fsum_ext k (fun d => if d <? k then (contrib k d x * pw t d)%K else f0) (fun d => contrib k d x * pw t d)%K) by (intros i Hi; destruct (Nat.ltb_spec i k); [reflexivity|lia]).
        unfold ueval. fold (contrib k). unfold contrib. ring.
    - rewrite (fsum_add HK). rewrite (fsum_swap HK). unfold ueval. rewrite <- (fsum_add HK). apply fsum_ext. intros i Hi.
      rewrite <- (fsum_mul_r HK) || idtac. transitivity (Hp i x * pw t i + fsum (S G) (fun k => if (i <? k)%nat then contrib k i x else f0) * pw t i)%K; [|ring]. f_equal. rewrite <- (fsum_mul_r HK). apply fsum_ext. intros k Hk. destruct (i <? k); ring.
  Qed.

  (** ---- calculate_shift_polynomials ---- *)
  Definition add_one (d : nat) (res : list (nat * polyff K)) (el : list Z * K) : list (nat * polyff K) :=
    let e := Z.to_nat (degree32 (fst el)) in
    if (e <? d) && fgtb (snd el) f0 then nset res e (padd_assign (ord _) (nget no_poly res e) (mk_polyff n [el])) else res.
  Lemma add_one_fold d l : forall (res : list (nat * polyff K)) (F : nat -> (nat -> K) -> K), d <= G -> wf n d l ->
    map fst res = seq 0 d -> (forall e, e < d -> subrepr e (F e) (nget no_poly res e)) ->
    let res' := fold_left (add_one d) l res in map fst res' = seq 0 d /\ forall e, e < d -> subrepr e (fun x => F e x + pv n (hom e l) x)%K (nget no_poly res' e).
  Proof.
    induction l as [|[k a] l IH]; intros res F Ld W Ek H.
    - cbn. split; [exact Ek|]. intros e He. apply (subrepr_ext e (F e)); [intros x; ring|apply H; exact He].
    - cbn [fold_left]. destruct (W k a (or_introl eq_refl)) as [L [P0 T]]. assert (W' : wf n d l) by (intros k' a' I; apply (W k' a'); right; exact I).
      pose proof (total_range k P0) as T0. assert (Ed : degree32 k = total k) by (apply degree32_spec; [apply nth_Forall; exact P0|change (total_degree k) with (total k); unfold two32; lia]).
      destruct (Nat.ltb_spec (Z.to_nat (total k)) d) as [Lt|Ge]; [destruct (feqb a f0) eqn:Ea|].
      + apply (fl_eqb K HK) in Ea. subst a. assert (E1 : add_one d res (k, f0) = res) by (unfold add_one; cbn [fst snd]; rewrite (fl_gtb0 K HK), (feqb_refl HK), Bool.andb_false_r; reflexivity).
        rewrite E1. destruct (IH res F Ld W' Ek H) as [I1 I2]. split; [exact I1|]. intros e He. apply (subrepr_ext e (fun x => F e x + pv n (hom e l) x)%K); [|apply I2; exact He].
        intros x. rewrite hom_cons. destruct (total k =? Z.of_nat e)%Z; [rewrite pv_cons; cbn [fst snd]; ring|reflexivity].
      + set (j := Z.to_nat (total k)) in *. assert (E1 : add_one d res (k, a) = nset res j (padd_assign (ord _) (nget no_poly res j) (mk_polyff n [(k, a)]))).
        { unfold add_one. cbn [fst snd]. rewrite Ed. fold j. rewrite (fl_gtb0 K HK), Ea. destruct (Nat.ltb_spec j d); [reflexivity|lia]. }
        assert (S1 : subrepr j (fun x => a * mv n k x)%K (mk_polyff n [(k, a)])).
        { split; [reflexivity|]. split; [|split].
          - split; [repeat constructor; intros []|]. constructor; [|constructor]. cbn [fst]. pose proof (wf_exp d [(k, a)] Ld) as X. assert (X1 : wf n d [(k, a)]) by (intros k' a' [E|[]]; injection E as <- <-; auto). specialize (X X1). inversion X. assumption.
          - intros e b [E|[]] _. injection E as <- <-. unfold j. lia.
          - intros x. cbn [pf_coefs]. rewrite pv_cons, pv_nil. cbn [fst snd]. ring. }
        rewrite E1. destruct (IH (nset res j (padd_assign (ord _) (nget no_poly res j) (mk_polyff n [(k, a)]))) (fun e x => F e x + (if (e =? j)%nat then a * mv n k x else f0))%K Ld W') as [I1 I2].
        * rewrite nset_keys_in; [exact Ek|]. rewrite Ek. apply in_seq. lia.
        * intros e He. unfold nget at 1. rewrite nfind_set. destruct (Nat.eqb_spec e j) as [->|Ne].
          -- apply padd_repr; [apply H; exact He|exact S1].
          -- apply (subrepr_ext e (F e)); [intros x; ring|]. apply H. exact He.
        * split; [exact I1|]. intros e He. eapply subrepr_ext; [|apply I2; exact He]. intros x. cbn beta. rewrite hom_cons. destruct (Nat.eqb_spec e j) as [->|Ne].
          -- unfold j. rewrite Z2Nat.id by exact T0. rewrite Z.eqb_refl, pv_cons. cbn [fst snd]. ring.
          -- destruct (Z.eqb_spec (total k) (Z.of_nat e)) as [E|_]; [exfalso; apply Ne; unfold j; lia|]. ring.
      + assert (E1 : add_one d res (k, a) = res) by (unfold add_one; cbn [fst snd]; rewrite Ed; destruct (Nat.ltb_spec (Z.to_nat (total k)) d); [lia|reflexivity]).
        rewrite E1. destruct (IH res F Ld W' Ek H) as [I1 I2]. split; [exact I1|]. intros e He. apply (subrepr_ext e (fun x => F e x + pv n (hom e l) x)%K); [|apply I2; exact He].
        intros x. rewrite hom_cons. destruct (Z.eqb_spec (total k) (Z.of_nat e)); [exfalso; lia|reflexivity].
  Qed.
  Lemma zero_poly_sub e : subrepr e (fun _ => f0) (zero_poly (K:=K) c).
  Proof.
    unfold zero_poly, zero_mon. split; [reflexivity|]. split; [|split].
    - split; [repeat constructor; intros []|]. constructor; [|constructor]. split; [apply repeat_length|]. apply Forall_forall. intros z I. apply repeat_spec in I. subst z. lia.
    - intros k a [E|[]] Na. injection E as _ <-. contradiction.
    - intros x. cbn. ring.
  Qed.
  Lemma wf_perm d (l l' : list (list Z * K)) : Permutation l l' -> wf n d l -> wf n d l'.
  Proof. intros Pm W e a I. apply (W e a). apply (Permutation_in _ (Permutation_sym Pm)). exact I. Qed.
  Lemma filter_perm' {A} (f : A -> bool) l l' : Permutation l l' -> Permutation (filter f l) (filter f l').
  Proof.
    induction 1 as [|x l l' Pm IH|x y l|l1 l2 l3 P1 IH1 P2 IH2]; cbn [filter].
    - constructor.
    - destruct (f x); [constructor; exact IH|exact IH].
    - destruct (f y), (f x); try apply Permutation_refl. constructor.
    - eapply Permutation_trans; eassumption.
  Qed.
  Lemma shift_polys_ok q d : 0 < d <= G -> repr d (Hp d) q ->
    exists l, shift_polys ord c s q d = Ret l /\ map fst l = seq 0 d /\ forall e, e < d -> subrepr e (contrib d e) (nget no_poly l e).
  Proof.
    intros L [En [Ok [_ [T V]]]]. destruct (translate q d L En Ok T) as [r [E [_ [_ [W VR]]]]]. unfold shift_polys. rewrite E. cbn [obind].
    assert (W' : wf n d (ord _ (pf_coefs r))) by (apply (wf_perm d (pf_coefs r)); [apply Permutation_sym; apply Ho|exact W]).
    destruct (add_one_fold d (ord _ (pf_coefs r)) (map (fun i => (i, zero_poly c)) (seq 0 d)) (fun _ _ => f0) (proj2 L) W') as [I1 I2].
    - rewrite map_map. cbn [fst]. apply map_id.
    - intros e He. assert (X : forall l, In e l -> nget no_poly (map (fun i => (i, zero_poly (K:=K) c)) l) e = zero_poly c).
      { induction l as [|i l IH]; intros I; [contradiction|]. unfold nget. cbn. destruct (Nat.eqb_spec e i) as [->|Ne]; [reflexivity|]. destruct I as [->|I]; [contradiction|]. apply IH. exact I. }
      rewrite X by (apply in_seq; lia). apply zero_poly_sub.
    - eexists. split; [reflexivity|]. split; [exact I1|]. intros e He. eapply subrepr_ext; [|apply I2; exact He]. intros x. cbn beta.
      rewrite (pv_perm HK n (hom e (ord _ (pf_coefs r))) (hom e (pf_coefs r))) by (apply filter_perm'; apply Ho).
      rewrite (contrib_char d e (pf_coefs r) x L); [ring|lia|exact W|]. intros z. rewrite VR, V. reflexivity.
  Qed.
  Lemma add_subs_ok l sub (F F' : nat -> (nat -> K) -> K) : NoDup (map fst l) ->
    (forall d, In d (map fst l) -> In d (map fst sub)) ->
    (forall d, In d (map fst sub) -> subrepr d (F d) (nget no_poly sub d)) -> (forall d, In d (map fst l) -> subrepr d (F' d) (nget no_poly l d)) ->
    map fst (add_subs ord sub l) = map fst sub /\ forall d, In d (map fst sub) -> subrepr d (fun x => F d x + (if nmem d (map fst l) then F' d x else f0))%K (nget no_poly (add_subs ord sub l) d).
  Proof.
    intros N I0 H H'. unfold add_subs.
    assert (X : forall l', NoDup (map fst l') -> (forall e, In e l' -> In e l) -> forall sub (F : nat -> (nat -> K) -> K), (forall d, In d (map fst l') -> In d (map fst sub)) -> (forall d, In d (map fst sub) -> subrepr d (F d) (nget no_poly sub d)) ->
      let sub' := fold_left (fun m e => nset m (fst e) (padd_assign (ord _) (nget no_poly m (fst e)) (snd e))) l' sub in
      map fst sub' = map fst sub /\ forall d, In d (map fst sub) -> subrepr d (fun x => F d x + (if nmem d (map fst l') then F' d x else f0))%K (nget no_poly sub' d)).
    { clear I0 sub F H. induction l' as [|[k q] l' IH]; intros N' Il sub F I0 H.
      - split; [reflexivity|]. intros d Id. cbn. apply (subrepr_ext d (F d)); [intros x; ring|apply H; exact Id].
      - cbn [fold_left fst snd]. cbn [map fst] in N'. inversion N' as [|? ? N1 N2]; subst. pose proof (I0 k (or_introl eq_refl)) as Ik.
        assert (Kq : subrepr k (F' k) q).
        { pose proof (H' k) as Hk. assert (J : In (k, q) l) by (apply Il; left; reflexivity). unfold nget in Hk. rewrite (proj2 (nfind_iff l k q N) J) in Hk. apply Hk. apply in_map_iff. exists (k, q). split; [reflexivity|exact J]. }
        destruct (IH N2 (fun e I => Il e (or_intror I)) (nset sub k (padd_assign (ord _) (nget no_poly sub k) q)) (fun d x => F d x + (if (d =? k)%nat then F' k x else f0))%K) as [I1 I2].
        + intros d I. rewrite nset_keys_in by exact Ik. apply I0. right. exact I.
        + intros d I. rewrite nset_keys_in in I by exact Ik. unfold nget at 1. rewrite nfind_set. destruct (Nat.eqb_spec d k) as [->|Nk].
          * apply padd_repr; [apply H; exact I|exact Kq].
          * apply (subrepr_ext d (F d)); [intros x; ring|apply H; exact I].
        + cbn zeta. rewrite nset_keys_in in I1, I2 by exact Ik. split; [exact I1|]. intros d I. eapply subrepr_ext; [|apply I2; exact I]. intros x. cbn beta. unfold nmem. cbn [map fst existsb].
          fold (nmem d (map fst l')). destruct (Nat.eqb_spec d k) as [->|Nk]; [|cbn [orb]; ring].
          assert (M : nmem k (map fst l') = false) by (apply Bool.not_true_is_false; intros M; unfold nmem in M; apply existsb_exists in M as [z [Iz Ez]]; apply Nat.eqb_eq in Ez; subst z; contradiction). rewrite M. cbn [orb]. ring. }
    assert (Pm : Permutation (map fst (ord _ l)) (map fst l)) by (apply Permutation_map; apply Ho).
    destruct (X (ord _ l)) with (sub := sub) (F := F) as [I1 I2]; [apply (Permutation_NoDup (Permutation_sym Pm)); exact N|intros e I; rewrite (in_ord_any ord Ho) in I; exact I|intros d I; apply I0; apply (Permutation_in _ Pm); exact I|exact H|].
    split; [exact I1|]. intros d I. eapply subrepr_ext; [|apply I2; exact I]. intros x. cbn beta.
    assert (M : nmem d (map fst (ord _ l)) = nmem d (map fst l)); [|rewrite M; reflexivity].
    { apply Bool.eq_iff_eq_true. unfold nmem. rewrite !existsb_exists. split; intros [z [Iz Ez]]; exists z; split; try exact Ez; [apply (Permutation_in _ Pm); exact Iz|apply (Permutation_in _ (Permutation_sym Pm)); exact Iz]. }
  Qed.
  (** evaluation on a ray *)
  Lemma calc_sub d F q r : subrepr d F q -> calc_n_m_1 (ord _) q r = F (x1 r).
  Proof.
    intros [A [B [_ D]]]. rewrite (C16_calc_n_m_1 K HK (ord _) (ord_any ord Ho)); [|unfold well_formed; rewrite A; exact B|lia].
    rewrite (calc_value HK) by (try exact (ord_any ord Ho); rewrite A; exact B). rewrite A. apply D.
  Qed.
End Sub.

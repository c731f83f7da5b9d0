(** Property theorems C46: interpolating a polynomial of n variables over one prime (PolyReconst). *)
From Coq Require Import Permutation.
From Verif Require Import Machine FField FSum LinAlg LinAlgProofs FPoly PolyFF PolySpec PolyFFProofs PolyFFProofs2 ThieleProofs Newton NewtonProofs BM BMSpec BTProofs RatUni PolyRec PolyRecSpec PolyRecRunSpec PolyRecMath PolyRecMain PolyRecChecks Props_LinAlg.
Open Scope nat_scope.

(** Feeding the values of f at the requested powers of suitable anchor points never fails; whenever a result is there it is f, and it is
    there after at most n * depth * T probes, for every order in which the hash maps are iterated. *)
Theorem C46_polynomial_recovered : forall (K : fops), flaws K -> forall ord, (forall A (l : list A), Permutation (ord A l) l) ->
  forall (c : pcfg) D (f : list (list Z * K)) (y : nat -> K), polynomial (pc_n c) D f -> config_fits c D f y ->
  suitable (pc_newton c) (pc_bt c) (pc_n c) D f y ->
  forall m, exists out, drive ord c y (black_box (pc_n c) f y) m (ps_start c) = Ret out /\
    match out with
    | PMore _ => m < pc_n c * depth c D f * length f
    | PPoly r => Permutation r f
    end.
Proof. intros K HK ord Ho c D f y Hf Hc Hs m. exact (run_ok HK ord Ho c D f y Hf Hc Hs m). Qed.
Print Assumptions C46_polynomial_recovered.

(** The order of the coefficients of f does not matter, and with enough probes the result is there. *)
Theorem C46_result_is_there : forall (K : fops), flaws K -> forall ord, (forall A (l : list A), Permutation (ord A l) l) ->
  forall (c : pcfg) D (f : list (list Z * K)) (y : nat -> K), polynomial (pc_n c) D f -> config_fits c D f y ->
  suitable (pc_newton c) (pc_bt c) (pc_n c) D f y ->
  exists r, drive ord c y (black_box (pc_n c) f y) (pc_n c * depth c D f * length f) (ps_start c) = Ret (PPoly r) /\
    Permutation r f /\ forall x, poly_value (pc_n c) r x = poly_value (pc_n c) f x.
Proof.
  intros K HK ord Ho c D f y Hf Hc Hs. destruct (run_ok HK ord Ho c D f y Hf Hc Hs (pc_n c * depth c D f * length f)) as [out [E H]].
  destruct out as [s|r]; [lia|]. exists r. split; [exact E|]. split; [exact H|]. intros x. apply (pv_perm HK). exact H.
Qed.
Print Assumptions C46_result_is_there.

(** Inside a RatReconst the result is homogenized to the given degree d: one more variable in front takes the missing degree. *)
Theorem C46_homogenized_result : forall (K : fops), flaws K -> forall ord, (forall A (l : list A), Permutation (ord A l) l) ->
  forall (c : pcfg) D (f r : list (list Z * K)), polynomial (pc_n c) D f -> (0 <= pc_deg c < 2 ^ 31)%Z ->
  (forall e, In e (map fst f) -> total e <= pc_deg c)%Z -> Permutation r f ->
  pf_n (rat_result ord c r) = S (pc_n c) /\
  Permutation (pf_coefs (rat_result ord c r)) (map (fun t => ((pc_deg c - total (fst t))%Z :: fst t, snd t)) f).
Proof.
  intros K HK ord Ho c D f r [_ [Hn Hf]] Hd Ht P. split; [reflexivity|]. unfold rat_result. cbn [pf_coefs].
  assert (Ho' : any_order (ord (list Z * K)%type)) by (intros m; apply Ho).
  rewrite (homogenize_terms (ord _) Ho'). 2:{ cbn [pf_coefs]. apply (Permutation_NoDup (Permutation_map fst (Permutation_sym P))). exact Hn. }
  cbn [pf_coefs]. rewrite (Ho _ r), P. rewrite (map_ext_in (fun kc => (wrap32 (pc_deg c - degree32 (fst kc)) :: fst kc, snd kc)) (fun t => ((pc_deg c - total (fst t))%Z :: fst t, snd t))); [reflexivity|].
  intros [e a] I. destruct (Hf e a I) as [_ [L [B T]]]. cbn [fst snd]. f_equal. f_equal.
  assert (F : Forall (fun z => (0 <= z)%Z) e) by (apply Forall_forall; intros z Iz; apply (In_nth _ _ 0%Z) in Iz as [i [_ <-]]; apply B).
  pose proof (Ht e (in_map fst _ _ I)) as Le. assert (P0 : (0 <= total e)%Z) by (clear - F; unfold total; induction F; cbn [fold_right]; lia).
  rewrite degree32_spec; [|exact F|unfold two32; change (total_degree e) with (total e); lia]. change (total_degree e) with (total e). apply wrap32_small. unfold two32. lia.
Qed.
Print Assumptions C46_homogenized_result.

(** The zero polynomial: with Newton on, the first probe 0 gives the empty polynomial. *)
Theorem C46_zero_polynomial : forall (K : fops), flaws K -> forall ord, (forall A (l : list A), Permutation (ord A l) l) ->
  forall (c : pcfg) (y : nat -> K) bb, pc_newton c = true -> 0 < pc_n c -> bb (repeat 1 (pc_n c)) = f0 ->
  drive ord c y bb 1 (ps_start c) = Ret (PPoly []).
Proof.
  intros K HK ord Ho c y bb Hn Np Hb. cbn [drive]. unfold pfeed. destruct (list_eq_dec Nat.eq_dec _ _) as [_|X]; [|contradiction].
  cbn [ps_start ps_order]. rewrite Hb. unfold pstep, ps_start, stage_one. cbn [ps_zi Nat.eqb ps_order ps_ais ps_bt ps_nums ps_rec ps_solved ps_tmp].
  cbn [afind]. rewrite mon_eqb_refl. rewrite Hn. replace (nth 0 (repeat 1 (pc_n c)) 0) with 1 by (destruct (pc_n c); [lia|reflexivity]). cbn [Nat.sub].
  assert (EA : newton_ai (y 0) 0 (f0 : K) [] = f0) by reflexivity.
  unfold newton_part. cbn [Nat.sub]. rewrite EA, (feqb_refl HK). cbn [obind fst snd].
  assert (O0 : forall A, ord A [] = []) by (intros A; apply Permutation_nil, Permutation_sym, Ho).
  assert (O1 : forall A (x : A), ord A [x] = [x]) by (intros A x; apply Permutation_length_1_inv, Permutation_sym, Ho).
  assert (EC : forall z, tmp_canonical ord c y z (zero_key c) ([] : list K) = []).
  { intros z. unfold tmp_canonical. cbn [length Nat.eqb andb]. unfold newton_canonical. cbn [length Nat.eqb]. rewrite O1. cbn [fold_left snd]. rewrite (feqb_refl HK). reflexivity. }
  assert (ES : aset [(zero_key c, [] : list K)] (zero_key c) [] = [(zero_key c, [])]) by (unfold aset; cbn [afind map fst]; rewrite mon_eqb_refl; reflexivity).
  unfold combine_stage. cbn [ps_zi ps_ais ps_solved ps_tmp ps_nums ps_rec]. rewrite ES. destruct (Nat.ltb_spec 1 (pc_n c)) as [N1|N1].
  - rewrite Hn. change (1 =? 1) with true. cbn [andb afind]. rewrite mon_eqb_refl, EC. unfold file_newton. rewrite !O0. cbn [fold_left map]. rewrite O0. cbn [seed_bt map obind length].
    change (0 =? 0) with true. destruct (Nat.eqb_spec 1 (pc_n c)) as [E|E]; [lia|]. cbn [negb andb]. rewrite Nat.eqb_refl. cbn [negb].
    unfold final_poly, seed_ais. cbn [map]. rewrite !O0. reflexivity.
  - unfold final_poly. rewrite O0, O1. cbn [fold_left fst snd]. rewrite EC. reflexivity.
Qed.
Print Assumptions C46_zero_polynomial.

(** The conditions on the anchor points are needed.  A root of the polynomial as anchor point makes the result the zero polynomial: *)
Section Root.
  Context {K : fops} (HK : flaws K).
  Add Field KRo : (fl_field K HK).
  Lemma root_value (a : K) : black_box 1 [([1]%Z, f1); ([0]%Z, fopp a)] (fun _ => a) [1] = f0.
  Proof.
    unfold black_box, poly_value. cbn [fold_right fst snd monomial_value nth]. change (Z.to_nat 1) with 1. change (Z.to_nat 0) with 0. cbn [pw]. ring.
  Qed.
End Root.
Theorem C46_anchor_at_a_root_refuted : forall (K : fops), flaws K -> forall ord, (forall A (l : list A), Permutation (ord A l) l) ->
  forall (a : K) thr fuel, a <> f0 ->
  let f := [([1]%Z, f1); ([0]%Z, fopp a)] in
  let c := mk_pcfg 1 (-1) true true thr None fuel in
  polynomial 1 1 f /\ drive ord c (fun _ => a) (black_box 1 f (fun _ => a)) 1 (ps_start c) = Ret (PPoly []).
Proof.
  intros K HK ord Ho a thr fuel Ha f c. split.
  - split; [discriminate|]. split; [repeat constructor; cbn; intuition discriminate|]. intros e b [E|[E|[]]]; injection E as <- <-; (split; [|split; [reflexivity|split]]).
    + apply (f1_neq_0 HK).
    + intros [|[|i]]; cbn; lia.
    + reflexivity.
    + apply (fopp_neq0 HK). exact Ha.
    + intros [|[|i]]; cbn; lia.
    + reflexivity.
  - apply (C46_zero_polynomial K HK ord Ho); [reflexivity|cbn; lia|]. apply (root_value HK).
Qed.
Print Assumptions C46_anchor_at_a_root_refuted.

(** Two equal anchor points confuse the monomials x z and y z: the result is wrong although no coefficient vanishes on them. *)
Definition eq_y (i : nat) : F7 := z7 (nth i [3; 3; 5]%Z 0%Z).
Definition eq_f : list (list Z * F7) := [([1; 0; 1]%Z, z7 1); ([0; 1; 1]%Z, z7 1)].
Definition eq_c : pcfg := mk_pcfg 3 (-1) true true 1 None 20.
Theorem C46_equal_anchors_refuted :
  polynomial 3 1 eq_f /\ config_fits eq_c 1 eq_f eq_y /\
  (forall j e, j <= 3 -> In e (map fst eq_f) -> coefficient 3 eq_y eq_f j (firstn j e) <> f0) /\
  exists r, drive (fun A l => l) eq_c eq_y (black_box 3 eq_f eq_y) 40 (ps_start eq_c) = Ret (PPoly r) /\ ~ Permutation r eq_f.
Proof.
  split; [|split; [|split]].
  - split; [discriminate|]. split; [repeat constructor; cbn; intuition discriminate|].
    intros e a [E|[E|[]]]; injection E as <- <-; (split; [intros E; apply (f_equal v7) in E; vm_compute in E; discriminate|split; [reflexivity|split; [|reflexivity]]]);
    intros [|[|[|[|i]]]]; cbn; lia.
  - split; [reflexivity|]. split; [cbn; lia|]. split; [left; reflexivity|]. split; [intros b E; discriminate E|]. split; [cbn; lia|]. split; [lia|]. split; [cbn; lia|]. split; [cbn; lia|].
    intros _ j Hj. exists 6. split; [cbn; lia|]. left. apply v7_inj. cbn in Hj. do 3 (destruct j as [|j]; [try (exfalso; lia); vm_compute; reflexivity|]). lia.
  - intros j e Hj [<-|[<-|[]]] E; apply (f_equal v7) in E; destruct j as [|[|[|[|j]]]]; try lia; vm_compute in E; discriminate.
  - assert (E : match drive (fun A l => l) eq_c eq_y (black_box 3 eq_f eq_y) 40 (ps_start eq_c) with Ret (PPoly []) => true | _ => false end = true) by (vm_compute; reflexivity).
    destruct (drive _ _ _ _ _ _) as [[s|[|t r]]| | | |]; try discriminate E. exists []. split; [reflexivity|]. intros P. apply Permutation_nil in P. discriminate P.
Qed.
Print Assumptions C46_equal_anchors_refuted.

(** Concrete case: x^2 y + 3 y modulo 7 with the anchor points 3 and 5; both algorithms race. *)
Definition pr_y (i : nat) : F7 := z7 (nth i [3; 5]%Z 0%Z).
Definition pr_f : list (list Z * F7) := [([2; 1]%Z, z7 1); ([0; 1]%Z, z7 3)].
Definition pr_c : pcfg := mk_pcfg 2 (-1) true true 1 None 20.
Add Field K7 : (fl_field F7 F7_laws).
Ltac ne7 := let E := fresh in intros E; apply (f_equal v7) in E; vm_compute in E; discriminate E.
Lemma pr_slice0 e t : In e (map fst pr_f) -> slice 2 pr_y pr_f 0 (firstn 0 e) t = (z7 5 * (t * t) + z7 1)%K.
Proof.
  intros _. unfold slice, part. cbn [firstn filter pr_f fst]. destruct (list_eq_dec Z.eq_dec [] []) as [_|X]; [|contradiction]. unfold poly_value. cbn [fold_right fst snd monomial_value nth Nat.ltb Nat.leb Nat.eqb].
  change (Z.to_nat 2) with 2. change (Z.to_nat 1) with 1. change (Z.to_nat 0) with 0. cbn [pw]. replace (z7 1) with (@f1 F7) by (apply v7_inj; vm_compute; reflexivity).
  replace (pr_y 1) with (z7 5) by reflexivity. transitivity (z7 5 * (t * t) + z7 3 * z7 5)%K; [ring|]. f_equal. apply v7_inj. vm_compute. reflexivity.
Qed.
Lemma pr_slice1 e t : In e (map fst pr_f) -> slice 2 pr_y pr_f 1 (firstn 1 e) t = ((if Z.eqb (nth 0 e 0%Z) 0 then z7 3 else z7 1) * t)%K.
Proof.
  intros [<-|[<-|[]]]; unfold slice, part; cbn [firstn filter pr_f fst nth Z.eqb];
  repeat (destruct (list_eq_dec Z.eq_dec _ _) as [E|E]; try discriminate E; try (exfalso; apply E; reflexivity); clear E); unfold poly_value; cbn [fold_right fst snd monomial_value nth Nat.ltb Nat.leb Nat.eqb];
  change (Z.to_nat 2) with 2; change (Z.to_nat 1) with 1; change (Z.to_nat 0) with 0; cbn [pw]; ring.
Qed.
Example C46_hypotheses_met : polynomial 2 2 pr_f /\ config_fits pr_c 2 pr_f pr_y /\ suitable true true 2 2 pr_f pr_y /\
  match drive (fun A l => l) pr_c pr_y (black_box 2 pr_f pr_y) 16 (ps_start pr_c) with Ret (PPoly r) => map (fun t => (fst t, v7 (snd t))) r = [([0; 1], 3); ([2; 1], 1)]%Z | _ => False end.
Proof.
  assert (Hd : forall j, j < 2 -> distinct 4 (pw (pr_y j))).
  { intros j Hj i k Hi Hk E. apply (f_equal v7) in E. destruct j as [|[|j]]; try lia; destruct i as [|[|[|[|i]]]]; destruct k as [|[|[|[|k]]]]; try lia; vm_compute in E; discriminate E. }
  split; [|split; [|split; [constructor|]]].
  - split; [discriminate|]. split; [repeat constructor; cbn; intuition discriminate|].
    intros e a [E|[E|[]]]; injection E as <- <-; (split; [ne7|split; [reflexivity|split; [|reflexivity]]]); intros [|[|[|i]]]; cbn; lia.
  - split; [reflexivity|]. split; [cbn; lia|]. split; [left; reflexivity|]. split; [intros b E; discriminate E|]. split; [cbn; lia|]. split; [lia|]. split; [cbn; lia|]. split; [cbn; lia|].
    intros _ j Hj. exists 6. split; [cbn; lia|]. left. apply v7_inj. cbn in Hj. do 3 (destruct j as [|j]; [try (exfalso; lia); vm_compute; reflexivity|]). lia.
  - intros j Hj. split; [destruct j as [|[|j]]; try lia; ne7|apply Hd; exact Hj].
  - intros j e Hj [<-|[<-|[]]]; destruct j as [|[|[|j]]]; try lia; ne7.
  - intros j e e' Hj I I' E. destruct j as [|[|j]]; try lia; [reflexivity|]. apply (f_equal v7) in E. destruct I as [<-|[<-|[]]]; destruct I' as [<-|[<-|[]]]; try reflexivity; vm_compute in E; discriminate E.
  - intros _ j e Hj I. apply (prediction_check F7_laws); [apply Hd; exact Hj|]. intros k Hk. destruct j as [|[|j]]; [| |lia].
    + right. destruct I as [<-|[<-|[]]]; destruct k as [|[|[|k]]]; try lia; ne7.
    + destruct (Nat.le_gt_cases 2 k) as [G|G].
      * left. apply (polyfun_ext k (fun t => (if Z.eqb (nth 0 e 0%Z) 0 then z7 3 else z7 1) * t)%K); [intros x; symmetry; apply pr_slice1; exact I|]. apply (polyfun_le F7_laws 2); [exact G|].
        exists (fun i => if i =? 1 then (if Z.eqb (nth 0 e 0%Z) 0 then z7 3 else z7 1) else f0). intros x. unfold ueval. cbn [fsum Nat.eqb pw]. ring.
      * right. destruct I as [<-|[<-|[]]]; destruct k as [|[|k]]; try lia; ne7.
  - intros _ j e Hj I. destruct j as [|[|j]]; [| |lia].
    + apply (recurrence_check F7_laws 2 (fun i => nth i [z7 5; z7 1] f0) (fun i => nth i [z7 2; z7 1] f0)).
      * lia.
      * intros i k Hi Hk E. apply (f_equal v7) in E. destruct i as [|[|i]]; destruct k as [|[|k]]; try lia; vm_compute in E; discriminate E.
      * intros [|[|i]] Hi; try lia; ne7.
      * intros [|[|i]] Hi; try lia; ne7.
      * intros k. rewrite pr_slice0 by exact I. unfold exponential_sum. cbn [fsum nth]. assert (E2 : (pw (pr_y 0) (S k) * pw (pr_y 0) (S k))%K = pw (z7 2) (S k)) by (rewrite <- (pw_mul F7_laws); f_equal; apply v7_inj; vm_compute; reflexivity).
        rewrite E2. assert (E1 : pw (z7 1) (S k) = z7 1) by (replace (z7 1) with (@f1 F7) by (apply v7_inj; vm_compute; reflexivity); apply (pw_1 F7_laws)). rewrite E1.
        replace (z7 1) with (@f1 F7) by (apply v7_inj; vm_compute; reflexivity). ring.
      * intros L a HL. destruct L as [|[|L]]; [| |lia].
        -- apply (no_rec_0 F7_laws). destruct I as [<-|[<-|[]]]; ne7.
        -- apply (no_rec_1 F7_laws). destruct I as [<-|[<-|[]]]; ne7.
    + apply (recurrence_check F7_laws 1 (fun i => if Z.eqb (nth 0 e 0%Z) 0 then z7 3 else z7 1) (fun i => pr_y 1)).
      * lia.
      * intros i k Hi Hk E. lia.
      * intros [|i] Hi; try lia; ne7.
      * intros i Hi. destruct I as [<-|[<-|[]]]; ne7.
      * intros k. rewrite pr_slice1 by exact I. unfold exponential_sum. cbn [fsum]. ring.
      * intros L a HL. destruct L as [|L]; [|lia]. apply (no_rec_0 F7_laws). destruct I as [<-|[<-|[]]]; ne7.
  - vm_compute. reflexivity.
Qed.

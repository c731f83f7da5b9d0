(** From the expression of a printed string to the parser object. *)
From Coq Require Import Ascii String Znumtheory.
From Verif Require Import Machine FFInt FFIntProofs RatNum SYParse SYGrammar SYParseProofs SYEval SYEvalProofs SYPreProofs SYObj SYObjProofs DecPrint Printers PrintSpec PrintProofs NumTheory.
From Coq Require Import List.
Import ListNotations.
Open Scope Z_scope.

Lemma change_switch ps o : change_primes ps o = switch_primes ps o.
Proof. revert o. induction ps as [|q ps IH]; intros o; [reflexivity|]. cbn [change_primes switch_primes]. destruct (precompute_tokens q false o); cbn [obind]; try reflexivity; apply IH. Qed.
Lemma last_in (ps : list Z) p : In (last ps p) (p :: ps).
Proof.
  induction ps as [|q ps IH]; [left; reflexivity|]. destruct ps as [|r ps]; [right; left; reflexivity|]. change (last (q :: r :: ps) p) with (last (r :: ps) p).
  destruct IH as [E|E]; [left; exact E|right; right; exact E].
Qed.
(** the environment of a point *)
Lemma env_values p vars values : NoDup vars -> length values = length vars -> map (env_of p vars values) vars = values.
Proof.
  intros N L. pose proof (env_of_ok p vars values ltac:(lia)) as [E _]. apply nth_ext with (d := 0) (d' := 0); [rewrite map_length; lia|]. intros i Hi. rewrite map_length in Hi.
  destruct (nth_error vars i) as [w|] eqn:W; [|apply nth_error_None in W; lia].
  rewrite (nth_error_nth (map (env_of p vars values) vars) i 0 (x := env_of p vars values w)) by (rewrite nth_error_map, W; reflexivity).
  symmetry. apply nth_error_nth. apply E; [exact W|]. intros j Hj Q. rewrite NoDup_nth_error in N. specialize (N j i ltac:(lia) ltac:(congruence)). lia.
Qed.
Lemma env_point p b vars values : prime_ok b p -> names_ok vars -> length values = length vars -> Forall (fun v => 0 <= v < p) values -> forall PS : Z -> Prop, PS p ->
  point p vars values (env_of p vars values) /\ E PS vars (mk_world p (env_of p vars values)).
Proof.
  intros Hp [_ N] L F PS HPS. pose proof (env_of_ok p vars values ltac:(lia)) as Ek. split; [split; assumption|]. split; [exact HPS|]. cbn [wp wenv]. split; [|apply Ek].
  intros v I. pose proof (env_values p vars values N L) as M. rewrite <- M in F. rewrite Forall_forall in F. apply F. apply in_map. exact I.
Qed.
Section Reads.
  Variables (p : Z) (ps : list Z) (b : Z) (vars : list chars).
  Hypothesis Hps : Forall (prime_ok b) (p :: ps).
  Hypothesis HV : names_ok vars.
  Let PS q := In q (p :: ps).
  Lemma PS_ok q : PS q -> prime q /\ b + 1 <= q - 1.
  Proof. intros I. rewrite Forall_forall in Hps. destruct (Hps q I) as [A [_ B]]. split; [exact A|lia]. Qed.
  Lemma vars_in : Forall (fun v => In v vars) vars. Proof. apply Forall_forall. auto. Qed.
  Lemma expr_good strict t : okE PS vars strict t -> Forall (fun q => good q vars [t]) (p :: ps).
  Proof.
    intros [W [O _]]. apply Forall_forall. intros q I. rewrite Forall_forall in Hps. destruct (Hps q I) as [A [B _]]. constructor; try assumption.
    - intros v Hv. destruct HV as [H _]. rewrite Forall_forall in H. apply (H v Hv).
    - constructor; [|constructor]. split; [exact W|]. apply O. exact I.
  Qed.
  Lemma expr_reads strict s f g : (strict = true \/ ps = []) -> EXPR PS vars strict s f -> (forall env : world, f env = g (wp env) (map env vars)) -> reads_as p ps vars s g.
  Proof.
    intros St [t [S [T F]]] Fg keep pA c1 c2. pose proof (expr_good strict t T) as G. inversion G as [|? ? G1 Gs]; subst. exists (built (last ps p) vars [t] false keep []).
    change [show_e t] with (map show_e [t]). rewrite (construct_plain p vars [t] G1). cbn [obind]. split.
    - destruct St as [->| ->]; [|reflexivity]. rewrite change_switch. apply switch_built; [exact Gs|]. constructor; [|constructor]. apply T. reflexivity.
    - intros xs L Fx. pose proof (last_in ps p) as Il. rewrite Forall_forall in G. pose proof (G _ Il) as Gl. rewrite Forall_forall in Hps. pose proof (Hps _ Il) as Hl.
      destruct (env_point _ b vars xs Hl HV L Fx PS Il) as [Pt Ev]. rewrite (evaluate_plain _ vars [t] Gl keep [] xs _ Pt). cbn [map]. do 2 f_equal.
      pose proof (F _ Ev) as Fv. rewrite Fg in Fv. cbn [wp wenv] in Fv. rewrite Fv. cbn [wp wenv]. rewrite env_values; [reflexivity|apply HV|exact L].
  Qed.
End Reads.

(** ---- the Horner shortcut of calc_n_m_1 ---- *)
Lemma keq_iff a : forall c, keq a c = true <-> a = c.
Proof.
  induction a as [|x a IH]; intros [|y c]; split; intros H; try discriminate; try reflexivity.
  - cbn [keq] in H. apply andb_true_iff in H. destruct H as [H1 H2]. apply Z.eqb_eq in H1. subst. f_equal. apply IH. exact H2.
  - injection H as -> ->. cbn [keq]. rewrite Z.eqb_refl. apply IH. reflexivity.
Qed.
Lemma add_key_keys p e m k : In k (map fst (add_key p e m)) <-> k = fst e \/ In k (map fst m).
Proof.
  induction m as [|[k' c] m IH]; cbn [add_key map fst In]; [split; intros [H|[]]; auto; left; auto|]. destruct (keq k' (fst e)) eqn:Q; cbn [map fst In].
  - apply keq_iff in Q. subst k'. split; [intros [H|H]; auto|intros [H|[H|H]]; auto].
  - rewrite IH. tauto.
Qed.
Lemma add_key_nodup p e m : NoDup (map fst m) -> NoDup (map fst (add_key p e m)).
Proof.
  induction m as [|[k c] m IH]; intros N; [cbn; constructor; [intros []|constructor]|]. cbn [map fst] in N. inversion N as [|? ? N1 N2]; subst. cbn [add_key].
  destruct (keq k (fst e)) eqn:Q; cbn [map fst]; constructor; auto. rewrite add_key_keys. intros [H|H]; [|contradiction]. apply keq_iff in H. congruence.
Qed.
Section DropFirst.
  Variables (p : Z) (xs : list Z).
  Hypothesis P : 1 < p.
  Hypothesis Hb : p < 2 ^ 63.
  Definition canonical (m : pmap Z) : Prop := Forall (fun e => 0 <= snd e < p) m.
  Lemma ff_add_mod a c : 0 <= a < p -> 0 <= c < p -> ff_add_assign p a c = (a + c) mod p.
  Proof. intros A C. apply ff_add_assign_correct; unfold two63 in *; lia. Qed.
  Lemma add_key_val e m : 0 <= snd e < p -> canonical m -> canonical (add_key p e m) /\
    poly_val (fun c => c) (add_key p e m) xs mod p = (snd e * mono_val (fst e) xs + poly_val (fun c => c) m xs) mod p.
  Proof.
    intros He. induction m as [|[k c] m IH]; intros C; [split; [constructor; [exact He|constructor]|reflexivity]|]. inversion C as [|? ? C1 C2]; subst. cbn [snd] in C1. destruct (IH C2) as [I1 I2]. cbn [add_key].
    destruct (keq k (fst e)) eqn:Q.
    - apply keq_iff in Q. subst k. rewrite ff_add_mod by assumption. split; [constructor; [apply Z.mod_pos_bound; lia|exact C2]|].
      cbn [poly_val fold_right fst snd]. fold (poly_val (fun c => c) m xs). rewrite Zplus_mod, Zmult_mod_idemp_l, <- Zplus_mod. f_equal. ring.
    - split; [constructor; assumption|]. cbn [poly_val fold_right fst snd]. fold (poly_val (fun c => c) m xs) (poly_val (fun c => c) (add_key p e m) xs).
      rewrite Zplus_mod, I2, <- Zplus_mod. f_equal. ring.
  Qed.
  Lemma drop_val b k : forall m acc, canonical m -> canonical acc -> Forall (fun e => length (fst e) = S k /\ Forall (fun z => 0 <= z <= b) (fst e)) m ->
    Forall (fun e => length (fst e) = k /\ Forall (fun z => 0 <= z <= b) (fst e)) acc -> NoDup (map fst acc) ->
    let r := fold_left (fun acc e => add_key p (tl (fst e), snd e) acc) m acc in
    canonical r /\ keys_ok k b r /\ poly_val (fun c => c) r xs mod p = (poly_val (fun c => c) acc xs + poly_val (fun c => c) m (1 :: xs)) mod p.
  Proof.
    induction m as [|[e c] m IH]; intros acc Cm Ca Km Ka Na; [split; [exact Ca|]; split; [split; assumption|cbn; rewrite Z.add_0_r; reflexivity]|].
    inversion Cm as [|? ? C1 C2]; subst. inversion Km as [|? ? [N1 N2] N3]; subst. cbn [snd fst] in C1, N1, N2. destruct e as [|z e]; [discriminate|]. injection N1 as N1. inversion N2 as [|? ? N4 N5]; subst.
    cbn [fold_left fst snd tl]. destruct (add_key_val (e, c) acc C1 Ca) as [A1 A2].
    assert (Ka' : Forall (fun e0 => length (fst e0) = length e /\ Forall (fun z => 0 <= z <= b) (fst e0)) (add_key p (e, c) acc)).
    { apply Forall_forall. intros y Y. assert (K : In (fst y) (map fst (add_key p (e, c) acc))) by (apply in_map; exact Y). apply add_key_keys in K. cbn [fst] in K. destruct K as [->|K]; [split; [reflexivity|exact N5]|].
      apply in_map_iff in K. destruct K as [w [<- K]]. rewrite Forall_forall in Ka. apply Ka. exact K. }
    destruct (IH _ C2 A1 N3 Ka' (add_key_nodup p (e, c) acc Na)) as [B1 [B2 B3]]. split; [exact B1|]. split; [exact B2|]. rewrite B3, Zplus_mod, A2, <- Zplus_mod. f_equal.
    change (poly_val (fun c => c) ((z :: e, c) :: m) (1 :: xs)) with (c * (1 ^ z * mono_val e xs) + poly_val (fun c => c) m (1 :: xs)). cbn [fst snd]. rewrite Z.pow_1_l by lia. ring.
  Qed.
End DropFirst.

(** the names a0, a1, ... *)
Lemma digs_length fuel : forall z acc, (length (digs fuel z acc) <= fuel + length acc)%nat.
Proof. induction fuel as [|f IH]; intros z acc; cbn [digs]; [lia|]. destruct (z <? 10); [cbn [length]; lia|]. specialize (IH (z / 10) (digit_char (z mod 10) :: acc)). cbn [length] in IH. lia. Qed.
Lemma a_name_ok i : Z.of_nat i < 2 ^ 15 -> let v := lit "a" ++ print (Z.of_nat i) in wf_word v /\ (length v <= 16)%nat /\ ~ wf_num v.
Proof.
  intros H v. assert (X : print (Z.of_nat i) = print_abs (Z.of_nat i)) by (unfold print; destruct (Z.ltb_spec (Z.of_nat i) 0); [lia|reflexivity]). unfold v. rewrite X.
  destruct (print_abs_ok (Z.of_nat i) ltac:(lia)) as [[N W] _]. split; [|split].
  - split; [discriminate|]. cbn [app list_ascii_of_string forallb]. apply andb_true_iff. split; [reflexivity|]. apply digit_alnum. exact W.
  - cbn [app list_ascii_of_string length]. unfold print_abs. pose proof (digs_length (S (Z.to_nat (Z.log2 (Z.of_nat i)))) (Z.of_nat i) []) as D. cbn [length] in D.
    assert (Z.log2 (Z.of_nat i) <= 14). { destruct (Z.eq_dec (Z.of_nat i) 0) as [->|]; [cbn; lia|]. apply Z.lt_succ_r. apply Z.log2_lt_pow2; [lia|]. change (2 ^ Z.succ 14) with (2 ^ 15). lia. } lia.
  - intros [_ Q]. discriminate Q.
Qed.
Lemma a_names_ok n : Z.of_nat n <= 2 ^ 15 -> names_ok (a_names n).
Proof.
  intros H. split.
  - apply Forall_forall. intros v I. apply in_map_iff in I. destruct I as [i [<- I]]. apply in_seq in I. apply a_name_ok. lia.
  - apply FinFun.Injective_map_NoDup; [|apply seq_NoDup]. intros i j Q. apply app_inv_head in Q.
    assert (X : forall k, print (Z.of_nat k) = print_abs (Z.of_nat k)) by (intros k; unfold print; destruct (Z.ltb_spec (Z.of_nat k) 0); [lia|reflexivity]). rewrite !X in Q.
    destruct (print_abs_ok (Z.of_nat i) ltac:(lia)) as [_ [D1 _]]. destruct (print_abs_ok (Z.of_nat j) ltac:(lia)) as [_ [D2 _]]. rewrite Q in D1. lia.
Qed.
Lemma ff_term PS V (HV : names_ok V) strict (c : Z) : 0 <= c -> TERM PS V strict (print c) (fun _ => c).
Proof. intros H. apply T_fac. apply F_num; assumption. Qed.
Lemma ff_one (c : Z) : 0 <= c -> (1 =? c) = true -> c = 1.
Proof. intros _ H. apply Z.eqb_eq in H. lia. Qed.

(** parse without validate, then precompute_tokens and evaluate_pre *)
Lemma expr_direct p b vars strict s f : prime_ok b p -> names_ok vars -> EXPR (eq p) vars strict s f ->
  exists ts, parse s = Ret ts /\ forall xs, length xs = length vars -> Forall (fun x => 0 <= x < p) xs ->
  exists tp, precompute p vars ts = Ret tp /\ eval_pre1 p xs (fst tp) = Ret (f (mk_world p (env_of p vars xs)) mod p).
Proof.
  intros Hp HV [t [S [[W [O [Pl [N L]]]] F]]]. exists (rpn_e (relead t)). rewrite <- S. split; [apply parse_show; assumption|]. intros xs Lx Fx. specialize (O p eq_refl).
  destruct (env_point p b vars xs Hp HV Lx Fx (eq p) eq_refl) as [Pt Ev]. pose proof Hp as [P [Pb _]].
  assert (Hn : forall v, In v vars -> ~ wf_num v) by (intros v I; destruct HV as [H _]; rewrite Forall_forall in H; apply (H v I)).
  destruct (relead_den p vars P xs _ (proj1 Pt) Hn t W O) as [W2 [O2 E2]].
  pose proof (proj1 (proj2 (proj2 (proj2 (exec_correct_aux p vars P Pb xs _ (proj1 Pt) Hn (proj2 Pt)))) _ W2 O2 [])) as X.
  destruct (precompute_correct p vars P Pb xs (proj2 Pt) (rpn_e (relead t)) (den_e p (env_of p vars xs) (relead t))) as [toks [parts [Q1 Q2]]]; [unfold evaluate1; rewrite X; reflexivity|].
  exists (toks, parts). split; [exact Q1|]. cbn [fst]. rewrite Q2, E2. f_equal. exact (F _ Ev).
Qed.
Lemma calc_horner_ok p b k m : prime_ok b p -> Z.of_nat k <= 2 ^ 15 -> keys_ok (S k) b m -> m <> [] -> Forall (fun e => 0 <= snd e < p) m ->
  forall xs, length xs = k -> Forall (fun x => 0 <= x < p) xs -> calc_horner p (S k) m xs = Ret (poly_val (fun c => c) m (1 :: xs) mod p).
Proof.
  intros Hp Hk Km Ne Cm xs Lx Fx. pose proof Hp as [[P1 _] [Pb Bb]]. unfold calc_horner, horner_tokens. cbn zeta. replace (S k - 1)%nat with k by lia. set (vars := a_names k). pose proof (a_names_ok k Hk) as HV. fold vars in HV.
  assert (Lv : length vars = k) by (unfold vars, a_names; rewrite map_length, seq_length; reflexivity).
  destruct (drop_val p xs P1 Pb b k m [] Cm (Forall_nil _) (proj1 Km) (Forall_nil _) (NoDup_nil _)) as [D1 [D2 D3]]. fold (drop_first p m) in D1, D2, D3. cbn [poly_val fold_right] in D3. rewrite Z.add_0_l in D3.
  assert (Nd : drop_first p m <> []).
  { unfold drop_first. destruct m as [|e m]; [congruence|]. cbn [fold_left]. clear. assert (X : forall e acc, acc <> [] \/ add_key p e acc <> [] -> add_key p e acc <> []).
    { intros e0 acc _. destruct acc as [|[k c] acc]; cbn [add_key]; [discriminate|]. destruct (keq k (fst e0)); discriminate. }
    assert (Y : forall (m acc : pmap Z), acc <> [] -> fold_left (fun acc e => add_key p (tl (fst e), snd e) acc) m acc <> []).
    { intros m1. induction m1 as [|e0 m1 IH]; intros acc H; [exact H|]. cbn [fold_left]. apply IH. apply X. left. exact H. }
    apply Y. discriminate. }
  assert (Kl : key_length (drop_first p m) = k).
  { destruct (drop_first p m) as [|[e c] r]; [congruence|]. destruct D2 as [D2 _]. inversion D2 as [|? ? [Q _] _]. exact Q. }
  rewrite Kl.
  assert (HPS : forall q, p = q -> prime q /\ b + 1 <= q - 1) by (intros q <-; split; [apply Hp|lia]).
  assert (X : EXPR (eq p) vars true (horner_s print (Z.eqb 1) k vars (drop_first p m)) (fun env => poly_val ((fun _ c => c) (wp env)) (drop_first p m) (map env vars))).
  { refine (horner_form_ok (eq p) (b + 1) vars true HPS HV print (Z.eqb 1) (fun _ c => c) (fun c => 0 <= c) (fun c H => ff_term _ _ HV _ c H) (fun c H Q q _ => ff_one c H Q) b _ false _ k vars (drop_first p m) Nd D2 _ _ _);
      [lia|discriminate|eapply Forall_impl; [|exact D1]; intros a A; cbn beta in A; lia|lia|apply Forall_forall; auto]. }
  destruct (expr_direct p b vars true _ _ Hp HV X) as [ts [Q1 Q2]]. rewrite Q1. cbn [obind]. destruct (Q2 xs ltac:(lia) Fx) as [tp [Q3 Q4]]. rewrite Q3. cbn [obind]. change (obind (Ret (fst tp)) (eval_pre1 p xs)) with (eval_pre1 p xs (fst tp)). rewrite Q4. f_equal.
  cbn [wp wenv]. rewrite env_values; [exact D3|apply HV|lia].
Qed.

(** ---- histories ---- *)
Section History.
  Variables (p b : Z) (k : nat).
  Hypothesis Hp : prime_ok b p.
  Hypothesis Hk : Z.of_nat k <= 2 ^ 15.
  Hypothesis Hb : b < 2 ^ 32.
  Lemma mono_loop_ok : forall e x acc, 0 <= acc < p -> Forall (fun z => 0 <= z <= b) e -> Forall (fun v => 0 <= v < p) x -> length e = length x ->
    mono_loop p e x acc = (acc * mono_val e x) mod p.
  Proof.
    pose proof Hp as [P [P2 P3]]. assert (P1 : 1 < p) by (destruct P; lia). induction e as [|z e IH]; intros [|v x] acc A Fe Fx L; try discriminate.
    - cbn. rewrite Z.mul_1_r. symmetry. apply Z.mod_small. exact A.
    - inversion Fe as [|? ? E1 E2]; subst. inversion Fx as [|? ? X1 X2]; subst. cbn [mono_loop mono_val]. rewrite ff_pow_int_nonneg by (unfold two63, two64; try assumption; lia).
      pose proof (Z.mod_pos_bound (v ^ z) p ltac:(lia)). rewrite ff_mul_assign_correct by (unfold two63; try assumption; lia). rewrite IH; [|apply Z.mod_pos_bound; lia|assumption|assumption|cbn in L; lia].
      rewrite Zmult_mod_idemp_l. rewrite <- Z.mul_assoc, (Z.mul_comm (v ^ z mod p)), Z.mul_assoc, Zmult_mod_idemp_r. f_equal. ring.
  Qed.
  Lemma calc_direct_ok x : S (length x) = S k -> Forall (fun v => 0 <= v < p) x -> forall m, ff_map_ok p (S k) b m -> calc_direct p m x = poly_val (fun c => c) m (1 :: x) mod p.
  Proof.
    pose proof Hp as [P [P2 P3]]. assert (P1 : 1 < p) by (destruct P; lia). intros Lx Fx m [[K _] C]. unfold calc_direct.
    assert (G : forall m acc, Forall (fun e => length (fst e) = S k /\ Forall (fun z => 0 <= z <= b) (fst e)) m -> Forall (fun e => 0 <= snd e < p) m -> 0 <= acc < p ->
      fold_left (fun res t => ff_add_assign p res (ff_mul p (snd t) (mono_loop p (tl (fst t)) x 1))) m acc = (acc + poly_val (fun c => c) m (1 :: x)) mod p).
    { clear m K C. induction m as [|[e c] m IH]; intros acc K C A; [cbn; rewrite Z.add_0_r; symmetry; apply Z.mod_small; exact A|].
      inversion K as [|? ? [K1 K2] K3]; subst. inversion C as [|? ? C1 C2]; subst. cbn [fst snd] in *. destruct e as [|z e]; [discriminate|]. inversion K2 as [|? ? K4 K5]; subst. cbn [fold_left fst snd tl].
      rewrite mono_loop_ok by (try assumption; cbn in K1; lia). rewrite Z.mul_1_l. set (mv := mono_val e x).
      pose proof (Z.mod_pos_bound mv p ltac:(lia)). unfold ff_mul. rewrite mod_mul_correct by (unfold two63, two64; lia). pose proof (Z.mod_pos_bound (c * (mv mod p)) p ltac:(lia)).
      assert (Ct : ff_ctor p ((c * (mv mod p)) mod p) = (c * (mv mod p)) mod p) by (apply ff_ctor_canon; lia).
      rewrite Ct. rewrite ff_add_assign_correct by (unfold two63; lia). rewrite IH; [|assumption|assumption|apply Z.mod_pos_bound; lia].
      change (poly_val (fun c => c) ((z :: e, c) :: m) (1 :: x)) with (c * (1 ^ z * mv) + poly_val (fun c => c) m (1 :: x)). rewrite Z.pow_1_l by lia.
      rewrite Zplus_mod_idemp_l. rewrite <- Z.add_assoc, (Z.add_comm ((c * (mv mod p)) mod p)), Z.add_assoc, Zplus_mod_idemp_r. rewrite <- Zplus_mod_idemp_r, Zmult_mod_idemp_r, Zplus_mod_idemp_r. f_equal. ring. }
    rewrite G; [reflexivity|exact K|exact C|lia].
  Qed.
  Lemma tokens_total m : ff_map_ok p (S k) b m -> m <> [] -> exists ts, horner_tokens p (S k) m = Ret ts /\
    forall x, length x = k -> Forall (fun v => 0 <= v < p) x -> eval_pre1 p x ts = Ret (poly_val (fun c => c) m (1 :: x) mod p).
  Proof.
    intros [K C] Ne. assert (X : forall x, length x = k -> Forall (fun v => 0 <= v < p) x -> obind (horner_tokens p (S k) m) (eval_pre1 p x) = Ret (poly_val (fun c => c) m (1 :: x) mod p)).
    { intros x L F. apply (calc_horner_ok p b k m Hp Hk K Ne C x L F). }
    pose proof Hp as [[P1 _] _].
    pose proof (X (repeat 0 k) (repeat_length _ _) ltac:(apply Forall_forall; intros v I; apply repeat_spec in I; lia)) as X0.
    destruct (horner_tokens p (S k) m) as [ts| | | |]; try discriminate X0. exists ts. split; [reflexivity|exact X].
  Qed.
  Lemma run_hops_ok : forall l o, ff_map_ok p (S k) b (hcoefs o) -> (eval_h o = true -> hcoefs o <> [] /\ horner_tokens p (S k) (hcoefs o) = Ret (htoks o)) -> Forall (hop_ok p (S k) b) l ->
    run_hops p (S k) o l = Ret (hop_values p (hcoefs o) l).
  Proof.
    induction l as [|[m|x] l IH]; intros o M T F; [reflexivity| |]; inversion F as [|? ? F1 F2]; subst; cbn [run_hops hop_values].
    - apply (IH (mutate m o)); [exact F1|discriminate|exact F2].
    - destruct F1 as [L Fx]. injection L as L. unfold calc_obj. destruct (gen_new o && (50 <? length (hcoefs o))%nat) eqn:G.
      + apply andb_true_iff in G. destruct G as [_ G]. apply Nat.ltb_lt in G. assert (Ne : hcoefs o <> []) by (intros Q; rewrite Q in G; cbn in G; lia).
        destruct (tokens_total _ M Ne) as [ts [T1 T2]]. rewrite T1. cbn [obind]. rewrite (T2 x L Fx). cbn [obind fst snd]. rewrite (IH (mk_hobj (hcoefs o) false true ts)); [reflexivity|exact M|intros _; split; assumption|exact F2].
      + destruct (eval_h o) eqn:Ev.
        * destruct (T eq_refl) as [Ne T1]. destruct (tokens_total _ M Ne) as [ts [T2 T3]]. rewrite T1 in T2. injection T2 as <-. rewrite (T3 x L Fx). cbn [obind fst snd]. rewrite IH; [reflexivity|exact M|intros _; exact (T eq_refl)|exact F2].
        * cbn [obind fst snd]. rewrite (calc_direct_ok x ltac:(lia) Fx _ M). rewrite IH; [reflexivity|exact M|congruence|exact F2].
  Qed.
End History.

(** Property theorems C25: Berlekamp/Massey and Ben-Or/Tiwari (PolyReconst.cpp) over every field satisfying the FFInt laws. *)
From Coq Require Import Permutation.
From Verif Require Import Machine FField FSum LinAlg LinAlgProofs FPoly Vandermonde VandermondeProofs BM BMSpec BMProofs BTProofs Props_LinAlg.
Open Scope nat_scope.

(** state after the first n values of s *)
Definition bm_after {K : fops} (thr : nat) (s : nat -> K) (n : nat) (flags : list bool) (st : bm K) : Prop :=
  bm_feed thr bm_init [] (map s (seq 0 n)) = Ret (flags, st).

(** For every sequence with a non-zero first value the algorithm never fails, its polynomial is a linear recurrence for all
    values so far, and no shorter recurrence exists. *)
Theorem C25_generator_valid_and_minimal : forall (K : fops), flaws K -> forall thr (s : nat -> K) n, 0 < n -> s 0 <> f0 ->
  exists flags st, bm_after thr s n flags st /\
    recurrence (seq_of (bm_lambda st)) (bm_l st) s n /\
    forall c L, recurrence c L s n -> bm_l st <= L.
Proof.
  intros K HK thr s n Hn Hs. destruct (bm_feed_inv HK thr s n Hn Hs) as [fs [st [E I]]]. exists fs, st. split; [exact E|].
  destruct I as [_ _ _ R _ _ _ _ _ _ M]. replace (S n - 1) with n in * by lia. split; [exact R|exact M].
Qed.
Print Assumptions C25_generator_valid_and_minimal.

(** success is only reported if the recurrence, unchanged, predicted the newest value and more than twice its length of values
    has been seen *)
Theorem C25_success_flag : forall (K : fops), flaws K -> forall thr (s : nat -> K) n flags st, 0 < n -> s 0 <> f0 ->
  bm_after thr s (S n) (flags ++ [true]) st ->
  exists flags' st', bm_after thr s n flags' st' /\ bm_lambda st = bm_lambda st' /\ bm_l st = bm_l st' /\
    recurrence (seq_of (bm_lambda st')) (bm_l st') s (S n) /\ 2 * bm_l st' < S n.
Proof.
  intros K HK thr s n flags st Hn Hs H. destruct (bm_feed_inv HK thr s n Hn Hs) as [fs [st' [E I]]].
  exists fs, st'. split; [exact E|]. unfold bm_after in H. rewrite seq_S, map_app, bm_feed_app in H. rewrite E in H. cbn [map app Nat.add bm_feed] in H.
  destruct (bm_step_inv HK thr s (S n) st' (map s (seq 0 n) ++ [s n]) I) as [fl [st2 [E2 [I2 [F1 [F2 F3]]]]]].
  - rewrite app_length, map_length, seq_length. cbn. lia.
  - intros k Hk. destruct (Nat.eq_dec k n) as [->|Nk].
    + replace n with (length (map s (seq 0 n))) at 1 by (rewrite map_length, seq_length; reflexivity). rewrite nth_middle. reflexivity.
    + rewrite app_nth1 by (rewrite map_length, seq_length; lia). rewrite (nth_indep _ f0 (s 0)) by (rewrite map_length, seq_length; lia).
      rewrite map_nth, seq_nth by lia. reflexivity.
  - rewrite E2 in H. injection H as H1 H2. subst st2. apply app_inj_tail in H1 as [_ H1]. subst fl.
    destruct (proj1 F1 eq_refl) as [D [_ L]]. destruct (F2 D) as [G1 [G2 _]]. split; [exact G1|]. split; [exact G2|]. split; [|exact L].
    destruct I2 as [_ _ _ R _ _ _ _ _ _ _]. replace (S (S n) - 1) with (S n) in R by lia. rewrite G1, G2 in R. exact R.
Qed.
Print Assumptions C25_success_flag.

(** a sparse polynomial: terms (exponent, coefficient); its k-th probe is taken at z^(k+1) *)
Definition sparse_probe {K : fops} (z : K) (terms : list (nat * K)) (k : nat) : K :=
  exponential_sum (length terms) (fun j => snd (nth j terms (0, f0))) (fun j => pw z (fst (nth j terms (0, f0)))) k.
Definition sparse_polynomial {K : fops} (z : K) (terms : list (nat * K)) (M : nat) : Prop :=
  terms <> [] /\ NoDup (map fst terms) /\ Forall (fun t => snd t <> f0) terms /\ Forall (fun t => fst t <= M) terms /\
  z <> f0 /\ distinct (S M) (pw z) /\ (Z.of_nat (length terms) + 1 < 2 ^ 64)%Z.

(** Ben-Or/Tiwari: any result obtained from at least 2T probes is the polynomial, and at most 2T + max(1, threshold)
    probes are needed, where T is the number of terms. *)
Theorem C25_ben_or_tiwari_recovers_sparse_polynomials : forall (K : fops), flaws K ->
  forall (z : K) terms M thr fuel maxc m, sparse_polynomial z terms M -> sparse_probe z terms 0 <> f0 ->
  S M < fuel -> (Z.of_nat M <= maxc)%Z -> 0 < m ->
  exists o, bt_feed thr fuel z maxc bm_init [] (map (sparse_probe z terms) (seq 0 m)) = Ret o /\
    (forall p used, o = Some (p, used) -> 0 < used <= m /\ (2 * length terms <= used -> Permutation p terms)) /\
    (2 * length terms + Nat.max 1 thr <= m -> o <> None).
Proof.
  intros K HK z terms M thr fuel maxc m [H1 [H2 [H3 [H4 [H5 [H6 H7]]]]]] H0 Hf Hc Hm.
  destruct (bt_feed_start HK z terms M H1 H2 H3 H4 H5 H6 H7 thr fuel maxc Hf Hc m Hm H0) as [o [O1 [O2 O3]]].
  exists o. split; [exact O1|]. split; [exact O2|]. intros H E. specialize (O3 E). lia.
Qed.
Print Assumptions C25_ben_or_tiwari_recovers_sparse_polynomials.

(** With Newton interpolation switched off a first probe that vanishes is undefined behaviour (back() of an empty vector). *)
Theorem C25_first_value_zero_refuted : forall (K : fops), flaws K -> forall thr (vals : list K), bm_feed thr bm_init [] (f0 :: vals) = UB.
Proof. intros K HK thr vals. cbn [bm_feed app]. rewrite (bm_first_zero HK). reflexivity. Qed.
Print Assumptions C25_first_value_zero_refuted.

(** 2 x^2 + 3 x^5 ... over F7 with anchor 3 *)
Definition ex_terms : list (nat * F7) := [(2, z7 2); (5, z7 3)].
Lemma powers_of_3 : distinct 6 (pw (z7 3)).
Proof. intros [|[|[|[|[|[|i]]]]]] [|[|[|[|[|[|j]]]]]] Hi Hj E; try lia; apply (f_equal v7) in E; vm_compute in E; discriminate. Qed.
Definition show_bt (o : outcome (option (list (nat * F7) * nat))) : option (list (nat * Z) * nat) :=
  match o with Ret (Some (p, u)) => Some (map (fun ec => (fst ec, v7 (snd ec))) p, u) | _ => None end.
Example C25_hypotheses_met : sparse_polynomial (z7 3) ex_terms 5 /\ sparse_probe (z7 3) ex_terms 0 <> f0 /\
  show_bt (bt_feed 1 10 (z7 3) 100 bm_init [] (map (sparse_probe (z7 3) ex_terms) (seq 0 5))) = Some ([(2, 2%Z); (5, 3%Z)], 5).
Proof.
  split; [|split; [intros E; apply (f_equal v7) in E; vm_compute in E; discriminate|vm_compute; reflexivity]].
  split; [discriminate|]. split; [repeat constructor; cbn; intuition lia|]. split.
  { repeat constructor; cbn [snd]; intros E; apply (f_equal v7) in E; vm_compute in E; discriminate. }
  split; [repeat constructor; cbn; lia|]. split; [intros E; apply (f_equal v7) in E; vm_compute in E; discriminate|]. split; [exact powers_of_3|cbn; lia].
Qed.

(** A result reported after fewer than 2T probes can be wrong: 1 + x + 2 x^2 with threshold 1 (the default). *)
Definition bad_terms : list (nat * F7) := [(0, z7 1); (1, z7 1); (2, z7 2)].
Theorem C25_early_success_refuted : exists (K : fops) (z : K) terms M p used, flaws K /\ sparse_polynomial z terms M /\
  sparse_probe z terms 0 <> f0 /\
  bt_feed 1 (2 + M) z (Z.of_nat M + 2) bm_init [] (map (sparse_probe z terms) (seq 0 6)) = Ret (Some (p, used)) /\ ~ Permutation p terms.
Proof.
  assert (E : show_bt (bt_feed 1 7 (z7 3) 7 bm_init [] (map (sparse_probe (z7 3) bad_terms) (seq 0 6))) = Some ([(4, 2%Z)], 3)) by (vm_compute; reflexivity).
  destruct (bt_feed 1 7 (z7 3) 7 bm_init [] (map (sparse_probe (z7 3) bad_terms) (seq 0 6))) as [[[p u]|]| | | |] eqn:B; try discriminate E.
  cbn [show_bt] in E. injection E as E1 E2. exists F7, (z7 3), bad_terms, 5, p, u. split; [exact F7_laws|]. split; [|split; [|split; [exact B|]]].
  - split; [discriminate|]. split; [repeat constructor; cbn; intuition lia|]. split.
    { repeat constructor; cbn [snd]; intros E; apply (f_equal v7) in E; vm_compute in E; discriminate. }
    split; [repeat constructor; cbn; lia|]. split; [intros E; apply (f_equal v7) in E; vm_compute in E; discriminate|]. split; [exact powers_of_3|cbn; lia].
  - intros E. apply (f_equal v7) in E. vm_compute in E. discriminate.
  - intros P. apply Permutation_length in P. apply (f_equal (@length _)) in E1. rewrite map_length in E1.
    assert (Q : 1 = 3) by exact (eq_trans (eq_sym E1) P). discriminate Q.
Qed.
Print Assumptions C25_early_success_refuted.

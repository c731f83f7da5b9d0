(** A concrete case of C56: (x + 3 y) / (x + y + x^2 + x y), shifted by (1, 3), over the prime 101 after the prime 7; the coefficient of x in the denominator is already known. *)
From Coq Require Import Permutation.
From Verif Require Import Machine FField FSum FPoly PolyFF PolySpec RatUni RatUniSpec Newton PolyRec PolyRecSpec PolyRecMath RatMulti RatMultiSpec RatMultiQ Field101 Props_RatMulti Props_Scan RatSing RatSingSpec RatSingEx Props_RatSing.
Open Scope nat_scope.

Definition sg_s (i : nat) : F101 := z101 (nth i [1; 3]%Z 0%Z).
Definition sg_y (i : nat) : F101 := z101 2.
Definition sg_ts : list F101 := map (fun i => z101 (Z.of_nat i)) (seq 21 8).
Definition sg_N : list (list Z * F101) := [([1; 0]%Z, z101 38); ([0; 1]%Z, z101 13)].
Definition sg_D : list (list Z * F101) := [([1; 0]%Z, z101 38); ([0; 1]%Z, z101 38); ([2; 0]%Z, z101 38); ([1; 1]%Z, z101 38)].
Definition sg_Ns : list (list Z * F101) := [([0; 0]%Z, z101 77); ([1; 0]%Z, z101 38); ([0; 1]%Z, z101 13)].
Definition sg_Ds : list (list Z * F101) := [([0; 0]%Z, z101 1); ([1; 0]%Z, z101 26); ([0; 1]%Z, z101 76); ([2; 0]%Z, z101 38); ([1; 1]%Z, z101 38)].
(** over the prime 7 *)
Definition sg_subN : list (nat * polyff F7) := [(0, mk_polyff 2 [([0; 0]%Z, z7 3)])].
Definition sg_subD : list (nat * polyff F7) := [(0, mk_polyff 2 [([0; 0]%Z, z7 1)]); (1, mk_polyff 2 [([1; 0]%Z, z7 5); ([0; 1]%Z, z7 1)])].
Definition sg_gD : list (list Z) := [[1; 0]%Z].
Definition sg_nsN : list (nat * list (list Z)) := [(1, [[1; 0]; [0; 1]]%Z)].
Definition sg_nsD : list (nat * list (list Z)) := [(1, [[0; 1]%Z]); (2, [[2; 0]; [1; 1]]%Z)].

Ltac cases := repeat match goal with I : _ \/ _ |- _ => destruct I as [I|I] | I : False |- _ => destruct I end.
Ltac ne7 := let E := fresh in intros E; apply (f_equal v7) in E; vm_compute in E; discriminate E.

Lemma sg_poly P : In P [sg_N; sg_D; sg_Ns; sg_Ds] -> polynomial 2 (tdegree P) P.
Proof.
  intros I. split; [destruct I as [<-|[<-|[<-|[<-|[]]]]]; discriminate|]. split; [destruct I as [<-|[<-|[<-|[<-|[]]]]]; repeat constructor; cbn; intuition discriminate|].
  intros e a J.
  destruct I as [<-|[<-|[<-|[<-|[]]]]]; match goal with |- context [tdegree ?P] => let d := eval vm_compute in (tdegree P) in change (tdegree P) with d end; cbn in J; cases; try injection J as <- <-; try contradiction;
  (split; [ne101|split; [reflexivity|split; [|reflexivity]]]); intros [|[|[|i]]]; cbn; lia.
Qed.
Ltac unf := unfold poly_value; cbn [fold_right fst snd monomial_value nth]; change (Z.to_nat 0) with 0; change (Z.to_nat 1) with 1; change (Z.to_nat 2) with 2; cbn [pw].
Lemma sg_transN : translated 2 sg_s sg_N sg_Ns.
Proof.
  split; [apply (sg_poly sg_Ns); cbn; auto|]. split; [reflexivity|]. intros x. unfold sg_N, sg_Ns, sg_s. unf.
  replace (z101 77) with (z101 38 * z101 1 + z101 13 * z101 3)%K by eq101. ring.
Qed.
Lemma sg_transD : translated 2 sg_s sg_D sg_Ds.
Proof.
  split; [apply (sg_poly sg_Ds); cbn; auto|]. split; [reflexivity|]. intros x. unfold sg_D, sg_Ds, sg_s. unf.
  replace (z101 26) with (z101 38 * (f1 + z101 1 + z101 1 + z101 3))%K by eq101. replace (z101 76) with (z101 38 * (f1 + z101 1))%K by eq101.
  transitivity (z101 38 * (z101 1 + z101 3) * (f1 + z101 1) + z101 38 * (f1 + z101 1 + z101 1 + z101 3) * x 0%nat + z101 38 * (f1 + z101 1) * x 1%nat + z101 38 * (x 0%nat * x 0%nat) + z101 38 * (x 0%nat * x 1%nat))%K; [|ring].
  replace (z101 38 * (z101 1 + z101 3) * (f1 + z101 1))%K with (z101 1) by eq101. ring.
Qed.


Ltac nodup := repeat constructor; cbn; intuition discriminate.
Ltac nonneg := intros [|[|[|?]]]; cbn; lia.
(** the monomials of degree 1 or 2 of the example differ at the anchor point *)
Ltac apart := cbn; intros; cases; subst; cbn in *; try reflexivity; try lia; try discriminate;
  match goal with H : _ = _ :> F101 |- _ => apply (f_equal v101) in H; vm_compute in H; discriminate H end.

Lemma sg_knownN : known_side 2 (tdegree sg_N) false sg_N sg_Ns sg_y [] (map fst sg_N) sg_nsN sg_subN [0].
Proof.
  constructor.
  - cbn. intuition discriminate.
  - rewrite app_nil_r. apply Permutation_refl.
  - split; [nodup|]. split.
    + intros d l [E|[]]. injection E as <- <-. split; [discriminate|]. apply Permutation_refl.
    + cbn. intros k I. cases; subst k; cbn; auto.
  - split; [nodup|]. cbn. intros d I. cases; lia.
  - intros [|d].
    + split; [nodup|]. intros k a I. destruct I as [I|[]]. injection I as <- <-. replace (feqb (z7 3) f0) with false by (vm_compute; reflexivity). split; [reflexivity|]. split; [nonneg|reflexivity].
    + split; [constructor|]. intros k a [].
  - intros k I J _. cbn in I. cases; subst k; try (exfalso; apply J; cbn; tauto). exists (z7 3). split; [left; reflexivity|ne7].
  - intros d [<-|[]] k I. cbn in I. cases; subst k; discriminate.
  - intros d Hd H [k [a [I Na]]]. destruct d as [|d]; [left; reflexivity|destruct I].
  - intros d k k'. destruct d as [|d]; apart.
Qed.
Lemma sg_knownD : known_side 2 (tdegree sg_D) true sg_D sg_Ds sg_y sg_gD [[0; 1]; [2; 0]; [1; 1]]%Z sg_nsD sg_subD [0].
Proof.
  constructor.
  - cbn. intuition discriminate.
  - unfold sg_gD, sg_D. cbn [map fst app]. apply (Permutation_sym (Permutation_cons_append [[0; 1]; [2; 0]; [1; 1]]%Z [1; 0]%Z)).
  - split; [nodup|]. split.
    + intros d l [E|[E|[]]]; injection E as <- <-; (split; [discriminate|]); apply Permutation_refl.
    + cbn. intros k I. cases; subst k; cbn; auto.
  - split; [nodup|]. change (tdegree sg_D) with 2. cbn. intros d I. cases; lia.
  - intros [|[|d]].
    + split; [nodup|]. intros k a I. destruct I as [I|[]]. injection I as <- <-. replace (feqb (z7 1) f0) with false by (vm_compute; reflexivity). split; [reflexivity|]. split; [nonneg|reflexivity].
    + split; [nodup|]. intros k a I. destruct I as [I|[I|[]]]; injection I as <- <-.
      * replace (feqb (z7 5) f0) with false by (vm_compute; reflexivity). split; [reflexivity|]. split; [nonneg|reflexivity].
      * replace (feqb (z7 1) f0) with false by (vm_compute; reflexivity). split; [reflexivity|]. split; [nonneg|reflexivity].
    + split; [constructor|]. intros k a [].
  - intros k I J Z. cbn in I. cases; subst k; exfalso; solve [apply J; cbn; tauto|apply Z; reflexivity].
  - intros d [<-|[]] k I. cbn in I. cases; subst k; discriminate.
  - intros d Hd H [k [a [I Na]]]. destruct d as [|[|d]]; [left; reflexivity| |destruct I]. exfalso. apply (H [1; 0]%Z); [cbn; auto|reflexivity].
  - intros d k k'. destruct d as [|[|d]]; apart.
Qed.
Lemma sg_powersN : unknown_powers (tdegree sg_N) false sg_N sg_subN [0; 1].
Proof.
  split; [nodup|]. change (tdegree sg_N) with 1. intros d. split.
  - intros [<-|[<-|[]]]; (split; [lia|]).
    + right. split; [discriminate|]. exists [0; 0]%Z, (z7 3). split; [left; reflexivity|ne7].
    + left. exists [1; 0]%Z. split; [cbn; auto|reflexivity].
  - intros [H _]. cbn. lia.
Qed.
Lemma sg_powersD : unknown_powers (tdegree sg_D) true sg_D sg_subD [1; 2].
Proof.
  split; [nodup|]. change (tdegree sg_D) with 2. intros d. split.
  - intros [<-|[<-|[]]]; (split; [lia|]); left.
    + exists [1; 0]%Z. split; [cbn; auto|reflexivity].
    + exists [2; 0]%Z. split; [cbn; auto|reflexivity].
  - intros [H [[k [I E]]|[Z [k [a [I _]]]]]].
    + cbn in I. clear H; cases; subst k; change (Z.of_nat d) with (Z.of_nat d) in E; cbn -[Z.of_nat] in E; cbn [In]; clear - E; lia.
    + cbn. destruct d as [|d]; [exfalso; apply Z; reflexivity|lia].
Qed.
Definition sg_value (i j : nat) : F101 := ray_value 2 sg_N sg_D sg_y sg_s (repeat i 1) (nth j sg_ts f0).
Definition sg_table (i : nat) : list F101 := map (sg_value i) (seq 0 8).
Definition sg_lists (a b : nat) : list (list nat) := [[]; [a]; [b]; [a; b]].
Definition sg_all (table : nat -> list F101) (test : list F101 -> list nat -> list nat -> nat -> bool) : bool := forallb (fun i => let tb := table i in forallb (fun VN => forallb (fun VD => forallb (test tb VN VD) (seq 0 9)) (sg_lists 1 2)) (sg_lists 0 1)) [1; 2].
Definition sg_test (tb : list F101) (VN VD : list nat) (j : nat) : bool :=
  (8 <? j + (length VN + length VD)) || d_check VN VD (fun k => nth (j + k) sg_ts f0) (fun k => nth (j + k) tb f0).
Lemma sg_regular_ok : sg_all sg_table sg_test = true. Proof. vm_compute. reflexivity. Qed.
Lemma sg_all_ok table test : sg_all table test = true -> forall i VN VD j, 1 <= i <= 2 -> In VN (sg_lists 0 1) -> In VD (sg_lists 1 2) -> j < 9 -> test (table i) VN VD j = true.
Proof.
  unfold sg_all. cbv zeta. intros R i VN VD j Hi JN JD Hj. rewrite forallb_forall in R. specialize (R i ltac:(cbn [In]; clear - Hi; lia)).
  rewrite forallb_forall in R. specialize (R VN JN). rewrite forallb_forall in R. specialize (R VD JD). rewrite forallb_forall in R. apply R. apply in_seq. clear - Hj. lia.
Qed.

Section Swap.
  Context {K : fops} (HK : flaws K).
  Add Field KRSW : (fl_field K HK).
  Lemma determined_perm SN SN' SD SD' (t v : nat -> K) k : Permutation SN SN' -> Permutation SD SD' -> determined SN SD t v k -> determined SN' SD' t v k.
  Proof.
    intros P Q H a b E.
    assert (F : forall (g : nat -> K) (x : K) l l', Permutation l l' -> fold_right (fun e s => fadd (fmul (g e) (pw x e)) s) f0 l = fold_right (fun e s => fadd (fmul (g e) (pw x e)) s) f0 l').
    { intros g x l l' R. induction R; cbn [fold_right]; [reflexivity|f_equal; assumption|ring|congruence]. }
    destruct (H a b) as [A B].
    - intros i Hi. rewrite (F a _ _ _ P), (F b _ _ _ Q). apply E. exact Hi.
    - split; intros e I; [apply A; apply (Permutation_in _ (Permutation_sym P)); exact I|apply B; apply (Permutation_in _ (Permutation_sym Q)); exact I].
  Qed.
End Swap.
Lemma sorted_list a b V : In V [[]; [a]; [b]; [a; b]; [b; a]] -> exists V', In V' (sg_lists a b) /\ Permutation V' V.
Proof.
  intros I. destruct I as [<-|[<-|[<-|[<-|[<-|[]]]]]]; [exists []|exists [a]|exists [b]|exists [a; b]|exists [a; b]]; (split; [cbn; tauto|]); try apply Permutation_refl. apply perm_swap.
Qed.
Lemma sg_determined i j VN VD : 1 <= i <= 2 -> NoDup VN -> NoDup VD -> incl VN [0; 1] -> incl VD [1; 2] -> j + (length VN + length VD) <= length sg_ts ->
  determined VN VD (fun k => nth (j + k) sg_ts f0) (fun k => ray_value 2 sg_N sg_D sg_y sg_s (repeat i (2 - 1)) (nth (j + k) sg_ts f0)) (length VN + length VD).
Proof.
  intros Hi NN ND IN ID Hj. destruct (sorted_list 0 1 VN (two_sublists 0 1 VN NN IN)) as [VN' [JN PN]]. destruct (sorted_list 1 2 VD (two_sublists 1 2 VD ND ID)) as [VD' [JD PD]].
  apply (determined_perm F101_laws VN' VN VD' VD); [exact PN|exact PD|]. assert (LL : length VN + length VD = length VN' + length VD') by (rewrite (Permutation_length PN), (Permutation_length PD); reflexivity). rewrite LL in Hj. rewrite LL.
  change (length sg_ts) with 8 in Hj. pose proof (sg_all_ok sg_table sg_test sg_regular_ok i VN' VD' j Hi JN JD ltac:(clear - Hj; lia)) as R. unfold sg_test in R.
  apply Bool.orb_true_iff in R as [R|R]; [apply Nat.ltb_lt in R; clear - R Hj; lia|]. apply (d_check_ok F101_laws) in R.
  intros a b E. apply (R a b). intros m Hm. specialize (E m Hm). rewrite E.
  change (sg_table i) with (map (sg_value i) (seq 0 8)). assert (L8 : j + m < 8) by (clear - Hm Hj; lia).
  replace (nth (j + m) (map (sg_value i) (seq 0 8)) f0) with (sg_value i (j + m)); [reflexivity|].
  rewrite (nth_indep (map (sg_value i) (seq 0 8)) f0 (sg_value i 0)) by exact L8. rewrite map_nth, seq_nth by exact L8. reflexivity.
Qed.
Definition sg_no_pole : bool := forallb (fun i => forallb (fun j => negb (eqb101 (poly_value 2 sg_D (ray_point sg_y sg_s (repeat i 1) (nth j sg_ts f0))) f0)) (seq 0 8)) [1; 2].
Lemma sg_no_pole_ok : sg_no_pole = true. Proof. vm_compute. reflexivity. Qed.
Lemma sg_hom d : length (hom d sg_N) <= 2 /\ length (hom d sg_D) <= 2.
Proof.
  unfold hom, sg_N, sg_D. cbn [filter fst total fold_right Z.add Pos.add]. change (1 + 0 + 0)%Z with 1%Z. destruct (Z.eqb_spec 1 (Z.of_nat d)), (Z.eqb_spec 2 (Z.of_nat d)); cbn [filter length]; lia.
Qed.
Lemma sg_points : distinct 3 (fun i => z101 (Z.of_nat i)).
Proof. intros i j Hi Hj E. apply (f_equal v101) in E. destruct i as [|[|[|i]]]; destruct j as [|[|[|j]]]; try lia; vm_compute in E; discriminate E. Qed.
Lemma sg_char : characteristic_above F101 2.
Proof. intros j Hj E. apply (f_equal v101) in E. destruct j as [|[|[|j]]]; try lia; vm_compute in E; discriminate E. Qed.

(** With the identity as traversal order: after at most 8 probes the missing coefficients, divided by 38, are the residues 1 and 3 of the numerator and 1, 1, 1 of the denominator. *)
Example C56_hypotheses_met :
  let (cn, stN) := sing_start (fun _ l => l) rm_c false false [] sg_nsN sg_subN [0] 1 in
  let (cd, stD) := sing_start (fun _ l => l) rm_c true true sg_gD sg_nsD sg_subD [0] 2 in
  exists nu de subN' subD', sing_drive (fun _ l => l) rm_c sg_y sg_s cn cd 4 true [1; 0]%Z [] sg_gD (ray_value 2 sg_N sg_D sg_y sg_s) sg_ts (mk_swork stN stD 1 ([], []) []) = Ret (SResult nu de subN' subD') /\
    Permutation nu [([1; 0]%Z, z101 1); ([0; 1]%Z, z101 3)] /\ Permutation de [([0; 1]%Z, z101 1); ([2; 0]%Z, z101 1); ([1; 1]%Z, z101 1)] /\ shift_terms 2 1 sg_N sg_Ns subN' /\ shift_terms 2 2 sg_D sg_Ds subD'.
Proof.
  pose proof (C56_prime_of_a_shifted_system F7 F101 F7_laws F101_laws (fun _ l => l) (fun _ l => Permutation_refl l) rm_c sg_y sg_s (fun i => z101 (Z.of_nat i))
    sg_N sg_D sg_Ns sg_Ds [] sg_gD (map fst sg_N) [[0; 1]; [2; 0]; [1; 1]]%Z sg_nsN sg_nsD sg_subN sg_subD [0] [0] [0; 1] [1; 2] 2 sg_ts true [1; 0]%Z (z101 38)) as H.
  cbv zeta in H. change (mc_n rm_c) with 2 in H. change (mc_norm_den rm_c) with true in H. change (negb true) with false in H. change (tdegree sg_N) with 1 in H. change (tdegree sg_D) with 2 in H.
  change (length [0; 1] + length [1; 2]) with 4 in H. cbn [Nat.max] in H.
  specialize (H ltac:(lia) ltac:(intros i _; ne101) (sg_poly sg_N ltac:(cbn; tauto)) (sg_poly sg_D ltac:(cbn; tauto)) sg_transN sg_transD).
  specialize (H ltac:(apply v101_inj; vm_compute; reflexivity) sg_points sg_char sg_knownN sg_knownD sg_powersN sg_powersD ltac:(left; reflexivity) sg_hom ltac:(reflexivity) ltac:(cbn; lia)).
  specialize (H ltac:(intros i j Hi Hj; pose proof sg_no_pole_ok as R; unfold sg_no_pole in R; rewrite forallb_forall in R; specialize (R i ltac:(cbn [In]; clear - Hi; lia)); rewrite forallb_forall in R;
    apply neqb101_ok; apply R; apply in_seq; change (length sg_ts) with 8 in Hj; clear - Hj; lia)).
  specialize (H sg_determined).
  destruct (sing_start _ rm_c false false [] sg_nsN sg_subN [0] 1) as [cn stN]. destruct (sing_start _ rm_c true true sg_gD sg_nsD sg_subD [0] 2) as [cd stD].
  destruct H as [nu [de [un [ud [E [P [Q [T1 T2]]]]]]]]. exists nu, de, un, ud. split; [exact E|]. split; [|split; [|split; [exact T1|exact T2]]].
  - replace [([1; 0]%Z, z101 1); ([0; 1]%Z, z101 3)] with (remaining [] sg_N (z101 38)); [exact P|]. unfold remaining, sg_N. cbn [filter map fst snd]. destruct (in_dec _ _ _) as [[]|_]. destruct (in_dec _ _ _) as [[]|_]. cbn [map fst snd]. repeat f_equal; eq101.
  - replace [([0; 1]%Z, z101 1); ([2; 0]%Z, z101 1); ([1; 1]%Z, z101 1)] with (remaining sg_gD sg_D (z101 38)); [exact Q|]. unfold remaining, sg_D, sg_gD. cbn [filter map fst snd].
    repeat (destruct (in_dec _ _ _) as [I|I]; [try (destruct I as [I|[]]; discriminate I)|try (exfalso; apply I; left; reflexivity)]; clear I). cbn [map fst snd]. repeat f_equal; eq101.
Qed.
(** the same by running the model *)
Example C56_example_runs :
  let (cn, stN) := sing_start (fun _ l => l) rm_c false false [] sg_nsN sg_subN [0] 1 in
  let (cd, stD) := sing_start (fun _ l => l) rm_c true true sg_gD sg_nsD sg_subD [0] 2 in
  match sing_drive (fun _ l => l) rm_c sg_y sg_s cn cd 4 true [1; 0]%Z [] sg_gD (ray_value 2 sg_N sg_D sg_y sg_s) sg_ts (mk_swork stN stD 1 ([], []) []) with
  | Ret (SResult nu de un ud) => (map (fun t => (fst t, v101 (snd t))) nu, map (fun t => (fst t, v101 (snd t))) de, map (fun q => map (fun t => (fst t, v101 (snd t))) (pf_coefs (snd q))) (un ++ ud))
  | _ => ([], [], []) end = ([([1; 0], 1); ([0; 1], 3)], [([2; 0], 1); ([1; 1], 1); ([0; 1], 1)],
      [[([0; 0], 77)]; [([0; 0], 0)]; [([0; 0], 1)]; [([0; 0], 0); ([1; 0], 89); ([0; 1], 38)]; [([0; 0], 0)]])%Z.
Proof. vm_compute. reflexivity. Qed.

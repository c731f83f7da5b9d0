(** C35: what is written to the state and probe files is read back. *)
From Coq Require Import Ascii String.
From Verif Require Import Machine FFInt RatNum RatNumProofs SYGrammar SYEval DecPrint StateFile StateSpec StateFileProofs.
From Coq Require Import List.
Import ListNotations.
Open Scope Z_scope.

(** Exponent vectors: written as numbers followed by blanks, they are read back, whatever follows in the line. *)
Theorem C35_vector_round_trip v rest : Forall small v ->
  (v <> [] -> parse_vector_32 (flat_map num_sp v ++ rest) (Z.of_nat (length v)) = Ret (v, rest)) /\
  parse_vector_32 (flat_map num_sp v) (-1) = Ret (v, []).
Proof. intros H. split; [intros N; apply parse32_lim; assumption|apply parse32_line; exact H]. Qed.
Theorem C35_field_vector_round_trip p v rest : 0 < p <= two64 -> Forall (fun x => 0 <= x < p) v ->
  (v <> [] -> parse_vector_FFInt p (flat_map num_sp v ++ rest) (Z.of_nat (length v)) = Ret (v, rest)) /\
  parse_vector_FFInt p (flat_map num_sp v) (-1) = Ret (v, []).
Proof. intros Hp H. split; [intros N; apply parseFF_lim; assumption|apply parseFF_line; assumption]. Qed.
Theorem C35_rational_round_trip r : 0 < den r -> Z.gcd (num r) (den r) = 1 ->
  parse_rational_number (print (num r) ++ sp :: print (den r)) = Ret r.
Proof. intros A B. apply parse_rat. split; assumption. Qed.
(** The number of the prime is found in the name of a file, whatever the tag looks like. *)
Theorem C35_file_name_round_trip dir tag k : 0 <= k < two31 -> parse_prime_number (file_name dir tag k) = Ret k.
Proof. apply parse_file_name. Qed.

(** A state is written without fault, and an object started from the file has the same members. The numbers of the
    shift are drawn again: only which of them are zero is kept. *)
Theorem C35_state_round_trip p st dir tag k n0 sing sh rs : 1 < p -> savable st -> 0 <= k < two31 - 1 ->
  (n_ st <= length sh)%nat -> (n_ st <= length rs)%nat -> Forall (fun r => 0 <= r /\ r mod p <> 0) rs ->
  exists file, save_state st = Ret file /\
  exists s, start_from_saved_file p n0 sing sh rs (file_name dir tag k) file = Ret (LFull s (degree_bounds st) (k + 1) (need_shift st)) /\
    restored st (k + 1) sing sh s (degree_bounds st).
Proof. intros Hp H Hk A B C. apply state_file_ok; try assumption; unfold small; lia. Qed.
Theorem C35_zero_state_round_trip p n0 sing sh rs dir tag k interp t : 0 <= k < two31 - 1 -> no_nl t ->
  start_from_saved_file p n0 sing sh rs (file_name dir tag k) (save_zero_state interp t) =
  Ret (if 2 <=? k then LZero true false 0 (k + 1) t else LZero false (1 <? interp) (k + 1) (k + 1) t).
Proof. intros Hk Ht. apply zero_file_ok; unfold small; [lia|lia|exact Ht]. Qed.
Theorem C35_initial_file_round_trip p n0 sing sh rs dir tag k t b : 0 <= k < two31 -> no_nl t -> (b = [] \/ length b = n0) ->
  Forall (fun x => small (fst x) /\ small (snd x)) b ->
  start_from_saved_file p n0 sing sh rs (file_name dir tag k) (initial_file t b) = Ret (LInitial t true b).
Proof. intros Hk Ht Hb Hs. apply initial_file_ok; assumption. Qed.
Theorem C35_probe_file_round_trip p n prs : 0 < p <= two64 -> Forall (probe_ok p n) prs -> read_in_probes p n (write_food prs) = Ret prs.
Proof. apply probe_file_ok. Qed.

(** Limits. A component of 2^31 or more is written but cannot be read: std::stoi throws. *)
Theorem C35_large_exponent_is_not_read v x w rest n : Forall small v -> two31 <= x < two32 -> (length v < n)%nat ->
  parse_vector_32 (flat_map num_sp (v ++ x :: w) ++ rest) (Z.of_nat n) = Throw.
Proof. intros Hv Hx. apply parse32_large; [exact Hv|lia]. Qed.

(** ---- a concrete state with two variables ---- *)
Definition ex_state (t : string) : rstate :=
  mk_rstate 2 (9223372036854775783 * 9223372036854775643) (str t) false 3 2 [(3, 2); (1, 1)] 1 true [0; 1] true false 7 [0; 5]
    [(0, [([0; 0], 4)]); (3, [([2; 1], 6); ([1; 2], 0); ([0; 3], 8)])] [] [1] [0; 2]
    [([0; 0], mk_rn (-3) 4)] [([0; 1], mk_rn 1 1)] [([1; 0], 123456789012345678901234567890); ([0; 2], -7)] [] [([1; 0], 9223372036854775783)] [].
Theorem C35_state_nonvacuous : savable (ex_state "f_12") /\ exists file s, save_state (ex_state "f_12") = Ret file /\
  start_from_saved_file 13 2 [] [0; 0] [3; 4] (file_name (str "ff_save/states/") (str "17") 4) file = Ret (LFull s [(3, 2); (1, 1)] 5 true) /\
  l_shift s = [0; 3] /\ l_gni s = [([0; 0], mk_rn (-3) 4)].
Proof.
  split.
  - assert (Sm : forall l, forallb (fun z => (0 <=? z) && (z <? two31)) l = true -> Forall small l).
    { intros l H. apply Forall_forall. intros x Hx. rewrite forallb_forall in H. specialize (H x Hx). apply andb_true_iff in H. unfold small. lia. }
    assert (Mo : forall n v, (length v =? n)%nat && forallb (fun z => (0 <=? z) && (z <? two31)) v = true -> mono_ok n v).
    { intros n v H. apply andb_true_iff in H. destruct H as [A B]. apply Nat.eqb_eq in A. split; [exact A|apply Sm; exact B]. }
    constructor; cbn [ex_state n_ tag_name max_deg_num max_deg_den degree_bounds interpolations shifted_max_num_eqn normalizer_deg shift sub_num sub_den zero_degs_num zero_degs_den g_ni g_di combined_ni combined_di combined_primes_ni combined_primes_di].
    + lia.
    + split; [apply str_no_nl_bool; reflexivity|]. intros X. cbn in X. repeat (destruct X as [X|X]; [discriminate X|]). exact X.
    + unfold two31. lia.
    + split; [right; reflexivity|]. repeat (apply Forall_cons; [split; unfold small, two31; cbn; lia|]). apply Forall_nil.
    + unfold small, two31. lia.
    + apply Mo. reflexivity.
    + cbn. lia.
    + split.
      * split; [cbn; repeat (constructor; [cbn; intuition discriminate|]); constructor|]. intros d m X. destruct X as [X|[X|[]]]; injection X as <- <-.
        -- split; [cbn; repeat (constructor; [cbn; intuition discriminate|]); constructor|]. intros v c [Y|[]] _. injection Y as <- <-. split; [unfold small, two31; lia|apply Mo; reflexivity].
        -- split; [cbn; repeat (constructor; [cbn; intuition discriminate|]); constructor|]. intros v c [Y|[Y|[Y|[]]]] _; injection Y as <- <-; (split; [unfold small, two31; lia|apply Mo; reflexivity]).
      * split; [constructor|]. intros d m [].
    + repeat split; try (apply Sm; reflexivity); repeat (constructor; [cbn; intuition discriminate|]); constructor.
    + repeat split; try (apply Forall_cons; [split; [apply Mo; reflexivity|split; [cbn; lia|reflexivity]]|apply Forall_nil]); cbn; repeat (constructor; [cbn; intuition discriminate|]); constructor.
    + repeat (apply Forall_cons; [split; [repeat (apply Forall_cons; [apply Mo; reflexivity|]); apply Forall_nil|cbn; repeat (constructor; [cbn; intuition discriminate|]); constructor]|]). apply Forall_nil.
  - eexists _, _. split; [vm_compute; reflexivity|]. split; [vm_compute; reflexivity|]. split; reflexivity.
Qed.
(** Limit. A tag with the name of a variable of the file is lost. *)
Theorem C35_tag_named_like_a_variable_is_lost : exists file s, save_state (ex_state "shift") = Ret file /\
  start_from_saved_file 13 2 [] [0; 0] [3; 4] (file_name (str "ff_save/states/") (str "17") 4) file = Ret (LFull s [(3, 2); (1, 1)] 5 true) /\
  l_tag s = [] /\ tag_name (ex_state "shift") = str "shift".
Proof. eexists _, _. split; [vm_compute; reflexivity|]. split; [vm_compute; reflexivity|]. split; reflexivity. Qed.

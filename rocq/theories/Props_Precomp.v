(** C53: probes that are computed outside are taken over and asked for faithfully *)
From Coq Require Import Ascii String.
From Verif Require Import Machine FFInt SYParse SYEval DecPrint StateFile StateSpec PrintSpec Results ResultsSpec ResultsProofs Precomp PrecompSpec PrecompProofs.
From Coq Require Import List Permutation.
Import ListNotations.
Open Scope Z_scope.

(** C53. Reading a file of supplied probes, several variables: for every list of probes, whatever has been queued, loaded or fed before, the file is accepted, each line becomes one
    waiting probe with a new index; its number t, its powers and its values modulo p are those of the line; nothing else changes. *)
Theorem C53_supplied_probes_are_read : forall p n xs file s, (2 <= n)%nat -> 0 < p <= 2 ^ 64 -> Forall (supplied_ok n) xs -> supplied_file xs file ->
  exists s', load_probes p n (Some file) s = Ret s' /\ q_requested (pc_queue s') = q_requested (pc_queue s) /\ pc_fed s' = pc_fed s /\
  pc_queued s' = pc_queued s + Z.of_nat (length xs) /\
  exists numbers, numbers = seq (q_ind (pc_queue s)) (length xs) /\
    q_index (pc_queue s') = q_index (pc_queue s) ++ combine numbers (map (fun x => (fst (fst x) mod p, snd (fst x))) xs) /\
    pc_computed s' = pc_computed s ++ combine numbers (map (fun x => map (fun v => v mod p) (snd x)) xs).
Proof.
  intros p n xs file s Hn Hp F Ff. eexists. split; [apply (load_probes_ok p n xs file s Hn Hp F Ff)|]. destruct (add_all_effect (map (reduced p) xs) s) as [A1 [A2 [A3 [A4 [A5 [A6 [A7 A8]]]]]]].
  rewrite A1, A5, A6, A7, A8, !map_length. split; [reflexivity|]. split; [reflexivity|]. split; [reflexivity|]. eexists. split; [reflexivity|]. rewrite !map_map.
  rewrite (map_ext (fun x => fst (reduced p x)) (fun x : supplied => (fst (fst x) mod p, snd (fst x)))) by (intros [[t zi] r]; reflexivity).
  rewrite (map_ext (fun x => snd (reduced p x)) (fun x : supplied => map (fun v => v mod p) (snd x))) by (intros [[t zi] r]; reflexivity). split; reflexivity.
Qed.
Print Assumptions C53_supplied_probes_are_read.

(** For every history of calls of queue_probes, of files that are read and of probes that are fed: the supplied probes are fed in the order of the files, each of them once, with its own t,
    powers and values; those that have not been fed are waiting; the counter of queued probes counts the requests and the waiting probes. *)
Theorem C53_fed_exactly_once : forall p n (change : bool) order shift rz rnd fuel es s xss, (2 <= n)%nat -> 0 < p <= 2 ^ 64 ->
  prun p n change order shift rz rnd fuel es empty_ps = Ret s ->
  Forall2 (fun xs f => Forall (supplied_ok n) xs /\ supplied_file xs f) xss (flat_map (fun e => match e with PLoad f => [f] | _ => [] end) es) ->
  exists rest, pc_fed s ++ rest = map (reduced p) (concat xss) /\ waiting (q_index (pc_queue s)) (pc_computed s) rest /\
  pc_queued s = Z.of_nat (length (q_requested (pc_queue s)) + length rest).
Proof.
  intros p n change order shift rz rnd fuel es s xss Hn Hp E F. destruct (history_ok p n change order shift rz rnd fuel es [] [] [] empty_ps s xss Hn Hp (hinv_empty _ _ _ _ _ _ _) E F) as [z [r [H _]]].
  cbn [app] in H. destruct (h_wait _ _ _ _ _ _ _ _ _ _ _ H) as [rest [W Ef]]. exists rest. split; [exact Ef|]. split; [exact W|]. rewrite (h_count _ _ _ _ _ _ _ _ _ _ _ H). assert (L : length (pc_computed s) = length rest) by (clear - W; unfold waiting in W; induction W; cbn [length]; congruence). rewrite L. reflexivity.
Qed.
Print Assumptions C53_fed_exactly_once.

(** Requests, several variables.  For every history as above: the file of requested probes can be written; it has one line "powers | t | point" for every probe that was ever queued and no other line,
    the point is the point of the ray of (t, powers) in the order of the user's variables, no pair (t, powers) occurs twice.
    If the user replaces the point in each line by the values of the functions there, the file is accepted in any later state, and each pair (t, powers) gets the values at its point. *)
Theorem C53_requests_and_answers : forall p n (change : bool) order shift rz rnd fuel es s xss, (2 <= n)%nat -> 0 < p < 2 ^ 63 ->
  prun p n change order shift rz rnd fuel es empty_ps = Ret s ->
  Forall2 (fun xs f => Forall (supplied_ok n) xs /\ supplied_file xs f) xss (flat_map (fun e => match e with PLoad f => [f] | _ => [] end) es) ->
  (change = true -> renumbering n order) -> length shift = n -> Forall (fun v => 0 <= v < p) shift ->
  (forall zi, S (length (rz zi)) = n /\ Forall (fun v => 0 <= v < p) (rz zi)) -> (forall i, 0 <= rnd i < p) ->
  (forall ones zi k, In (PQueue ones zi k) es -> S (length zi) = n /\ Forall (fun z => Z.of_nat z < 2 ^ 31) zi) ->
  exists reqs lines, write_requests s = Ret (to_file lines) /\
  Forall2 supplied_text reqs lines /\
  Permutation (map (fun r => snd (fst r)) reqs) (flat_map (fun e => match e with PQueue _ zi k => repeat zi k | _ => [] end) es) /\ NoDup (map fst reqs) /\
  (forall t zi values, In (t, zi, values) reqs -> canonical_point p n values /\ reorder 0 (if change then order else []) values = ray p n t (rz zi) shift) /\
  forall (f : list Z -> list Z) lines' s2, (forall values, f values <> [] /\ Forall (fun v => 0 <= v < 2 ^ 64) (f values)) ->
    Forall2 (fun rl line' => answered (snd rl) (f (snd (fst rl))) line') (combine reqs lines) lines' ->
    exists s3 numbers, load_probes p n (Some (to_file lines')) s2 = Ret s3 /\ numbers = seq (q_ind (pc_queue s2)) (length reqs) /\
    q_index (pc_queue s3) = q_index (pc_queue s2) ++ combine numbers (map fst reqs) /\
    pc_computed s3 = pc_computed s2 ++ combine numbers (map (fun r => map (fun v => v mod p) (f (snd r))) reqs).
Proof.
  intros p n change order shift rz rnd fuel es s xss Hn Hp E F Ho Ls Fs Hz Hr Hq. assert (Hp' : 0 < p <= two64) by (unfold two64; lia).
  destruct (history_ok p n change order shift rz rnd fuel es [] [] [] empty_ps s xss Hn Hp' (hinv_empty _ _ _ _ _ _ _) E F) as [z [reqs [H Pz]]].
  pose proof (h_req _ _ _ _ _ _ _ _ _ _ _ H) as Rq. pose proof (h_zis _ _ _ _ _ _ _ _ _ _ _ H) as Z1. cbn [app] in Pz.
  assert (Good : forall t zi values, In (t, zi, values) reqs -> 0 <= t < p /\ probe_point p n change order (rz zi) shift t = Ret values).
  { intros t zi values I. assert (X : forall l l', Forall2 (asked p n change order shift rz rnd (q_index (pc_queue s))) l l' -> In (t, zi, values) l' -> exists e, asked p n change order shift rz rnd (q_index (pc_queue s)) e (t, zi, values)).
    { clear. intros l l' F2. induction F2 as [|e x l l' A F2 IH]; intros J; [destruct J|]. destruct J as [->|J]; [exists e; exact A|apply IH; exact J]. }
    destruct (X _ _ Rq I) as [e [_ [_ [V [i Ei]]]]]. cbn [fst snd] in V, Ei. split; [subst t; apply Hr|exact V]. }
  assert (Zok : forall t zi values, In (t, zi, values) reqs -> S (length zi) = n /\ Forall (fun x => Z.of_nat x < 2 ^ 31) zi).
  { intros t zi values I. apply (in_map (fun r => snd (fst r))) in I. cbn [fst snd] in I. apply (Permutation_in _ Z1) in I. apply (Permutation_in _ Pz) in I. apply in_flat_map in I as [e [Ie I]].
    destruct e as [ones zz k|fl|]; try destruct I. apply repeat_spec in I. subst zz. apply (Hq ones zi k Ie). }
  exists reqs, (map (fun r => request_line (fst (fst r)) (snd (fst r)) (snd r)) reqs). split; [|split; [|split; [|split; [|split]]]].
  - unfold write_requests. rewrite (request_lines_ok p n change order shift rz rnd _ (h_nodup _ _ _ _ _ _ _ _ _ _ _ H) _ _ Rq). reflexivity.
  - clear. induction reqs as [|[[t zi] v] reqs IH]; [constructor|]. constructor; [apply request_text|exact IH].
  - rewrite Z1. exact Pz.
  - exact (h_once _ _ _ _ _ _ _ _ _ _ _ H).
  - intros t zi values I. destruct (Good _ _ _ I) as [Ht V]. destruct (Hz zi) as [Lz Fz]. destruct (point_ok p n change order t (rz zi) shift) as [v' [E' [C R]]]; try assumption.
    rewrite V in E'. apply (f_equal (fun o => match o with Ret a => a | _ => [] end)) in E'. cbv iota in E'. subst v'. split; assumption.
  - intros f lines' s2 Hf Fa. set (xs := map (fun r : supplied => (fst r, f (snd r))) reqs).
    assert (Fx : Forall2 supplied_text xs lines').
    { unfold xs. clear - Fa. revert lines' Fa. induction reqs as [|[[t zi] v] reqs IH]; intros lines' Fa; cbn [map combine] in Fa; inversion Fa; subst; [constructor|]. cbn [map fst snd] in *. constructor; [|apply IH; assumption].
      apply (answered_text t zi v). assumption. }
    assert (Fo : Forall (supplied_ok n) xs).
    { unfold xs. apply Forall_map, Forall_forall. intros [[t zi] v] I. cbn [fst snd]. destruct (Good _ _ _ I) as [Ht _]. destruct (Zok _ _ _ I) as [Lz Fz]. destruct (Hf v) as [N1 N2]. split; [lia|]. split; [exact Lz|]. split; [exact Fz|]. split; assumption. }
    assert (Ff : supplied_file xs (to_file lines')). { exists lines'. split; [exact Fx|]. unfold to_file. rewrite flat_map_concat_map. reflexivity. }
    destruct (C53_supplied_probes_are_read p n xs (to_file lines') s2 Hn Hp' Fo Ff) as [s3 [L [_ [_ [_ [numbers [En [Ei Ec]]]]]]]]. exists s3, numbers. split; [exact L|].
    assert (Lx : length xs = length reqs) by (unfold xs; apply map_length). split; [rewrite En; f_equal; exact Lx|]. rewrite Ei, Ec. unfold xs. rewrite !map_map. cbn [fst snd]. split; [|reflexivity].
    f_equal. f_equal. apply map_ext_in. intros [[t zi] v] I. cbn [fst snd]. destruct (Good _ _ _ I) as [Ht _]. rewrite Z.mod_small by exact Ht. reflexivity.
Qed.
Print Assumptions C53_requests_and_answers.

(** Refuted for one variable: every file with at least one line is rejected, in particular the answered requests of the library itself. *)
Theorem C53_one_variable_refuted : forall p file s, file <> [] -> load_probes p 1 (Some file) s = Throw.
Proof.
  intros p file s H. unfold load_probes. destruct (getlines file []) as [|l ls] eqn:E; [|cbn [load_lines]; rewrite one_variable_throws; reflexivity].
  exfalso. assert (Q : forall f acc, (f <> [] \/ acc <> []) -> getlines f acc <> []).
  { clear. induction f as [|c f IH]; intros acc Hn; cbn [getlines].
    - destruct acc; [destruct Hn as [X|X]; contradiction|discriminate].
    - destruct (Ascii.eqb c nl); [discriminate|]. apply IH. right. destruct acc; discriminate. }
  apply (Q file [] (or_introl H) E).
Qed.
Print Assumptions C53_one_variable_refuted.

(** Refuted: "a probe that has been supplied is not requested again".  The numbers t of supplied probes are not remembered, so that any random number can repeat one of them. *)
Theorem C53_no_repetition_refuted : forall p n t zi r file, (2 <= n)%nat -> 1 < p < 2 ^ 63 -> 0 <= t < p -> supplied_ok n (t, zi, r) -> supplied_file [(t, zi, r)] file ->
  exists rnd s values, (forall i, 0 <= rnd i < p) /\ prun p n false [] (repeat 0 n) (fun _ => repeat 1 (n - 1)) rnd 1 [PLoad file; PFeed; PQueue false zi 1] empty_ps = Ret s /\
  pc_fed s = [(t, zi, map (fun v => v mod p) r)] /\ write_requests s = Ret (request_line t zi values ++ [nl]).
Proof.
  intros p n t zi r file Hn Hp Ht Ok Ff. assert (Hp' : 0 < p <= two64) by (unfold two64; lia).
  destruct (point_ok p n false [] t (repeat 1 (n - 1)) (repeat 0 n)) as [values [V _]]; try assumption.
  { unfold two63. lia. }
  { apply Forall_forall. intros v I. apply repeat_spec in I. lia. }
  { apply Forall_forall. intros v I. apply repeat_spec in I. lia. }
  { apply repeat_length. }
  { rewrite repeat_length. lia. }
  { discriminate. }
  exists (fun _ => t). eexists. exists values. split; [intros _; exact Ht|]. split.
  - cbn [prun pstep]. rewrite (load_probes_ok p n [(t, zi, r)] file empty_ps Hn Hp' (Forall_cons _ Ok (Forall_nil _)) Ff). cbn [obind map reduced add_all fold_left add_probe empty_ps empty_queue pc_queue pc_computed pc_queued pc_fed q_index q_requested q_chosen q_ind q_drawn app].
    rewrite Z.mod_small by exact Ht. unfold feed_one. cbn [pc_queue pc_computed pc_queued pc_fed q_index q_requested q_chosen q_ind q_drawn nat_find Nat.eqb obind erase_index filter fst negb app].
    cbn [queue_probes queue_one chosen_for q_chosen q_drawn new_t existsb obind fst snd]. unfold queue_one. cbn [chosen_for q_chosen q_drawn new_t existsb obind fst snd]. rewrite V. cbn [obind]. reflexivity.
  - cbn [pc_fed]. split; [reflexivity|]. unfold write_requests. cbn [pc_queue q_index q_requested q_ind app request_lines nat_find Nat.eqb obind to_file flat_map]. rewrite app_nil_r. reflexivity.
Qed.
Print Assumptions C53_no_repetition_refuted.
Example C53_example_file : supplied_file [(5, [1; 1]%nat, [7; 250]); (99, [2; 1]%nat, [3; 4])] (str "1 1 | 5 | 7 250" ++ [nl] ++ str "2 1 | 99 | 3 4 " ++ [nl]).
Proof.
  exists [str "1 1 | 5 | 7 250"; str "2 1 | 99 | 3 4 "]. split; [|reflexivity]. constructor; [exists []; split; [left|]; reflexivity|]. constructor; [exists [" "%char]; split; [right|]; reflexivity|constructor].
Qed.
Example C53_example_run : let es := [PQueue true [1; 1]%nat 2; PLoad (str "1 1 | 5 | 7 250" ++ [nl] ++ str "2 1 | 99 | 3 4 " ++ [nl]); PFeed; PQueue false [2; 2]%nat 1] in
  exists s, prun 101 3 false [] [1; 0; 2] (fun zi => map (fun z => Z.of_nat z + 10) zi) (fun i => Z.of_nat i + 40) 5 es empty_ps = Ret s /\
  pc_fed s = [(5, [1; 1]%nat, [7; 48])] /\ pc_computed s = [(3%nat, [3; 4])] /\
  write_requests s = Ret (str "1 1 | 41 | 42 47 49" ++ [nl] ++ str "1 1 | 40 | 41 36 38" ++ [nl] ++ str "2 2 | 42 | 43 100 1" ++ [nl]).
Proof. eexists. split; [vm_compute; reflexivity|]. vm_compute. repeat split. Qed.
Example C53_one_variable_example : let es := [PQueue true [] 1] in exists s, prun 101 1 false [] [1] (fun _ => []) (fun i => Z.of_nat i + 40) 5 es empty_ps = Ret s /\
  write_requests s = Ret (str "| 40 | 41" ++ [nl]) /\ load_probes 101 1 (Some (str "| 40 | 17" ++ [nl])) s = Throw.
Proof. eexists. split; [vm_compute; reflexivity|]. vm_compute. split; reflexivity. Qed.

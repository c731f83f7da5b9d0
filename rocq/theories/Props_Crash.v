(** C44: what a crash at any moment leaves on the disk, and what the resumed run makes of it. *)
From Coq Require Import List Bool Arith Lia.
From Verif Require Import Crash CrashProofs.
Import ListNotations.

Local Lemma Forall2_length {A B} (P : A -> B -> Prop) l l' : Forall2 P l l' -> length l = length l'.
Proof. induction 1; cbn [length]; congruence. Qed.
Local Lemma Forall2_imp {A B} (P Q : A -> B -> Prop) l l' : (forall a b, P a b -> Q a b) -> Forall2 P l l' -> Forall2 Q l l'.
Proof. intros H. induction 1; constructor; auto. Qed.

(** C44. Whatever the threads do and wherever the earlier crashes were: every function has exactly one state file (no more, no fewer); it holds the
    function's data as they are, or as they were before the prime that is being finished, or it is the file "ZERO" just being written. A crash never
    costs more than the prime that was being finished. *)
Theorem C44_one_state_file_old_or_new : forall n is, history (fun _ => True) n is ->
  length is = n /\ Forall (fun it => exists j c, state_files (dsk it) = [(j, c)] /\ (c = Sv (data (mem it)) \/ c = Sv (data (before it)) \/ c = Cut /\ prime (mem it) = 0)) is.
Proof.
  intros n is H. split; [exact (history_length _ _ _ H)|]. eapply Forall_impl; [|exact (history_weak n is H)]. intros it X. destruct (file_data it X) as [j [c [S D]]]. exists j, c. tauto.
Qed.

(** C44. Hence, wherever the crashes are, the image of no prime is ever combined twice into a result, neither by the running object nor by what a resume
    loads, and a loaded object goes on with a later prime than all the combined ones. *)
Theorem C44_no_prime_combined_twice : forall n is, history (fun _ => True) n is ->
  Forall (fun it => NoDup (done_primes (data (mem it)))) is /\
  (forall ms, resume is = Some ms -> length ms = n /\ Forall (fun x => NoDup (done_primes (data (fst x))) /\ forall q, In q (done_primes (data (fst x))) -> q < prime (fst x)) ms).
Proof.
  intros n is H. pose proof (history_weak n is H) as W. split; [eapply Forall_impl; [|exact W]; intros it X; apply (mem_primes it X)|]. intros ms R. pose proof (history_length _ _ _ H) as L.
  destruct (one_files is W) as [ss [E F]]. unfold resume in R. rewrite E in R. apply load_all_some in R. split.
  - rewrite <- L, (Forall2_length _ _ _ F). symmetry. exact (Forall2_length _ _ _ R).
  - clear - F R. revert ms R. induction F as [|it s is ss [A B] F IH]; intros ms R; inversion R as [|s' x ss' ms' Ld R']; subst; constructor; [|apply IH; assumption].
    destruct (B _ Ld) as [[N [Fa _]] _]. split; [exact N|]. intros q I. rewrite Forall_forall in Fa. exact (Fa q I).
Qed.

(** C44. Wherever the crashes are, stored probes are never used for another prime than the one they were computed for. *)
Theorem C44_probes_of_the_right_prime : forall n is ms m l t q, history (fun _ => True) n is -> resume is = Some ms -> In (m, RFood l) ms -> In (t, q) l -> q = prime m.
Proof.
  intros n is ms m l t q H R I J. pose proof (resume_primes n is ms H R) as F. rewrite Forall_forall in F. pose proof (F _ I l eq_refl) as G. rewrite Forall_forall in G. exact (G _ J).
Qed.

(** C44. If no crash happens in one of the windows named by [risky] (a probe file being written, "ZERO" being written, between the two renames of
    save_state, while the probe file is exchanged), a resume always succeeds. Each function comes back with the data, the prime and the status it had, or
    had before the prime that was being finished; and the probes it is given are the complete contents of its own probe file for this prime. *)
Definition comes_back_as (m o : memory) : Prop :=
  data m = data o /\ fin m = fin o /\ (fin o = false -> prime m = prime o /\ (data o = Fresh \/ data o = ZeroFile -> zeros m = zeros o)).
Theorem C44_resume_outside_the_windows : forall n is, history (fun is => forall it, In it is -> ~ risky it) n is -> (forall it, In it is -> ~ risky it) ->
  exists ms, resume is = Some ms /\ length ms = n /\
  Forall2 (fun it x => let m := fst x in
    (comes_back_as m (mem it) \/ pend it <> [] /\ comes_back_as m (before it)) /\
    exists l, snd x = RFood l /\ (forall e, In e l -> e = (tag it, prime m)) /\ (fin m = false -> get (Probes (prime m)) (dsk it) = Some (Food l))) is ms.
Proof.
  intros n is H C. assert (Hc : history calm n is).
  { clear C. induction H as [|is is' H IH St]; [constructor|]. apply (HStep _ _ is is' IH). destruct St as [a it it' b St|is ms C R L]; [apply GStep; exact St|].
    apply GCrash; [apply Forall_forall; exact C|exact R|exact L]. }
  destruct (resume_calm is (history_strong n is Hc) (proj2 (Forall_forall _ _) C)) as [ms [R [L F]]]. exists ms. split; [exact R|]. split; [rewrite L; exact (history_length _ _ _ H)|].
  eapply Forall2_imp; [|exact F]. clear. intros it [m rd] [[S [l [E [Fl G]]]] _]. cbn [fst snd] in *. split.
  - assert (X : forall o, same m o -> comes_back_as m o).
    { intros o [A [B [C D]]]. split; [exact A|]. split; [exact B|]. intros Q. split; [exact (C Q)|]. specialize (D Q). intros [Y|Y]; rewrite Y in D; exact D. }
    destruct S as [S|[P S]]; [left; exact (X _ S)|right; split; [exact P|exact (X _ S)]].
  - exists l. split; [exact E|]. split; [|exact G]. intros e I. rewrite Forall_forall in Fl. symmetry. exact (Fl e I).
Qed.

(** a history with two functions, two crashes with resumes outside the windows, a vanishing first prime and a finished function *)
Definition ops (i n : nat) : list gev := repeat (At i EOp) n.
Example C44_example : exists is, history (fun is => forall it, In it is -> ~ risky it) 2 is /\ (forall it, In it is -> ~ risky it) /\ map (fun it => data (mem it)) is = [Full [0] true; Full [1] false] /\
  exists m0 m1, resume is = Some [(m0, RFood []); (m1, RFood [(1, 1); (1, 1)])] /\ prime m1 = 1 /\ zeros m1 = 1.
Proof.
  pose (gs := [At 0 EFeed; At 0 EFood; At 0 EFoodOp; At 0 EFoodOp; At 1 EZero] ++ ops 1 7 ++ [Crash; At 0 EFeed; At 0 ECombine] ++ ops 0 1 ++ [At 0 EFood; At 0 EFoodOp; At 0 EFoodOp] ++
    [Crash; At 0 ECombine] ++ ops 0 8 ++ [At 0 EDone] ++ ops 0 4 ++ [At 1 EFeed; At 1 EFeed; At 1 EFood; At 1 EFoodOp; At 1 EFoodOp; At 1 ECombine] ++ ops 1 2).
  pose (r := run true gs (map start (seq 0 2))). assert (E : r = run true gs (map start (seq 0 2))) by reflexivity. vm_compute in r.
  destruct r as [is|] eqn:Er; [|discriminate]. symmetry in E. exists is. pose proof (run_history true 2 gs is E) as H. cbn iota in H.
  assert (X : existsb riskyb is = false) by (injection Er as <-; vm_compute; reflexivity).
  split; [|split].
  - clear - H. induction H as [|is is' H IH St]; [constructor|]. apply (HStep _ _ is is' IH). destruct St as [a it it' b St|is ms C R L]; [apply GStep; exact St|].
    apply GCrash; [apply Forall_forall; exact C|exact R|exact L].
  - intros it I. apply riskyb_ok. destruct (riskyb it) eqn:Q; [|reflexivity]. assert (existsb riskyb is = true) by (apply existsb_exists; eauto). congruence.
  - injection Er as <-. split; [reflexivity|]. eexists _, _. split; [vm_compute; reflexivity|split; reflexivity].
Qed.

(** ---- the windows do harm ---- *)
(** C44 refuted for a crash while the probe file is exchanged: no probe file, so the resume stops with "Mismatch in number of probe files" *)
Theorem C44_crash_in_probe_exchange_refuted : exists is, history (fun _ => True) 1 is /\ map mem is = [mk_mem 1 0 (Full [0] false) false] /\ resume is = None.
Proof.
  pose (gs := [At 0 ECombine] ++ ops 0 5). pose (r := run false gs (map start (seq 0 1))). assert (E : r = run false gs (map start (seq 0 1))) by reflexivity. vm_compute in r.
  destruct r as [is|] eqn:Er; [|discriminate]. symmetry in E. exists is. split; [exact (run_history false 1 gs is E)|]. injection Er as <-. split; [reflexivity|vm_compute; reflexivity].
Qed.
(** C44 refuted for a crash between the new state and the new probe file: this crash is survived, but the old probe file is never removed, and after the
    next prime, with no thread writing anything, a resume fails *)
Theorem C44_stale_probe_file_refuted : exists is, history (fun _ => True) 1 is /\ map pend is = [[]] /\ map pendw is = [[]] /\ map mem is = [mk_mem 2 0 (Full [0; 1] false) false] /\
  flat_map (fun it => probe_files (dsk it)) is = [(0, Food []); (2, Food [])] /\ resume is = None.
Proof.
  pose (gs := [At 0 ECombine] ++ ops 0 3 ++ [Crash; At 0 ECombine] ++ ops 0 9). pose (r := run false gs (map start (seq 0 1))). assert (E : r = run false gs (map start (seq 0 1))) by reflexivity. vm_compute in r.
  destruct r as [is|] eqn:Er; [|discriminate]. symmetry in E. exists is. split; [exact (run_history false 1 gs is E)|]. injection Er as <-. repeat (split; [reflexivity|]). vm_compute; reflexivity.
Qed.
(** C44 refuted for a crash while probes are appended: the last line is cut and read beyond its end *)
Theorem C44_cut_probe_file_refuted : exists is m, history (fun _ => True) 1 is /\ resume is = Some [(m, RBroken)].
Proof.
  pose (gs := [At 0 EFeed; At 0 EFood; At 0 EFoodOp]). pose (r := run false gs (map start (seq 0 1))). assert (E : r = run false gs (map start (seq 0 1))) by reflexivity. vm_compute in r.
  destruct r as [is|] eqn:Er; [|discriminate]. symmetry in E. exists is. eexists. split; [exact (run_history false 1 gs is E)|]. injection Er as <-. vm_compute; reflexivity.
Qed.
(** C44 refuted for a crash while "ZERO" is written: the only state file of the function is incomplete *)
Theorem C44_cut_zero_file_refuted : exists is, history (fun _ => True) 1 is /\ flat_map (fun it => state_files (dsk it)) is = [(0, Cut)] /\ resume is = None.
Proof.
  pose (gs := [At 0 EZero] ++ ops 0 1). pose (r := run false gs (map start (seq 0 1))). assert (E : r = run false gs (map start (seq 0 1))) by reflexivity. vm_compute in r.
  destruct r as [is|] eqn:Er; [|discriminate]. symmetry in E. exists is. split; [exact (run_history false 1 gs is E)|]. injection Er as <-. split; [reflexivity|vm_compute; reflexivity].
Qed.
(** C44 refuted for a crash between the two renames of save_state: a function that vanishes for the first two primes but not for the third (its image is
    combined already) comes back as finished and zero *)
Theorem C44_nonzero_resumed_as_zero_refuted : exists is m r, history (fun _ => True) 1 is /\ map (fun it => data (mem it)) is = [Full [2] false] /\
  resume is = Some [(m, r)] /\ fin m = true /\ data m = ZeroFile.
Proof.
  pose (gs := [At 0 EZero] ++ ops 0 7 ++ [At 0 EZero] ++ ops 0 6 ++ [At 0 ECombine] ++ ops 0 3). pose (r := run false gs (map start (seq 0 1))). assert (E : r = run false gs (map start (seq 0 1))) by reflexivity. vm_compute in r.
  destruct r as [is|] eqn:Er; [|discriminate]. symmetry in E. exists is. eexists _, _. split; [exact (run_history false 1 gs is E)|]. injection Er as <-. split; [reflexivity|]. split; [vm_compute; reflexivity|split; reflexivity].
Qed.
(** C44 refuted for two such crashes: two probe files of function 0 and none of function 1 have the right number together, and function 1 is given a
    probe of function 0 as its own *)
Theorem C44_probes_of_another_function_refuted : exists is m0 m1, history (fun _ => True) 2 is /\ resume is = Some [(m0, RFood []); (m1, RFood [(0, 2)])] /\ prime m1 = 2 /\ fin m1 = false.
Proof.
  pose (gs := [At 0 ECombine] ++ ops 0 3 ++ [Crash; At 0 ECombine] ++ ops 0 9 ++ [At 0 EFeed; At 0 EFood; At 0 EFoodOp; At 0 EFoodOp] ++ [At 1 ECombine] ++ ops 1 8 ++ [At 1 ECombine] ++ ops 1 6).
  pose (r := run false gs (map start (seq 0 2))). assert (E : r = run false gs (map start (seq 0 2))) by reflexivity. vm_compute in r.
  destruct r as [is|] eqn:Er; [|discriminate]. symmetry in E. exists is. eexists _, _. split; [exact (run_history false 2 gs is E)|]. injection Er as <-. split; [vm_compute; reflexivity|split; reflexivity].
Qed.

Print Assumptions C44_one_state_file_old_or_new.
Print Assumptions C44_no_prime_combined_twice.
Print Assumptions C44_probes_of_the_right_prime.
Print Assumptions C44_resume_outside_the_windows.
Print Assumptions C44_crash_in_probe_exchange_refuted.
Print Assumptions C44_stale_probe_file_refuted.
Print Assumptions C44_cut_probe_file_refuted.
Print Assumptions C44_cut_zero_file_refuted.
Print Assumptions C44_nonzero_resumed_as_zero_refuted.
Print Assumptions C44_probes_of_another_function_refuted.

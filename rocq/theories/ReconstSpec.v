(** Specification of the scheduler, independent of the invariants used in the proofs *)
From Coq Require Import ZArith List Bool Arith Lia.
From Verif Require Import Machine FeedQueue Combi Reconst.
Import ListNotations.
Local Open Scope nat_scope.

(** all probes, wherever they are: requested, being evaluated, evaluated, in the hands of the main thread or of a feed job, being fed or fed *)
Definition main_bunch (m : main_pc) : list (nat * list Z) := match m with MGot b | MFeed1 b | MFeed2 b => b | _ => [] end.
Definition feed_bunch (j : fjob) : list nat := match j with FWait b | FLook b => map fst b | FLoop ix _ _ _ _ => ix end.
Definition everywhere (s : st) : list nat :=
  map fst (requested s) ++ concat (map (map fst) (computing s)) ++ concat (map (map fst) (computed s)) ++ map fst (main_bunch (main s)) ++ concat (map feed_bunch (feeds s)) ++ finished_ix s.
(** probes not yet handed over by get_probe *)
Definition in_flight (s : st) : nat :=
  length (requested s) + length (concat (computing s)) + length (concat (computed s)) + match main s with MGot b => length b | _ => 0 end.
(** how often the loop of feed_job came to function k with the result of probe i *)
Definition times_visited (k i : nat) (s : st) : nat := length (filter (fun x => (fst x =? k) && (snd x =? i)) (visits s)).
(** get_job tasks that a thread inside queue_probes has not submitted yet *)
Definition owed_main (s : st) : nat := match main s with MQueue _ w => w | _ => 0 end.
Fixpoint owed_jobs (js : list ijob) : nat := match js with [] => 0 | IQueue _ _ _ w :: r => w + owed_jobs r | _ :: r => owed_jobs r end.
(** runs in which there are never 2^31 or more requested probes *)
Section Small.
Variable bb : nat -> point -> list Z.
Variables thr bs : Z.
Variable scan : bool.
Inductive sreach_small (n : nat) : st -> Prop :=
| small_start : sreach_small n (start_st n)
| small_step s e s' : sreach_small n s -> sstep bb thr bs scan e s = Some s' -> (Z.of_nat (length (requested s')) < two31)%Z -> sreach_small n s'.
(** a sequence of events; the events of worker threads *)
Fixpoint run (es : list sevent) (s : st) : option st := match es with [] => Some s | e :: r => match sstep bb thr bs scan e s with Some s' => run r s' | None => None end end.
End Small.
Definition worker (e : sevent) : bool :=
  match e with
  | GetJob | Finish _ | FCount _ | FLookup _ | FVisit _ | FFinish _ | IStart _ | IDone _ | INew _ | IRet _ | ICount _ | IChoose _ _ | IInsert _ _ | ISubmit _ | IEnd _ => true
  | _ => false
  end.
(** numbers of functions *)
Definition number (f : rec -> bool) (s : st) : nat := length (filter f (recs s)).

(** The transposed Vandermonde solver: /repo/source/utils.cpp:264-297 and the identical code in
    /repo/source/PolyReconst.cpp:843-890 (solve_transposed_vandermonde).
    std::vector<FFInt> of length N is a function of the index. *)
From Verif Require Import Machine FField FSum LinAlg.
Open Scope nat_scope.

Section Model.
  Context {K : fops}.

  (** utils.cpp:272-278 / PolyReconst.cpp:857-863, inner loop j = N-1-i .. N-2 and the last entry *)
  Definition master_step (N : nat) (vis : nat -> K) (cis : nat -> K) (i : nat) : nat -> K :=
    let c1 := fold_left (fun c j => upd_vec c j (fsub (c j) (fmul (vis i) (c (S j))))) (seq (N - 1 - i) i) cis in
    upd_vec c1 (N - 1) (fsub (c1 (N - 1)) (vis i)).

  (** utils.cpp:264-278: cis initialised to 0, cis[N-1] = -vis[0] *)
  Definition master (N : nat) (vis : nat -> K) : nat -> K :=
    fold_left (master_step N vis) (seq 1 (N - 1)) (upd_vec (fun _ => f0) (N - 1) (fopp (vis 0))).

  (** utils.cpp:289-293: loop body; state (b, s, t) *)
  Definition synth_body (cis nums : nat -> K) (v : K) (st : K * K * K) (j : nat) : K * K * K :=
    let '(b, s, t) := st in
    let b' := fadd (cis j) (fmul v b) in
    (b', fadd s (fmul (nums (j - 1)) b'), fadd (fmul v t) b').
  (** utils.cpp:285-294: j = N-1 .. 1 *)
  Definition synth_loop (N : nat) (cis nums : nat -> K) (v : K) : K * K * K :=
    fold_left (synth_body cis nums v) (rev (seq 1 (N - 1))) (f1, nums (N - 1), f1).

  (** utils.cpp:296: coefficient i *)
  Definition vdm_solve (N : nat) (vis nums : nat -> K) : nat -> K :=
    fun i => let '(_, s, t) := synth_loop N (master N vis) nums (vis i) in fdiv (fdiv s t) (vis i).
End Model.

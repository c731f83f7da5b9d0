(** Dense linear algebra: /repo/source/include/firefly/DenseSolver.hpp.
    A matrix std::vector<std::vector<FFIntTemp>> is a function row -> column -> entry; the dimensions are
    explicit parameters and every loop below stays inside them (Simplification: no out-of-range reads are
    represented other than the explicit n = 0 cases). In-place updates return the new matrix. *)
From Verif Require Import Machine FField.
Open Scope nat_scope.

Section Model.
  Context {K : fops}.
  Definition mat := nat -> nat -> K.
  Definition vect := nat -> K.

  Definition set_entry (A : mat) (r c : nat) (x : K) : mat :=
    fun r' c' => if (r' =? r) && (c' =? c) then x else A r' c'.

  (** DenseSolver.hpp:52-60 and 115-126: position of the largest entry of column i among rows i..n-1 *)
  Definition pivot_row (n : nat) (A : mat) (i : nat) : nat :=
    snd (fold_left (fun '(el, row) k => if fgtb (A k i) el then (A k i, k) else (el, row))
           (seq (S i) (n - S i)) (A i i, i)).

  (** DenseSolver.hpp:62-67 and 128-133: swap rows i and r in columns i..m-1, column by column *)
  Definition swap_cols (m : nat) (A : mat) (i r : nat) : mat :=
    fold_left (fun B k => let tmp := B r k in set_entry (set_entry B r k (B i k)) i k tmp)
      (seq i (m - i)) A.

  (** DenseSolver.hpp:69-79 and 135-143: row k, columns i..m-1 *)
  Definition elim_row (m : nat) (A : mat) (i k : nat) : mat :=
    let c := fdiv (fopp (A k i)) (A i i) in
    fold_left (fun B j => set_entry B k j (if i =? j then f0 else fadd (B k j) (fmul c (B i j))))
      (seq i (m - i)) A.

  Definition gauss_step (n m : nat) (A : mat) (i : nat) : mat :=
    let A1 := swap_cols m A i (pivot_row n A i) in
    fold_left (fun B k => elim_row m B i k) (seq (S i) (n - S i)) A1.

  Definition triangularise (n m : nat) (A : mat) : mat := fold_left (gauss_step n m) (seq 0 n) A.

  Definition upd_vec (x : vect) (i : nat) (v : K) : vect := fun j => if j =? i then v else x j.

  (** DenseSolver.hpp:149-156: back substitution (rhs is column n, updated in place) *)
  Definition back_step (A : mat) (st : vect * vect) (i : nat) : vect * vect :=
    let '(rhs, res) := st in
    let res' := upd_vec res i (fdiv (rhs i) (A i i)) in
    (fold_left (fun b k => upd_vec b k (fsub (b k) (fmul (A k i) (res' i)))) (rev (seq 0 i)) rhs, res').

  Definition back_substitute (n : nat) (A : mat) : vect :=
    snd (fold_left (back_step A) (rev (seq 0 n)) ((fun r => A r n), (fun _ => f0))).

  (** DenseSolver.hpp:111-171 solve_gauss_system. n = 0 without force reads a[2^32-1]. *)
  Definition solve_gauss_system (n : nat) (A : mat) (force : bool) : outcome vect :=
    let U := triangularise n (S n) A in
    match n with
    | O => if force then Ret (fun _ => f0) else UB
    | S n' => if force || negb (feqb (U n' n') f0) then Ret (back_substitute n U) else Exit
    end.

  (** DenseSolver.hpp:41-48 augmentation *)
  Definition augment (n : nat) (A : mat) : mat :=
    fun r c => if c <? n then A r c else if c - n =? r then f1 else f0.

  (** DenseSolver.hpp:85-99: i-th step of the backward pass on columns n..2n-1 *)
  Definition inv_back_step (n : nat) (A : mat) (i : nat) : mat :=
    let A1 := fold_left (fun B k => set_entry B i k (fdiv (B i k) (B i i))) (seq n n) A in
    fold_left (fun B rm => fold_left (fun B' cm => set_entry B' rm cm (fsub (B' rm cm) (fmul (B' i cm) (B' rm i)))) (seq n n) B)
      (rev (seq 0 i)) A1.

  (** DenseSolver.hpp:37-103 calc_inverse. Row i of [res] is copied when row i is finished; later steps only
      change rows above it. *)
  Definition calc_inverse (n : nat) (A : mat) : mat :=
    let U := triangularise n (n + n) (augment n A) in
    let B := fold_left (inv_back_step n) (rev (seq 0 n)) U in
    fun r c => B r (n + c).

  (** DenseSolver.hpp:256-303 calc_lu_decomposition; the permutation vector is split into p[0..n-1] and the
      swap counter p[n]. *)
  Record lu := mk_lu { lu_a : mat; lu_p : nat -> nat; lu_cnt : Z }.

  Definition lu_pivot (n : nat) (A : mat) (i : nat) : nat :=
    snd (fold_left (fun '(el, row) k => if fgtb (A k i) el then (A k i, k) else (el, row))
           (seq i (n - i)) (f0, i)).

  Definition swap_rows (A : mat) (i r : nat) : mat :=
    fun x c => if x =? i then A r c else if x =? r then A i c else A x c.
  Definition swap_perm (p : nat -> nat) (i r : nat) : nat -> nat :=
    fun x => if x =? i then p r else if x =? r then p i else p x.

  (** DenseSolver.hpp:291-301, row j *)
  Definition lu_row (n : nat) (A : mat) (i j : nat) : mat :=
    let A1 := set_entry A j i (fdiv (A j i) (A i i)) in
    fold_left (fun B k => set_entry B j k (fsub (B j k) (fmul (B j i) (B i k)))) (seq (S i) (n - S i)) A1.

  Definition lu_step (n : nat) (s : lu) (i : nat) : lu :=
    let r := lu_pivot n (lu_a s) i in
    let s1 := if r =? i then s
              else mk_lu (swap_rows (lu_a s) i r) (swap_perm (lu_p s) i r) (lu_cnt s + 1)%Z in
    mk_lu (fold_left (fun B j => lu_row n B i j) (seq (S i) (n - S i)) (lu_a s1)) (lu_p s1) (lu_cnt s1).

  Definition calc_lu_decomposition (n : nat) (A : mat) : lu :=
    fold_left (lu_step n) (seq 0 n) (mk_lu A (fun i => i) (Z.of_nat n)).

  (** DenseSolver.hpp:180-199 solve_lu *)
  Definition lu_forward (n : nat) (A : mat) (b : nat -> K) : vect :=
    fold_left (fun x i =>
        fold_left (fun y k => upd_vec y i (fsub (y i) (fmul (A i k) (y k)))) (seq 0 i) (upd_vec x i (b i)))
      (seq 0 n) (fun _ => f0).
  Definition lu_backward (n : nat) (A : mat) (x0 : vect) : vect :=
    fold_left (fun x i =>
        let y := fold_left (fun y k => upd_vec y i (fsub (y i) (fmul (A i k) (y k)))) (seq (S i) (n - S i)) x in
        upd_vec y i (fdiv (y i) (A i i)))
      (rev (seq 0 n)) x0.
  Definition solve_lu (n : nat) (A : mat) (p : nat -> nat) (b : vect) : vect :=
    lu_backward n A (lu_forward n A (fun i => b (p i))).

  (** DenseSolver.hpp:207-230 calc_inverse_lu: column j; the unit vector is selected by p[i] == j *)
  Definition calc_inverse_lu (n : nat) (A : mat) (p : nat -> nat) : mat :=
    fun i j => lu_backward n A (lu_forward n A (fun i => if p i =? j then f1 else f0)) i.

  (** DenseSolver.hpp:238-249 calc_determinant_lu; n = 0 reads a[0][0]. (p[n] - n) is computed in uint32_t. *)
  Definition calc_determinant_lu (n : nat) (A : mat) (cnt : Z) : option K :=
    match n with
    | O => None
    | S _ =>
      let det := fold_left (fun d i => fmul d (A i i)) (seq 1 (n - 1)) (A 0 0) in
      Some (if (wrap32 (cnt - Z.of_nat n) mod 2 =? 0)%Z then det else fopp det)
    end.
End Model.
Arguments mat K : clear implicits.
Arguments vect K : clear implicits.
Arguments lu K : clear implicits.

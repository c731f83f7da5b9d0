(** Comparators, 0/1 tuple enumeration, bunch sizes: /repo/source/utils.cpp and Monomial.cpp.
    A std::vector<uint32_t> is a [list Z] (elements in [0,2^32)). [None] = undefined behaviour. *)
From Verif Require Import Machine.

(** utils.cpp:131-142 a_grt_b, the loop body for i = k-1, ..., 0. Reading b[i] beyond its end is UB. *)
Fixpoint grt_loop (k : nat) (a b : list Z) : option bool :=
  match k with
  | O => Some false
  | S i =>
    match nth_error a i, nth_error b i with
    | Some x, Some y =>
        if x =? y then grt_loop i a b else if y <? x then Some true else Some false
    | _, _ => None
    end
  end.

(** utils.cpp:131-142 *)
Definition a_grt_b (a b : list Z) : option bool := grt_loop (length a) a b.

(** utils.cpp:144-153 a_eq_b, loop *)
Fixpoint eq_loop (k : nat) (a b : list Z) : option bool :=
  match k with
  | O => Some true
  | S i =>
    match nth_error a i, nth_error b i with
    | Some x, Some y => if x =? y then eq_loop i a b else Some false
    | _, _ => None
    end
  end.

(** utils.cpp:144-153 *)
Definition a_eq_b (a b : list Z) : option bool := eq_loop (length a) a b.

(** utils.cpp:156-161: uint32_t sum of the entries. *)
Definition deg32 (a : list Z) : Z := fold_left (fun d el => wrap32 (d + el)) a 0.

(** utils.cpp:155-169 *)
Definition a_grt_b_s (a b : list Z) : option bool :=
  let deg1 := deg32 a in
  let deg2 := deg32 b in
  if deg1 <? deg2 then Some false
  else if deg1 =? deg2 then a_grt_b b a
  else Some true.

(** std::vector operator< (lexicographic), used at Monomial.cpp:38,55. *)
Fixpoint vec_lt (a b : list Z) : bool :=
  match a, b with
  | [], [] => false
  | [], _ :: _ => true
  | _ :: _, [] => false
  | x :: a', y :: b' => if x <? y then true else if y <? x then false else vec_lt a' b'
  end.

(** Monomial.cpp:26-32 and 43-49: both degrees are summed over the size of the first vector;
    a shorter second vector is read out of bounds. *)
Definition deg_pair (a b : list Z) : option (Z * Z) :=
  if (length a <=? length b)%nat then Some (deg32 a, deg32 (firstn (length a) b)) else None.

(** Monomial.cpp:25-40 operator< on the power vectors *)
Definition monomial_lt (a b : list Z) : option bool :=
  match deg_pair a b with
  | None => None
  | Some (d1, d2) => Some (if d1 <? d2 then true else (d1 =? d2) && vec_lt b a)
  end.

(** Monomial.cpp:42-57 operator> on the power vectors *)
Definition monomial_gt (a b : list Z) : option bool :=
  match deg_pair a b with
  | None => None
  | Some (d1, d2) => Some (if d2 <? d1 then true else (d1 =? d2) && vec_lt a b)
  end.

(** std::next_permutation (libstdc++): find the rightmost i with a[i] < a[i+1]; swap a[i] with the
    rightmost element greater than it; reverse everything after i. [None] means "returned false"
    (the caller's vector is then reversed). [swap_last_gt x l]: l is the non-increasing tail; returns
    (the rightmost element of l greater than x, l with it replaced by x). *)
Fixpoint swap_last_gt (x : Z) (l : list Z) : option (Z * list Z) :=
  match l with
  | [] => None
  | y :: l' =>
    match swap_last_gt x l' with
    | Some (z, l'') => Some (z, y :: l'')
    | None => if x <? y then Some (y, x :: l') else None
    end
  end.

Fixpoint next_permutation (l : list Z) : option (list Z) :=
  match l with
  | [] => None
  | x :: t =>
    match next_permutation t with
    | Some t' => Some (x :: t')
    | None =>
      match t with
      | [] => None
      | y :: _ => if x <? y then
                    match swap_last_gt x t with
                    | Some (z, t') => Some (z :: rev t')
                    | None => None
                    end
                  else None
      end
    end
  end.

(** utils.cpp:180-184: number of entries equal to 1 *)
Definition num_of_ones (l : list Z) : nat := length (filter (fun x => x =? 1) l).

(** utils.cpp:171-199. Result: (bool, returned vector). An empty vector takes &curr_per[0]; the pointer
    is not dereferenced (next_permutation on an empty range is false, 0 ones = size).
    The write new_per[size-1-num_of_ones] is in range because num_of_ones < size there.
    Simplification: the in-place permutation of the argument is not returned (callers overwrite it). *)
Definition generate_next_permutation (curr : list Z) : bool * list Z :=
  match next_permutation curr with
  | Some l => (true, l)
  | None =>
    let size := length curr in
    let ones := num_of_ones curr in
    if (ones =? size)%nat then (false, repeat 0 size)
    else (true, repeat 0 (size - 1 - ones) ++ repeat 1 (1 + ones))
  end.

(** Reconstructor.hpp:1220-1236: the client keeps the returned vector and stops at [false]:
    the list of all tuples visited. *)
Fixpoint visit (fuel : nat) (v : list Z) : list (list Z) :=
  match fuel with
  | O => [v]
  | S f => v :: match generate_next_permutation v with
                | (true, v') => visit f v'
                | (false, _) => []
                end
  end.

(** utils.cpp:203-214: size = 2^r by square and multiply in size_t (wraps modulo 2^64; the squared base
    becomes 0 after six squarings). *)
Fixpoint pow2_loop (fuel : nat) (e size base : Z) : Z :=
  match fuel with
  | O => size
  | S f => if e =? 0 then size
           else pow2_loop f (Z.shiftr e 1) (if Z.odd e then wrap64 (size * base) else size) (wrap64 (base * base))
  end.

(** utils.cpp:222-230: digits of counter, least significant written last *)
Fixpoint tuple_of (r : nat) (c : Z) : list Z :=
  match r with
  | O => []
  | S r' => tuple_of r' (c / 2) ++ [c mod 2]
  end.

(** utils.cpp:234-237: std::sort with the comparator a_grt_b_s(b, a). Modelled by insertion sort; the
    comparator is a strict total order, so every correct sort gives the same list (proved). *)
Definition shift_lt (a b : list Z) : bool :=
  match a_grt_b_s b a with Some true => true | _ => false end.

Fixpoint insert_by (lt : list Z -> list Z -> bool) (x : list Z) (l : list (list Z)) : list (list Z) :=
  match l with
  | [] => [x]
  | y :: l' => if lt y x then y :: insert_by lt x l' else x :: l
  end.

Definition sort_by (lt : list Z -> list Z -> bool) (l : list (list Z)) : list (list Z) :=
  fold_right (insert_by lt) [] l.

(** utils.cpp:219: counter is uint32_t and is compared with size - 1; for size - 1 > 2^32 - 1 the loop
    never ends (Diverge); for r >= 64, size = 0 and reserve(2^64 - 1) throws std::length_error. *)
Definition generate_possible_shifts (r : nat) : outcome (list (list Z)) :=
  let size := pow2_loop 33 (Z.of_nat r) 1 2 in
  if size =? 0 then Throw
  else if two32 <? size then Diverge
  else Ret (sort_by shift_lt
     (repeat 0 r :: map (fun c => tuple_of r (Z.of_nat c)) (seq 1 (Z.to_nat (size - 2))))).

(** utils.cpp:305-330. thr_n = 0 divides by zero (UB) unless max_bunch_size = 1. *)
Definition compute_bunch_size (queue_length thr_n max_bunch : Z) : option Z :=
  if max_bunch =? 1 then Some 1
  else if thr_n =? 0 then None
  else
    let tmp := queue_length / thr_n in
    if negb (tmp =? 0) then
      let tmp := Z.lor tmp (Z.shiftr tmp 1) in
      let tmp := Z.lor tmp (Z.shiftr tmp 2) in
      let tmp := Z.lor tmp (Z.shiftr tmp 4) in
      let tmp := Z.lor tmp (Z.shiftr tmp 8) in
      let tmp := Z.lor tmp (Z.shiftr tmp 16) in
      let tmp := Z.shiftr (wrap32 (tmp + 1)) 1 in
      let tmp := if (wrap32 (Z.shiftl tmp 1) <? queue_length) && negb (wrap32 (tmp * thr_n) =? queue_length)
                 then wrap32 (Z.shiftl tmp 1) else tmp in
      Some (Z.min max_bunch tmp)
    else Some 1.

(** utils.cpp:335-341 *)
Fixpoint job_loop (threads : nat) (q total max_bunch : Z) : option Z :=
  match threads with
  | O => Some q
  | S t =>
    match compute_bunch_size q total max_bunch with
    | None => None
    | Some b => let q' := wrap32 (q - b) in
                if q' =? 0 then Some q' else job_loop t q' total max_bunch
    end
  end.

(** utils.cpp:332-344 *)
Definition compute_job_number (queue_length threads total_threads max_bunch : Z) : option Z :=
  match job_loop (Z.to_nat threads) queue_length total_threads max_bunch with
  | None => None
  | Some q => Some (wrap32 (queue_length - q))
  end.

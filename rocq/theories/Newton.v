(** Univariate Newton interpolation of PolyReconst: /repo/source/PolyReconst.cpp *)
From Verif Require Import Machine FField LinAlg Vandermonde PolyFF Thiele.
Open Scope nat_scope.

Section Model.
  Context {K : fops}.
  Variable ord : pmap K -> pmap K.
  (** PolyReconst.cpp:651-653 get_rand_zi: the anchor point z of the variable to the given power *)
  Definition rand_zi (z : K) (order : nat) : K := fpow z (Z.of_nat order).

  (** PolyReconst.cpp:552-565 comp_ai; the loop is empty for i = 0 *)
  Definition newton_ai (z : K) (i : nat) (num : K) (a : list K) : K :=
    fold_left (fun res ip => fdiv (fsub res (nth (ip - 1) a f0)) (fsub (rand_zi z (i + 1)) (rand_zi z ip))) (seq 1 i) num.

  (** PolyReconst.cpp:580, 585: res * (-yi) + res.mul(1) *)
  Definition newton_shift (y : K) (res : polyff K) : polyff K := padd ord (pscale res (fopp y)) (pmul_var ord res 1).
  Definition newton_step (z : K) (a : list K) (res : polyff K) (i : nat) : polyff K :=
    newton_shift (rand_zi z i) (padd_assign ord res (const_poly (nth i a f0))).
  (** PolyReconst.cpp:576-589 iterate_canonical, called with at least two coefficients *)
  Definition newton_iterate (z : K) (a : list K) : polyff K :=
    fold_left (newton_step z a) (rev (seq 1 (length a - 2)))
      (newton_shift (rand_zi z (length a - 1)) (const_poly (nth (length a - 1) a f0))).
  (** PolyReconst.cpp:567-574 construct_canonical; n is the number of variables of the object *)
  Definition newton_canonical (n : nat) (z : K) (a : list K) : pmap K :=
    if length a =? 1 then [([0%Z], nth 0 a f0)]
    else if length a =? 0 then [(repeat 0%Z n, f0)]
    else pf_coefs (padd ord (const_poly (nth 0 a f0)) (newton_iterate z a)).

  (** PolyReconst.cpp:155-186 and 233: one probe of the lowest stage (zi = 1) with Newton interpolation only (use_bt off).
      [bound] is the degree bound deg (-1 = None); individual_degree_bounds acts in the same way. State: the a_i and
      curr_zi_order[0]. Returns the new state and [finished]. *)
  Definition newton_probe (bound : option nat) (z : K) (s : list K * nat) (num : K) : bool * (list K * nat) :=
    let i := snd s - 1 in
    let ai := newton_ai z i num (fst s) in
    if feqb ai f0 then (true, (fst s, S (snd s)))
    else (match bound with Some d => d =? i | None => false end, (fst s ++ [ai], S (snd s))).
  (** PolyReconst.cpp:32-52: no coefficients yet, curr_zi_order = 1 *)
  Definition newton_init : list K * nat := ([], 1).

  (** feeding values until one of them finishes the interpolation; the values fed after that are not used *)
  Fixpoint newton_feed (bound : option nat) (z : K) (s : list K * nat) (vals : list K) : option (list K * nat) :=
    match vals with
    | [] => None
    | v :: r => let (b, s') := newton_probe bound z s v in if b then Some s' else newton_feed bound z s' r
    end.
End Model.

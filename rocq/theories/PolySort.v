(** Results as class Polynomial: /repo/source/Polynomial.cpp:26-49 (constructor from a map, sort), /repo/source/PolyReconst.cpp:536-546 and
    /repo/source/RatReconst.cpp:1842-1867 (get_result).
    Simplifications: an rn_map is a list of terms, [ord] is the order of its iteration; std::sort is insertion sort (Props_PolySort.v shows that every
    correct sort gives the same list); the fields of the objects that get_result does not touch are left out. *)
From Coq Require Import Ascii String.
From Verif Require Import Machine RatNum Combi Printers.
From Coq Require Import List.
Import ListNotations.
Open Scope Z_scope.

(** Polynomial.cpp:26-35; var_pos is -1 *)
Definition poly_of (l : pmap rn) : poly := mk_poly l (match l with [] => 0%nat | t :: _ => length (fst t) end) (-1).
(** Polynomial.cpp:46-48: the comparator of sort *)
Definition mono_less (a b : list Z * rn) : bool := match a_grt_b (fst b) (fst a) with Some true => true | _ => false end.
Fixpoint insert_mono (x : list Z * rn) (l : pmap rn) : pmap rn := match l with [] => [x] | y :: r => if mono_less y x then y :: insert_mono x r else x :: l end.
(** Polynomial.cpp:44-49 *)
Definition poly_sort (p : poly) : poly := mk_poly (fold_right insert_mono [] (coefs p)) (pn p) (var_pos p).

Section Results.
  Variable ord : pmap rn -> pmap rn.
  (** the members result, done and gi of PolyReconst *)
  Record presult := mk_presult { pr_result : poly; pr_done : bool; pr_gi : pmap rn }.
  (** PolyReconst.cpp:536-546 *)
  Definition polyreconst_result (s : presult) : poly * presult :=
    match coefs (pr_result s) with
    | [] => if pr_done s then let p := poly_sort (poly_of (ord (pr_gi s))) in (p, mk_presult p true []) else (pr_result s, s)
    | _ => (pr_result s, s)
    end.
  (** the members result, done, g_ni and g_di of RatReconst *)
  Record rresult := mk_rresult { rr_result : ratfun; rr_done : bool; rr_gni : pmap rn; rr_gdi : pmap rn }.
  (** RatReconst.cpp:1842-1867 (the calls of sort in lines 1854 and 1855 are comments) *)
  Definition ratreconst_result (s : rresult) : outcome (ratfun * rresult) :=
    if rr_done s then
      match coefs (rnum (rr_result s)) with
      | [] => let f := mk_ratfun (poly_of (ord (rr_gni s))) (poly_of (ord (rr_gdi s))) [] [] in Ret (f, mk_rresult f true [] [])
      | _ => Ret (rr_result s, s)
      end
    else Exit.
End Results.

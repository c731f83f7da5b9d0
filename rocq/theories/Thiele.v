(** ThieleInterpolator: /repo/source/FFThieleInterpolator.cpp *)
From Verif Require Import Machine FField LinAlg Vandermonde PolyFF.
Open Scope nat_scope.

Section Model.
  Context {K : fops}.
  Variable ord : pmap K -> pmap K.

  (** FFThieleInterpolator.hpp: members ai and ti *)
  Record thiele := mk_thiele { th_a : list K; th_t : list K }.
  (** FFThieleInterpolator.cpp:23 *)
  Definition thiele_init : thiele := mk_thiele [] [].

  (** FFThieleInterpolator.cpp:47-57 comp_ai; ti[i] is the point just appended *)
  Definition comp_ai (a t : list K) (i : nat) (num : K) : K :=
    fold_left (fun res ip => fdiv (fsub (nth i t f0) (nth (ip - 1) t f0)) (fsub res (nth (ip - 1) a f0))) (seq 1 i) num.

  (** FFThieleInterpolator.cpp:59-69 comp_fyi *)
  Definition comp_fyi (a t : list K) (i : nat) (y : K) : K :=
    fold_left (fun res ip => fadd (nth (i - ip) a f0) (fdiv (fadd (fopp (nth (i - ip) t f0)) y) res)) (seq 1 i) (nth i a f0).

  (** FFThieleInterpolator.cpp:25-40 add_point. After a point that returned true no coefficient was stored for it,
      so a further call reads ai[i-1] out of range. *)
  Definition add_point (s : thiele) (num y : K) : outcome (bool * thiele) :=
    let t := th_t s ++ [y] in
    let i := length t - 1 in
    if i =? 0 then Ret (false, mk_thiele (th_a s ++ [num]) t)
    else if length (th_a s) <=? i - 1 then UB
    else if feqb num (comp_fyi (th_a s) t (i - 1) y) then Ret (true, mk_thiele (th_a s) t)
    else Ret (false, mk_thiele (th_a s ++ [comp_ai (th_a s) t i num]) t).

  (** FFThieleInterpolator.cpp:88-106 iterate_canonical: i = ai.size()-2 down to 1 *)
  Definition const_poly (c : K) : polyff K := mk_polyff 1 [([0%Z], c)].
  Definition canon_step (a t : list K) (res : polyff K * polyff K) (i : nat) : polyff K * polyff K :=
    let mti := fopp (nth i t f0) in
    (padd ord (padd ord (pscale (fst res) (nth i a f0)) (pmul_var ord (snd res) 1)) (pscale (snd res) mti), fst res).
  Definition thiele_iterate (a t : list K) : polyff K * polyff K :=
    fold_left (canon_step a t) (rev (seq 1 (length a - 2))) (const_poly (nth (length a - 1) a f0), const_poly f1).

  (** FFThieleInterpolator.cpp:71-86 construct_canonical *)
  Definition thiele_canonical (a t : list K) : polyff K * polyff K :=
    if length a =? 1 then (const_poly (nth 0 a f0), const_poly f1)
    else
      let r := thiele_iterate a t in
      let mti := fopp (nth 0 t f0) in
      (padd ord (padd ord (pscale (fst r) (nth 0 a f0)) (pscale (snd r) mti)) (pmul_var ord (snd r) 1), fst r).

  (** FFThieleInterpolator.cpp:42-45 get_result: ti.pop_back(); only the maps are returned (as polynomials in one
      variable here) *)
  Definition get_result (s : thiele) : outcome (polyff K * polyff K) :=
    match th_t s with
    | [] => UB
    | _ => Ret (thiele_canonical (th_a s) (removelast (th_t s)))
    end.

  (** feeding a sequence of (argument, value) pairs; the list of returned flags *)
  Fixpoint feed_points (s : thiele) (pts : list (K * K)) : outcome (list bool * thiele) :=
    match pts with
    | [] => Ret ([], s)
    | (y, f) :: r =>
        match add_point s f y with
        | Ret (b, s') => match feed_points s' r with Ret (bs, s'') => Ret (b :: bs, s'') | o => o end
        | UB => UB | Throw => Throw | Exit => Exit | Diverge => Diverge
        end
    end.
End Model.
Arguments thiele K : clear implicits.

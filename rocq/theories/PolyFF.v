(** PolynomialFF: /repo/source/PolynomialFF.cpp.
    ff_map = std::unordered_map<std::vector<uint32_t>, FFInt> is an association list whose keys are pairwise
    different; the iteration order of an unordered_map is unspecified, so every range-for over a map m goes over
    [ord m] where [ord] is an arbitrary reordering (parameter of the model; every theorem holds for all of them).
    Exponents are integers 0 .. 2^32-1. Not modelled: the Horner shortcut of calc_n_m_1 (see Parser files),
    operator<<, the cached max_degree/min_degree. *)
From Verif Require Import Machine FField LinAlg Vandermonde.
Open Scope nat_scope.

Notation mon := (list Z) (only parsing).

Section Model.
  Context {K : fops}.
  Definition pmap := list (mon * K).
  Variable ord : pmap -> pmap.

  (** operator== of std::vector<uint32_t>, the key equality of ff_map *)
  Definition mon_eqb (a b : mon) : bool := if list_eq_dec Z.eq_dec a b then true else false.
  (** e[i] *)
  Definition expo (e : mon) (i : nat) : Z := nth i e 0%Z.

  (** unordered_map operations used by the code *)
  Fixpoint pfind (m : pmap) (k : mon) : option K :=
    match m with [] => None | (k', c) :: r => if mon_eqb k k' then Some c else pfind r k end.
  Definition pemplace (m : pmap) (k : mon) (v : K) : pmap :=
    match pfind m k with Some _ => m | None => m ++ [(k, v)] end.
  Definition pupdate (m : pmap) (k : mon) (f : K -> K) : pmap :=
    map (fun kc => if mon_eqb k (fst kc) then (fst kc, f (snd kc)) else kc) m.
  Definition perase (m : pmap) (k : mon) : pmap := filter (fun kc => negb (mon_eqb k (fst kc))) m.
  (** coefs[k] = v *)
  Definition passign (m : pmap) (k : mon) (v : K) : pmap :=
    match pfind m k with Some _ => pupdate m k (fun _ => v) | None => m ++ [(k, v)] end.

  (** PolynomialFF.hpp: members n and coefs *)
  Record polyff := mk_polyff { pf_n : nat; pf_coefs : pmap }.

  (** PolynomialFF.cpp:33-37 / 60-62: product of powers *)
  Definition mon_val (n : nat) (e : mon) (off : nat) (x : nat -> K) : K :=
    fold_left (fun pr i => fmul pr (fpow (x i) (expo e (i + off)))) (seq 0 n) f1.

  (** PolynomialFF.cpp:30-44 calc *)
  Definition calc (a : polyff) (x : nat -> K) : K :=
    fold_left (fun res kc => fadd res (fmul (snd kc) (mon_val (pf_n a) (fst kc) 0 x))) (ord (pf_coefs a)) f0.

  (** PolynomialFF.cpp:46-69 calc_n_m_1 without the Horner shortcut (at most 50 terms) *)
  Definition calc_n_m_1 (a : polyff) (x : nat -> K) : K :=
    fold_left (fun res kc => fadd res (fmul (snd kc) (mon_val (pf_n a - 1) (fst kc) 1 x))) (ord (pf_coefs a)) f0.

  (** PolynomialFF.cpp:77-87 / 92-102: add one term, erasing it when the sum vanishes *)
  Definition add_term (m : pmap) (kc : mon * K) : pmap :=
    match pfind m (fst kc) with
    | None => pemplace m (fst kc) (snd kc)
    | Some c => let c' := fadd c (snd kc) in
                if feqb c' f0 then perase (pupdate m (fst kc) (fun _ => c')) (fst kc) else pupdate m (fst kc) (fun _ => c')
    end.
  (** PolynomialFF.cpp:71-107 operator+ : the smaller map is added into a copy of the larger *)
  Definition padd (a b : polyff) : polyff :=
    mk_polyff (pf_n a)
      (if length (pf_coefs a) <? length (pf_coefs b)
       then fold_left add_term (ord (pf_coefs a)) (pf_coefs b)
       else fold_left add_term (ord (pf_coefs b)) (pf_coefs a)).

  (** PolynomialFF.cpp:112-124 *)
  Definition sub_term (m : pmap) (kc : mon * K) : pmap :=
    match pfind m (fst kc) with
    | None => pemplace m (fst kc) (fsub f0 (snd kc))
    | Some c => let c' := fsub c (snd kc) in
                if feqb c' f0 then perase (pupdate m (fst kc) (fun _ => c')) (fst kc) else pupdate m (fst kc) (fun _ => c')
    end.
  (** PolynomialFF.cpp:109-127 operator- *)
  Definition psub (a b : polyff) : polyff :=
    mk_polyff (pf_n a) (fold_left sub_term (ord (pf_coefs b)) (pf_coefs a)).

  (** PolynomialFF.cpp:129-149 operator-= *)
  Definition sub_assign_term (m : pmap) (kc : mon * K) : pmap :=
    if feqb (snd kc) f0 then m else
    match pfind m (fst kc) with
    | None => passign m (fst kc) (fopp (snd kc))
    | Some c => let m' := pupdate m (fst kc) (fun c => fsub c (snd kc)) in
                if feqb (fsub c (snd kc)) f0 then perase m' (fst kc) else m'
    end.
  Definition psub_assign (a b : polyff) : polyff :=
    mk_polyff (pf_n a) (fold_left sub_assign_term (ord (pf_coefs b)) (pf_coefs a)).

  (** PolynomialFF.cpp:151-171 operator+= *)
  Definition add_assign_term (m : pmap) (kc : mon * K) : pmap :=
    if feqb (snd kc) f0 then m else
    match pfind m (fst kc) with
    | None => passign m (fst kc) (snd kc)
    | Some c => let m' := pupdate m (fst kc) (fun c => fadd c (snd kc)) in
                if feqb (fadd c (snd kc)) f0 then perase m' (fst kc) else m'
    end.
  Definition padd_assign (a b : polyff) : polyff :=
    mk_polyff (pf_n a) (fold_left add_assign_term (ord (pf_coefs b)) (pf_coefs a)).

  (** PolynomialFF.cpp:173-181, 195-206: operator* and *= with an FFInt *)
  Definition pscale (a : polyff) (c : K) : polyff :=
    mk_polyff (pf_n a) (map (fun kc => (fst kc, fmul (snd kc) c)) (pf_coefs a)).
  (** PolynomialFF.cpp:184-193, 208-221: operator/ and /= with an FFInt *)
  Definition pdivide (a : polyff) (c : K) : polyff := pscale a (fdiv f1 c).

  (** PolynomialFF.cpp:238-249 mul(zi) *)
  Definition incr_at (e : mon) (i : nat) : mon := map (fun j => if j =? i then wrap32 (expo e j + 1) else expo e j) (seq 0 (length e)).
  Definition pmul_var (a : polyff) (zi : nat) : polyff :=
    mk_polyff (pf_n a) (fold_left (fun m kc => pemplace m (incr_at (fst kc) (zi - 1)) (snd kc)) (ord (pf_coefs a)) []).

  (** PolynomialFF.cpp:251-268 homogenize; n is not changed *)
  Definition degree32 (e : mon) : Z := fold_left (fun d p => wrap32 (d + p)) e 0%Z.
  Definition phomogenize (a : polyff) (d : Z) : polyff :=
    mk_polyff (pf_n a)
      (fold_left (fun m kc => passign m (wrap32 (d - degree32 (fst kc)) :: fst kc) (snd kc)) (ord (pf_coefs a)) []).

  (** PolynomialFF.cpp:270-277 zero *)
  Definition pzero (a : polyff) : bool :=
    match pf_coefs a with [] => true | [(_, c)] => feqb c f0 | _ => false end.

  (** PolynomialFF.cpp:313-334 operator* *)
  Definition add_expo (n : nat) (a b : mon) : mon := map (fun i => wrap32 (expo a i + expo b i)) (seq 0 n).
  Definition pmul (a b : polyff) : polyff :=
    mk_polyff (pf_n a)
      (fold_left (fun m ka => fold_left (fun m' kb =>
          let c := fmul (snd ka) (snd kb) in
          if feqb c f0 then m' else pemplace m' (add_expo (pf_n a) (fst ka) (fst kb)) c) (ord (pf_coefs b)) m)
        (ord (pf_coefs a)) []).

  (** PolynomialFF.cpp:336-355 mul_shift *)
  Definition set_at (e : mon) (i : nat) (v : Z) : mon := map (fun j => if j =? i then v else expo e j) (seq 0 (length e)).
  Definition mul_shift (a b : pmap) (cd : nat) : pmap :=
    fold_left (fun m ka => fold_left (fun m' kb =>
        let c := fmul (snd ka) (snd kb) in
        if feqb c f0 then m' else pemplace m' (set_at (fst ka) cd (expo (fst kb) cd)) c) (ord b) m)
      (ord a) [].

  (** PolynomialFF.cpp:417-431 bin_coef *)
  Definition bin_coef (n k : Z) : K :=
    let k' := if (n - k <? k)%Z then (n - k)%Z else k in
    fold_left (fun res i => fdiv (fmul res (fsub (fofZ n) (fofZ (Z.of_nat i)))) (fadd (fofZ (Z.of_nat i)) f1)) (seq 0 (Z.to_nat k')) f1.

  (** PolynomialFF.cpp:380, 394-395: an exponent vector with one non-zero entry *)
  Definition unit_mon (n j : nat) (d : Z) : mon := map (fun i => if i =? j then d else 0%Z) (seq 0 n).

  (** PolynomialFF.cpp:379-397: the polynomial (x_j + s)^deg *)
  Definition shift_pow (n j : nat) (deg : Z) (s : K) : pmap :=
    if fgtb s f0 then
      fold_left (fun m k =>
          let kz := Z.of_nat k in
          pemplace m (unit_mon n j (deg - kz))
            (if (kz =? 0)%Z then f1 else if (kz =? deg)%Z then fpow s deg else fmul (bin_coef deg kz) (fpow s kz)))
        (seq 0 (S (Z.to_nat deg))) []
    else [(unit_mon n j deg, f1)].

  (** PolynomialFF.cpp:369-404: loop over the variables for one monomial *)
  Definition shift_var (n : nat) (kc : mon * K) (s : nat -> K) (pow_poly : pmap) (j : nat) : pmap :=
    if (0 <? expo (fst kc) j)%Z then
      let tmp := shift_pow n j (expo (fst kc) j) (s j) in
      match pow_poly with
      | [] => pf_coefs (pscale (mk_polyff n tmp) (snd kc))
      | _ => mul_shift pow_poly tmp j
      end
    else pow_poly.

  (** PolynomialFF.cpp:357-415 add_shift (shift.size() must be n) *)
  Definition add_shift (a : polyff) (ls : nat) (s : nat -> K) : outcome polyff :=
    if negb (ls =? pf_n a) then Throw else
    Ret (fold_left (fun res kc =>
        let pow_poly := fold_left (shift_var (pf_n a) kc s) (seq 0 (pf_n a)) [] in
        match pow_poly with
        | [] => res
        | _ => match pf_coefs res with
               | [] => mk_polyff (pf_n a) pow_poly
               | _ => padd_assign res (mk_polyff (pf_n a) pow_poly)
               end
        end) (ord (pf_coefs a)) (mk_polyff (pf_n a) [])).

  (** PolynomialFF.cpp:433-444 remove_zero_coefs *)
  Definition remove_zero_coefs (a : polyff) : polyff :=
    mk_polyff (pf_n a)
      (fold_left perase (map fst (filter (fun kc => feqb (snd kc) f0) (ord (pf_coefs a)))) (pf_coefs a)).

  (** utils.cpp:242-303 solve_vandermonde_system; degs is a list of exponent vectors of length n+1, val has length
      n. With no equation cis[num_eqn - 1] is written out of range. *)
  Definition vdm_nodes (n : nat) (degs : list mon) (val : nat -> K) : nat -> K :=
    fun i => fold_left (fun vi j => fmul vi (fpow (val j) (expo (nth i degs []) (S j)))) (seq 0 n) f1.
  Definition solve_vandermonde_system (n : nat) (degs : list mon) (nums val : nat -> K) : outcome polyff :=
    match degs with
    | [] => UB
    | _ => let vis := vdm_nodes n degs val in
           Ret (mk_polyff (S n) (fold_left (fun m i => pemplace m (nth i degs []) (vdm_solve (length degs) vis nums i))
                                   (seq 0 (length degs)) []))
    end.
End Model.
Arguments pmap K : clear implicits.
Arguments polyff K : clear implicits.

(** PolyReconst used on its own, prime after prime: /repo/source/PolyReconst.cpp:32-52, 102-158, 475-507, 525-528, 591-602 and
    BaseReconst.cpp:184-204.  One prime is PolyRec.v.
    Simplifications: the queue protocol is C34; when a prime starts (done = false) everything that belongs to the prime is cleared
    (PolyReconst.cpp:108-119, 155-157), so only the members below survive a change of the prime. *)
From Coq Require Import Znumtheory.
From Verif Require Import Machine FFInt FField LinAlg PolyFF Newton RatNum Modular PField RatUni PolyRec.
Open Scope Z_scope.

(** BaseReconst.hpp: new_prime, prime_number, done, use_chinese_remainder, combined_prime; PolyReconst.hpp: combined_ci, gi *)
Record pq := mk_pq { q_new : bool; q_number : Z; q_done : bool; q_crt : bool; q_prime : Z; q_ci : list (mon * Z); q_gi : list (mon * rn) }.
(** PolyReconst.cpp:32-52 constructor, for the prime p *)
Definition pq_start (p : Z) : pq := mk_pq false 0 false false p [] [].

Section Model.
  Variable ord : forall A : Type, list A -> list A.
  Variable c : pcfg.

  (** PolyReconst.cpp:121-131: every combined coefficient is guessed, (runtest, gi); the keys of a map are unique, emplace always inserts *)
  Fixpoint guess_all (M : Z) (l : list (mon * Z)) (gi : list (mon * rn)) : outcome (bool * list (mon * rn)) :=
    match l with
    | [] => Ret (true, gi)
    | (k, a) :: r =>
        do res <- oget (get_rational_coef a M);
        if fst res then guess_all M r (match afind gi k with Some _ => gi | None => gi ++ [(k, snd res)] end) else Ret (false, gi)
    end.

  Section Prime.
    Variable F : pfield.
    Local Notation K := (fld F).
    Local Notation p := (pf_mod F).
    Variable y : nat -> K.

    (** PolyReconst.cpp:591-602 test_guess *)
    Definition ptest_guess (gi : list (mon * rn)) (v : K) : bool :=
      feqb (calc (ord _) (mk_polyff (pc_n c) (convert_to_ffint ord F gi)) (fun i => rand_zi (y i) 1)) v.

    (** PolyReconst.cpp:104-158: the first probe of a later prime *)
    Definition start_prime (g : pq) (v : K) : outcome pq :=
      if q_new g then
        do r <- guess_all (q_prime g) (ord _ (q_ci g)) (q_gi g);
        if fst r && ptest_guess (snd r) v then Ret (mk_pq false (q_number g) true false 0 [] (snd r))
        else Ret (mk_pq false (q_number g) false true (q_prime g) (q_ci g) [])
      else Ret g.

    (** PolyReconst.cpp:488-492: monomials that are missing in the polynomial of this prime *)
    Definition add_missing (g : pq) (ci : list (mon * Z)) : list (mon * Z) :=
      fold_left (fun t el => match afind t (fst el), afind (q_gi g) (fst el) with None, None => t ++ [(fst el, 0)] | _, _ => t end) (ord _ (q_ci g)) ci.
    (** PolyReconst.cpp:494-504: (combined_ci, p3.second) *)
    Fixpoint crt_all (g : pq) (l : list (mon * Z)) (ci : list (mon * Z)) (last : Z) : outcome (list (mon * Z) * Z) :=
      match l with
      | [] => Ret (ci, last)
      | (k, i) :: r =>
          let ci1 := match afind ci k, afind (q_gi g) k with None, None => ci ++ [(k, 0)] | _, _ => ci end in
          (* combined_ci[k] inserts zero if the key is missing *)
          let a := match afind ci1 k with Some a => a | None => 0 end in
          do p3 <- oget (run_chinese_remainder (a, q_prime g) (i, p));
          crt_all g r (aset ci1 k (fst p3)) (snd p3)
      end.
    (** PolyReconst.cpp:475-507, 525-528: the polynomial of this prime is combined with the previous ones *)
    Definition end_prime (g : pq) (m : list (mon * K)) : outcome pq :=
      let ci := convert_to_mpz ord F m in
      if q_crt g then
        do r <- crt_all g (ord _ (add_missing g ci)) (q_ci g) 0;
        Ret (mk_pq true (q_number g + 1) (q_done g) true (snd r) (fst r) (q_gi g))
      else Ret (mk_pq true (q_number g + 1) (q_done g) false (q_prime g) ci (q_gi g)).

    (** feeding at most m values of a prime at the requested orders, stopping when the object asks for the next prime or is done;
        None: the prime is not finished *)
    Definition feed_prime (bb : list nat -> K) (m : nat) (g : pq) : outcome (option pq) :=
      if q_done g then Ret (Some g)
      else match m with
      | O => Ret None
      | S _ =>
          do g1 <- start_prime g (bb (repeat 1%nat (pc_n c)));
          if q_done g1 then Ret (Some g1)
          else do o <- drive ord c y bb m (ps_start c);
               match o with PMore _ => Ret None | PPoly r => do g2 <- end_prime g1 r; Ret (Some g2) end
      end.
  End Prime.

  (** a prime, the anchor points, the black box, the number of probes *)
  Record session := mk_session { se_F : pfield; se_y : nat -> fld se_F; se_bb : list nat -> fld se_F; se_m : nat }.
  (** the next primes (FFInt::set_new_prime and set_anchor_points are the caller's) *)
  Fixpoint feed_primes (l : list session) (g : pq) : outcome (option pq) :=
    match l with
    | [] => Ret (Some g)
    | s :: r => do o <- feed_prime (se_F s) (se_y s) (se_bb s) (se_m s) g; match o with Some g' => feed_primes r g' | None => Ret None end
    end.
End Model.

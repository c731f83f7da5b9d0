(** class Poly (univariate polynomials as coefficient vectors): /repo/source/Poly.cpp, include/firefly/Poly.hpp.
    [coeff] is a list of FFInt; the arithmetic of FFInt is the interface [fops].
    Not modelled: operator<< (Poly.cpp:324-361), reserve/shrink_to_fit of the capacity, aliased operands (p -= p, p *= p).
    std::vector::at out of range is [Throw]; back() / erase on an empty vector is [UB]. *)
From Verif Require Import Machine FField FSum FFVec.
Open Scope nat_scope.

Notation "x <- e ;; f" := (obind e (fun x => f)) (at level 61, e at next level, right associativity).

Section Model.
  Context {K : fops}.
  Implicit Types (c a b z : list K).

  (** std::vector::at *)
  Definition at_ c (i : nat) : outcome K := match nth_error c i with Some x => Ret x | None => Throw end.

  (** Poly.cpp:42-50 get_deg. For an empty vector size()-1 wraps to 2^64-1 and at() throws. *)
  Fixpoint deg_from c (i : nat) : nat :=
    match i with O => O | S j => if feqb (nth i c f0) f0 then deg_from c j else i end.
  Definition get_deg c : outcome nat :=
    match c with [] => Throw | _ => Ret (deg_from c (length c - 1)) end.

  (** Poly.cpp:52-58 shrink_to_fit: while (coeff.back() == 0) coeff.pop_back(); on the reversed list *)
  Fixpoint drop_zeros (r : list K) : outcome (list K) :=
    match r with [] => UB | x :: t => if feqb x f0 then drop_zeros t else Ret (x :: t) end.
  Definition shrink_to_fit c : outcome (list K) := r <- drop_zeros (rev c);; Ret (rev r).

  (** Poly.cpp:60-63 rev *)
  Definition prev c : outcome (list K) := c' <- shrink_to_fit c;; Ret (rev c').

  (** std::vector::resize *)
  Definition resize c (n : nat) : list K := firstn n c ++ repeat f0 (n - length c).

  (** Poly.cpp:71-77 and 88-94, the loop of -= and += from index [i], [n] iterations left *)
  Fixpoint pm_loop (g : K -> K -> K) (ins : K -> K) a (n i : nat) c : outcome (list K) :=
    match n with
    | O => Ret c
    | S m =>
        d <- get_deg c;;
        if i <=? d then x <- at_ c i;; y <- at_ a i;; pm_loop g ins a m (S i) (upd c i (g x y))
        else y <- at_ a i;;
             if i <=? length c then pm_loop g ins a m (S i) (firstn i c ++ ins y :: skipn i c) else UB
    end.
  Definition pm_assign (g : K -> K -> K) (ins : K -> K) c a : outcome (list K) :=
    da <- get_deg a;; dc <- get_deg c;;
    pm_loop g ins a (S da) 0 (if dc <? da then resize c (da + 1) else c).
  (** Poly.cpp:65-80 operator-= (and 125-129 operator-, on a copy) *)
  Definition psub c a := pm_assign fsub fopp c a.
  (** Poly.cpp:82-97 operator+= (and 119-123 operator+) *)
  Definition padd c a := pm_assign fadd (fun y => y) c a.

  (** Poly.cpp:99-113, for (i = 0; i <= get_deg(); i++) coeff.at(i) = g(coeff.at(i)) *)
  Fixpoint sc_loop (g : K -> K) (fuel i : nat) c : outcome (list K) :=
    match fuel with
    | O => Diverge
    | S m => d <- get_deg c;; if i <=? d then x <- at_ c i;; sc_loop g m (S i) (upd c i (g x)) else Ret c
    end.
  Definition psmul c (x : K) := sc_loop (fun y => fmul y x) (S (length c)) 0 c.
  Definition psdiv c (x : K) := sc_loop (fun y => fdiv y x) (S (length c)) 0 c.

  (** Poly.cpp:131-150 operator*=(Poly): (deg+1)*(deg'+1) coefficients, each the sum over j <= i of the products of
      the coefficients that exist *)
  Definition mul_coef c a (i : nat) : K :=
    fold_left (fun acc j => if (j <? length c) && (i - j <? length a) then fadd acc (fmul (nth j c f0) (nth (i - j) a f0)) else acc)
      (seq 0 (S i)) f0.
  Definition pmul c a : outcome (list K) :=
    dc <- get_deg c;; da <- get_deg a;; Ret (map (mul_coef c a) (seq 0 ((dc + 1) * (da + 1)))).

  (** while (c.get_deg() >= n) c.coeff.pop_back();   (Poly.cpp:185-187 and 196-198) *)
  Fixpoint pop_while (fuel n : nat) c : outcome (list K) :=
    match fuel with
    | O => Diverge
    | S m => d <- get_deg c;; if n <=? d then pop_while m n (removelast c) else Ret c
    end.
  Definition pop_to (n : nat) c := pop_while (S (length c)) n c.

  (** Poly.cpp:177-188, the Newton iteration for i, i+1, ..., [n] iterations left. exp2((double) i) is 2^i. *)
  Fixpoint newton_inv (f : list K) (n i : nat) (gi : list K) : outcome (list K) :=
    match n with
    | O => Ret gi
    | S m =>
        q <- psmul gi (fofZ 2%Z);;
        t <- pmul gi gi;;
        t <- pmul t f;;
        g <- psub q t;;
        g <- pop_to (2 ^ i) g;;
        newton_inv f m (S i) g
    end.

  (** Poly.cpp:158-213 fast_euclidean_division. ceil(log2((double) m + 1)) is modelled as the exact integer
      ceiling [Nat.log2_up]; the double computation agrees while m < 2^40. The divisor of b /= b.coeff.back()
      is a reference to the last coefficient, which is divided last, so the value is the leading coefficient
      throughout. *)
  Definition fast_euclidean_division a z : outcome (list K * list K) :=
    da <- get_deg a;; dz <- get_deg z;;
    if da <? dz then Ret ([f0], a) else
    b <- shrink_to_fit z;;
    b <- psdiv b (last b f0);;
    db <- get_deg b;;
    let m := da - db in
    let k := Nat.log2_up (m + 1) in
    f <- prev b;;
    gi <- newton_inv f k 1 [f1];;
    s <- prev a;;
    s <- pmul s gi;;
    s <- pop_to (m + 1) s;;
    ds <- get_deg s;;
    let e := m - ds in
    s <- prev s;;
    let s := repeat f0 e ++ s in
    bs <- pmul b s;;
    r <- psub a bs;;
    lz <- at_ z dz;;
    q <- psdiv s lz;;
    Ret (q, r).
  (** Poly.cpp:215-217 *)
  Definition pdiv a b := qr <- fast_euclidean_division a b;; Ret (fst qr).
  (** Poly.cpp:219-221 *)
  Definition pmod a b := qr <- fast_euclidean_division a b;; Ret (snd qr).

  (** Poly.cpp:223-235 gcd *)
  Fixpoint gcd_loop (fuel : nat) a b : outcome (list K) :=
    match fuel with
    | O => Diverge
    | S m =>
        db <- get_deg b;; b0 <- at_ b 0;;
        if negb (db =? 0) || negb (feqb b0 f0) then h <- pmod a b;; gcd_loop m b h else Ret a
    end.
  Definition pgcd c d := gcd_loop (S (S (length d))) c d.

  (** Poly.cpp:244-247, while (a.coeff.at(0) == 0) erase the first coefficient and record the root 0 *)
  Fixpoint strip_zero_roots (c : list K) (roots : list K) : outcome (list K * list K) :=
    match c with
    | [] => Throw
    | x :: t => if feqb x f0 then strip_zero_roots t (roots ++ [f0]) else Ret (c, roots)
    end.

  (** Poly.cpp:266-269, master = (master * (x + Delta)) % q, [s] times *)
  Fixpoint master_loop (s : nat) (multi q master : list K) : outcome (list K) :=
    match s with
    | O => Ret master
    | S s' => m <- pmul master multi;; m <- pmod m q;; master_loop s' multi q m
    end.

  (** Poly.cpp:252-287, one pass through the body of while (queue.back().get_deg() > 1) for the polynomial [q]
      on top of the queue and the random number [delta]: the two polynomials that replace it *)
  Definition split_step (s : nat) (delta : K) q : outcome (list K * list K) :=
    dq <- get_deg q;;
    master <- master_loop s [delta; f1] q (resize [f1] (dq + 2));;
    x <- at_ master 0;;
    h <- pgcd q (upd master 0 (fsub x f1));;
    f <- pdiv q h;;
    h <- shrink_to_fit h;;
    f <- shrink_to_fit f;;
    Ret (h, f).

  (** Poly.cpp:294-297, while (!queue.empty() && queue.back().get_deg() == 1) take a root *)
  Fixpoint take_linear (queue : list (list K)) (roots : list K) : outcome (list (list K) * list K) :=
    match queue with
    | [] => Ret ([], roots)
    | q :: t =>
        d <- get_deg q;;
        if d =? 1 then q0 <- at_ q 0;; q1 <- at_ q 1;; take_linear t (roots ++ [fdiv (fopp q0) q1])
        else Ret (queue, roots)
    end.

  (** Poly.cpp:251-298. The back of the queue is the head of the list. One call is either one pass through the
      inner while loop (Poly.cpp:252-288) or the rest of the body of the outer loop (290-297).
      [deltas] lists the numbers the random engine will return; when the list ends the model stops with [Diverge]
      (so [Diverge] means: not finished after [length deltas] random numbers or [fuel] passes).
      [s] is (p - 1) / 2. *)
  Fixpoint roots_loop (s : nat) (fuel : nat) (deltas : list K) (queue : list (list K)) (roots : list K) : outcome (list K) :=
    match fuel with
    | O => Diverge
    | S m =>
        match queue with
        | [] => Ret roots
        | q :: t =>
            d <- get_deg q;;
            if 1 <? d then
              match deltas with
              | [] => Diverge
              | delta :: ds => hf <- split_step s delta q;; roots_loop s m ds (snd hf :: fst hf :: t) roots
              end
            else
              st <- take_linear (if d =? 0 then t else queue) roots;;
              roots_loop s m deltas (fst st) (snd st)
        end
    end.

  (** Poly.cpp:237-301 roots *)
  Definition roots (s fuel : nat) (deltas : list K) c : outcome (list K) :=
    a <- shrink_to_fit c;;
    a <- psdiv a (last a f0);;
    ar <- strip_zero_roots a [];;
    roots_loop s fuel deltas [fst ar] (snd ar).
End Model.

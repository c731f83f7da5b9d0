(** Model of the number-theoretic functions of source/utils.cpp:24-129 on
    mpz_class (= [Z]). *)
From Verif Require Import Machine RatNum.

(** mpz_invert(a, m): the inverse of a modulo m in [0, m), computed here by the
    extended Euclidean algorithm; [None] when there is none (GMP leaves the
    result unspecified then). *)
Fixpoint egcd (fuel : nat) (t newt r newr : Z) : option (Z * Z) :=
  if newr =? 0 then Some (t, r)
  else match fuel with
       | O => None
       | S f => let q := r / newr in egcd f newt (t - q * newt) newr (r - q * newr)
       end.

(** Enough iterations for Euclid's algorithm on numbers up to p. *)
Definition euclid_fuel (p : Z) : nat := Z.to_nat (2 * Z.log2 p + 4).

Definition mpz_invert (a m : Z) : option Z :=
  match egcd (euclid_fuel m) 0 1 m (a mod m) with
  | Some (t, 1) => Some (t mod m)
  | _ => None
  end.

(** source/utils.cpp:24-42 run_chinese_remainder; [%] truncates. *)
Definition run_chinese_remainder (p1 p2 : Z * Z) : option (Z * Z) :=
  let n := snd p1 * snd p2 in
  match mpz_invert (snd p2) (snd p1) with
  | None => None
  | Some tmp =>
    let m1 := tmp * snd p2 in
    let m2 := Z.rem (1 - m1) n in
    let m2 := if m2 <? 0 then m2 + n else m2 in
    Some (Z.rem (m1 * fst p1 + m2 * fst p2) n, n)
  end.

(** source/utils.cpp:54-62, loop of get_rational_coef; [None]: fuel exhausted.
    Result: (newt, newr) at loop exit. *)
Fixpoint ratrec_loop (fuel : nat) (p t newt r newr : Z) : option (Z * Z) :=
  if p <? 2 * newr * newr then
    match fuel with
    | O => None
    | S f => let q := Z.quot r newr in ratrec_loop f p newt (t - q * newt) newr (r - q * newr)
    end
  else Some (newt, newr).

(** source/utils.cpp:44-74 get_rational_coef *)
Definition get_rational_coef (a p : Z) : option (bool * rn) :=
  match ratrec_loop (euclid_fuel p) p 0 1 p a with
  | None => None
  | Some (newt, newr) =>
    let failed := (p <? 2 * newt * newt) || negb (Z.gcd newr newt =? 1) in
    let newr := if failed then 1 else newr in
    let newt := if failed then 1 else newt in
    option_map (fun r => (negb failed, r))
      (if newt <? 0 then rn_make (- newr) (Z.abs newt) else rn_make newr newt)
  end.

(** mpz_sizeinbase(p, 2) for p > 0 *)
Definition sizeinbase2 (p : Z) : Z := Z.log2 p + 1.

(** source/utils.cpp:102-117, loop of get_rational_coef_mqrr; result (n, d) *)
Fixpoint mqrr_loop (fuel : nat) (T n d t0 r0 t1 r1 : Z) : option (Z * Z) :=
  if negb (r1 =? 0) && (T <? r0) then
    match fuel with
    | O => None
    | S f =>
      let q := Z.quot r0 r1 in
      if T <? q then mqrr_loop f q r1 t1 t1 r1 (t0 - q * t1) (r0 - q * r1)
      else mqrr_loop f T n d t1 r1 (t0 - q * t1) (r0 - q * r1)
    end
  else Some (n, d).

(** source/utils.cpp:80-129 get_rational_coef_mqrr *)
Definition mqrr_threshold (p : Z) : Z := 1024 * sizeinbase2 p.

Definition get_rational_coef_mqrr (u p : Z) : option (bool * rn) :=
  let T := mqrr_threshold p in
  if u =? 0 then option_map (fun r => (T <? p, r)) (rn_make 0 1)
  else
    match mqrr_loop (euclid_fuel p) T 0 0 0 p 1 u with
    | None => None
    | Some (n, d) =>
      let failed := (d =? 0) || negb (Z.gcd n d =? 1) in
      let n := if failed then 1 else n in
      let d := if failed then 1 else d in
      option_map (fun r => (negb failed, r))
        (if d <? 0 then rn_make (- n) (Z.abs d) else rn_make n d)
    end.

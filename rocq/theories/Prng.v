(** Pseudo random numbers: /repo/source/BaseReconst.cpp:23-27, 122-157, 206-278 *)
From Verif Require Import Machine FFInt.
Open Scope Z_scope.

(** BaseReconst.cpp:23-24 *)
Definition multiplier : Z := 6364136223846793005.
Definition increment : Z := 1442695040888963407.
(** BaseReconst.hpp:135-139: state, splitmix64_state, s[0..3] *)
Record rng := mk_rng { pcg_st : Z; sm_st : Z; x0 : Z; x1 : Z; x2 : Z; x3 : Z }.
(** BaseReconst.cpp:25-27: the statics; s has static storage and is zero-initialised *)
Definition rng_start : rng := mk_rng 0x4d595df4d0f33173 0x4d595df4d0f33173 0 0 0 0.

(** BaseReconst.cpp:206-208 rotr32 on uint32_t *)
Definition rotr32 (x r : Z) : Z := Z.lor (Z.shiftr x r) (wrap32 (Z.shiftl x (Z.land (wrap32 (- r)) 31))).
(** BaseReconst.cpp:218-230 pcg32 *)
Definition pcg_next (x : Z) : Z := wrap64 (x * multiplier + increment).
Definition pcg_out (x : Z) : Z := rotr32 (wrap32 (Z.shiftr (Z.lxor x (Z.shiftr x 18)) 27)) (wrap32 (Z.shiftr x 59)).
Definition pcg32 (g : rng) : Z * rng := (pcg_out (pcg_st g), mk_rng (pcg_next (pcg_st g)) (sm_st g) (x0 g) (x1 g) (x2 g) (x3 g)).
(** BaseReconst.cpp:232-234 rol64 *)
Definition rol64 (x k : Z) : Z := Z.lor (wrap64 (Z.shiftl x k)) (Z.shiftr x (64 - k)).
(** BaseReconst.cpp:236-252 xoshiro256ss *)
Definition xo_out (g : rng) : Z := wrap64 (rol64 (wrap64 (x1 g * 5)) 7 * 9).
Definition xo_next (g : rng) : rng :=
  let t := wrap64 (Z.shiftl (x1 g) 17) in
  let s2 := Z.lxor (x2 g) (x0 g) in
  let s3 := Z.lxor (x3 g) (x1 g) in
  let s1 := Z.lxor (x1 g) s2 in
  let s0 := Z.lxor (x0 g) s3 in
  mk_rng (pcg_st g) (sm_st g) s0 s1 (Z.lxor s2 t) (rol64 s3 45).
Definition xoshiro256ss (g : rng) : Z * rng := (xo_out g, xo_next g).
(** BaseReconst.cpp:255-262 splitmix64 *)
Definition sm_next (x : Z) : Z := wrap64 (x + 0x9E3779B97f4A7C15).
Definition sm_out (x : Z) : Z :=
  let r1 := wrap64 (Z.lxor x (Z.shiftr x 30) * 0xBF58476D1CE4E5B9) in
  let r2 := wrap64 (Z.lxor r1 (Z.shiftr r1 27) * 0x94D049BB133111EB) in
  Z.lxor r2 (Z.shiftr r2 31).
(** BaseReconst.cpp:210-216 pc32_init, 264-273 xoshiro256ss_init, 154-157 set_seed *)
Definition pc32_init (seed : Z) (g : rng) : rng :=
  snd (pcg32 (mk_rng (wrap64 (seed + increment)) (sm_st g) (x0 g) (x1 g) (x2 g) (x3 g))).
Definition xoshiro_init (seed : Z) (g : rng) : rng :=
  let a := wrap64 (seed + increment) in
  let b := sm_next a in let c := sm_next b in let d := sm_next c in
  mk_rng (pcg_st g) (sm_next d) (sm_out a) (sm_out b) (sm_out c) (sm_out d).
Definition set_seed (seed : Z) (g : rng) : rng := xoshiro_init seed (pc32_init seed g).
(** BaseReconst.cpp:275-278 reset *)
Definition reset (g : rng) : rng := mk_rng 0x4d595df4d0f33173 0x4d595df4d0f33173 (x0 g) (x1 g) (x2 g) (x3 g).

(** BaseReconst.cpp:122-134 get_rand_32 and 140-152 get_rand_64: draw until the field element is not zero. [fuel] bounds the
    number of draws; None: the fuel did not suffice. get_rand (136-138) calls get_rand_64. *)
Fixpoint get_rand_32 (fuel : nat) (p : Z) (g : rng) : option (Z * rng) :=
  match fuel with
  | O => None
  | S f => let (v, g') := pcg32 g in if ff_eqb (ff_ctor p v) 0 then get_rand_32 f p g' else Some (ff_ctor p v, g')
  end.
Fixpoint get_rand_64 (fuel : nat) (p : Z) (g : rng) : option (Z * rng) :=
  match fuel with
  | O => None
  | S f => let (v, g') := xoshiro256ss g in if ff_eqb (ff_ctor p v) 0 then get_rand_64 f p g' else Some (ff_ctor p v, g')
  end.

(** what a program can do with the generator *)
Inductive rng_call := CallSeed (seed : Z) | CallReset | CallRand32 (p : Z) | CallRand64 (p : Z).
Definition rng_step (c : rng_call) (g g' : rng) : Prop :=
  match c with
  | CallSeed seed => 0 <= seed < two64 /\ g' = set_seed seed g
  | CallReset => g' = reset g
  | CallRand32 p => 1 < p < two63 /\ exists fuel v, get_rand_32 fuel p g = Some (v, g')
  | CallRand64 p => 1 < p < two63 /\ exists fuel v, get_rand_64 fuel p g = Some (v, g')
  end.
Inductive rng_history : list rng_call -> rng -> Prop :=
| rng_nil : rng_history [] rng_start
| rng_snoc h c g g' : rng_history h g -> rng_step c g g' -> rng_history (h ++ [c]) g'.
Definition is_seed (c : rng_call) : bool := match c with CallSeed _ => true | _ => false end.

(** A prime together with the proof that it is one: the argument of FFInt::set_new_prime (/repo/source/FFInt.cpp:52-63). *)
From Coq Require Import Znumtheory.
From Verif Require Import Machine FField.
Open Scope Z_scope.

Record pfield := mk_pf { pf_mod : Z; pf_prime : prime pf_mod; pf_small : pf_mod < two63 }.
(** the field of FFInt values in use then *)
Definition fld (F : pfield) : fops := FFint_ops (pf_mod F) (pf_prime F) (pf_small F).
(** member n of an FFInt *)
Definition kv {F : pfield} (x : fld F) : Z := proj1_sig (x : ffint (pf_mod F)).

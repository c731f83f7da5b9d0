(** Specification vocabulary: linear recurrences and exponential sums *)
From Verif Require Import Machine FField FSum.
Open Scope nat_scope.

Section BMSpec.
  Context {K : fops}.
  (** c_0 = 1, ..., c_L is a linear recurrence of length L for s_0, ..., s_(n-1) *)
  Definition recurrence (c : nat -> K) (L : nat) (s : nat -> K) (n : nat) : Prop :=
    c 0 = f1 /\ (forall i, L < i -> c i = f0) /\
    forall k, L <= k -> k < n -> fsum (S L) (fun i => fmul (c i) (s (k - i))) = f0.
  (** sum of c_j * v_j^(k+1): the k-th probe of a polynomial with the terms c_j and monomial values v_j at the base point *)
  Definition exponential_sum (T : nat) (c v : nat -> K) (k : nat) : K := fsum T (fun j => fmul (c j) (pw (v j) (S k))).
  Definition seq_of (l : list K) (k : nat) : K := nth k l f0.
End BMSpec.

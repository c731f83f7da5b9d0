(** Fixed-width machine integers.
    Models C++ (x86-64 Linux, g++) integer conversions used throughout /repo. *)
From Coq Require Export ZArith List Bool Lia.
From Coq Require Export ZifyBool.
Export ListNotations.
Open Scope Z_scope.

Definition two63 : Z := 9223372036854775808.
Definition two64 : Z := 18446744073709551616.
Definition two32 : Z := 4294967296.
Definition two31 : Z := 2147483648.

(** Conversion to uint64_t: C++ unsigned conversion is reduction modulo 2^64. *)
Definition wrap64 (z : Z) : Z := z mod two64.

(** Conversion uint64_t -> int64_t: two's complement reinterpretation. *)
Definition sint64 (z : Z) : Z :=
  let w := wrap64 z in if w <? two63 then w else w - two64.

(** Conversion to uint32_t. *)
Definition wrap32 (z : Z) : Z := z mod two32.

(** Conversion to int (32 bit two's complement). *)
Definition sint32 (z : Z) : Z :=
  let w := wrap32 z in if w <? two31 then w else w - two32.

Lemma two63_pow : two63 = 2 ^ 63. Proof. reflexivity. Qed.
Lemma two64_pow : two64 = 2 ^ 64. Proof. reflexivity. Qed.

Lemma wrap64_small z : 0 <= z < two64 -> wrap64 z = z.
Proof. intros H; unfold wrap64; apply Z.mod_small; exact H. Qed.

Lemma wrap64_range z : 0 <= wrap64 z < two64.
Proof. unfold wrap64; apply Z.mod_pos_bound; reflexivity. Qed.

Lemma wrap64_wrap64 z : wrap64 (wrap64 z) = wrap64 z.
Proof. apply wrap64_small, wrap64_range. Qed.

Lemma wrap64_eqm z : exists k, wrap64 z = z + k * two64.
Proof. unfold wrap64. exists (- (z / two64)). pose proof (Z.div_mod z two64 ltac:(discriminate)). lia. Qed.

Lemma wrap64_add_mul z k : wrap64 (z + k * two64) = wrap64 z.
Proof. unfold wrap64; apply Z.mod_add; discriminate. Qed.

Lemma wrap64_unique z r k : z = r + k * two64 -> 0 <= r < two64 -> wrap64 z = r.
Proof. intros -> Hr. rewrite wrap64_add_mul. apply wrap64_small; exact Hr. Qed.

Lemma sint64_small z : - two63 <= z < two63 -> sint64 z = z.
Proof.
  intros H; unfold sint64; cbv zeta.
  destruct (Z_lt_le_dec z 0) as [Hn|Hn].
  - assert (E : wrap64 z = z + two64).
    { apply (wrap64_unique z (z + two64) (-1)); unfold two63, two64 in *; lia. }
    rewrite E. destruct (z + two64 <? two63) eqn:C; unfold two63, two64 in *; lia.
  - rewrite wrap64_small by (unfold two63, two64 in *; lia).
    destruct (z <? two63) eqn:C; lia.
Qed.

Lemma sint64_wrap z : sint64 (wrap64 z) = sint64 z.
Proof. unfold sint64; cbv zeta; rewrite wrap64_wrap64; reflexivity. Qed.

Lemma sint64_range z : - two63 <= sint64 z < two63.
Proof.
  unfold sint64; cbv zeta. pose proof (wrap64_range z).
  destruct (wrap64 z <? two63) eqn:C; unfold two63, two64 in *; lia.
Qed.

Lemma wrap64_sint64 z : wrap64 (sint64 z) = wrap64 z.
Proof.
  unfold sint64; cbv zeta. destruct (wrap64 z <? two63) eqn:C.
  - apply wrap64_wrap64.
  - replace (wrap64 z - two64) with (wrap64 z + (-1) * two64) by lia.
    rewrite wrap64_add_mul. apply wrap64_wrap64.
Qed.

Lemma wrap32_small z : 0 <= z < two32 -> wrap32 z = z.
Proof. intros H; unfold wrap32; apply Z.mod_small; exact H. Qed.

Lemma wrap32_range z : 0 <= wrap32 z < two32.
Proof. unfold wrap32; apply Z.mod_pos_bound; reflexivity. Qed.

(** Outcome of a C++ call: a value, a thrown exception, std::exit, undefined
    behaviour, or a loop that does not terminate (fuel exhausted in the model). *)
Inductive outcome (A : Type) : Type :=
| Ret (a : A)
| Throw
| Exit
| UB
| Diverge.
Arguments Ret {A} a.
Arguments Throw {A}.
Arguments Exit {A}.
Arguments UB {A}.
Arguments Diverge {A}.

Definition obind {A B} (o : outcome A) (f : A -> outcome B) : outcome B :=
  match o with
  | Ret a => f a
  | Throw => Throw
  | Exit => Exit
  | UB => UB
  | Diverge => Diverge
  end.

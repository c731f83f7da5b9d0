(** Specification vocabulary for C53 *)
From Coq Require Import Ascii String.
From Verif Require Import Machine SYParse SYEval DecPrint StateFile StateSpec Precomp.
From Coq Require Import List.
Import ListNotations.
Open Scope Z_scope.

(** A supplied probe: the number t, the powers of the anchor points, the values of the functions *)
Definition supplied := (Z * list nat * list Z)%type.
(** numbers that fit: n - 1 powers below 2^31, at least one value, t and the values below 2^64 *)
Definition supplied_ok (n : nat) (x : supplied) : Prop :=
  let '(t, zi, r) := x in 0 <= t < 2 ^ 64 /\ S (length zi) = n /\ Forall (fun z => Z.of_nat z < 2 ^ 31) zi /\ r <> [] /\ Forall (fun v => 0 <= v < 2 ^ 64) r.
(** its text "z z ... z | t | v v ... v", with or without a blank at the end *)
Definition supplied_text (x : supplied) (line : chars) : Prop :=
  let '(t, zi, r) := x in
  exists blank, (blank = [] \/ blank = [" "%char]) /\
  line = concat (map (fun z => print (Z.of_nat z) ++ [" "%char]) zi) ++ ["|"; " "]%char ++ print t ++ [" "; "|"]%char ++ concat (map (fun v => " "%char :: print v) r) ++ blank.
Definition supplied_file (xs : list supplied) (file : chars) : Prop := exists lines, Forall2 supplied_text xs lines /\ file = concat (map (fun l => l ++ ["010"%char]) lines).
(** the probe modulo p *)
Definition reduced (p : Z) (x : supplied) : supplied := let '(t, zi, r) := x in (t mod p, zi, map (fun v => v mod p) r).
(** [line'] is [line] with everything behind its second bar replaced by the values [r] *)
Definition answered (line : chars) (r : list Z) (line' : chars) : Prop :=
  exists a b c blank, ~ In "|"%char a /\ ~ In "|"%char b /\ (blank = [] \/ blank = [" "%char]) /\
  line = a ++ "|"%char :: b ++ "|"%char :: c /\ line' = a ++ "|"%char :: b ++ "|"%char :: concat (map (fun v => " "%char :: print v) r) ++ blank.
(** the probes waiting in a state: t and powers of the index, values *)
Definition waiting (index : list (nat * (Z * list nat))) (computed : list (nat * list Z)) (xs : list supplied) : Prop :=
  Forall2 (fun e x => In (fst e, (fst (fst x), snd (fst x))) index /\ snd e = snd x) computed xs.

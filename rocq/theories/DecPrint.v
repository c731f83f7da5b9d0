(** Decimal printing of integers (std::ostream << of integers, std::to_string, mpz_class::get_str) and the standard
    library's conversions back (std::stoi, std::stoul), as used by /repo/source/ParserUtils.cpp and the state files. *)
From Coq Require Import Ascii String.
From Verif Require Import Machine FFInt FFIntProofs SYGrammar SYEval SYEvalProofs.
From Coq Require Import List.
Import ListNotations.
Open Scope Z_scope.

(** digits of a non-negative number, most significant first, in front of [acc] *)
Definition digit_char (d : Z) : ascii := ascii_of_nat (48 + Z.to_nat d).
Fixpoint digs (fuel : nat) (z : Z) (acc : chars) : chars :=
  match fuel with
  | O => acc
  | S f => if z <? 10 then digit_char z :: acc else digs f (z / 10) (digit_char (z mod 10) :: acc)
  end.
Definition print_abs (z : Z) : chars := digs (S (Z.to_nat (Z.log2 z))) z [].
(** operator<< for integers, std::to_string, mpz_class::get_str(10): an optional minus, digits without leading zeros *)
Definition print (z : Z) : chars := if z <? 0 then "-"%char :: print_abs (- z) else print_abs z.

(** std::stoi (strtol with base 10): white space, an optional sign, digits; std::invalid_argument without a digit,
    std::out_of_range if the value is not an int; the rest of the string is ignored *)
Definition stoi (s : chars) : outcome Z :=
  let '(neg, s2) := split_sign (skip_space s) in
  match s2 with
  | c :: _ =>
    if is_digit c then
      let v := fst (scan_digits 0 s2) in
      let v := if (neg : bool) then - v else v in
      if (- two31 <=? v) && (v <? two31) then Ret v else Throw
    else Throw
  | [] => Throw
  end.
(** std::stoul (strtoul with base 10, 64 bit): a negative number is negated modulo 2^64 *)
Definition stoul (s : chars) : outcome Z :=
  let '(neg, s2) := split_sign (skip_space s) in
  match s2 with
  | c :: _ =>
    if is_digit c then
      let v := fst (scan_digits 0 s2) in
      if v <? two64 then Ret (if (neg : bool) then wrap64 (- v) else v) else Throw
    else Throw
  | [] => Throw
  end.

(** ---- facts ---- *)
Lemma digit_char_ok d : 0 <= d < 10 -> is_digit (digit_char d) = true /\ digit_val (digit_char d) = d /\ (digit_char d = "0"%char -> d = 0).
Proof.
  intros H. assert (E : d = 0 \/ d = 1 \/ d = 2 \/ d = 3 \/ d = 4 \/ d = 5 \/ d = 6 \/ d = 7 \/ d = 8 \/ d = 9) by lia.
  destruct E as [->|[->|[->|[->|[->|[->|[->|[->|[->| ->]]]]]]]]]; (split; [reflexivity|]; split; [reflexivity|]); intros X; try discriminate X; reflexivity.
Qed.
Lemma dec_acc_app a : forall b x, dec_acc x (a ++ b) = dec_acc (dec_acc x a) b.
Proof. induction a as [|c a IH]; intros b x; [reflexivity|]. cbn [app dec_acc]. apply IH. Qed.
Lemma dec_acc_cons c x : dec_acc x [c] = 10 * x + digit_val c. Proof. reflexivity. Qed.
Lemma digs_ok fuel : forall z acc, 0 <= z < 2 ^ Z.of_nat fuel -> (0 < fuel)%nat ->
  exists w, digs fuel z acc = w ++ acc /\ wf_num w /\ dec w = z /\ (hd "0"%char w = "0"%char -> z = 0 /\ w = ["0"%char]).
Proof.
  induction fuel as [|f IH]; intros z acc Hz Hf; [lia|]. cbn [digs]. destruct (Z.ltb_spec z 10) as [L|L].
  - destruct (digit_char_ok z ltac:(lia)) as [A [B C]]. exists [digit_char z]. split; [reflexivity|]. split; [split; [discriminate|cbn [forallb]; rewrite A; reflexivity]|].
    split; [|cbn [hd]; intros E; rewrite E; split; [apply C; exact E|reflexivity]]. unfold dec. rewrite dec_acc_cons, B. lia.
  - assert (Hf' : (0 < f)%nat). { destruct f; [|lia]. change (2 ^ Z.of_nat 1) with 2 in Hz. lia. }
    assert (Hq : 0 <= z / 10 < 2 ^ Z.of_nat f).
    { split; [apply Z.div_pos; lia|]. apply Z.div_lt_upper_bound; [lia|]. rewrite Nat2Z.inj_succ, Z.pow_succ_r in Hz by lia. lia. }
    destruct (IH (z / 10) (digit_char (z mod 10) :: acc) Hq Hf') as [w [E [[Wn Wd] [D Hd]]]].
    pose proof (Z.mod_pos_bound z 10 ltac:(lia)) as Hm. destruct (digit_char_ok (z mod 10) Hm) as [A [B C]].
    exists (w ++ [digit_char (z mod 10)]). rewrite E, <- app_assoc. split; [reflexivity|]. split; [split|split].
    + destruct w; discriminate.
    + rewrite forallb_app, Wd. cbn [forallb]. rewrite A. reflexivity.
    + unfold dec in *. rewrite dec_acc_app, D, dec_acc_cons, B. pose proof (Z.div_mod z 10 ltac:(lia)). lia.
    + destruct w as [|c w]; [contradiction|]. cbn [app hd] in *. intros X. destruct (Hd X) as [X1 _]. exfalso.
      assert (1 <= z / 10) by (apply Z.div_le_lower_bound; lia). lia.
Qed.
Lemma print_abs_ok z : 0 <= z -> wf_num (print_abs z) /\ dec (print_abs z) = z /\ (hd "0"%char (print_abs z) = "0"%char -> z = 0 /\ print_abs z = ["0"%char]).
Proof.
  intros H. unfold print_abs. destruct (digs_ok (S (Z.to_nat (Z.log2 z))) z []) as [w [E [W [D Hd]]]]; [|lia|].
  - split; [exact H|]. rewrite Nat2Z.inj_succ, Z2Nat.id by apply Z.log2_nonneg. destruct (Z.eq_dec z 0) as [->|N]; [reflexivity|]. apply Z.log2_spec. lia.
  - rewrite app_nil_r in E. rewrite E. split; [exact W|]. split; [exact D|exact Hd].
Qed.
Lemma scan_digits_app w rest : forallb is_digit w = true -> match rest with c :: _ => is_digit c = false | [] => True end ->
  forall acc, scan_digits acc (w ++ rest) = (dec_acc acc w, rest).
Proof.
  induction w as [|c w IH]; intros H Hr acc.
  - cbn [app dec_acc]. destruct rest as [|c r]; [reflexivity|]. cbn [scan_digits]. rewrite Hr. reflexivity.
  - cbn [forallb] in H. apply andb_true_iff in H. destruct H as [A B]. cbn [app scan_digits dec_acc]. rewrite A. apply IH; assumption.
Qed.
Lemma digit_plain c : is_digit c = true -> is_space c = false /\ Ascii.eqb c "+"%char = false /\ Ascii.eqb c "-"%char = false.
Proof.
  intros H. split; [|split].
  - unfold is_digit, is_space in *. cbv zeta in *. apply andb_true_iff in H. destruct H as [A B]. apply Nat.leb_le in A, B.
    apply orb_false_iff. split; [apply andb_false_iff; right; apply Nat.leb_gt; lia|apply Nat.eqb_neq; lia].
  - destruct (Ascii.eqb_spec c "+"%char) as [->|]; [discriminate|reflexivity].
  - destruct (Ascii.eqb_spec c "-"%char) as [->|]; [discriminate|reflexivity].
Qed.
Lemma skip_digit w : wf_num w -> skip_space w = w /\ split_sign w = (false, w) /\ exists c r, w = c :: r /\ is_digit c = true.
Proof.
  intros [N H]. destruct w as [|c w]; [contradiction|]. cbn [forallb] in H. apply andb_true_iff in H. destruct H as [A _].
  destruct (digit_plain c A) as [B [C D]]. cbn [skip_space split_sign]. rewrite B, C, D. split; [reflexivity|]. split; [reflexivity|]. exists c, w. split; [reflexivity|exact A].
Qed.
Lemma scan_num w : wf_num w -> fst (scan_digits 0 w) = dec w.
Proof. intros [N H]. rewrite (scan_dec w H). reflexivity. Qed.
Lemma stoi_print z : - two31 <= z < two31 -> stoi (print z) = Ret z.
Proof.
  intros H. unfold print. destruct (Z.ltb_spec z 0) as [L|L].
  - destruct (print_abs_ok (- z) ltac:(lia)) as [W [D _]]. destruct (skip_digit _ W) as [_ [_ [c [r [E A]]]]].
    unfold stoi. cbn [skip_space]. change (is_space "-"%char) with false. cbv iota. cbn [split_sign]. change (Ascii.eqb "-"%char "+"%char) with false.
    change (Ascii.eqb "-"%char "-"%char) with true. cbv iota. pose proof (scan_num _ W) as Sc. rewrite D in Sc. rewrite E in *. rewrite A, Sc. cbv zeta.
    rewrite Z.opp_involutive. replace ((- two31 <=? z) && (z <? two31)) with true by (symmetry; apply andb_true_iff; split; [apply Z.leb_le|apply Z.ltb_lt]; lia). reflexivity.
  - destruct (print_abs_ok z L) as [W [D _]]. destruct (skip_digit _ W) as [S1 [S2 [c [r [E A]]]]].
    unfold stoi. rewrite S1, S2. pose proof (scan_num _ W) as Sc. rewrite D in Sc. rewrite E in *. rewrite A, Sc. cbv zeta.
    replace ((- two31 <=? z) && (z <? two31)) with true by (symmetry; apply andb_true_iff; split; [apply Z.leb_le|apply Z.ltb_lt]; lia). reflexivity.
Qed.
Lemma stoi_large z : two31 <= z -> stoi (print z) = Throw.
Proof.
  intros H. unfold two31 in *. unfold print. destruct (Z.ltb_spec z 0) as [L|L]; [lia|].
  destruct (print_abs_ok z L) as [W [D _]]. destruct (skip_digit _ W) as [S1 [S2 [c [r [E A]]]]].
  unfold stoi. rewrite S1, S2. pose proof (scan_num _ W) as Sc. rewrite D in Sc. rewrite E in *. rewrite A, Sc. cbv zeta.
  replace (z <? two31) with false by (symmetry; apply Z.ltb_ge; unfold two31; lia). rewrite andb_false_r. reflexivity.
Qed.
Lemma stoul_print z : 0 <= z < two64 -> stoul (print z) = Ret z.
Proof.
  intros H. unfold print. destruct (Z.ltb_spec z 0) as [L|L]; [lia|].
  destruct (print_abs_ok z L) as [W [D _]]. destruct (skip_digit _ W) as [S1 [S2 [c [r [E A]]]]].
  unfold stoul. rewrite S1, S2. pose proof (scan_num _ W) as Sc. rewrite D in Sc. rewrite E in *. rewrite A, Sc. cbv zeta.
  replace (z <? two64) with true by (symmetry; apply Z.ltb_lt; lia). reflexivity.
Qed.
Lemma mpz_print z : mpz_str (print z) = Ret z.
Proof.
  assert (Q : forall z, 0 <= z -> mpz_unsigned (print_abs z) = Ret z).
  { intros x Hx. destruct (print_abs_ok x Hx) as [W [D Hd]]. destruct (ascii_dec (hd "0"%char (print_abs x)) "0"%char) as [E|N].
    - destruct (Hd E) as [-> E2]. rewrite E2. reflexivity.
    - rewrite mpz_unsigned_dec by assumption. rewrite D. reflexivity. }
  unfold print. destruct (Z.ltb_spec z 0) as [L|L].
  - cbn [mpz_str]. change (Ascii.eqb "-"%char "-"%char) with true. cbv iota. rewrite Q by lia. cbn [obind]. f_equal. lia.
  - pose proof (Q z L) as E. destruct (print_abs_ok z L) as [W _]. destruct (skip_digit _ W) as [_ [_ [c [r [Ew A]]]]]. destruct (digit_plain c A) as [_ [_ Dm]].
    unfold mpz_str. rewrite Ew in *. rewrite Dm. exact E.
Qed.
(** printed numbers contain digits and a minus only *)
Definition num_char (c : ascii) : bool := is_digit c || Ascii.eqb c "-"%char.
Lemma print_chars z : print z <> [] /\ forallb num_char (print z) = true.
Proof.
  assert (Q : forall w, wf_num w -> w <> [] /\ forallb num_char w = true).
  { intros w [N H]. split; [exact N|]. clear N. induction w as [|c w IH]; [reflexivity|]. cbn [forallb] in *. apply andb_true_iff in H. destruct H as [A B].
    unfold num_char at 1. rewrite A. cbn [orb andb]. exact (IH B). }
  unfold print. destruct (Z.ltb_spec z 0) as [L|L].
  - destruct (Q _ (proj1 (print_abs_ok (- z) ltac:(lia)))) as [_ H]. split; [discriminate|]. cbn [forallb]. exact H.
  - apply Q. apply print_abs_ok. exact L.
Qed.

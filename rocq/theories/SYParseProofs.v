(** parse produces the reverse polish notation of the syntax tree (model: SYParse.v, language: SYGrammar.v). *)
From Coq Require Import Ascii String.
From Verif Require Import Machine FFInt FFVec SYParse SYGrammar.
Open Scope nat_scope.

(** ---- the reverse polish notation of a tree ---- *)
Definition minus_sg (sg : chars) : bool := match sg with [c] => c =?c "-" | _ => false end.
Fixpoint head_par (t : term) : bool :=
  match t with TFac (Fac (Par _) _) => true | TFac (Fac (Atom _) _) => false | TMul t _ | TDiv t _ => head_par t end.
Definition sgc (s : sign) : chars := match s with SNone => [] | SPlus => ["+"%char] | _ => ["-"%char] end.
Definition opc (o : addop) : ascii := match o with OAdd => "+"%char | _ => "-"%char end.

Fixpoint rpn_f (sg : chars) (f : factor) : list chars :=
  match f with
  | Fac (Atom w) x =>
      match x with
      | XNone => [sg ++ w]
      | XPow n | XPowPar n => if minus_sg sg then [w; n; ["!"%char]] else [sg ++ w; n; ["^"%char]]
      | XNeg n => if minus_sg sg then [w; n; [";"%char]] else [sg ++ w; n; ["~"%char]]
      end
  | Fac (Par e) x =>
      rpn_e e ++ match x with XNone => [] | XPow n | XPowPar n => [n; ["^"%char]] | XNeg n => [n; ["~"%char]] end
  end
with rpn_t (sg : chars) (t : term) : list chars :=
  match t with
  | TFac f => rpn_f sg f
  | TMul t f => rpn_t sg t ++ rpn_f [] f ++ [["*"%char]]
  | TDiv t f => rpn_t sg t ++ rpn_f [] f ++ [["/"%char]]
  end
with rpn_e (e : expr) : list chars :=
  match e with
  | ELead s t =>
      match s with
      | SNone => rpn_t [] t
      | _ => if head_par t then ["0"%char] :: rpn_t [] t ++ [sgc s] else rpn_t (sgc s) t
      end
  | EBin e o t => rpn_e e ++ rpn_t [] t ++ [[opc o]]
  end.

(** signs and operators spelled with one character *)
Definition plain_sign (s : sign) := match s with SNone | SPlus | SMinus => True | _ => False end.
Definition plain_op (o : addop) := match o with OAdd | OSub => True | _ => False end.
Fixpoint plain_b (b : base) : Prop := match b with Atom w => True | Par e => plain_e e end
with plain_f (f : factor) : Prop := match f with Fac b x => plain_b b end
with plain_t (t : term) : Prop := match t with TFac f => plain_f f | TMul t f | TDiv t f => plain_t t /\ plain_f f end
with plain_e (e : expr) : Prop := match e with ELead s t => plain_sign s /\ plain_t t | EBin e o t => plain_e e /\ plain_op o /\ plain_t t end.

(** ---- characters ---- *)
Lemma alnum_cases (P : ascii -> bool) : forallb (fun n => implb (alnum (ascii_of_nat n)) (P (ascii_of_nat n))) (seq 0 256) = true ->
  forall c, alnum c = true -> P c = true.
Proof.
  intros H c A. rewrite forallb_forall in H. specialize (H (nat_of_ascii c)).
  rewrite ascii_nat_embedding in H. rewrite A in H. apply H. apply in_seq. pose proof (nat_ascii_bounded c). lia.
Qed.
Lemma alnum_props c : alnum c = true ->
  (c =?c nul) = false /\ (is_operand c || is_variable c) = true /\ (c =?c "(") = false /\ (c =?c ")") = false /\
  (c =?c "-") = false /\ (c =?c "+") = false /\ (c =?c "$") = false /\ (c =?c "^") = false.
Proof.
  intros A.
  assert (H : (negb (c =?c nul) && (is_operand c || is_variable c) && negb (c =?c "(") && negb (c =?c ")") &&
    negb (c =?c "-") && negb (c =?c "+") && negb (c =?c "$") && negb (c =?c "^")) = true).
  { revert c A. apply alnum_cases. vm_compute. reflexivity. }
  rewrite !andb_true_iff, !negb_true_iff in H. tauto.
Qed.
Lemma digit_alnum w : forallb is_digit w = true -> forallb alnum w = true.
Proof. intros H. rewrite forallb_forall in *. intros c Hc. unfold alnum. rewrite (H c Hc). apply orb_true_r. Qed.
Lemma wf_num_word w : wf_num w -> wf_word w.
Proof. intros [A B]. split; [exact A|apply digit_alnum; exact B]. Qed.

Lemma last_alnum w prev : wf_word w -> alnum (last w prev) = true.
Proof.
  intros [N H]. destruct (exists_last N) as [w' [c ->]]. rewrite last_last.
  rewrite forallb_app in H. apply andb_true_iff in H. destruct H as [_ H]. cbn [forallb] in H. rewrite andb_true_r in H. exact H.
Qed.
Lemma hd_alnum c w : wf_word (c :: w) -> alnum c = true.
Proof. intros [_ H]. cbn [forallb] in H. apply andb_true_iff in H. tauto. Qed.

(** ---- steps ---- *)
Lemma step_alnum prev c rest T O tmp neg : alnum c = true -> pstep prev c rest (mk_pst T O tmp neg) = Ret (mk_pst T O (tmp ++ [c]) neg).
Proof. intros A. destruct (alnum_props c A) as [E1 [E2 _]]. unfold pstep. rewrite E1, E2. reflexivity. Qed.

Lemma run_word w : forall prev rest T O tmp neg, forallb alnum w = true ->
  ploop prev (w ++ rest) (mk_pst T O tmp neg) = ploop (last w prev) rest (mk_pst T O (tmp ++ w) neg).
Proof.
  induction w as [|c w IH]; intros prev rest T O tmp neg H; [rewrite app_nil_r; reflexivity|].
  cbn [forallb] in H. apply andb_true_iff in H. destruct H as [A B].
  cbn [app ploop]. rewrite (step_alnum prev c (w ++ rest) T O tmp neg A). rewrite IH by exact B. rewrite <- app_assoc. cbn [app].
  f_equal. destruct w as [|d w]; [reflexivity|]. cbn [last]. clear. revert d. induction w as [|e w IH]; intros d; [reflexivity|]. cbn [last]. apply IH.
Qed.

Definition singles (S : list ascii) : list chars := map (fun o => [o]) S.
(** the operator on top of the stack binds less tightly than w, or is a parenthesis *)
Definition wlt (O : list ascii) (w : nat) : Prop := match O with [] => True | o :: _ => o = "("%char \/ weight o < w end.
Definition allge (w : nat) (S : list ascii) : Prop := Forall (fun o => w <= weight o /\ (o =?c "(") = false) S.

Lemma pop_ge_spec w : forall S O T, allge w S -> wlt O w -> pop_ge w (S ++ O) T = (O, T ++ singles S).
Proof.
  induction S as [|o S IH]; intros O T HS HO.
  - cbn [app singles map]. rewrite app_nil_r. destruct O as [|o O]; [reflexivity|]. cbn [pop_ge]. destruct HO as [->|HO]; [reflexivity|].
    replace (w <=? weight o) with false by (symmetry; apply Nat.leb_gt; exact HO). rewrite andb_false_r. reflexivity.
  - inversion HS as [|? ? [A B] HS']; subst. cbn [app pop_ge]. rewrite B. cbn [negb andb].
    replace (w <=? weight o) with true by (symmetry; apply Nat.leb_le; exact A). rewrite IH by assumption.
    cbn [singles map]. rewrite <- app_assoc. reflexivity.
Qed.
Lemma pop_paren_spec w : forall S O T, allge w S -> pop_paren (S ++ "("%char :: O) T = (O, T ++ singles S).
Proof.
  induction S as [|o S IH]; intros O T HS; cbn [app pop_paren].
  - cbn. rewrite app_nil_r. reflexivity.
  - inversion HS as [|? ? [A B] HS']; subst. rewrite B, IH by assumption. cbn [singles map]. rewrite <- app_assoc. reflexivity.
Qed.
Lemma allge_mono w v S : v <= w -> allge w S -> allge v S.
Proof. intros H. apply Forall_impl. intros o [A B]. split; [lia|exact B]. Qed.
Lemma singles_app A B : singles (A ++ B) = singles A ++ singles B.
Proof. apply map_app. Qed.
Lemma allge_app w A B : allge w A -> allge w B -> allge w (A ++ B).
Proof. intros. apply Forall_app. split; assumption. Qed.

(** what is known after a piece of the input with reverse polish notation [R] was read: some of its tokens are
    out ([ts]), its remaining operators [S] lie on the stack above [O] *)
Definition post (T : list chars) (O : list ascii) (w : nat) (R : list chars) (prev : ascii) (st : pst) : Prop :=
  p_neg st = false /\ (prev =?c "(") = false /\
  exists ts S, flush (p_toks st) (p_tmp st) = T ++ ts /\ ts <> [] /\ p_ops st = S ++ O /\ ts ++ singles S = R /\ allge w S.

Lemma post_mono T O w v R prev st : v <= w -> post T O w R prev st -> post T O v R prev st.
Proof.
  intros H [A [B [ts [S [C [D [E [F G]]]]]]]]. split; [exact A|]. split; [exact B|]. exists ts, S.
  repeat split; try assumption. exact (allge_mono w v S H G).
Qed.

(** a binary operator after a complete piece *)
Lemma step_binop T O w R prev st ex rest : post T O w R prev st -> weight ex <= w -> 0 < weight ex -> weight ex < 3 -> wlt O (weight ex) ->
  is_operator ex = true ->
  pstep prev ex rest st = Ret (mk_pst (T ++ R) (ex :: O) [] false).
Proof.
  intros [A [B [ts [S [C [D [E [F G]]]]]]]] H0 H1 H2 HO Op. destruct st as [toks ops tmp neg]. cbn [p_toks p_ops p_tmp p_neg] in *.
  subst neg ops. unfold pstep.
  assert (Ex : ex = "+"%char \/ ex = "-"%char \/ ex = "*"%char \/ ex = "/"%char \/ ex = "^"%char).
  { unfold is_operator in Op. rewrite !orb_true_iff, !Ascii.eqb_eq in Op. tauto. }
  assert (N0 : (ex =?c nul) = false) by (destruct Ex as [->|[->|[->|[->| ->]]]]; reflexivity).
  assert (N1 : (is_operand ex || is_variable ex) = false) by (destruct Ex as [->|[->|[->|[->| ->]]]]; reflexivity).
  assert (N2 : (ex =?c "^") = false) by (destruct Ex as [->|[->|[->|[->| ->]]]]; try reflexivity; cbn in H2; lia).
  rewrite N0, N1, Op. cbv zeta. rewrite B, andb_false_r, C.
  assert (X : (match S ++ O with [] => match T ++ ts with [] => true | _ :: _ => false end | _ :: _ => false end) = false).
  { destruct (S ++ O); [|reflexivity]. destruct T; [|reflexivity]. destruct ts; [contradiction|reflexivity]. }
  replace (match S ++ O with [] => match T ++ ts with [] => true | _ :: _ => false end | _ :: _ => false end) with false.
  rewrite (pop_ge_spec (weight ex) S O (T ++ ts) (allge_mono _ _ _ H0 G) HO).
  rewrite N2, <- app_assoc, F. reflexivity.
Qed.

(** a closing parenthesis after a complete expression *)
Lemma step_close T O R prev st rest : post T ("("%char :: O) 1 R prev st ->
  pstep prev ")"%char rest st = Ret (mk_pst (T ++ R) O [] false).
Proof.
  intros [A [B [ts [S [C [D [E [F G]]]]]]]]. destruct st as [toks ops tmp neg]. cbn [p_toks p_ops p_tmp p_neg] in *. subst neg ops.
  change (pstep prev ")"%char rest (mk_pst toks (S ++ "("%char :: O) tmp false)) with
    (let '(ops2, toks2) := pop_paren (S ++ "("%char :: O) (flush toks tmp) in Ret (mk_pst toks2 ops2 [] false)).
  rewrite (pop_paren_spec 1 S O) by exact G. rewrite C, <- app_assoc, F. reflexivity.
Qed.

(** ---- a base followed by an exponent ---- *)
Lemma post_atom T O w c prev R : wf_word (c :: w) \/ True -> R = [c :: w] -> (prev =?c "(") = false -> post T O 3 R prev (mk_pst T O (c :: w) false).
Proof.
  intros _ -> Hp. split; [reflexivity|]. split; [exact Hp|]. exists [c :: w], []. cbn [flush p_toks p_tmp p_ops singles map app].
  repeat split; try discriminate. constructor.
Qed.

Lemma flush_cons toks c w : flush toks (c :: w) = toks ++ [c :: w]. Proof. reflexivity. Qed.

Lemma ploop_cons prev c rest st : ploop prev (c :: rest) st =
  match pstep prev c rest st with Ret st' => ploop c rest st' | Throw => Throw | Exit => Exit | UB => UB | Diverge => Diverge end.
Proof. reflexivity. Qed.
Lemma ploop_step prev c rest st st' : pstep prev c rest st = Ret st' -> ploop prev (c :: rest) st = ploop c rest st'.
Proof. intros H. rewrite ploop_cons, H. reflexivity. Qed.
Lemma step_open prev rest T O t n : pstep prev "("%char rest (mk_pst T O t n) = Ret (mk_pst T ("("%char :: O) t n).
Proof. reflexivity. Qed.

(** the exponent: [b] is the token on top after flushing; prev tells whether the base was a group *)
Lemma run_pow T O b x prev rest toks tmp : wf_x x -> x <> XNone ->
  flush toks tmp = T ++ [b] -> wlt O 3 -> (prev =?c "(") = false ->
  exists prev' st', ploop prev (show_expo x ++ rest) (mk_pst toks O tmp false) = ploop prev' rest st' /\
    post T O 3 ((if neg_back b prev then tl b else b) ::
      match x with
      | XNeg n => [n; [if neg_back b prev then ";"%char else "~"%char]]
      | XPow n | XPowPar n => [n; [if neg_back b prev then "!"%char else "^"%char]]
      | XNone => [] end) prev' st'.
Proof.
  intros Hx Hn Hf HO Hp.
  assert (NE : match O, T ++ [b] with [], [] => true | _, _ => false end = false).
  { destruct O; [|reflexivity]. destruct T; reflexivity. }
  assert (PO : pop_ge 3 O (T ++ [b]) = (O, T ++ [b])).
  { pose proof (pop_ge_spec 3 [] O (T ++ [b]) ltac:(constructor) HO) as X. cbn [app singles map] in X. rewrite app_nil_r in X. exact X. }
  assert (RL : removelast (T ++ [b]) = T) by apply removelast_last.
  assert (LL : last (T ++ [b]) [] = b) by apply last_last.
  assert (Main : forall rest', pstep prev "^"%char rest' (mk_pst toks O tmp false) =
    (if (nth 0 rest' nul =?c "(") && (nth 1 rest' nul =?c "-") then
       Ret (mk_pst (T ++ [if neg_back b prev then tl b else b]) ((if neg_back b prev then ";"%char else "~"%char) :: O) [] true)
     else Ret (mk_pst (T ++ [if neg_back b prev then tl b else b]) ((if neg_back b prev then "!"%char else "^"%char) :: O) [] false))).
  { intros rest'. unfold pstep. change ("^"%char =?c nul) with false. change (is_operand "^"%char || is_variable "^"%char) with false.
    change (is_operator "^"%char) with true. cbv iota zeta. rewrite Hp, andb_false_r, Hf.
    rewrite NE. change (weight "^"%char) with 3. rewrite PO. change ("^"%char =?c "^") with true. cbv iota.
    rewrite RL, LL. destruct (T ++ [b]) eqn:E; [destruct T; discriminate|].
    destruct ((nth 0 rest' nul =?c "(") && (nth 1 rest' nul =?c "-")), (neg_back b prev); rewrite <- ?E; reflexivity. }
  set (b' := if neg_back b prev then tl b else b) in *. 
  destruct x as [|n|n|n]; [contradiction| | |]; cbn [show_expo]; cbn [wf_x] in Hx; pose proof (wf_num_word n Hx) as Hw; destruct Hw as [Hne Hal];
    (destruct n as [|c n]; [contradiction|]); pose proof (hd_alnum c n (conj Hne Hal)) as Hc;
    destruct (alnum_props c Hc) as [_ [_ [E1 [_ [E2 _]]]]].
  - (* ^n *)
    change (("^"%char :: c :: n) ++ rest) with ("^"%char :: (c :: n) ++ rest).
    rewrite ploop_cons, Main. cbn [app nth]. rewrite E1. cbn [andb]. change (c :: n ++ rest) with ((c :: n) ++ rest).
    rewrite run_word by exact Hal.
    eexists _, _. split; [reflexivity|]. split; [reflexivity|].
    split; [destruct (alnum_props _ (last_alnum (c :: n) "^"%char (conj Hne Hal))) as [_ [_ [E _]]]; exact E|].
    eexists [b'; c :: n], [_]. cbn [flush p_toks p_tmp p_ops app singles map]. rewrite <- app_assoc.
    repeat split; try discriminate. constructor; [|constructor]. destruct (neg_back b prev); split; cbn; lia || reflexivity.
  - (* ^(n) *)
    replace (("^"%char :: "("%char :: (c :: n) ++ [")"%char]) ++ rest) with ("^"%char :: "("%char :: (c :: n) ++ ")"%char :: rest)
      by (cbn [app]; rewrite <- app_assoc; reflexivity).
    rewrite ploop_cons, Main. cbn [app nth]. rewrite E2. rewrite andb_false_r.
    rewrite ploop_cons, step_open. change (c :: n ++ ")"%char :: rest) with ((c :: n) ++ ")"%char :: rest).
    rewrite run_word by exact Hal. rewrite ploop_cons.
    match goal with |- context [pstep ?pr ")"%char rest (mk_pst ?T ("("%char :: ?O) ?t false)] =>
      assert (SC : pstep pr ")"%char rest (mk_pst T ("("%char :: O) t false) = Ret (mk_pst (T ++ [t]) O [] false)) by reflexivity; rewrite SC end.
    eexists _, _. split; [reflexivity|]. split; [reflexivity|]. split; [reflexivity|].
    eexists [b'; c :: n], [_]. cbn [flush p_toks p_tmp p_ops app singles map]. rewrite <- app_assoc.
    repeat split; try discriminate. constructor; [|constructor]. destruct (neg_back b prev); split; cbn; lia || reflexivity.
  - (* ^(-n) *)
    replace (("^"%char :: "("%char :: "-"%char :: (c :: n) ++ [")"%char]) ++ rest) with ("^"%char :: "("%char :: "-"%char :: (c :: n) ++ ")"%char :: rest)
      by (cbn [app]; rewrite <- app_assoc; reflexivity).
    rewrite ploop_cons, Main. cbn [nth]. change ("("%char =?c "(") with true. change ("-"%char =?c "-") with true. cbn [andb].
    rewrite ploop_cons, step_open.
    match goal with |- context [ploop "("%char ("-"%char :: ?r) (mk_pst ?T ("("%char :: ?O) [] true)] =>
      rewrite (ploop_step "("%char "-"%char r (mk_pst T ("("%char :: O) [] true) (mk_pst T ("("%char :: O) [] false))
      by (unfold pstep; cbn [app nth]; rewrite E1; reflexivity) end.
    rewrite run_word by exact Hal. rewrite ploop_cons.
    match goal with |- context [pstep ?pr ")"%char rest (mk_pst ?T ("("%char :: ?O) ?t false)] =>
      assert (SC : pstep pr ")"%char rest (mk_pst T ("("%char :: O) t false) = Ret (mk_pst (T ++ [t]) O [] false)) by reflexivity; rewrite SC end.
    eexists _, _. split; [reflexivity|]. split; [reflexivity|]. split; [reflexivity|].
    eexists [b'; c :: n], [_]. cbn [flush p_toks p_tmp p_ops app singles map]. rewrite <- app_assoc.
    repeat split; try discriminate. constructor; [|constructor]. destruct (neg_back b prev); split; cbn; lia || reflexivity.
Qed.

(** ---- combining ---- *)
Lemma post_push T O c w v R1 R2 prev st : v <= w -> v <= weight c -> (c =?c "(") = false ->
  post (T ++ R1) (c :: O) w R2 prev st -> post T O v (R1 ++ R2 ++ [[c]]) prev st.
Proof.
  intros Hv Hc Hp [A [B [ts [S [C [D [E [F G]]]]]]]]. split; [exact A|]. split; [exact B|].
  exists (R1 ++ ts), (S ++ [c]). split; [rewrite C, app_assoc; reflexivity|].
  split; [destruct R1; [exact D|discriminate]|]. split; [rewrite E, <- app_assoc; reflexivity|].
  split; [rewrite singles_app, <- F, <- !app_assoc; reflexivity|].
  apply allge_app; [exact (allge_mono w v S Hv G)|]. constructor; [split; assumption|constructor].
Qed.

Definition is_sg (sg : chars) (hp : bool) : Prop := sg = [] \/ (hp = false /\ (sg = ["+"%char] \/ sg = ["-"%char])).
Definition head_par_f (f : factor) : bool := match f with Fac (Par _) _ => true | Fac (Atom _) _ => false end.
Lemma head_par_tfac f : head_par (TFac f) = head_par_f f. Proof. destruct f as [[w|e] x]; reflexivity. Qed.

(** the first term of an expression has no sign, or does not start with a parenthesis *)
Fixpoint lead_ok (e : expr) : Prop := match e with ELead SNone _ => True | ELead _ t => head_par t = false | EBin e _ _ => lead_ok e end.
Definition P_e (e : expr) : Prop := wf_e e -> plain_e e -> forall prev rest T O,
  (prev = "("%char /\ exists O', O = "("%char :: O') \/ (T = [] /\ O = [] /\ prev = nul /\ lead_ok e) ->
  exists prev' st', ploop prev (show_e e ++ rest) (mk_pst T O [] false) = ploop prev' rest st' /\ post T O 1 (rpn_e e) prev' st'.
Definition P_f (f : factor) : Prop := wf_f f -> plain_f f -> forall prev rest T O sg, wlt O 3 -> is_sg sg (head_par_f f) ->
  exists prev' st', ploop prev (show_f f ++ rest) (mk_pst T O sg false) = ploop prev' rest st' /\ post T O 3 (rpn_f sg f) prev' st'.
Definition P_t (t : term) : Prop := wf_t t -> plain_t t -> forall prev rest T O sg, wlt O 2 -> is_sg sg (head_par t) ->
  exists prev' st', ploop prev (show_t t ++ rest) (mk_pst T O sg false) = ploop prev' rest st' /\ post T O 2 (rpn_t sg t) prev' st'.
Definition P_b (b : base) : Prop := match b with Atom _ => True | Par e => P_e e end.


Lemma neg_back_atom sg w prev : wf_word w -> alnum prev = true -> sg = [] \/ sg = ["+"%char] \/ sg = ["-"%char] ->
  neg_back (sg ++ w) prev = minus_sg sg.
Proof.
  intros [N H] Hp Hs. destruct w as [|c w]; [contradiction|]. pose proof (hd_alnum c w (conj N H)) as Hc.
  destruct (alnum_props c Hc) as [_ [_ [_ [_ [E _]]]]]. destruct (alnum_props prev Hp) as [_ [_ [_ [E2 _]]]].
  unfold neg_back. rewrite E2. destruct Hs as [->|[->| ->]]; cbn [app length hd minus_sg negb]; rewrite ?E, ?andb_false_r; reflexivity.
Qed.

Lemma rpn_ne : (forall b : base, match b with Par e => rpn_e e <> [] | _ => True end) /\ (forall f : factor, forall sg, rpn_f sg f <> []) /\
  (forall t : term, forall sg, rpn_t sg t <> []) /\ (forall e : expr, rpn_e e <> []).
Proof.
  apply syntax_ind.
  - intros; exact I.
  - intros e H. exact H.
  - intros [w|e] H x sg; cbn [rpn_f]; [destruct x, (minus_sg sg); discriminate|].
    intros E. apply app_eq_nil in E. exact (H (proj1 E)).
  - intros f H sg. apply H.
  - intros t H f _ sg E. cbn [rpn_t] in E. apply app_eq_nil in E. exact (H sg (proj1 E)).
  - intros t H f _ sg E. cbn [rpn_t] in E. apply app_eq_nil in E. exact (H sg (proj1 E)).
  - intros s t H. cbn [rpn_e]. destruct s; [apply H|..]; (destruct (head_par t); [discriminate|apply H]).
  - intros e H o t _ E. cbn [rpn_e] in E. apply app_eq_nil in E. exact (H (proj1 E)).
Qed.

Lemma show_t_head_par t : head_par t = true -> exists r, show_t t = "("%char :: r.
Proof.
  induction t as [f|t IH f|t IH f]; intros H.
  - destruct f as [[w|e] x]; [discriminate|]. cbn [show_t show_f show_b app]. eexists. reflexivity.
  - cbn [head_par] in H. destruct (IH H) as [r E]. cbn [show_t]. rewrite E. cbn [app]. eexists. reflexivity.
  - cbn [head_par] in H. destruct (IH H) as [r E]. cbn [show_t]. rewrite E. cbn [app]. eexists. reflexivity.
Qed.
Lemma show_t_head_atom t : wf_t t -> head_par t = false -> exists c r, show_t t = c :: r /\ alnum c = true.
Proof.
  induction t as [f|t IH f|t IH f]; intros W H.
  - destruct f as [[w|e] x]; [|discriminate]. cbn [show_t show_f show_b]. destruct W as [[N A] _]. destruct w as [|c w]; [contradiction|].
    exists c, (w ++ show_expo x). split; [reflexivity|]. exact (hd_alnum c w (conj N A)).
  - cbn [head_par] in H. destruct (IH (proj1 W) H) as [c [r [E A]]]. cbn [show_t]. rewrite E. cbn [app]. eexists _, _. split; [reflexivity|exact A].
  - cbn [head_par] in H. destruct (IH (proj1 W) H) as [c [r [E A]]]. cbn [show_t]. rewrite E. cbn [app]. eexists _, _. split; [reflexivity|exact A].
Qed.

Lemma step_sign_par prev c rest T O' : (c = "+"%char \/ c = "-"%char) -> prev = "("%char -> nth 0 rest nul = "("%char ->
  pstep prev c rest (mk_pst T ("("%char :: O') [] false) = Ret (mk_pst (T ++ [["0"%char]]) (c :: "("%char :: O') [] false).
Proof. intros [->| ->] -> E; unfold pstep; rewrite E; reflexivity. Qed.
Lemma step_sign_atom prev c rest T O : (c = "+"%char \/ c = "-"%char) ->
  (prev = "("%char /\ exists O', O = "("%char :: O') \/ (T = [] /\ O = [] /\ prev = nul) -> (nth 0 rest nul =?c "(") = false ->
  pstep prev c rest (mk_pst T O [] false) = Ret (mk_pst T O [c] false).
Proof.
  intros Hc Hp E. destruct Hp as [[-> [O' ->]]|[-> [-> ->]]].
  - destruct Hc as [->| ->]; unfold pstep; cbn [nth]; rewrite E; reflexivity.
  - destruct Hc as [->| ->]; reflexivity.
Qed.

Lemma parse_correct_aux : (forall b, P_b b) /\ (forall f, P_f f) /\ (forall t, P_t t) /\ (forall e, P_e e).
Proof.
  apply syntax_ind.
  - intros; exact I.
  - intros e H. exact H.
  - (* factor *) intros b Hb x [Wb Wx] Pl prev rest T O sg HO Hsg. destruct b as [w|e]; cbn [show_f show_b rpn_f].
    + assert (Hsg' : sg = [] \/ sg = ["+"%char] \/ sg = ["-"%char]) by (destruct Hsg as [->|[_ X]]; tauto).
      pose proof (last_alnum w prev Wb) as Hl. destruct (alnum_props _ Hl) as [_ [_ [El _]]].
      rewrite <- app_assoc. rewrite run_word by (apply Wb).
      assert (Hfl : flush T (sg ++ w) = T ++ [sg ++ w]).
      { destruct Wb as [N _]. destruct w; [contradiction|]. destruct Hsg' as [->|[->| ->]]; reflexivity. }
      destruct x as [|n|n|n].
      1: { cbn [show_expo app]. eexists _, _. split; [reflexivity|]. split; [reflexivity|]. split; [exact El|].
           exists [sg ++ w], []. cbn [p_toks p_tmp p_ops singles map app]. repeat split; try discriminate; [exact Hfl|constructor]. }
      all: destruct (run_pow T O (sg ++ w) _ (last w prev) rest T (sg ++ w) Wx ltac:(discriminate) Hfl HO El) as [prev' [st' [E1 E2]]];
        exists prev', st'; (split; [exact E1|]); rewrite (neg_back_atom sg w _ Wb Hl Hsg') in E2;
        destruct (minus_sg sg) eqn:Em; try exact E2;
        (replace (tl (sg ++ w)) with w in E2; [exact E2|]); destruct Hsg' as [->|[->| ->]]; try discriminate; reflexivity.
    + assert (sg = []) as -> by (destruct Hsg as [->|[X _]]; [reflexivity|discriminate]).
      cbn [P_b] in Hb.
      replace (("("%char :: show_e e ++ [")"%char]) ++ show_expo x) with ("("%char :: show_e e ++ ")"%char :: show_expo x)
        by (cbn [app]; rewrite <- app_assoc; reflexivity).
      cbn [app]. rewrite ploop_cons, step_open. rewrite <- app_assoc.
      destruct (Hb Wb Pl "("%char ((")"%char :: show_expo x) ++ rest) T ("("%char :: O)) as [prev1 [st1 [E1 E2]]].
      { left. split; [reflexivity|]. eexists. reflexivity. }
      rewrite E1. cbn [app]. rewrite ploop_cons. rewrite (step_close T O (rpn_e e) prev1 st1 _ E2).
      pose proof (proj2 (proj2 (proj2 rpn_ne)) e) as Hne.
      destruct x as [|n|n|n].
      1: { cbn [show_expo app]. eexists _, _. split; [reflexivity|]. split; [reflexivity|]. split; [reflexivity|].
           exists (rpn_e e), []. cbn [p_toks p_tmp p_ops flush singles map app]. repeat split; try assumption. constructor. }
      all: destruct (exists_last Hne) as [R' [b Eb]]; rewrite Eb;
        assert (Hfl : flush (T ++ R' ++ [b]) [] = (T ++ R') ++ [b]) by (cbn [flush]; rewrite app_assoc; reflexivity);
        destruct (run_pow (T ++ R') O b _ ")"%char rest (T ++ R' ++ [b]) [] Wx ltac:(discriminate) Hfl HO eq_refl)
          as [prev' [st' [E3 E4]]];
        exists prev', st'; (split; [exact E3|]);
        replace (neg_back b ")"%char) with false in E4 by (unfold neg_back; change (")"%char =?c ")") with true; cbn [negb]; rewrite andb_false_r; reflexivity);
        destruct E4 as [A [B [ts [S [C [D [E [F G]]]]]]]]; split; [exact A|]; (split; [exact B|]); exists (R' ++ ts), S;
        (split; [rewrite C, app_assoc; reflexivity|]); (split; [destruct R'; [exact D|discriminate]|]); (split; [exact E|]);
        (split; [rewrite <- app_assoc, F, <- app_assoc; reflexivity|exact G]).
  - (* TFac *) intros f Hf Wf Pl prev rest T O sg HO Hsg. cbn [show_t rpn_t]. rewrite head_par_tfac in Hsg.
    destruct (Hf Wf Pl prev rest T O sg) as [prev' [st' [E1 E2]]]; [destruct O; [exact I|destruct HO as [->|X]; [left; reflexivity|right; lia]]|exact Hsg|].
    exists prev', st'. split; [exact E1|]. apply (post_mono T O 3 2); [lia|exact E2].
  - (* TMul *) intros t Ht f Hf [Wt Wf] [Pt Pf] prev rest T O sg HO Hsg. cbn [show_t rpn_t].
    rewrite <- app_assoc. destruct (Ht Wt Pt prev (("*"%char :: show_f f) ++ rest) T O sg HO Hsg) as [prev1 [st1 [E1 E2]]].
    rewrite E1. cbn [app]. rewrite ploop_cons.
    rewrite (step_binop T O 2 _ prev1 st1 "*"%char _ E2) by (cbn; first [lia|exact HO|reflexivity]).
    destruct (Hf Wf Pf "*"%char rest (T ++ rpn_t sg t) ("*"%char :: O) []) as [prev' [st' [E3 E4]]]; [right; cbn; lia|left; reflexivity|].
    exists prev', st'. split; [exact E3|]. apply (post_push T O "*"%char 3 2); [lia|cbn; lia|reflexivity|exact E4].
  - (* TDiv *) intros t Ht f Hf [Wt Wf] [Pt Pf] prev rest T O sg HO Hsg. cbn [show_t rpn_t].
    rewrite <- app_assoc. destruct (Ht Wt Pt prev (("/"%char :: show_f f) ++ rest) T O sg HO Hsg) as [prev1 [st1 [E1 E2]]].
    rewrite E1. cbn [app]. rewrite ploop_cons.
    rewrite (step_binop T O 2 _ prev1 st1 "/"%char _ E2) by (cbn; first [lia|exact HO|reflexivity]).
    destruct (Hf Wf Pf "/"%char rest (T ++ rpn_t sg t) ("/"%char :: O) []) as [prev' [st' [E3 E4]]]; [right; cbn; lia|left; reflexivity|].
    exists prev', st'. split; [exact E3|]. apply (post_push T O "/"%char 3 2); [lia|cbn; lia|reflexivity|exact E4].
  - (* ELead *) intros s t Ht Wt [Ps Pt] prev rest T O Hc. cbn [show_e rpn_e].
    assert (HO2 : wlt O 2) by (destruct Hc as [[_ [O' ->]]|[_ [-> _]]]; [left; reflexivity|exact I]).
    assert (Sg : forall c s0, (c = "+"%char \/ c = "-"%char) -> s = s0 -> s0 <> SNone -> show_sign s0 = [c] -> sgc s0 = [c] ->
      exists prev' st', ploop prev ((show_sign s0 ++ show_t t) ++ rest) (mk_pst T O [] false) = ploop prev' rest st' /\
        post T O 1 (if head_par t then ["0"%char] :: rpn_t [] t ++ [sgc s0] else rpn_t (sgc s0) t) prev' st').
    { intros c s0 Hcc Es0 Ns0 E1 E2. rewrite E1, E2. cbn [app]. destruct (head_par t) eqn:Hh.
      - destruct (show_t_head_par t Hh) as [r Er].
        destruct Hc as [[Hp [O' EO]]|[_ [_ [_ Lk]]]]; [|exfalso; subst s; destruct s0; try contradiction; cbn [lead_ok] in Lk; congruence].
        rewrite ploop_cons. subst O. rewrite (step_sign_par prev c _ T O' Hcc Hp) by (rewrite Er; reflexivity).
        destruct (Ht Wt Pt c rest (T ++ [["0"%char]]) (c :: "("%char :: O') []) as [prev' [st' [E3 E4]]].
        { right. destruct Hcc as [->| ->]; cbn; lia. } { left. reflexivity. }
        exists prev', st'. split; [exact E3|].
        apply (post_push T ("("%char :: O') c 2 1 [["0"%char]]); [lia|destruct Hcc as [->| ->]; cbn; lia|destruct Hcc as [->| ->]; reflexivity|exact E4].
      - destruct (show_t_head_atom t Wt Hh) as [a [r [Er Ha]]]. destruct (alnum_props a Ha) as [_ [_ [Ea _]]].
        rewrite ploop_cons. rewrite (step_sign_atom prev c _ T O Hcc).
        2: { destruct Hc as [X|[X1 [X2 [X3 _]]]]; [left; exact X|right; repeat split; assumption]. }
        2: { rewrite Er. exact Ea. }
        destruct (Ht Wt Pt c rest T O [c] HO2) as [prev' [st' [E3 E4]]].
        { right. split; [exact Hh|]. destruct Hcc as [->| ->]; [left|right]; reflexivity. }
        exists prev', st'. split; [exact E3|]. apply (post_mono T O 2 1); [lia|exact E4]. }
    destruct s; try contradiction.
    + cbn [show_sign list_ascii_of_string app]. destruct (Ht Wt Pt prev rest T O [] HO2 (or_introl eq_refl)) as [prev' [st' [E3 E4]]].
      exists prev', st'. split; [exact E3|]. apply (post_mono T O 2 1); [lia|exact E4].
    + apply (Sg "+"%char SPlus); try reflexivity; [left; reflexivity|discriminate].
    + apply (Sg "-"%char SMinus); try reflexivity; [right; reflexivity|discriminate].
  - (* EBin *) intros e He o t Ht [We Wt] [Pe [Po Pt]] prev rest T O Hc. cbn [show_e rpn_e].
    assert (HO1 : wlt O 1) by (destruct Hc as [[_ [O' ->]]|[_ [-> _]]]; [left; reflexivity|exact I]).
    rewrite <- app_assoc. destruct (He We Pe prev ((show_op o ++ show_t t) ++ rest) T O Hc) as [prev1 [st1 [E1 E2]]].
    rewrite E1. assert (Eo : show_op o = [opc o]) by (destruct o; try contradiction; reflexivity). rewrite Eo. cbn [app]. rewrite ploop_cons.
    assert (Hw : weight (opc o) = 1 /\ is_operator (opc o) = true /\ (opc o =?c "(") = false) by (destruct o; repeat split; reflexivity).
    destruct Hw as [Hw [Ho Hq]].
    rewrite (step_binop T O 1 _ prev1 st1 (opc o) _ E2) by (rewrite ?Hw; first [lia|exact HO1|exact Ho]).
    destruct (Ht Wt Pt (opc o) rest (T ++ rpn_e e) (opc o :: O) []) as [prev' [st' [E3 E4]]]; [right; lia|left; reflexivity|].
    exists prev', st'. split; [exact E3|]. apply (post_push T O (opc o) 2 1); [lia|lia|exact Hq|exact E4].
Qed.

(** ---- parse on a whole function ---- *)
Definition zero_atom : expr := ELead SNone (TFac (Fac (Atom ["0"%char]) XNone)).
(** the global sign in front of a parenthesis: + is dropped, - becomes 0 - ... *)
Fixpoint relead (e : expr) : expr :=
  match e with
  | ELead s t => if head_par t then match s with SNone => e | SPlus => ELead SNone t | _ => EBin zero_atom OSub t end else e
  | EBin e o t => EBin (relead e) o t
  end.

Lemma relead_ok e : wf_e e -> plain_e e -> wf_e (relead e) /\ plain_e (relead e) /\ lead_ok (relead e).
Proof.
  induction e as [s t|e IH o t]; intros W P; cbn [relead].
  - destruct W as [W|W] || idtac. destruct (head_par t) eqn:Hh.
    + destruct P as [Ps Pt]. destruct s; cbn [wf_e plain_e lead_ok plain_sign plain_op]; try contradiction; repeat split; try assumption; try discriminate; try exact I; reflexivity.
    + split; [exact W|]. split; [exact P|]. destruct s; cbn [lead_ok]; try exact I; exact Hh.
  - destruct W as [W1 W2], P as [P1 [P2 P3]]. destruct (IH W1 P1) as [A [B C]]. repeat split; assumption.
Qed.

(** the spelling of the first sign *)
Fixpoint lead_sign (e : expr) : sign := match e with ELead s _ => s | EBin e _ _ => lead_sign e end.
Fixpoint lead_term (e : expr) : term := match e with ELead _ t => t | EBin e _ _ => lead_term e end.
Lemma show_lead e : exists r, show_e e = show_sign (lead_sign e) ++ show_t (lead_term e) ++ r /\
  show_e (relead e) = (if head_par (lead_term e) then match lead_sign e with SNone | SPlus => [] | _ => ["0"%char; "-"%char] end
                       else show_sign (lead_sign e)) ++ show_t (lead_term e) ++ r.
Proof.
  induction e as [s t|e [r [E1 E2]] o t].
  - exists []. cbn [lead_sign lead_term show_e relead]. rewrite !app_nil_r. split; [reflexivity|].
    destruct (head_par t); [destruct s; reflexivity|reflexivity].
  - exists (r ++ show_op o ++ show_t t). cbn [lead_sign lead_term show_e relead].
    split; [rewrite E1|rewrite E2]; rewrite <- !app_assoc; reflexivity.
Qed.
Lemma lead_wf e : wf_e e -> plain_e e -> wf_t (lead_term e) /\ plain_sign (lead_sign e).
Proof. induction e as [s t|e IH o t]; intros W P; cbn [lead_term lead_sign]; [split; [exact W|apply P]|apply IH; [apply W|apply P]]. Qed.

Lemma show_t_par_len t : head_par t = true -> exists c r, show_t t = "("%char :: c :: r.
Proof.
  induction t as [f|t IH f|t IH f]; intros H.
  - destruct f as [[w|e] x]; [discriminate|]. cbn [show_t show_f show_b app].
    destruct (show_e e) as [|c s]; cbn [app]; eexists _, _; reflexivity.
  - cbn [head_par] in H. destruct (IH H) as [c [r E]]. cbn [show_t]. rewrite E. cbn [app]. eexists _, _. reflexivity.
  - cbn [head_par] in H. destruct (IH H) as [c [r E]]. cbn [show_t]. rewrite E. cbn [app]. eexists _, _. reflexivity.
Qed.

Lemma global_sign_show e : wf_e e -> plain_e e -> global_sign (show_e e) = show_e (relead e).
Proof.
  intros W P. destruct (lead_wf e W P) as [Wt Ps]. destruct (show_lead e) as [r [E1 E2]]. rewrite E1, E2. clear E1 E2.
  destruct (head_par (lead_term e)) eqn:Hh.
  - destruct (show_t_par_len _ Hh) as [c [s E]]. rewrite E. destruct (lead_sign e); try contradiction; cbn [show_sign list_ascii_of_string app].
    + unfold global_sign. destruct (s ++ r); reflexivity.
    + unfold global_sign. reflexivity.
    + unfold global_sign. reflexivity.
  - destruct (show_t_head_atom _ Wt Hh) as [c [s [E A]]]. rewrite E. destruct (alnum_props c A) as [_ [_ [Ep [_ [Em [Epl _]]]]]].
    destruct (lead_sign e); try contradiction; cbn [show_sign list_ascii_of_string app]; unfold global_sign.
    + destruct (s ++ r) as [|c1 [|c2 l]]; [reflexivity|reflexivity|]. rewrite Epl, Em. reflexivity.
    + destruct (s ++ r) as [|c1 l]; [reflexivity|]. rewrite Ep, andb_false_r. reflexivity.
    + destruct (s ++ r) as [|c1 l]; [reflexivity|]. rewrite Ep, andb_false_r. reflexivity.
Qed.

Theorem parse_show e : wf_e e -> plain_e e -> parse (show_e e) = Ret (rpn_e (relead e)).
Proof.
  intros W P. unfold parse. rewrite global_sign_show by assumption. destruct (relead_ok e W P) as [W' [P' L']].
  destruct (proj2 (proj2 (proj2 parse_correct_aux)) (relead e) W' P' nul [] [] []) as [prev [st [E1 E2]]].
  { right. repeat split; try reflexivity. exact L'. }
  rewrite app_nil_r in E1. rewrite E1. cbn [ploop]. destruct E2 as [A [B [ts [S [C [D [E [F G]]]]]]]]. destruct st as [toks ops tmp neg].
  cbn [p_toks p_ops p_tmp] in *. rewrite C. rewrite E, app_nil_r. cbn [app]. f_equal. exact F.
Qed.

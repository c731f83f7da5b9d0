(** validate normalises a function of the documented language: "+-" and "-+" become "-", a group whose only content
    is a group loses one pair of parentheses (model: SYParse.v, language: SYGrammar.v). *)
From Coq Require Import Ascii String.
From Verif Require Import Machine FFInt FFVec SYParse SYGrammar SYParseProofs.
From Coq Require Import List.
Import ListNotations.
Open Scope nat_scope.

(** ---- the normal form ---- *)
Definition nf_sign (s : sign) : sign := match s with SNone => SNone | SPlus => SPlus | _ => SMinus end.
Definition nf_op (o : addop) : addop := match o with OAdd => OAdd | _ => OSub end.
Definition core (e : expr) : expr := match e with ELead SNone (TFac (Fac (Par e2) XNone)) => e2 | _ => e end.
Fixpoint nf_b (b : base) : base := match b with Atom w => Atom w | Par e => Par (core (nf_e e)) end
with nf_f (f : factor) : factor := match f with Fac b x => Fac (nf_b b) x end
with nf_t (t : term) : term := match t with TFac f => TFac (nf_f f) | TMul t f => TMul (nf_t t) (nf_f f) | TDiv t f => TDiv (nf_t t) (nf_f f) end
with nf_e (e : expr) : expr := match e with ELead s t => ELead (nf_sign s) (nf_t t) | EBin e o t => EBin (nf_e e) (nf_op o) (nf_t t) end.

(** ---- the string before the '$' are erased; [b]: an opening parenthesis precedes, [c]: a closing one follows ---- *)
Definition vw_sign (s : sign) : chars := match s with SPlusMinus => ["$"%char; "-"%char] | SMinusPlus => ["-"%char; "$"%char] | s => show_sign s end.
Definition vw_op (o : addop) : chars := match o with OAddSub => ["$"%char; "-"%char] | OSubAdd => ["-"%char; "$"%char] | o => show_op o end.
Fixpoint vw_b (bb : base) (b c : bool) : chars :=
  match bb with
  | Atom w => w
  | Par e => (if b && c then "$"%char else "("%char) :: vw_e e true true ++ [if b && c then "$"%char else ")"%char]
  end
with vw_f (f : factor) (b c : bool) : chars := match f with Fac bb x => vw_b bb b (match x with XNone => c | _ => false end) ++ show_expo x end
with vw_t (t : term) (b c : bool) : chars :=
  match t with
  | TFac f => vw_f f b c
  | TMul t f => vw_t t b false ++ "*"%char :: vw_f f false c
  | TDiv t f => vw_t t b false ++ "/"%char :: vw_f f false c
  end
with vw_e (e : expr) (b c : bool) : chars :=
  match e with
  | ELead s t => vw_sign s ++ vw_t t (match s with SNone => b | _ => false end) c
  | EBin e o t => vw_e e b false ++ vw_op o ++ vw_t t false c
  end.

(** ---- steps ---- *)
Definition VL (pre rest : chars) (st : list Z) : outcome chars := validate_loop (length rest + 1) (pre ++ rest) st (length pre).

Lemma nth_mid {A} (pre : list A) c rest d : nth (length pre) (pre ++ c :: rest) d = c.
Proof. rewrite app_nth2 by lia. rewrite Nat.sub_diag. reflexivity. Qed.
Lemma nth_mid1 {A} (pre : list A) c rest d : nth (length pre + 1) (pre ++ c :: rest) d = nth 0 rest d.
Proof. rewrite app_nth2 by lia. replace (length pre + 1 - length pre) with 1 by lia. reflexivity. Qed.
Lemma upd_mid {A} (pre : list A) c rest x : upd (pre ++ c :: rest) (length pre) x = pre ++ x :: rest.
Proof. induction pre as [|y pre IH]; [reflexivity|]. cbn [app length upd]. rewrite IH. reflexivity. Qed.
Lemma app_cons1 {A} (pre : list A) c rest : pre ++ c :: rest = (pre ++ [c]) ++ rest.
Proof. rewrite <- app_assoc. reflexivity. Qed.

(** one iteration at the character [c] *)
Lemma vl_S m r st i : validate_loop (S m) r st i =
  (let r := if (nth i r nul =?c "+") && (nth (i + 1) r nul =?c "-") then upd r i "$"%char else r in
   let r := if (nth i r nul =?c "-") && (nth (i + 1) r nul =?c "+") then upd r (i + 1) "$"%char else r in
   let c := nth i r nul in
   if c =?c "(" then
     validate_loop m r ((if negb (i =? 0) && (nth (i - 1) r nul =?c "(") then (- Z.of_nat i)%Z else Z.of_nat i) :: st) (S i)
   else if c =?c ")" then
     match st with
     | [] => Exit
     | top :: st' =>
         let r := if negb (m =? 0) && (nth (i + 1) r nul =?c ")") && (top <? 0)%Z
                  then upd (upd r (Z.to_nat (- top)) "$"%char) i "$"%char else r in
         validate_loop m r st' (S i)
     end
   else validate_loop m r st (S i)).
Proof. reflexivity. Qed.
Lemma len_app1 {A} (pre : list A) c : length (pre ++ [c]) = S (length pre).
Proof. rewrite app_length. cbn [length]. lia. Qed.

Lemma VL_neutral pre c rest st : (c =?c "(") = false -> (c =?c ")") = false ->
  ((c =?c "+") && (nth 0 rest nul =?c "-")) = false -> ((c =?c "-") && (nth 0 rest nul =?c "+")) = false ->
  VL pre (c :: rest) st = VL (pre ++ [c]) rest st.
Proof.
  intros H1 H2 H3 H4. unfold VL. cbn [length]. rewrite Nat.add_succ_l, vl_S. cbv zeta. rewrite !nth_mid, !nth_mid1, H3, ?nth_mid, ?nth_mid1, H4, ?nth_mid, H1, H2.
  rewrite len_app1, <- app_cons1. reflexivity.
Qed.
Lemma VL_pm pre rest st : VL pre ("+"%char :: "-"%char :: rest) st = VL (pre ++ ["$"%char]) ("-"%char :: rest) st.
Proof.
  unfold VL. cbn [length]. rewrite Nat.add_succ_l, vl_S. cbv zeta. rewrite nth_mid, nth_mid1. cbn [nth]. change (("+"%char =?c "+") && ("-"%char =?c "-")) with true.
  cbv iota. rewrite upd_mid, nth_mid. change ("$"%char =?c "-") with false. cbn [andb]. rewrite nth_mid.
  change ("$"%char =?c "(") with false. change ("$"%char =?c ")") with false. cbv iota.
  rewrite len_app1, <- app_cons1. reflexivity.
Qed.
Lemma VL_mp pre rest st : VL pre ("-"%char :: "+"%char :: rest) st = VL (pre ++ ["-"%char]) ("$"%char :: rest) st.
Proof.
  unfold VL. cbn [length]. rewrite Nat.add_succ_l, vl_S. cbv zeta. rewrite nth_mid, nth_mid1. cbn [nth]. change ("-"%char =?c "+") with false.
  cbn [andb]. rewrite nth_mid, nth_mid1. cbn [nth]. change (("-"%char =?c "-") && ("+"%char =?c "+")) with true. cbv iota.
  replace (upd (pre ++ "-"%char :: "+"%char :: rest) (length pre + 1) "$"%char) with (pre ++ "-"%char :: "$"%char :: rest).
  2: { rewrite (app_cons1 pre "-"%char ("+"%char :: rest)). replace (length pre + 1) with (length (pre ++ ["-"%char])) by (rewrite app_length; reflexivity).
       rewrite upd_mid, <- app_assoc. reflexivity. }
  rewrite nth_mid. change ("-"%char =?c "(") with false. change ("-"%char =?c ")") with false. cbv iota.
  rewrite len_app1, <- app_cons1. reflexivity.
Qed.
Lemma VL_open pre rest st : VL pre ("("%char :: rest) st =
  VL (pre ++ ["("%char]) rest ((if last pre nul =?c "(" then (- Z.of_nat (length pre))%Z else Z.of_nat (length pre)) :: st).
Proof.
  unfold VL. cbn [length]. rewrite Nat.add_succ_l, vl_S. cbv zeta. rewrite nth_mid. change ("("%char =?c "+") with false. cbn [andb]. rewrite nth_mid.
  change ("("%char =?c "-") with false. cbn [andb]. rewrite nth_mid. change ("("%char =?c "(") with true. cbv iota.
  replace (negb (length pre =? 0) && (nth (length pre - 1) (pre ++ "("%char :: rest) nul =?c "(")) with (last pre nul =?c "(").
  2: { destruct pre as [|d pre' _] using rev_ind; [reflexivity|]. rewrite last_last, app_length. cbn [length].
       replace (length pre' + 1 =? 0) with false by (symmetry; apply Nat.eqb_neq; lia). cbn [negb andb].
       rewrite <- app_assoc. replace (length pre' + 1 - 1) with (length pre') by lia. cbn [app]. rewrite (nth_mid pre' d). reflexivity. }
  rewrite len_app1, <- app_cons1. reflexivity.
Qed.
Lemma VL_close pre w rest st : VL (pre ++ "("%char :: w) (")"%char :: rest)
    ((if last pre nul =?c "(" then (- Z.of_nat (length pre))%Z else Z.of_nat (length pre)) :: st) =
  VL (pre ++ (if (last pre nul =?c "(") && (hd nul rest =?c ")") then "$"%char else "("%char) ::
      w ++ [if (last pre nul =?c "(") && (hd nul rest =?c ")") then "$"%char else ")"%char]) rest st.
Proof.
  set (pre1 := pre ++ "("%char :: w). unfold VL at 1. cbn [length]. rewrite Nat.add_succ_l, vl_S. cbv zeta.
  rewrite nth_mid. change (")"%char =?c "+") with false. cbn [andb]. rewrite nth_mid.
  change (")"%char =?c "-") with false. cbn [andb]. rewrite nth_mid. change (")"%char =?c "(") with false. change (")"%char =?c ")") with true. cbv iota.
  rewrite nth_mid1. replace (nth 0 rest nul) with (hd nul rest) by (destruct rest; reflexivity).
  replace (length rest + 1 =? 0) with false by (symmetry; apply Nat.eqb_neq; lia). cbn [negb andb].
  destruct (last pre nul =?c "(") eqn:El.
  - assert (Hl : 0 < length pre) by (destruct pre; [discriminate El|cbn; lia]).
    replace (- Z.of_nat (length pre) <? 0)%Z with true by (symmetry; apply Z.ltb_lt; lia). rewrite andb_true_r. cbn [andb].
    destruct (hd nul rest =?c ")") eqn:Er.
    + replace (Z.to_nat (- - Z.of_nat (length pre))) with (length pre) by lia.
      unfold VL. replace (pre1 ++ ")"%char :: rest) with (pre ++ "("%char :: w ++ ")"%char :: rest) by (unfold pre1; rewrite <- app_assoc; reflexivity).
      rewrite upd_mid. replace (length pre1) with (length (pre ++ "$"%char :: w)) by (unfold pre1; rewrite !app_length; reflexivity).
      replace (pre ++ "$"%char :: w ++ ")"%char :: rest) with ((pre ++ "$"%char :: w) ++ ")"%char :: rest) by (rewrite <- app_assoc; reflexivity).
      rewrite upd_mid. f_equal; [rewrite <- !app_assoc; cbn [app]; rewrite <- app_assoc; reflexivity|].
      rewrite !app_length. cbn [length]. rewrite !app_length. cbn [length]. lia.
    + unfold VL. f_equal; [unfold pre1; rewrite <- !app_assoc; cbn [app]; rewrite <- app_assoc; reflexivity|].
      unfold pre1. rewrite !app_length. cbn [length]. rewrite !app_length. cbn [length]. lia.
  - replace (Z.of_nat (length pre) <? 0)%Z with false by (symmetry; apply Z.ltb_ge; lia). rewrite andb_false_r. cbn [andb].
    unfold VL. f_equal; [unfold pre1; rewrite <- !app_assoc; cbn [app]; rewrite <- app_assoc; reflexivity|].
    unfold pre1. rewrite !app_length. cbn [length]. rewrite !app_length. cbn [length]. lia.
Qed.
Lemma VL_end r : VL r [] [] = Ret r.
Proof.
  unfold VL. cbn [length]. change (0 + 1) with 1. rewrite vl_S. cbv zeta. rewrite app_nil_r. rewrite (nth_overflow r nul (n:=length r)) by lia. change (nul =?c "+") with false. cbn [andb].
  rewrite (nth_overflow r nul (n:=length r)) by lia. change (nul =?c "-") with false. cbn [andb]. rewrite (nth_overflow r nul (n:=length r)) by lia. reflexivity.
Qed.

Lemma VL_word w : forall pre rest st, forallb alnum w = true -> VL pre (w ++ rest) st = VL (pre ++ w) rest st.
Proof.
  induction w as [|c w IH]; intros pre rest st H; [rewrite app_nil_r; reflexivity|].
  cbn [forallb] in H. apply andb_true_iff in H. destruct H as [A B]. destruct (alnum_props c A) as [_ [_ [E1 [E2 [E3 [E4 _]]]]]].
  cbn [app]. rewrite VL_neutral by (rewrite ?E1, ?E2, ?E3, ?E4; reflexivity). rewrite IH by exact B. rewrite <- app_cons1. reflexivity.
Qed.

Lemma last_app_ne {A} (l m : list A) d : m <> [] -> last (l ++ m) d = last m d.
Proof. intros N. destruct (exists_last N) as [m' [x ->]]. rewrite app_assoc, !last_last. reflexivity. Qed.

(** the first character of a term is neither + nor - *)
Lemma show_t_hd t rest : wf_t t -> (nth 0 (show_t t ++ rest) nul =?c "+") = false /\ (nth 0 (show_t t ++ rest) nul =?c "-") = false.
Proof.
  intros W. destruct (head_par t) eqn:Hh.
  - destruct (show_t_head_par t Hh) as [r ->]. split; reflexivity.
  - destruct (show_t_head_atom t W Hh) as [c [r [-> A]]]. destruct (alnum_props c A) as [_ [_ [_ [_ [E3 [E4 _]]]]]]. split; assumption.
Qed.

Lemma hd_app_ne {A} (l m : list A) d : l <> [] -> hd d (l ++ m) = hd d l.
Proof. destruct l; [contradiction|reflexivity]. Qed.

Definition V_of {X} (sh : X -> chars) (vw : X -> bool -> bool -> chars) (x : X) : Prop :=
  forall pre suf st, VL pre (sh x ++ suf) st = VL (pre ++ vw x (last pre nul =?c "(") (hd nul suf =?c ")")) suf st.

Lemma V_expo x pre suf st : wf_x x -> VL pre (show_expo x ++ suf) st = VL (pre ++ show_expo x) suf st.
Proof.
  intros W. destruct x as [|n|n|n]; cbn [wf_x show_expo] in *; [rewrite app_nil_r; reflexivity| | |];
    pose proof (wf_num_word n W) as [N A]; cbn [app].
  - rewrite VL_neutral by reflexivity. rewrite VL_word by exact A. rewrite <- app_cons1. reflexivity.
  - rewrite VL_neutral by reflexivity. rewrite VL_open. rewrite <- (app_assoc n). rewrite VL_word by exact A.
    rewrite <- (app_assoc (pre ++ ["^"%char])). cbn [app]. rewrite VL_close. rewrite last_last. change ("^"%char =?c "(") with false. cbn [andb].
    rewrite <- app_assoc. reflexivity.
  - rewrite VL_neutral by reflexivity. rewrite VL_open. destruct n as [|c n]; [contradiction|]. pose proof (hd_alnum c n (conj N A)) as Hc.
    destruct (alnum_props c Hc) as [_ [_ [_ [_ [E3 [E4 _]]]]]].
    rewrite VL_neutral by (try reflexivity; cbn [app nth]; rewrite E4; reflexivity).
    rewrite <- (app_assoc (c :: n)). rewrite VL_word by exact A. rewrite <- !(app_assoc (pre ++ ["^"%char])). cbn [app]. rewrite VL_close, last_last.
    change ("^"%char =?c "(") with false. cbn [andb]. rewrite <- app_assoc. cbn [app]. reflexivity.
Qed.

Lemma V_aux : (forall b, wf_b b -> V_of show_b vw_b b) /\ (forall f, wf_f f -> V_of show_f vw_f f) /\
  (forall t, wf_t t -> V_of show_t vw_t t) /\ (forall e, wf_e e -> V_of show_e vw_e e).
Proof.
  apply syntax_ind; unfold V_of.
  - intros w [N A] pre suf st. cbn [show_b vw_b]. apply VL_word. exact A.
  - intros e H W pre suf st. cbn [show_b vw_b app]. rewrite VL_open. rewrite <- app_assoc. rewrite (H W). cbn [app hd].
    rewrite last_last. change (("("%char =?c "(")) with true. change ((")"%char =?c ")")) with true.
    rewrite <- app_assoc. cbn [app]. apply VL_close.
  - intros b H x [W X] pre suf st. cbn [show_f vw_f]. rewrite <- app_assoc. rewrite (H W). rewrite V_expo by exact X.
    rewrite <- app_assoc. destruct x; reflexivity.
  - intros f H W pre suf st. apply (H W).
  - intros t H f Hf [W X] pre suf st. cbn [show_t vw_t]. rewrite <- app_assoc. rewrite (H W). cbn [app hd].
    rewrite VL_neutral by reflexivity. rewrite (Hf X). rewrite last_last. rewrite <- !app_assoc. reflexivity.
  - intros t H f Hf [W X] pre suf st. cbn [show_t vw_t]. rewrite <- app_assoc. rewrite (H W). cbn [app hd].
    rewrite VL_neutral by reflexivity. rewrite (Hf X). rewrite last_last. rewrite <- !app_assoc. reflexivity.
  - intros s t H W pre suf st. cbn [show_e vw_e]. destruct (show_t_hd t suf W) as [E1 E2]. rewrite <- app_assoc.
    destruct s; cbn [show_sign vw_sign list_ascii_of_string app].
    + apply (H W).
    + rewrite VL_neutral by (rewrite ?E1, ?E2; reflexivity). rewrite (H W), last_last, <- app_assoc. reflexivity.
    + rewrite VL_neutral by (rewrite ?E1, ?E2; reflexivity). rewrite (H W), last_last, <- app_assoc. reflexivity.
    + rewrite VL_pm. rewrite VL_neutral by (rewrite ?E1, ?E2; reflexivity). rewrite (H W), last_last, <- !app_assoc. reflexivity.
    + rewrite VL_mp. rewrite VL_neutral by (rewrite ?E1, ?E2; reflexivity). rewrite (H W), last_last, <- !app_assoc. reflexivity.
  - intros e He o t H [We W] pre suf st. cbn [show_e vw_e]. destruct (show_t_hd t suf W) as [E1 E2]. rewrite <- app_assoc. rewrite (He We).
    replace (hd nul ((show_op o ++ show_t t) ++ suf) =?c ")") with false by (destruct o; reflexivity).
    rewrite <- app_assoc.
    destruct o; cbn [show_op vw_op list_ascii_of_string app].
    + rewrite VL_neutral by (rewrite ?E1, ?E2; reflexivity). rewrite (H W), last_last, <- !app_assoc. reflexivity.
    + rewrite VL_neutral by (rewrite ?E1, ?E2; reflexivity). rewrite (H W), last_last, <- !app_assoc. reflexivity.
    + rewrite VL_pm. rewrite VL_neutral by (rewrite ?E1, ?E2; reflexivity). rewrite (H W), last_last, <- !app_assoc. reflexivity.
    + rewrite VL_mp. rewrite VL_neutral by (rewrite ?E1, ?E2; reflexivity). rewrite (H W), last_last, <- !app_assoc. reflexivity.
Qed.

(** ---- erasing the '$' ---- *)
Definition nd (s : chars) : chars := filter (fun c => negb (c =?c "$")) s.
Lemma nd_app a b : nd (a ++ b) = nd a ++ nd b. Proof. apply filter_app. Qed.
Lemma nd_word w : forallb alnum w = true -> nd w = w.
Proof.
  induction w as [|c w IH]; [reflexivity|]. cbn [forallb]. intros H. apply andb_true_iff in H. destruct H as [A B].
  destruct (alnum_props c A) as [_ [_ [_ [_ [_ [_ [E _]]]]]]]. unfold nd. cbn [filter]. rewrite E. cbn [negb]. f_equal. apply IH, B.
Qed.
Lemma nd_expo x : wf_x x -> nd (show_expo x) = show_expo x.
Proof.
  intros W. destruct x as [|n|n|n]; cbn [wf_x show_expo] in *; [reflexivity| | |]; pose proof (wf_num_word n W) as [N A].
  - change (nd ("^"%char :: n)) with ("^"%char :: nd n). rewrite nd_word by exact A. reflexivity.
  - change (nd ("^"%char :: "("%char :: n ++ [")"%char])) with ("^"%char :: "("%char :: nd (n ++ [")"%char])). rewrite nd_app, nd_word by exact A. reflexivity.
  - change (nd ("^"%char :: "("%char :: "-"%char :: n ++ [")"%char])) with ("^"%char :: "("%char :: "-"%char :: nd (n ++ [")"%char])).
    rewrite nd_app, nd_word by exact A. reflexivity.
Qed.

(** the only content of e is a group without exponent or sign *)
Definition lone (e : expr) : bool := match e with ELead SNone (TFac (Fac (Par _) XNone)) => true | _ => false end.

Lemma W_aux :
  (forall bb, wf_b bb -> (forall b c, b && c = false -> nd (vw_b bb b c) = show_b (nf_b bb)) /\
     nd (vw_b bb true true) = match nf_b bb with Par e => show_e e | b => show_b b end) /\
  (forall f, wf_f f -> (forall b c, b && c = false -> nd (vw_f f b c) = show_f (nf_f f)) /\
     nd (vw_f f true true) = match nf_f f with Fac (Par e) XNone => show_e e | f => show_f f end) /\
  (forall t, wf_t t -> (forall b c, b && c = false -> nd (vw_t t b c) = show_t (nf_t t)) /\
     nd (vw_t t true true) = match nf_t t with TFac (Fac (Par e) XNone) => show_e e | t => show_t t end) /\
  (forall e, wf_e e -> (forall b c, b && c = false -> nd (vw_e e b c) = show_e (nf_e e)) /\ nd (vw_e e true true) = show_e (core (nf_e e))).
Proof.
  apply syntax_ind.
  - intros w [N A]. cbn [vw_b nf_b show_b]. rewrite (nd_word w A). split; [intros _ _ _|]; reflexivity.
  - intros e H W. destruct (H W) as [_ H2]. split.
    + intros b c Hbc. cbn [vw_b nf_b show_b]. rewrite Hbc.
      change (nd ("("%char :: vw_e e true true ++ [")"%char])) with ("("%char :: nd (vw_e e true true ++ [")"%char])). rewrite nd_app, H2. reflexivity.
    + cbn [vw_b nf_b andb]. change (nd ("$"%char :: vw_e e true true ++ ["$"%char])) with (nd (vw_e e true true ++ ["$"%char])).
      rewrite nd_app, H2. apply app_nil_r.
  - intros bb H x [W X]. destruct (H W) as [H1 H2]. split.
    + intros b c Hbc. cbn [vw_f nf_f show_f]. rewrite nd_app, nd_expo by exact X. f_equal. apply H1.
      destruct x; [exact Hbc|apply andb_false_r..].
    + cbn [vw_f nf_f]. rewrite nd_app, nd_expo by exact X. destruct x as [|n|n|n].
      * cbn [show_expo]. rewrite app_nil_r, H2. destruct (nf_b bb); [|reflexivity]. cbn [show_f show_expo]. rewrite app_nil_r. reflexivity.
      * rewrite H1 by reflexivity. destruct (nf_b bb); reflexivity.
      * rewrite H1 by reflexivity. destruct (nf_b bb); reflexivity.
      * rewrite H1 by reflexivity. destruct (nf_b bb); reflexivity.
  - intros f H W. destruct (H W) as [H1 H2]. split; [exact H1|exact H2].
  - intros t H f Hf [W X]. destruct (H W) as [H1 _]. destruct (Hf X) as [Hf1 _].
    assert (Q : forall b c, nd (vw_t (TMul t f) b c) = show_t (nf_t (TMul t f))).
    { intros b c. cbn [vw_t nf_t show_t]. rewrite nd_app. rewrite (H1 b false) by apply andb_false_r.
      change (nd ("*"%char :: vw_f f false c)) with ("*"%char :: nd (vw_f f false c)). rewrite (Hf1 false c) by reflexivity. reflexivity. }
    split; [intros b c _; apply Q|apply Q].
  - intros t H f Hf [W X]. destruct (H W) as [H1 _]. destruct (Hf X) as [Hf1 _].
    assert (Q : forall b c, nd (vw_t (TDiv t f) b c) = show_t (nf_t (TDiv t f))).
    { intros b c. cbn [vw_t nf_t show_t]. rewrite nd_app. rewrite (H1 b false) by apply andb_false_r.
      change (nd ("/"%char :: vw_f f false c)) with ("/"%char :: nd (vw_f f false c)). rewrite (Hf1 false c) by reflexivity. reflexivity. }
    split; [intros b c _; apply Q|apply Q].
  - intros s t H W. destruct (H W) as [Ht1 Ht2]. assert (H1 : forall b c, b && c = false -> nd (vw_e (ELead s t) b c) = show_e (nf_e (ELead s t))).
    { intros b c Hbc. cbn [vw_e nf_e show_e]. rewrite nd_app. rewrite Ht1 by (destruct s; [exact Hbc|reflexivity..]). destruct s; reflexivity. }
    split; [exact H1|]. destruct s.
    + cbn [vw_e nf_e nf_sign vw_sign show_sign list_ascii_of_string app]. rewrite Ht2. cbn [core].
      destruct (nf_t t) as [[[w|e] [|n|n|n]]| |]; reflexivity.
    + change (nd (vw_e (ELead SPlus t) true true)) with (nd (vw_e (ELead SPlus t) false true)). rewrite H1 by reflexivity. reflexivity.
    + change (nd (vw_e (ELead SMinus t) true true)) with (nd (vw_e (ELead SMinus t) false true)). rewrite H1 by reflexivity. reflexivity.
    + change (nd (vw_e (ELead SPlusMinus t) true true)) with (nd (vw_e (ELead SPlusMinus t) false true)). rewrite H1 by reflexivity. reflexivity.
    + change (nd (vw_e (ELead SMinusPlus t) true true)) with (nd (vw_e (ELead SMinusPlus t) false true)). rewrite H1 by reflexivity. reflexivity.
  - intros e H o t Ht [We W]. destruct (H We) as [H1 _]. destruct (Ht W) as [Ht1 _].
    assert (Q : forall b c, nd (vw_e (EBin e o t) b c) = show_e (nf_e (EBin e o t))).
    { intros b c. cbn [vw_e nf_e show_e]. rewrite !nd_app. rewrite (H1 b false) by apply andb_false_r. rewrite (Ht1 false c) by reflexivity. destruct o; reflexivity. }
    split; [intros b c _; apply Q|]. rewrite Q. reflexivity.
Qed.

Theorem validate_show e : wf_e e -> validate (show_e e) = Ret (show_e (nf_e e)).
Proof.
  intros W. unfold validate. pose proof (proj2 (proj2 (proj2 V_aux)) e W [] [] []) as H. cbn [last hd app] in H.
  rewrite app_nil_r in H. unfold VL in H at 1. cbn [app length] in H. rewrite H, VL_end. f_equal.
  apply (proj1 (proj2 (proj2 (proj2 W_aux)) e W)). reflexivity.
Qed.

(** the normal form is well formed and spelled with one-character signs *)
Lemma nf_ok_aux : (forall b, wf_b b -> wf_b (nf_b b) /\ plain_b (nf_b b)) /\ (forall f, wf_f f -> wf_f (nf_f f) /\ plain_f (nf_f f)) /\
  (forall t, wf_t t -> wf_t (nf_t t) /\ plain_t (nf_t t)) /\ (forall e, wf_e e -> wf_e (nf_e e) /\ plain_e (nf_e e)).
Proof.
  apply syntax_ind.
  - intros w W. split; [exact W|exact I].
  - intros e H W. destruct (H W) as [H1 H2]. cbn [nf_b wf_b plain_b].
    unfold core. destruct (nf_e e) as [[] [[[w|e2] [|n|n|n]]| |]|]; try (split; assumption).
    cbn in H1, H2. split; [apply H1|apply H2].
  - intros b H x [W X]. destruct (H W) as [H1 H2]. split; [split; assumption|exact H2].
  - intros f H W. exact (H W).
  - intros t H f Hf [W X]. destruct (H W), (Hf X). split; split; assumption.
  - intros t H f Hf [W X]. destruct (H W), (Hf X). split; split; assumption.
  - intros s t H W. destruct (H W). split; [assumption|]. split; [destruct s; exact I|assumption].
  - intros e H o t Ht [We W]. destruct (H We), (Ht W). split; [split; assumption|]. split; [assumption|]. split; [destruct o; exact I|assumption].
Qed.

(** ... and means the same *)
Lemma nf_den_aux p env :
  (forall b, den_b p env (nf_b b) = den_b p env b) /\ (forall f, den_f p env (nf_f f) = den_f p env f) /\
  (forall t, den_t p env (nf_t t) = den_t p env t) /\ (forall e, den_e p env (nf_e e) = den_e p env e).
Proof.
  apply syntax_ind.
  - intros w. reflexivity.
  - intros e H. change (den_e p env (core (nf_e e)) = den_e p env e). rewrite <- H. unfold core. destruct (nf_e e) as [[] [[[w|e2] [|n|n|n]]| |]|]; reflexivity.
  - intros b H x. change (den_x p (den_b p env (nf_b b)) x = den_x p (den_b p env b) x). rewrite H. reflexivity.
  - intros f H. exact H.
  - intros t H f Hf. change ((den_t p env (nf_t t) * den_f p env (nf_f f)) mod p = (den_t p env t * den_f p env f) mod p)%Z. rewrite H, Hf. reflexivity.
  - intros t H f Hf. change ((den_t p env (nf_t t) * inv_p p (den_f p env (nf_f f))) mod p = (den_t p env t * inv_p p (den_f p env f)) mod p)%Z.
    rewrite H, Hf. reflexivity.
  - intros s t H. change (den_sign p (nf_sign s) (den_t p env (nf_t t)) = den_sign p s (den_t p env t)). rewrite H. destruct s; reflexivity.
  - intros e H o t Ht. cbn [nf_e]. destruct o; cbn [nf_op].
    + change ((den_e p env (nf_e e) + den_t p env (nf_t t)) mod p = (den_e p env e + den_t p env t) mod p)%Z. rewrite H, Ht. reflexivity.
    + change ((den_e p env (nf_e e) - den_t p env (nf_t t)) mod p = (den_e p env e - den_t p env t) mod p)%Z. rewrite H, Ht. reflexivity.
    + change ((den_e p env (nf_e e) - den_t p env (nf_t t)) mod p = (den_e p env e - den_t p env t) mod p)%Z. rewrite H, Ht. reflexivity.
    + change ((den_e p env (nf_e e) - den_t p env (nf_t t)) mod p = (den_e p env e - den_t p env t) mod p)%Z. rewrite H, Ht. reflexivity.
Qed.

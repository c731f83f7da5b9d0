(** Proofs for C50, part 2: sums and tables are split correctly. *)
From Coq Require Import Ascii String.
From Verif Require Import Machine FFInt FFVec SYParse SYGrammar SYEval SYObj Amplitude AmplitudeSpec AmplitudeText.
From Coq Require Import List Lia Arith.
Import ListNotations.
Open Scope nat_scope.

(** the tree of a coefficient with its sign, as parse_string spells it *)
Definition one_t : term := TFac (Fac (Atom ["1"%char]) XNone).
Definition body_t (s : summand) : term := match s_cf s with Some t => t | None => one_t end.
Definition par_f (e : expr) : factor := Fac (Par e) XNone.
Definition ctree (s : summand) : expr := if s_minus s then ELead SMinus (TFac (par_f (ELead SNone (body_t s)))) else ELead SNone (body_t s).
Definition item (s : summand) : chars * chars := (s_name s, show_e (ctree s)).
Lemma show_ctree s : show_e (ctree s) = (if s_minus s then "-"%char :: "("%char :: show_t (body_t s) ++ [")"%char] else show_t (body_t s)).
Proof. unfold ctree. destruct (s_minus s); cbn; [rewrite app_nil_r|]; reflexivity. Qed.

Section Parse.
  Variable fams : list chars.
  Hypothesis FO : families_ok fams.

  Lemma idx_not_in idx c : idx_ok idx -> c = "["%char \/ c = "]"%char \/ c = ">"%char -> ~ In c idx.
  Proof. intros H E I. unfold idx_ok in H. rewrite Forall_forall in H. destruct (H c I) as [A [B [C _]]]. destruct E as [E|[E|E]]; congruence. Qed.
  (** lead is the sign (or comma) in front of a function *)
  Definition lead_ok (lead : chars) : Prop := lead = [] \/ lead = ["+"%char] \/ lead = ["-"%char] \/ lead = [","%char].
  Lemma lead_len lead : lead_ok lead -> length lead <= 1. Proof. intros [->|[->|[->| ->]]]; cbn; lia. Qed.
  Lemma lead_alnum lead : lead_ok lead -> Forall (fun c => alnum c = false) lead.
  Proof. intros [->|[->|[->| ->]]]; repeat constructor. Qed.
  Lemma lead_not_in lead c : lead_ok lead -> c = "["%char \/ c = "]"%char \/ c = ">"%char -> ~ In c lead.
  Proof. intros [->|[->|[->| ->]]] E I; cbn in I; destruct E as [->|[->| ->]]; intuition discriminate. Qed.

  (** one function: everything except the coefficient *)
  Lemma parse_one_split pre lead fam idx tail : lead_ok lead -> In fam fams -> idx_ok idx ->
    findc_from "]" (pre ++ lead ++ fname fam idx ++ tail) (length pre) = Some (length pre + (length lead + length fam + 1 + length idx)) /\
    parse_one fams (pre ++ lead ++ fname fam idx ++ tail) (length pre) (length pre + (length lead + length fam + 1 + length idx)) =
    obind (coefficient fams (pre ++ lead ++ fname fam idx ++ tail) (length pre + (length lead + length fam + 1 + length idx))) (fun cn =>
      Ret ((fname fam idx, if ceqb lead ["-"%char] then "-"%char :: "("%char :: fst cn ++ [")"%char] else fst cn), snd cn)).
  Proof.
    intros HL If Hi. pose proof (lead_len lead HL) as LL. destruct (fam_word fams FO fam If) as [Nf Wf].
    set (amp := pre ++ lead ++ fname fam idx ++ tail).
    assert (E : amp = pre ++ (lead ++ fam ++ "["%char :: idx) ++ "]"%char :: tail).
    { unfold amp, fname. rewrite <- !app_assoc. cbn [app]. rewrite <- !app_assoc. reflexivity. }
    assert (Lx : length (lead ++ fam ++ "["%char :: idx) = length lead + length fam + 1 + length idx) by (rewrite !app_length; cbn [length]; lia).
    split.
    - rewrite E. rewrite findc_from_pre, Lx; [reflexivity|]. intros I. apply in_app_or in I as [I|I]; [revert I; apply lead_not_in; [exact HL|tauto]|].
      apply in_app_or in I as [I|[I|I]]; [|discriminate|revert I; apply idx_not_in; [exact Hi|tauto]]. revert I. apply (fam_not_in fams FO); [exact If|reflexivity].
    - unfold parse_one. set (found := length pre + (length lead + length fam + 1 + length idx)).
      replace (found + 1 - length pre) with (length (lead ++ fname fam idx)) by (unfold found, fname; rewrite !app_length; cbn [length]; rewrite app_length; cbn [length]; lia).
      unfold amp at 1. rewrite (app_assoc lead). rewrite substr_pre. cbn [obind].
      assert (Fo : findc "[" (lead ++ fname fam idx) = Some (length (lead ++ fam))).
      { unfold fname. rewrite app_assoc. apply findc_app. intros I. apply in_app_or in I as [I|I]; [revert I; apply lead_not_in; [exact HL|tauto]|]. revert I. apply (fam_not_in fams FO); [exact If|reflexivity]. }
      assert (S1 : firstn (length (lead ++ fam)) (lead ++ fname fam idx) = lead ++ fam) by (unfold fname; rewrite app_assoc; apply firstn_pre).
      assert (S2 : skipn (length (lead ++ fam)) (lead ++ fname fam idx) = "["%char :: idx ++ ["]"%char]) by (unfold fname; rewrite app_assoc; apply skipn_pre).
      rewrite Fo. cbv zeta. rewrite S1, S2.
      rewrite (first_family_ok fams FO lead fam LL (lead_alnum lead HL) If). rewrite skipn_pre.
      replace (if length lead =? 0 then [] else [nth (length lead - 1) (lead ++ fam) nul]) with lead by (destruct HL as [->|[->|[->| ->]]]; reflexivity).
      rewrite (ceqb_neq lead ["*"%char]) by (destruct HL as [->|[->|[->| ->]]]; discriminate).
      fold (fname fam idx). destruct (coefficient fams amp found) as [[c nxt]| | | |]; reflexivity.
  Qed.

  Lemma not_in_show t c : wf_t t -> plain c = false -> ~ In c (show_t t).
  Proof. intros W P. apply not_in_plain; [exact P|apply (proj1 (proj2 (proj2 show_plain))); exact W]. Qed.

  Definition item_as (lead : chars) (s : summand) : chars * chars :=
    (s_name s, if ceqb lead ["-"%char] then "-"%char :: "("%char :: show_t (body_t s) ++ [")"%char] else show_t (body_t s)).
  Lemma item_as_ok lead s : (s_minus s = true <-> lead = ["-"%char]) -> item_as lead s = item s.
  Proof.
    intros H. unfold item_as, item. rewrite show_ctree. f_equal. destruct (s_minus s); [rewrite (proj1 H eq_refl), ceqb_refl; reflexivity|].
    rewrite ceqb_neq; [reflexivity|]. intros X. apply H in X. discriminate.
  Qed.
  Lemma show_sg_lead m : lead_ok [show_sg m]. Proof. destruct m; unfold lead_ok; cbn; tauto. Qed.
  Lemma nth_pre {A} (a : list A) x b d : nth (length a) (a ++ x :: b) d = x.
  Proof. rewrite app_nth2, Nat.sub_diag by lia. reflexivity. Qed.

  Lemma parse_loop_ok : forall r n pre lead s acc, lead_ok lead -> Forall (summand_ok fams) (s :: r) -> length (s :: r) <= n ->
    parse_loop n fams (pre ++ lead ++ show_body s ++ show_rest r) (length pre) acc = Ret (acc ++ item_as lead s :: map item r).
  Proof.
    induction r as [|s2 r IH]; intros n pre lead s acc HL HS Hn; inversion HS as [|? ? Hs Hr]; subst; destruct n as [|n]; cbn [length] in Hn; [lia| |lia|];
      destruct Hs as [If [Hi Hc]]; unfold show_body, s_name.
    - (* last *)
      cbn [show_rest flat_map]. rewrite app_nil_r. set (tail := match s_cf s with Some t => "*"%char :: show_t t | None => [] end).
      destruct (parse_one_split pre lead (s_fam s) (s_idx s) tail HL If Hi) as [F P].
      cbn [parse_loop]. rewrite F, P. clear F P.
      set (found := length pre + (length lead + length (s_fam s) + 1 + length (s_idx s))).
      set (pre2 := pre ++ lead ++ fname (s_fam s) (s_idx s)).
      assert (Lp : length pre2 = found + 1) by (unfold pre2, found, fname; rewrite !app_length; cbn [length]; rewrite app_length; cbn [length]; lia).
      assert (Ea : pre ++ lead ++ fname (s_fam s) (s_idx s) ++ tail = pre2 ++ tail) by (unfold pre2; rewrite <- !app_assoc; reflexivity).
      rewrite Ea. unfold coefficient. unfold item_as, body_t, tail in *. destruct (s_cf s) as [t|].
      + destruct Hc as [Wt Ct]. pose proof (proj1 (proj2 (proj2 show_nonempty)) t Wt) as Nt.
        assert (C1 : (found + 1 <? length (pre2 ++ "*"%char :: show_t t) - 1) = true).
        { apply Nat.ltb_lt. rewrite app_length, Lp. cbn [length]. destruct (show_t t); [congruence|cbn [length]; lia]. }
        rewrite C1, <- Lp, nth_pre, Ascii.eqb_refl. cbn [andb].
        rewrite findc_from_none by (intros [E|I]; [discriminate|revert I; apply not_in_show; [exact Wt|reflexivity]]).
        assert (X : substr_end (pre2 ++ "*"%char :: show_t t) (found + 2) = Ret (show_t t)).
        { replace (found + 2) with (length (pre2 ++ ["*"%char])) by (rewrite app_length, Lp; cbn; lia). change ("*"%char :: show_t t) with (["*"%char] ++ show_t t). rewrite app_assoc. apply substr_end_pre. }
        rewrite X. cbn [obind fst snd]. destruct n; cbn [parse_loop];
          (rewrite findc_from_none by (intros [E|I]; [discriminate|revert I; apply not_in_show; [exact Wt|reflexivity]])); reflexivity.
      + rewrite app_nil_r. assert (C1 : (found + 1 <? length pre2 - 1) = false) by (apply Nat.ltb_ge; rewrite Lp; lia).
        rewrite C1. cbn [andb obind fst snd]. rewrite <- Lp.
        assert (X : findc_from "]" pre2 (length pre2) = None) by (pose proof (findc_from_none "]" pre2 [] (fun x => x)) as X; rewrite app_nil_r in X; exact X).
        destruct n; cbn [parse_loop]; rewrite X; reflexivity.
    - set (tail := match s_cf s with Some t => "*"%char :: show_t t | None => [] end).
      rewrite <- (app_assoc (fname _ _)).
      destruct (parse_one_split pre lead (s_fam s) (s_idx s) (tail ++ show_rest (s2 :: r)) HL If Hi) as [F P].
      cbn [parse_loop]. rewrite F, P. clear F P.
      set (found := length pre + (length lead + length (s_fam s) + 1 + length (s_idx s))).
      set (pre2 := pre ++ lead ++ fname (s_fam s) (s_idx s)).
      assert (Lp : length pre2 = found + 1) by (unfold pre2, found, fname; rewrite !app_length; cbn [length]; rewrite app_length; cbn [length]; lia).
      assert (Ea : pre ++ lead ++ fname (s_fam s) (s_idx s) ++ tail ++ show_rest (s2 :: r) = pre2 ++ tail ++ show_rest (s2 :: r)) by (unfold pre2; rewrite <- !app_assoc; reflexivity).
      rewrite Ea. cbn [show_rest flat_map]. fold (show_rest r). unfold coefficient, item_as, body_t, tail; clear Ea tail.
      inversion Hr as [|? ? Hs2 Hr2]; subst. pose proof Hs2 as [If2 [Hi2 _]].
      assert (Sh : show_body s2 = s_fam s2 ++ "["%char :: (s_idx s2 ++ ["]"%char]) ++ match s_cf s2 with Some t => "*"%char :: show_t t | None => [] end).
      { unfold show_body, s_name, fname. rewrite <- app_assoc. reflexivity. }
      destruct (s_cf s) as [t|].
      + destruct Hc as [Wt Ct]. pose proof (proj1 (proj2 (proj2 show_nonempty)) t Wt) as Nt.
        assert (C1 : (found + 1 <? length (pre2 ++ ("*"%char :: show_t t) ++ (show_sg (s_minus s2) :: show_body s2) ++ show_rest r) - 1) = true).
        { apply Nat.ltb_lt. rewrite !app_length, Lp. cbn [length]. lia. }
        cbn [app]. cbn [app] in C1. rewrite C1, <- Lp, nth_pre, Ascii.eqb_refl. cbn [andb].
        set (seed := "*"%char :: show_t t ++ show_sg (s_minus s2) :: s_fam s2).
        set (rest2 := (s_idx s2 ++ ["]"%char]) ++ match s_cf s2 with Some t => "*"%char :: show_t t | None => [] end ++ show_rest r).
        assert (E2 : pre2 ++ "*"%char :: show_t t ++ show_sg (s_minus s2) :: show_body s2 ++ show_rest r = pre2 ++ seed ++ "["%char :: rest2).
        { unfold seed, rest2. rewrite Sh. cbn [app]. rewrite <- !app_assoc. cbn [app]. rewrite <- !app_assoc. reflexivity. }
        rewrite E2.
        rewrite findc_from_pre; [|unfold seed; intros [E|I]; [discriminate|]; apply in_app_or in I as [I|[I|I]]; [revert I; apply not_in_show; [exact Wt|reflexivity]|destruct (s_minus s2); discriminate|revert I; apply (fam_not_in fams FO); [exact If2|reflexivity]]].
        replace (length pre2 + length seed - length pre2) with (length seed) by lia. rewrite substr_pre. cbn [obind].
        unfold seed at 1. rewrite (coef_loop_ok fams FO t (show_sg (s_minus s2)) (s_fam s2) _ _ ltac:(destruct (s_minus s2); reflexivity) If2 Wt Ct). cbn [obind fst snd].
        set (pre3 := pre2 ++ "*"%char :: show_t t).
        replace (length pre2 + length seed - length (s_fam s2) - 1) with (length pre3) by (unfold pre3, seed; rewrite !app_length; cbn [length]; rewrite app_length; cbn [length]; lia).
        rewrite <- E2. replace (pre2 ++ "*"%char :: show_t t ++ show_sg (s_minus s2) :: show_body s2 ++ show_rest r) with (pre3 ++ [show_sg (s_minus s2)] ++ show_body s2 ++ show_rest r)
          by (unfold pre3; cbn [app]; rewrite <- app_assoc; reflexivity).
        rewrite IH; [|apply show_sg_lead|exact Hr|cbn [length]; lia]. cbn [map]. rewrite <- app_assoc. cbn [app].
        rewrite (item_as_ok [show_sg (s_minus s2)] s2); [reflexivity|]. destruct (s_minus s2); cbn; split; congruence.
      + cbn [app]. rewrite <- Lp, nth_pre. replace (show_sg (s_minus s2) =?c "*") with false by (destruct (s_minus s2); reflexivity). rewrite Bool.andb_false_r.
        cbn [obind fst snd]. change (show_sg (s_minus s2) :: show_body s2 ++ show_rest r) with ([show_sg (s_minus s2)] ++ show_body s2 ++ show_rest r).
        rewrite IH; [|apply show_sg_lead|exact Hr|cbn [length]; lia]. cbn [map]. rewrite <- app_assoc. cbn [app].
        rewrite (item_as_ok [show_sg (s_minus s2)] s2); [reflexivity|]. destruct (s_minus s2); cbn; split; congruence.
  Qed.

  Lemma show_body_len s : 0 < length (show_body s). Proof. unfold show_body, s_name, fname. rewrite !app_length. cbn [length]. lia. Qed.
  Lemma show_rest_len r : length r <= length (show_rest r).
  Proof. induction r as [|s r IH]; cbn [show_rest flat_map length]; [lia|]. rewrite app_length. cbn [length]. fold (show_rest r). lia. Qed.
  Lemma parse_body_sum plus l : Forall (summand_ok fams) l -> parse_body fams (show_sum plus l) = Ret (map item l).
  Proof.
    intros H. destruct l as [|s r]; [reflexivity|]. cbn [show_sum]. set (lead := if s_minus s || plus then [show_sg (s_minus s)] else []).
    assert (HL : lead_ok lead) by (unfold lead, lead_ok; destruct (s_minus s), plus; cbn; tauto).
    pose proof (parse_loop_ok r (length (lead ++ show_body s ++ show_rest r)) [] lead s [] HL H) as P. cbn [app length] in P.
    unfold parse_body. destruct (lead ++ show_body s ++ show_rest r) eqn:E.
    { exfalso. apply app_eq_nil in E as [_ E]. apply app_eq_nil in E as [E _]. pose proof (show_body_len s) as X. rewrite E in X. cbn in X. lia. }
    rewrite <- E in *. rewrite P.
    - cbn [map]. rewrite item_as_ok; [reflexivity|]. unfold lead. destruct (s_minus s), plus; cbn; split; congruence.
    - rewrite !app_length. pose proof (show_body_len s). pose proof (show_rest_len r). lia.
  Qed.
  (** the left-hand side of a rule *)
  Lemma parse_body_lhs lead fam idx : lead = [] \/ lead = [","%char] -> In fam fams -> idx_ok idx -> parse_body fams (lead ++ fname fam idx) = Ret [(fname fam idx, ["1"%char])].
  Proof.
    intros HL If Hi. set (s := mk_sm false fam idx None). assert (HL' : lead_ok lead) by (unfold lead_ok; tauto).
    pose proof (parse_loop_ok [] (length (lead ++ fname fam idx)) [] lead s [] HL') as P. cbn [app length show_rest flat_map] in P.
    unfold show_body, s_name in P. cbn [s_cf s_fam s_idx s] in P. rewrite !app_nil_r in P.
    unfold parse_body. destruct (lead ++ fname fam idx) eqn:E.
    { exfalso. apply app_eq_nil in E as [_ E]. unfold fname in E. apply app_eq_nil in E as [_ E]. discriminate. }
    rewrite <- E in *. rewrite P.
    - unfold item_as. rewrite ceqb_neq by (destruct HL as [->| ->]; discriminate). reflexivity.
    - repeat constructor; assumption.
    - rewrite app_length. unfold fname. rewrite app_length. cbn [length]. lia.
  Qed.
End Parse.

(** ---- white space and braces ---- *)
Lemma strip_white_spaced w l : spaced w l -> Forall (fun c => ~ white c) w -> strip_white l = w.
Proof.
  intros S. unfold strip_white, remove_char. induction S as [|c w l Wc S IH|c w l S IH]; intros H; [reflexivity| |].
  - specialize (IH H). destruct Wc as [->|[->| ->]]; cbn [filter Ascii.eqb negb]; exact IH.
  - inversion H as [|? ? Hc Hw]; subst. specialize (IH Hw). unfold white in Hc. cbn [filter].
    rewrite (aeqb_neq c " ") by tauto. cbn [negb filter]. rewrite (aeqb_neq c "009") by tauto. cbn [negb filter]. rewrite (aeqb_neq c "010") by tauto. cbn [negb]. f_equal. exact IH.
Qed.
Lemma removelast_snoc {A} (l : list A) x : removelast (l ++ [x]) = l. Proof. rewrite removelast_app by discriminate. cbn [removelast]. apply app_nil_r. Qed.
Lemma last_snoc {A} (l : list A) x d : last (l ++ [x]) d = x. Proof. apply last_last. Qed.
Lemma strip_braced b1 b2 s : s <> [] -> hd nul s <> "{"%char -> last s nul <> "}"%char -> strip_braces (braced b1 b2 s) = Ret s.
Proof.
  intros N H L. unfold strip_braces, braced.
  assert (Y : (let t := (if b1 then ["{"%char] else []) ++ s ++ (if b2 then ["}"%char] else []) in if hd nul t =?c "{" then tl t else t) = s ++ (if b2 then ["}"%char] else [])).
  { destruct b1; [reflexivity|]. cbn [app]. cbv zeta. replace (hd nul (s ++ (if b2 then ["}"%char] else []))) with (hd nul s) by (destruct s; [congruence|reflexivity]). rewrite aeqb_neq by exact H. reflexivity. }
  cbv zeta in *. rewrite Y. clear Y. destruct b2.
  - destruct (s ++ ["}"%char]) eqn:E; [destruct s; discriminate|]. rewrite <- E, last_snoc, removelast_snoc. reflexivity.
  - rewrite app_nil_r. destruct s as [|c s]; [congruence|]. rewrite aeqb_neq by exact L. reflexivity.
Qed.

(** ---- tables ---- *)
Lemma finds_arrow u v : ~ In ">"%char u -> finds ["-"; ">"]%char (u ++ "-"%char :: ">"%char :: v) = Some (length u).
Proof.
  induction u as [|c u IH]; intros H; [reflexivity|]. cbn [app]. rewrite finds_unfold.
  assert (S : starts ["-"; ">"]%char (c :: u ++ "-"%char :: ">"%char :: v) = false).
  { cbn [starts]. destruct u as [|d u]; cbn [app].
    - replace (">" =?c "-") with false by reflexivity. cbn. apply Bool.andb_false_r.
    - rewrite (aeqb_neq ">" d) by (intros <-; apply H; right; left; reflexivity). cbn. apply Bool.andb_false_r. }
  rewrite S, IH by (intros I; apply H; right; exact I). reflexivity.
Qed.
Lemma finds_arrow_none u : ~ In ">"%char u -> finds ["-"; ">"]%char u = None.
Proof. intros H. apply finds_none. intros [a [b E]]. apply H. rewrite E. apply in_or_app. right. right. left. reflexivity. Qed.
Lemma finds_from_pre f a b : finds_from f (a ++ b) (length a) = option_map (Nat.add (length a)) (finds f b).
Proof. unfold finds_from. destruct (Nat.ltb_spec (length (a ++ b)) (length a)) as [X|_]; [rewrite app_length in X; lia|]. rewrite skipn_pre. reflexivity. Qed.
Lemma substr_diff_pre a b c : substr_diff (a ++ b ++ c) (length a) (length a + length b) (length a) = Ret b.
Proof. unfold substr_diff. destruct (Nat.ltb_spec (length a + length b) (length a)) as [X|_]; [lia|]. replace (length a + length b - length a) with (length b) by lia. apply substr_pre. Qed.

Section Table.
  Variable fams : list chars.
  Hypothesis FO : families_ok fams.
  Lemma fname_not_in fam idx c : In fam fams -> idx_ok idx -> c = ">"%char -> ~ In c (fname fam idx).
  Proof.
    intros If Hi -> I. unfold fname in I. apply in_app_or in I as [I|[I|I]]; [revert I; apply (fam_not_in fams FO); [exact If|reflexivity]|discriminate|].
    apply in_app_or in I as [I|[I|[]]]; [revert I; apply idx_not_in; [exact Hi|tauto]|discriminate].
  Qed.
  Lemma body_not_in s : summand_ok fams s -> ~ In ">"%char (show_body s).
  Proof.
    intros [If [Hi Hc]] I. unfold show_body in I. apply in_app_or in I as [I|I]; [revert I; apply fname_not_in; [exact If|exact Hi|reflexivity]|].
    destruct (s_cf s) as [t|]; [|destruct I]. destruct I as [I|I]; [discriminate|]. revert I. apply not_in_show; [apply Hc|reflexivity].
  Qed.
  Lemma sum_not_in plus l : Forall (summand_ok fams) l -> ~ In ">"%char (show_sum plus l).
  Proof.
    intros H I. destruct l as [|s r]; cbn [show_sum] in I; [destruct I as [I|[]]; discriminate|]. inversion H as [|? ? Hs Hr]; subst.
    apply in_app_or in I as [I|I]; [destruct (s_minus s), plus; cbn in I; intuition discriminate|].
    apply in_app_or in I as [I|I]; [exact (body_not_in s Hs I)|]. unfold show_rest in I. apply in_flat_map in I as [x [Ix I]]. rewrite Forall_forall in Hr.
    destruct I as [I|I]; [destruct (s_minus x); discriminate|]. exact (body_not_in x (Hr x Ix) I).
  Qed.

  (** the rules of a table, one after the other *)
  Fixpoint add_rules (st : amplitude) (l : list rule) : outcome amplitude :=
    match l with [] => Ret st | r :: l => obind (add_rule st (r_name r) (show_sum (r_plus r) (r_rhs r))) (fun st => add_rules st l) end.
  (** a rule does not depend on the comma in front of it *)
  Lemma add_rule_comma st lead r rhs : a_fams st = fams -> lead = [] \/ lead = [","%char] -> rule_ok fams r -> add_rule st (lead ++ r_name r) rhs = add_rule st (r_name r) rhs.
  Proof.
    intros E HL [If [Hi _]]. unfold add_rule, parse_string. rewrite E. unfold r_name. rewrite (parse_body_lhs fams FO lead) by assumption.
    pose proof (parse_body_lhs fams FO [] (r_fam r) (r_idx r) (or_introl eq_refl) If Hi) as P. cbn [app] in P. rewrite P. reflexivity.
  Qed.
  Lemma add_summand_fams st x : a_fams (add_summand st x) = a_fams st. Proof. destruct st. unfold add_summand. destruct (sfind _ _); reflexivity. Qed.
  Lemma add_replacement_fams name l : forall st, a_fams (fold_left (add_replacement name) l st) = a_fams st.
  Proof. induction l as [|x l IH]; intros st; [reflexivity|]. cbn [fold_left]. rewrite IH. destruct st. reflexivity. Qed.
  Lemma add_rule_fams st lhs rhs st' : add_rule st lhs rhs = Ret st' -> a_fams st' = a_fams st.
  Proof.
    unfold add_rule. destruct (parse_string _ lhs true) as [[|[n c] l]| | | |]; cbn [obind]; try discriminate. destruct (sfind n (integrals st)); [|intros E; injection E as <-; reflexivity].
    destruct (smem _ _); [discriminate|]. destruct (parse_string _ rhs true); cbn [obind]; try discriminate. destruct st. intros E. injection E as <-. rewrite add_replacement_fams. reflexivity.
  Qed.

  Lemma show_rules_cons r r2 l : show_rules (r :: r2 :: l) = show_rule r ++ ","%char :: show_rules (r2 :: l). Proof. reflexivity. Qed.
  Lemma show_rules_head r l : exists w, show_rules (r :: l) = r_name r ++ "-"%char :: ">"%char :: w.
  Proof. destruct l as [|r2 l]; [eexists; unfold show_rules, show_rule; reflexivity|]. rewrite show_rules_cons. unfold show_rule. rewrite <- app_assoc. cbn [app]. eexists. reflexivity. Qed.

  Lemma table_loop_ok : forall l n pre lead r st, lead = [] \/ lead = [","%char] -> a_fams st = fams -> Forall (rule_ok fams) (r :: l) -> length (r :: l) <= n ->
    table_loop n (pre ++ lead ++ show_rules (r :: l)) (length pre) (Some (length pre + (length lead + length (r_name r)))) st = add_rules st (r :: l).
  Proof.
    induction l as [|r2 l IH]; intros n pre lead r st HL E HR Hn; destruct n as [|n]; cbn [length] in Hn; [lia| |lia|]; pose proof (Forall_inv HR) as Hr; pose proof (Forall_inv_tail HR) as Hl;
      pose proof Hr as [If [Hi Hs]]; cbn [table_loop add_rules].
    - cbn [show_rules]. unfold show_rule.
      replace (length lead + length (r_name r)) with (length (lead ++ r_name r)) by apply app_length.
      rewrite (app_assoc lead), substr_diff_pre. cbn [obind].
      set (pre2 := pre ++ (lead ++ r_name r) ++ ["-"; ">"]%char).
      replace (length pre + length (lead ++ r_name r) + 2) with (length pre2) by (unfold pre2; rewrite !app_length; cbn [length]; lia).
      replace (pre ++ (lead ++ r_name r) ++ "-"%char :: ">"%char :: show_sum (r_plus r) (r_rhs r)) with (pre2 ++ show_sum (r_plus r) (r_rhs r)) by (unfold pre2; rewrite <- !app_assoc; reflexivity).
      rewrite finds_from_pre, finds_arrow_none by (apply sum_not_in; exact Hs). cbn [option_map]. rewrite substr_end_pre. cbn [obind].
      rewrite add_rule_comma; [|exact E|exact HL|exact Hr]. destruct (add_rule st _ _); reflexivity.
    - rewrite show_rules_cons. unfold show_rule.
      replace (length lead + length (r_name r)) with (length (lead ++ r_name r)) by apply app_length.
      rewrite <- (app_assoc (r_name r)), (app_assoc lead). cbn [app]. rewrite substr_diff_pre. cbn [obind].
      set (sum := show_sum (r_plus r) (r_rhs r)). set (pre2 := pre ++ (lead ++ r_name r) ++ ["-"; ">"]%char).
      replace (length pre + length (lead ++ r_name r) + 2) with (length pre2) by (unfold pre2; rewrite !app_length; cbn [length]; lia).
      replace (pre ++ (lead ++ r_name r) ++ "-"%char :: ">"%char :: sum ++ ","%char :: show_rules (r2 :: l)) with (pre2 ++ sum ++ [","%char] ++ show_rules (r2 :: l)) by (unfold pre2; rewrite <- !app_assoc; reflexivity).
      destruct (show_rules_head r2 l) as [w Ew]. pose proof (Forall_inv Hl) as Hr2. pose proof Hr2 as [If2 [Hi2 _]].
      rewrite finds_from_pre. rewrite Ew at 1.
      replace (sum ++ [","%char] ++ r_name r2 ++ "-"%char :: ">"%char :: w) with ((sum ++ [","%char] ++ r_name r2) ++ "-"%char :: ">"%char :: w) by (rewrite <- !app_assoc; reflexivity).
      assert (Nsum : ~ In ">"%char sum) by (apply sum_not_in; exact Hs).
      assert (Nr2 : ~ In ">"%char (r_name r2)) by (apply fname_not_in; [exact If2|exact Hi2|reflexivity]).
      rewrite finds_arrow; [|intros I; apply in_app_or in I as [I|[I|I]]; [exact (Nsum I)|discriminate|exact (Nr2 I)]]. cbn [option_map].
      (* the comma *)
      assert (Tp : rfindc_to "," (pre2 ++ sum ++ [","%char] ++ show_rules (r2 :: l)) (rfindc_to "[" (pre2 ++ sum ++ [","%char] ++ show_rules (r2 :: l)) (Some (length pre2 + length (sum ++ [","%char] ++ r_name r2)))) = Some (length pre2 + length sum)).
      { assert (B : rfindc_to "[" (pre2 ++ sum ++ [","%char] ++ show_rules (r2 :: l)) (Some (length pre2 + length (sum ++ [","%char] ++ r_name r2))) = Some (length pre2 + (length sum + (1 + length (r_fam r2))))).
        { unfold rfindc_to. rewrite Ew. set (u := pre2 ++ sum ++ [","%char] ++ r_fam r2).
          replace (pre2 ++ sum ++ [","%char] ++ r_name r2 ++ "-"%char :: ">"%char :: w) with ((u ++ "["%char :: (r_idx r2 ++ ["]"; "-"]%char)) ++ ">"%char :: w)
            by (unfold u, r_name, fname; rewrite <- !app_assoc; cbn [app]; rewrite <- !app_assoc; reflexivity).
          replace (S (length pre2 + length (sum ++ [","%char] ++ r_name r2))) with (length (u ++ "["%char :: (r_idx r2 ++ ["]"; "-"]%char)))
            by (unfold u, r_name, fname; rewrite ?app_length; cbn [length]; rewrite ?app_length; cbn [length]; lia).
          rewrite firstn_pre, rfindc_last; [unfold u; rewrite !app_length; cbn [length]; f_equal; lia|].
          intros I. apply in_app_or in I as [I|[I|[I|[]]]]; [|discriminate|discriminate]. revert I. apply idx_not_in; [exact Hi2|tauto]. }
        rewrite B. unfold rfindc_to. rewrite Ew.
        replace (pre2 ++ sum ++ [","%char] ++ r_name r2 ++ "-"%char :: ">"%char :: w) with (((pre2 ++ sum) ++ ","%char :: (r_fam r2 ++ ["["%char])) ++ (r_idx r2 ++ ["]"%char]) ++ "-"%char :: ">"%char :: w)
          by (unfold r_name, fname; rewrite <- !app_assoc; cbn [app]; rewrite <- !app_assoc; reflexivity).
        replace (S (length pre2 + (length sum + (1 + length (r_fam r2))))) with (length ((pre2 ++ sum) ++ ","%char :: (r_fam r2 ++ ["["%char])))
          by (rewrite ?app_length; cbn [length]; rewrite ?app_length; cbn [length]; lia).
        rewrite firstn_pre, rfindc_last; [rewrite app_length; reflexivity|]. intros I. apply in_app_or in I as [I|[I|[]]]; [|discriminate]. revert I. apply (fam_not_in fams FO); [exact If2|reflexivity]. }
      rewrite Tp, substr_diff_pre. cbn [obind]. rewrite add_rule_comma; [|exact E|exact HL|exact Hr].
      destruct (add_rule st (r_name r) sum) as [st'| | | |] eqn:Est; try reflexivity. cbn [obind].
      rewrite app_assoc. replace (length pre2 + length sum) with (length (pre2 ++ sum)) by apply app_length.
      assert (Fa : finds ["-"; ">"]%char ([","%char] ++ show_rules (r2 :: l)) = Some (length ([","%char] ++ r_name r2))).
      { rewrite Ew, app_assoc. apply finds_arrow. intros I; apply in_app_or in I as [[I|[]]|I]; [discriminate|exact (Nr2 I)]. }
      rewrite finds_from_pre, Fa. cbn [option_map]. rewrite (app_length [","%char] (r_name r2)). rewrite IH; [reflexivity|right; reflexivity|rewrite (add_rule_fams _ _ _ _ Est); exact E|exact Hl|cbn [length]; lia].
  Qed.

  Lemma show_rule_len r : 0 < length (show_rule r). Proof. unfold show_rule. rewrite app_length. cbn [length]. lia. Qed.
  Lemma show_rules_len l : length l <= length (show_rules l).
  Proof.
    induction l as [|r l IH]; cbn [length]; [lia|]. destruct l as [|r2 l]; [cbn [show_rules length]; pose proof (show_rule_len r); lia|].
    rewrite show_rules_cons, app_length. cbn [length] in *. pose proof (show_rule_len r). lia.
  Qed.
  Lemma table_ok st l : l <> [] -> a_fams st = fams -> Forall (rule_ok fams) l ->
    table_loop (length (show_rules l)) (show_rules l) 0 (finds ["-"; ">"]%char (show_rules l)) st = add_rules st l.
  Proof.
    intros N E H. destruct l as [|r l]; [congruence|]. pose proof (table_loop_ok l (length (show_rules (r :: l))) [] [] r st (or_introl eq_refl) E H (show_rules_len _)) as P.
    cbn [app length Nat.add] in P. rewrite <- P. f_equal. destruct (show_rules_head r l) as [w Ew]. rewrite Ew. apply finds_arrow.
    destruct (Forall_inv H) as [If [Hi _]]. apply fname_not_in; [exact If|exact Hi|reflexivity].
  Qed.
End Table.

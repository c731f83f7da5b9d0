(** Trimming, evaluate_pre_2 and functions in files (model: SYObj.v). *)
From Coq Require Import Ascii String ZArith Znumtheory Lia.
From Verif Require Import Machine FFInt FFVec SYParse SYGrammar SYParseProofs SYValidateProofs SYEval SYEvalProofs SYPreProofs SYTreeProofs SYObj SYObjProofs.
From Coq Require Import List.
Import ListNotations.
Open Scope nat_scope.

(** the elements at the positions to keep; [i] is the position of the first *)
Fixpoint kept {A} (keep : nat -> bool) (i : nat) (l : list A) : list A :=
  match l with [] => [] | a :: r => if keep i then a :: kept keep (S i) r else kept keep (S i) r end.
Lemma kept_map {A B} (f : A -> B) keep l : forall i, kept keep i (map f l) = map f (kept keep i l).
Proof. induction l as [|a l IH]; intros i; [reflexivity|]. cbn [map kept]. destruct (keep i); cbn [map]; rewrite IH; reflexivity. Qed.
(** pairs of old and new positions; [j] is the new position of the next element that is kept *)
Fixpoint kpos (keep : nat -> bool) (i j n : nat) : list (nat * nat) :=
  match n with O => [] | S n => if keep i then (i, j) :: kpos keep (S i) (S j) n else kpos keep (S i) j n end.
Lemma kpos_spec {A} keep (l : list A) : forall i j old new, In (old, new) (kpos keep i j (length l)) <->
  (exists k, old = i + k /\ k < length l /\ keep old = true /\ new = j + length (kept keep i (firstn k l))).
Proof.
  induction l as [|a l IH]; intros i j old new; cbn [length kpos].
  - split; [intros []|intros [k [_ [X _]]]; lia].
  - assert (R : In (old, new) (kpos keep (S i) (if keep i then S j else j) (length l)) <->
      exists k, old = S i + k /\ k < length l /\ keep old = true /\ new = (if keep i then S j else j) + length (kept keep (S i) (firstn k l))) by apply IH.
    assert (T : (exists k, old = i + k /\ k < S (length l) /\ keep old = true /\ new = j + length (kept keep i (firstn k (a :: l)))) <->
      (old = i /\ keep i = true /\ new = j) \/ (exists k, old = S i + k /\ k < length l /\ keep old = true /\ new = (if keep i then S j else j) + length (kept keep (S i) (firstn k l)))).
    { split.
      - intros [[|k] [E1 [E2 [E3 E4]]]].
        + left. cbn in E4. rewrite Nat.add_0_r in E1. subst old. repeat split; [exact E3|lia].
        + right. exists k. cbn [firstn kept] in E4. split; [lia|]. split; [lia|]. split; [exact E3|]. destruct (keep i); cbn [length] in E4; lia.
      - intros [[-> [E2 ->]]|[k [E1 [E2 [E3 E4]]]]].
        + exists 0. cbn. repeat split; [lia|lia|exact E2|lia].
        + exists (S k). cbn [firstn kept]. split; [lia|]. split; [lia|]. split; [exact E3|]. destruct (keep i); cbn [length]; lia. }
    rewrite T, <- R. destruct (keep i) eqn:Ek; cbn [In].
    + split; [intros [X|X]; [injection X as -> ->; left; repeat split; reflexivity|right; exact X]|intros [[-> [_ ->]]|X]; [left; reflexivity|right; exact X]].
    + split; [intros X; right; exact X|intros [[_ [X _]]|X]; [discriminate|exact X]].
Qed.
Lemma kept_nth {A} keep (l : list A) : forall i k, k < length l -> keep (i + k) = true -> nth_error (kept keep i l) (length (kept keep i (firstn k l))) = nth_error l k.
Proof.
  induction l as [|a l IH]; intros i k H K; cbn [length] in H; [lia|]. destruct k as [|k].
  - cbn [firstn kept length nth_error]. rewrite Nat.add_0_r in K. rewrite K. reflexivity.
  - cbn [firstn kept nth_error]. replace (i + S k) with (S i + k) in K by lia. pose proof (IH (S i) k ltac:(lia) K) as E. destruct (keep i); exact E.
Qed.
Lemma kept_length_le {A} keep (l : list A) : forall i, length (kept keep i l) <= length l.
Proof. induction l as [|a l IH]; intros i; cbn [kept length]; [lia|]. specialize (IH (S i)). destruct (keep i); cbn [length]; lia. Qed.
(** what the map of positions promises: every kept function has exactly one new position, where it is *)
Definition map_ok {A} (keep : nat -> bool) (old new : list A) (pos : list (nat * nat)) : Prop :=
  (forall i j, In (i, j) pos -> keep i = true /\ i < length old /\ nth_error new j = nth_error old i) /\
  (forall i, keep i = true -> i < length old -> exists j, In (i, j) pos /\ forall j', In (i, j') pos -> j' = j).
Lemma kpos_map_ok {A} keep (l : list A) : map_ok keep l (kept keep 0 l) (kpos keep 0 0 (length l)).
Proof.
  split.
  - intros i j H. apply kpos_spec in H. destruct H as [k [E1 [E2 [E3 E4]]]]. cbn in E1, E4. subst i j. split; [exact E3|]. split; [exact E2|].
    apply (kept_nth keep l 0 k E2 E3).
  - intros i K L. exists (length (kept keep 0 (firstn i l))). split.
    + apply kpos_spec. exists i. repeat split; try assumption; reflexivity.
    + intros j' H. apply kpos_spec in H. destruct H as [k [E1 [E2 [E3 E4]]]]. cbn in E1, E4. subst k. exact E4.
Qed.

(** ---- without the check for equal functions ---- *)
Lemma trim_plain_spec keep fs : forall done pc nf np pos, length pc = length fs ->
  trim_plain keep (done ++ pc) fs (length done) nf np pos = Ret (nf ++ kept keep (length done) fs, np ++ kept keep (length done) pc, pos ++ kpos keep (length done) (length nf) (length fs)).
Proof.
  induction fs as [|f fs IH]; intros done pc nf np pos HL; destruct pc as [|t pc]; try discriminate; cbn [trim_plain kept length kpos].
  - rewrite !app_nil_r. reflexivity.
  - injection HL as HL. assert (E : done ++ t :: pc = (done ++ [t]) ++ pc) by (rewrite <- app_assoc; reflexivity).
    assert (EL : length (done ++ [t]) = S (length done)) by (rewrite app_length; cbn; lia).
    destruct (keep (length done)).
    + unfold keep_toks. assert (N : nth_error (done ++ t :: pc) (length done) = Some t) by (rewrite nth_error_app2, Nat.sub_diag by lia; reflexivity).
      rewrite N. destruct (done ++ t :: pc) as [|z l] eqn:Z; [destruct done; discriminate|]. cbn [obind]. rewrite E. rewrite <- EL.
      rewrite IH by exact HL. rewrite !EL. rewrite <- !app_assoc, app_length. cbn [length app]. rewrite Nat.add_1_r. reflexivity.
    + rewrite E. rewrite <- EL. apply IH. exact HL.
Qed.

Section Trim.
  Variable p : Z.
  Variable vars : list chars.
  Variable es : list expr.
  Hypothesis G : good p vars es.
  Lemma good_kept keep : good p vars (kept keep 0 es).
  Proof.
    apply (good_incl _ _ _ _ G). intros e. generalize 0. generalize es. intros l. induction l as [|a l IH]; intros i; cbn [kept]; [intros []|].
    destruct (keep i); [intros [->|H]; [left; reflexivity|right; exact (IH (S i) H)]|intros H; right; exact (IH (S i) H)].
  Qed.
  Theorem trim_plain_ok keep ep : exists o' pos, trim keep (built p vars es false true ep) = Ret (o', pos) /\
    (forall values env, point p vars values env -> evaluate_pre p o' values = Ret (kept keep 0 (map (den_e p env) es))) /\
    pos = kpos keep 0 0 (length es).
  Proof.
    unfold trim, built. cbn [negb].
    pose proof (trim_plain_spec keep (map rpn_of es) [] (map (fun e => fst (pre_get p vars (rpn_of e))) es) [] [] []) as T. cbn [app length] in T.
    rewrite T by (rewrite !map_length; reflexivity). cbn [obind]. eexists _, _. split; [reflexivity|]. split; [|rewrite map_length; reflexivity].
    intros values env H. unfold evaluate_pre. cbn [precomp]. rewrite !kept_map. rewrite (omap_eval p vars (kept keep 0 es) (good_kept keep) values env H). reflexivity.
  Qed.

  (** ---- with it: [D] are the different functions ---- *)
  Variable D : list expr.
  Hypothesis HD : forall d, In d D -> In d es.
  Definition cp_ok (ND : list expr) (cp : list (nat * nat)) : Prop := forall k n, nfind k cp = Some n -> nth_error ND n = nth_error D k /\ n < length ND.
  Lemma nfind_snoc k cp a b : nfind k (cp ++ [(a, b)]) = match nfind k cp with Some n => Some n | None => if k =? a then Some b else None end.
  Proof. induction cp as [|[x y] cp IH]; cbn [app nfind]; [reflexivity|]. destruct (k =? x); [reflexivity|exact IH]. Qed.
  Lemma keep_toks_D f np k d : nth_error D k = Some d -> keep_toks (map f D) k np = Ret (np ++ [f d]).
  Proof.
    intros H. unfold keep_toks. destruct (map f D) eqn:E; [destruct D; [destruct k; discriminate|discriminate]|]. rewrite <- E. rewrite (map_nth_error f _ _ H). reflexivity.
  Qed.
  Let F (e : expr) := fst (pre_get p vars (rpn_of e)).
  Lemma trim_check_spec keep ep : Forall (fun k => k < length D) ep -> forall i ND ne cp pos,
    cp_ok ND cp -> (forall d, In d ND -> In d D) -> length ND <= length ne -> (length ND = length ne -> ne = seq 0 (length ne)) -> Forall (fun n => n < length ND) ne ->
    exists ND' ne', trim_check keep (map rpn_of D) (map F D) ep i (map rpn_of ND) (map F ND) ne cp pos =
      Ret (map rpn_of ND', map F ND', ne', pos ++ kpos keep i (length ne) (length ep)) /\ (forall d, In d ND' -> In d D) /\
      length ND' <= length ne' /\ (length ND' = length ne' -> ne' = seq 0 (length ne')) /\ Forall (fun n => n < length ND') ne' /\
      (exists ext, ND' = ND ++ ext) /\ exists tail, ne' = ne ++ tail /\ map (nth_error ND') tail = map (nth_error D) (kept keep i ep).
  Proof.
    induction ep as [|k ep IH]; intros Hep i ND ne cp pos Hc Hi Hl Hs Hn.
    - exists ND, ne. cbn [trim_check kpos length kept map]. rewrite app_nil_r. repeat split; try assumption; [exists []; symmetry; apply app_nil_r|]. exists []. rewrite app_nil_r. split; reflexivity.
    - inversion Hep as [|? ? Hk Hep']; subst. cbn [trim_check kpos length kept]. destruct (keep i).
      + destruct (nth_error D k) as [d|] eqn:Ed; [|apply nth_error_None in Ed; lia].
        destruct (nfind k cp) as [n|] eqn:En.
        * destruct (Hc k n En) as [C1 C2].
          destruct (IH Hep' (S i) ND (ne ++ [n]) cp (pos ++ [(i, length ne)]) Hc Hi) as [ND' [ne' [E1 [E2 [E3 [E4 [E5 [[ext E6] [tail [E7 E8]]]]]]]]]].
          { rewrite app_length. lia. } { rewrite app_length. cbn [length]. intros X. lia. }
          { apply Forall_app. split; [exact Hn|constructor; [exact C2|constructor]]. }
          exists ND', ne'. rewrite E1. rewrite <- app_assoc. rewrite app_length. cbn [app length]. rewrite Nat.add_1_r. repeat split; try assumption; [exists ext; exact E6|].
          exists (n :: tail). split; [rewrite E7, <- app_assoc; reflexivity|]. cbn [map]. rewrite E8. f_equal. rewrite E6, nth_error_app1 by exact C2. rewrite C1. reflexivity.
        * rewrite (map_nth_error rpn_of _ _ Ed). rewrite (keep_toks_D F _ k d Ed). cbn [obind].
          destruct (IH Hep' (S i) (ND ++ [d]) (ne ++ [length ND]) (cp ++ [(k, length ND)]) (pos ++ [(i, length ne)])) as [ND' [ne' [E1 [E2 [E3 [E4 [E5 [[ext E6] [tail [E7 E8]]]]]]]]]].
          { intros k' n H. rewrite nfind_snoc in H. rewrite app_length. cbn [length]. destruct (nfind k' cp) as [n'|] eqn:E.
            - injection H as <-. destruct (Hc k' n' E) as [C1 C2]. rewrite nth_error_app1 by exact C2. split; [exact C1|lia].
            - destruct (Nat.eqb_spec k' k) as [->|]; [|discriminate]. injection H as <-. rewrite nth_error_app2, Nat.sub_diag by lia. split; [symmetry; exact Ed|lia]. }
          { intros x H. apply in_app_or in H. destruct H as [H|[<-|[]]]; [exact (Hi x H)|]. apply nth_error_In with (1 := Ed). }
          { rewrite !app_length. cbn [length]. lia. }
          { rewrite !app_length. cbn [length]. intros X. assert (Y : length ND = length ne) by lia. rewrite (Hs Y) at 1. rewrite Y. rewrite Nat.add_1_r. symmetry. apply seq_S. }
          { rewrite app_length. cbn [length]. apply Forall_app. split; [|constructor; [lia|constructor]]. eapply Forall_impl; [|exact Hn]. cbn beta. intros; lia. }
          rewrite map_length. rewrite !map_app in E1. cbn [map] in E1. exists ND', ne'. rewrite E1. rewrite <- app_assoc, app_length. cbn [app length]. rewrite Nat.add_1_r.
          repeat split; try assumption; [exists (d :: ext); rewrite E6, <- app_assoc; reflexivity|].
          exists (length ND :: tail). split; [rewrite E7, <- app_assoc; reflexivity|]. cbn [map]. rewrite E8. f_equal. rewrite E6, <- app_assoc. rewrite nth_error_app2, Nat.sub_diag by lia.
          rewrite Ed. reflexivity.
      + destruct (IH Hep' (S i) ND ne cp pos Hc Hi Hl Hs Hn) as [ND' [ne' R]]. exists ND', ne'. exact R.
  Qed.
  Lemma omap_nth {A} (r : list A) l : omap (fun i => match nth_error r i with Some v => Ret v | None => UB end) l =
    (fix go (l : list (option A)) := match l with [] => Ret [] | Some v :: l => obind (go l) (fun vs => Ret (v :: vs)) | None :: _ => UB end) (map (nth_error r) l).
  Proof. induction l as [|i l IH]; [reflexivity|]. cbn [omap map]. destruct (nth_error r i); [|reflexivity]. cbn [obind]. rewrite IH. reflexivity. Qed.
  Lemma omap_kept keep (r : list Z) l vs : omap (fun i => match nth_error r i with Some v => Ret v | None => UB end) l = Ret vs ->
    forall i, omap (fun i => match nth_error r i with Some v => Ret v | None => UB end) (kept keep i l) = Ret (kept keep i vs).
  Proof.
    revert vs. induction l as [|k l IH]; intros vs H i; cbn [omap] in H; [injection H as <-; reflexivity|].
    destruct (nth_error r k) as [v|] eqn:E; [|discriminate]. cbn [obind] in H. apply obind_ret in H. destruct H as [vs' [H1 H2]]. injection H2 as <-.
    cbn [kept]. destruct (keep i); [|exact (IH vs' H1 (S i))]. cbn [omap]. rewrite E. cbn [obind]. rewrite (IH vs' H1 (S i)). reflexivity.
  Qed.
  Theorem trim_check_ok keep ep : Forall (fun k => k < length D) ep -> exists o' pos, trim keep (built p vars D true true ep) = Ret (o', pos) /\
    (forall values env vs, point p vars values env -> omap (fun i => match nth_error (map (den_e p env) D) i with Some v => Ret v | None => UB end) ep = Ret vs ->
      evaluate_pre p o' values = Ret (kept keep 0 vs)) /\
    pos = kpos keep 0 0 (length ep).
  Proof.
    intros Hep. unfold trim, built. cbn [negb].
    destruct (trim_check_spec keep ep Hep 0 [] [] [] []) as [ND [ne [E1 [E2 [E3 [E4 [E5 [_ [tail [E7 E8]]]]]]]]]].
    { intros k n H. discriminate. } { intros d []. } { apply le_n. } { reflexivity. } { constructor. }
    cbn [map app length] in E1. fold F. change (map (fun e => fst (pre_get p vars (rpn_of e))) D) with (map F D). rewrite E1. cbn [obind].
    eexists _, _. split; [reflexivity|]. split; [|reflexivity]. intros values env vs H Hv.
    assert (GN : good p vars ND) by (apply (good_incl _ _ _ _ G); intros d Hd; apply HD, E2, Hd).
    unfold evaluate_pre. cbn [precomp]. change (map F ND) with (map (fun e => fst (pre_get p vars (rpn_of e))) ND). rewrite (omap_eval p vars ND GN values env H). cbn [obind].
    unfold spread. cbn [check_is_equal functions epos]. cbn [app] in E7. subst tail.
    assert (X : omap (fun i => match nth_error (map (den_e p env) ND) i with Some v => Ret v | None => UB end) ne = Ret (kept keep 0 vs)).
    { rewrite <- (omap_kept keep _ ep vs Hv 0). rewrite !omap_nth. f_equal.
      assert (M : forall (l : list expr) idx, map (nth_error (map (den_e p env) l)) idx = map (option_map (den_e p env)) (map (nth_error l) idx)).
      { intros l idx. rewrite map_map. apply map_ext. intros i. apply nth_error_map. }
      rewrite !M, E8. reflexivity. }
    destruct (true && negb (length (map rpn_of ND) =? length ne)) eqn:Es; [exact X|].
    cbn [andb] in Es. apply negb_false_iff, Nat.eqb_eq in Es. rewrite map_length in Es. rewrite <- X. rewrite (E4 Es), <- Es. clear.
    set (r := map (den_e p env) ND). replace (length ND) with (length r) by apply map_length. clearbody r.
    assert (K : forall pre l : list Z, omap (fun i => match nth_error (pre ++ l) i with Some v => Ret v | None => UB end) (seq (length pre) (length l)) = Ret l).
    { intros pre l. revert pre. induction l as [|v l IH]; intros pre; [reflexivity|]. cbn [length seq omap]. rewrite nth_error_app2, Nat.sub_diag by lia. cbn [nth_error obind].
      replace (S (length pre)) with (length (pre ++ [v])) by (rewrite app_length; cbn; lia). replace (pre ++ v :: l) with ((pre ++ [v]) ++ l) by (rewrite <- app_assoc; reflexivity).
      rewrite IH. reflexivity. }
    symmetry. exact (K [] r).
  Qed.
End Trim.

(** ---- evaluate_pre_2 ---- *)
Section Arr.
  Variable p : Z.
  Variable values : list Z.
  Lemma exec_pre1_len t st st' : exec_pre1 p values t st = Ret st' -> length st <= length st' + 1 /\ length st' <= length st + 1.
  Proof.
    destruct t; cbn [exec_pre1].
    - destruct st as [|a [|b st]]; try discriminate. destruct (apply_op p c b a); try discriminate. cbn [obind]. intros E. injection E as <-. cbn [length]. lia.
    - destruct (nth_error values i); [|discriminate]. intros E. injection E as <-. cbn [length]. lia.
    - destruct (nth_error values i); [|discriminate]. intros E. injection E as <-. cbn [length]. lia.
    - intros E. injection E as <-. cbn [length]. lia.
  Qed.
  Lemma exec_pre_len ts : forall st st', exec_pre p values ts st = Ret st' -> length st <= length st' + length ts.
  Proof.
    induction ts as [|t ts IH]; intros st st' H; cbn [exec_pre length] in *; [injection H as <-; lia|].
    apply obind_ret in H. destruct H as [s1 [H1 H2]]. apply exec_pre1_len in H1. apply IH in H2. lia.
  Qed.
  Lemma upd_at {A} (a : list A) x b v n : n = length a -> upd (a ++ x :: b) n v = a ++ v :: b.
  Proof. intros ->. apply upd_mid. Qed.
  Lemma exec_arr_correct ts : forall st junk v, exec_pre p values ts st = Ret [v] -> length ts + length st <= S (length st + length junk) ->
    1 <= length st + length junk ->
    forall x0, exists junk', exec_arr p values ts (x0 :: rev st ++ junk, length st) = Ret (x0 :: v :: junk', 1).
  Proof.
    induction ts as [|t ts IH]; intros st junk v H L2 L3 x0; cbn [exec_pre exec_arr] in *.
    - injection H as ->. exists junk. reflexivity.
    - apply obind_ret in H. destruct H as [s1 [H1 H2]]. cbn [length] in L2.
      assert (Push : forall u, s1 = u :: st -> exists junk', obind (if S (length st) <? length (x0 :: rev st ++ junk) then Ret (upd (x0 :: rev st ++ junk) (S (length st)) u, S (length st)) else UB)
        (exec_arr p values ts) = Ret (x0 :: v :: junk', 1)).
      { intros u ->. pose proof (exec_pre_len ts _ _ H2) as L4. cbn [length] in L4.
        destruct junk as [|y junk]; [exfalso; cbn [length] in *; lia|]. cbn [length] in *.
        assert (E : (S (length st) <? S (length (rev st ++ y :: junk))) = true) by (apply Nat.ltb_lt; rewrite app_length, rev_length; cbn [length]; lia).
        rewrite E. cbn [obind]. change (upd (x0 :: rev st ++ y :: junk) (S (length st)) u) with (x0 :: upd (rev st ++ y :: junk) (length st) u).
        rewrite upd_at by (rewrite rev_length; reflexivity).
        replace (rev st ++ u :: junk) with (rev (u :: st) ++ junk) by (cbn [rev]; rewrite <- app_assoc; reflexivity).
        apply (IH (u :: st) junk v H2); cbn [length]; lia. }
      destruct t as [c|i|i|u]; cbn [exec_pre1 exec_arr1] in *.
      + destruct st as [|a [|b st]]; try discriminate. apply obind_ret in H1. destruct H1 as [r [H1 H3]]. injection H3 as <-. cbn [length].
        assert (N1 : nth_error (x0 :: rev (a :: b :: st) ++ junk) (S (length st)) = Some b).
        { cbn [nth_error rev]. rewrite <- !app_assoc. rewrite nth_error_app2 by (rewrite rev_length; lia). rewrite rev_length, Nat.sub_diag. reflexivity. }
        assert (N2 : nth_error (x0 :: rev (a :: b :: st) ++ junk) (S (S (length st))) = Some a).
        { change (nth_error (rev (a :: b :: st) ++ junk) (S (length st)) = Some a). cbn [rev]. rewrite <- !app_assoc. rewrite nth_error_app2 by (rewrite rev_length; lia). rewrite rev_length. replace (S (length st) - length st) with 1 by lia. reflexivity. }
        rewrite N1, N2, H1. cbn [obind].
        assert (U : upd (x0 :: rev (a :: b :: st) ++ junk) (S (length st)) r = x0 :: rev (r :: st) ++ (a :: junk)).
        { change (upd (x0 :: rev (a :: b :: st) ++ junk) (S (length st)) r) with (x0 :: upd (rev (a :: b :: st) ++ junk) (length st) r). f_equal. cbn [rev]. rewrite <- !app_assoc. cbn [app].
          apply upd_at. rewrite rev_length. reflexivity. }
        rewrite U. apply (IH (r :: st) (a :: junk) v H2); cbn [length] in *; lia.
      + destruct (nth_error values i); [|discriminate]. injection H1 as <-. apply (Push z eq_refl).
      + destruct (nth_error values i); [|discriminate]. injection H1 as <-. apply (Push _ eq_refl).
      + injection H1 as <-. apply (Push u eq_refl).
  Qed.
  Theorem eval_pre2_correct ts v : 2 <= length ts -> exec_pre p values ts [] = Ret [v] -> eval_pre2_1 p values ts = Ret v.
  Proof.
    intros L H. unfold eval_pre2_1. destruct ts as [|t ts]; [cbn in L; lia|]. remember (t :: ts) as l eqn:El.
    replace (repeat 0%Z (length l)) with (0%Z :: rev [] ++ repeat 0%Z (length ts)) by (subst l; reflexivity).
    destruct (exec_arr_correct l [] (repeat 0%Z (length ts)) v H) with (x0 := 0%Z) as [j E]; cbn [length]; rewrite ?repeat_length; subst l; cbn [length] in *; try lia.
    change 0 with (@length Z []) at 2. rewrite E. reflexivity.
  Qed.
End Arr.

(** ---- functions in a file ---- *)
Lemma split_semi_app a b acc : (forall c, In c a -> c <> ";"%char) -> split_semi (a ++ ";"%char :: b) acc = (acc ++ a) :: split_semi b [].
Proof.
  revert acc. induction a as [|c a IH]; intros acc H; cbn [app split_semi].
  - rewrite app_nil_r. reflexivity.
  - destruct (Ascii.eqb_spec c ";") as [E|_]; [destruct (H c (or_introl eq_refl) E)|]. rewrite IH by (intros x Hx; apply H; right; exact Hx). rewrite <- app_assoc. reflexivity.
Qed.
Lemma split_semi_last a acc : (forall c, In c a -> c <> ";"%char) -> split_semi a acc = [acc ++ a].
Proof.
  revert acc. induction a as [|c a IH]; intros acc H; cbn [split_semi]; [rewrite app_nil_r; reflexivity|].
  destruct (Ascii.eqb_spec c ";") as [E|_]; [destruct (H c (or_introl eq_refl) E)|]. rewrite IH by (intros x Hx; apply H; right; exact Hx). rewrite <- app_assoc. reflexivity.
Qed.
Lemma show_ne e : wf_e e -> show_e e <> [].
Proof.
  assert (T : forall t, wf_t t -> show_t t <> []).
  { intros t W. destruct (head_par t) eqn:H; [destruct (show_t_head_par t H) as [r ->]; discriminate|destruct (show_t_head_atom t W H) as [c [r [-> _]]]; discriminate]. }
  destruct e as [s t|e o t]; intros W E; cbn [show_e] in E; apply app_eq_nil in E.
  - exact (T t W (proj2 E)).
  - destruct E as [_ E]. apply app_eq_nil in E. exact (T t (proj2 W) (proj2 E)).
Qed.
Theorem file_spec es ls tail : Forall wf_e es -> Forall2 (fun e l => strip l = show_e e /\ forall c, In c l -> c <> ";"%char) es ls ->
  strip tail = [] -> (forall c, In c tail -> c <> ";"%char) ->
  file_functions (flat_map (fun l => l ++ [";"%char]) ls ++ tail) = map show_e es.
Proof.
  intros W F T N. unfold file_functions. induction F as [|e l es ls [E1 E2] F IH].
  - cbn [flat_map app]. rewrite split_semi_last by exact N. cbn [app map]. rewrite T. reflexivity.
  - inversion W as [|? ? We Ws]; subst. cbn [flat_map]. rewrite <- !app_assoc. cbn [app]. rewrite split_semi_app by exact E2. cbn [app map]. rewrite E1.
    cbn [filter]. pose proof (show_ne e We) as Ne. destruct (show_e e) as [|c s]; [congruence|]. cbn [negb]. rewrite IH by exact Ws. reflexivity.
Qed.
(** the same without [strip] *)
Definition plain (c : ascii) : bool := alnum c || (c =?c "+") || (c =?c "-") || (c =?c "*") || (c =?c "/") || (c =?c "^") || (c =?c "(") || (c =?c ")").
Lemma plain_word w : forallb alnum w = true -> forallb plain w = true.
Proof. induction w as [|c w IH]; [reflexivity|]. cbn [forallb]. intros H. apply andb_true_iff in H. destruct H as [A B]. rewrite (IH B). unfold plain. rewrite A. reflexivity. Qed.
Lemma digit_word w : forallb is_digit w = true -> forallb alnum w = true.
Proof. induction w as [|c w IH]; [reflexivity|]. cbn [forallb]. intros H. apply andb_true_iff in H. destruct H as [A B]. rewrite (IH B). unfold alnum. rewrite A, orb_true_r. reflexivity. Qed.
Lemma plain_show : (forall b, wf_b b -> forallb plain (show_b b) = true) /\ (forall f, wf_f f -> forallb plain (show_f f) = true) /\
  (forall t, wf_t t -> forallb plain (show_t t) = true) /\ (forall e, wf_e e -> forallb plain (show_e e) = true).
Proof.
  assert (X : forall x, wf_x x -> forallb plain (show_expo x) = true).
  { intros [|n|n|n] H; cbn [show_expo wf_x] in *; [reflexivity| | |]; destruct H as [_ H]; apply digit_word, plain_word in H; cbn [forallb]; rewrite ?forallb_app, H; reflexivity. }
  apply syntax_ind; cbn [wf_b wf_f wf_t wf_e show_b show_f show_t show_e].
  - intros w [_ H]. apply plain_word. exact H.
  - intros e IH W. cbn [forallb]. rewrite forallb_app, (IH W). reflexivity.
  - intros b IH x [W1 W2]. rewrite forallb_app, (IH W1), (X x W2). reflexivity.
  - intros f IH W. exact (IH W).
  - intros t IH f IHf [W1 W2]. rewrite forallb_app. cbn [forallb]. rewrite (IH W1), (IHf W2). reflexivity.
  - intros t IH f IHf [W1 W2]. rewrite forallb_app. cbn [forallb]. rewrite (IH W1), (IHf W2). reflexivity.
  - intros s t IH W. rewrite forallb_app, (IH W). destruct s; reflexivity.
  - intros e IH o t IHt [W1 W2]. rewrite !forallb_app, (IH W1), (IHt W2). destruct o; reflexivity.
Qed.
Lemma plain_not c d : plain c = true -> plain d = false -> c <> d.
Proof. intros A B ->. congruence. Qed.
Lemma spaced_strip w l : spaced w l -> forallb plain w = true -> strip l = w /\ forall c, In c l -> c <> ";"%char.
Proof.
  unfold strip. intros S. induction S as [|c w l Wc S IH|c w l S IH]; intros P.
  - split; [reflexivity|intros c []].
  - destruct (IH P) as [A B]. split.
    + cbn [filter]. destruct Wc as [->|[->| ->]]; exact A.
    + intros d [<-|I]; [destruct Wc as [->|[->| ->]]; discriminate|exact (B d I)].
  - cbn [forallb] in P. apply andb_true_iff in P. destruct P as [Pc P]. destruct (IH P) as [A B]. split.
    + cbn [filter]. assert (E : (c =?c " ") || (c =?c "009") || (c =?c "010") = false).
      { rewrite !orb_false_iff. repeat split; apply Ascii.eqb_neq; apply plain_not; first [exact Pc|reflexivity]. }
      rewrite E. cbn [negb]. f_equal. exact A.
    + intros d [<-|I]; [apply plain_not; [exact Pc|reflexivity]|exact (B d I)].
Qed.
Theorem file_spaced es ls tail : Forall wf_e es -> Forall2 (fun e l => spaced (show_e e) l) es ls -> spaced [] tail ->
  file_functions (flat_map (fun l => l ++ [";"%char]) ls ++ tail) = map show_e es.
Proof.
  intros W F T. destruct (spaced_strip _ _ T eq_refl) as [T1 T2]. apply file_spec; [exact W| |exact T1|exact T2].
  clear T1 T2 T. revert W. induction F as [|e l es ls S F IH]; intros W; [constructor|]. inversion W; subst. constructor; [|apply IH; assumption].
  apply spaced_strip; [exact S|]. apply plain_show. assumption.
Qed.
(** evaluate_pre_2 of the object *)
Lemma eval_pre2_elem p vars es values env e : good p vars es -> point p vars values env -> In e es -> 2 <= length (fst (pre_get p vars (rpn_of e))) ->
  eval_pre2_1 p values (fst (pre_get p vars (rpn_of e))) = Ret (den_e p env e).
Proof.
  intros G H I L. apply eval_pre2_correct; [exact L|]. destruct (good_sub _ _ _ _ G I) as [W O]. destruct H as [E V].
  destruct (string_value p vars (g_prime _ _ _ G) (g_size _ _ _ G) values env E (g_names _ _ _ G) V e W O) as [s [ts [E1 [E2 E3]]]].
  destruct (read_rpn e W) as [s' [F1 F2]]. rewrite E1 in F1. injection F1 as <-. rewrite E2 in F2. injection F2 as ->.
  destruct (precompute_exec p vars (g_prime _ _ _ G) (g_size _ _ _ G) values V (rpn_of e) _ E3) as [toks [parts [A B]]].
  unfold pre_get. rewrite A. exact B.
Qed.
Theorem evaluate_pre_2_ok p vars es kr ep values env : good p vars es -> point p vars values env ->
  Forall (fun ts => 2 <= length ts) (precomp (built p vars es false kr ep)) ->
  evaluate_pre_2 p (built p vars es false kr ep) values = Ret (map (den_e p env) es).
Proof.
  intros G H L. unfold evaluate_pre_2. cbn [built precomp] in *. rewrite (omap_map _ _ (den_e p env)); [reflexivity|].
  intros e I. rewrite Forall_forall in L. specialize (L _ (in_map _ _ _ I)). apply (eval_pre2_elem p vars es); assumption.
Qed.

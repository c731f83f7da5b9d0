(** Counting vectors over a finite set: statements that hold for all of them but few (no modelling here). *)
From Coq Require Import Permutation.
From Verif Require Import Machine FField FSum.
Open Scope nat_scope.

Section Few.
  Context {K : fops}.
  Variables (S0 : list K) (n : nat).
  Definition vec (k : nat) (v : list K) : Prop := length v = k /\ Forall (fun x => In x S0) v.
  Definition fn (v : list K) : nat -> K := fun j => nth j v f0.
  (** at most B |S|^(n-1) of the vectors violate P *)
  Definition few (B : nat) (P : (nat -> K) -> Prop) : Prop := exists bad : list (list K), length bad <= B * length S0 ^ (n - 1) /\ forall v, vec n v -> ~ In v bad -> P (fn v).
  Lemma few_true (P : (nat -> K) -> Prop) : (forall v, vec n v -> P (fn v)) -> few 0 P. Proof. intros H. exists []. split; [cbn; lia|]. intros v V _. apply H. exact V. Qed.
  Lemma few_and B B' P Q : few B P -> few B' Q -> few (B + B') (fun y => P y /\ Q y).
  Proof.
    intros [b [L H]] [b' [L' H']]. exists (b ++ b'). split; [rewrite app_length; lia|]. intros v V N. split; [apply H|apply H']; try exact V; intros I; apply N; apply in_or_app; [left|right]; exact I.
  Qed.
  Lemma few_weaken B B' (P Q : (nat -> K) -> Prop) : few B P -> B <= B' -> (forall v, vec n v -> P (fn v) -> Q (fn v)) -> few B' Q.
  Proof. intros [b [L H]] Le I. exists b. split; [nia|]. intros v V N. apply I; [exact V|]. apply H; assumption. Qed.
  Lemma few_list {A} B (P : A -> (nat -> K) -> Prop) l : (forall x, In x l -> few B (P x)) -> few (length l * B) (fun y => forall x, In x l -> P x y).
  Proof.
    induction l as [|x l IH]; intros H; [apply few_true; intros v _ x []|]. cbn [length Nat.mul]. apply (few_weaken (B + length l * B) _ (fun y => P x y /\ forall z, In z l -> P z y)); [|lia|].
    - apply few_and; [apply H; left; reflexivity|apply IH; intros z I; apply H; right; exact I].
    - intros v _ [A1 A2] z [<-|I]; [exact A1|apply A2; exact I].
  Qed.
  Lemma few_nat B (P : nat -> (nat -> K) -> Prop) m : (forall j, j < m -> few B (P j)) -> few (m * B) (fun y => forall j, j < m -> P j y).
  Proof.
    intros H. apply (few_weaken (length (seq 0 m) * B) _ (fun y => forall j, In j (seq 0 m) -> P j y)); [|rewrite seq_length; lia|].
    - apply few_list. intros j I. apply H. apply in_seq in I. lia.
    - intros v _ A j L. apply A. apply in_seq. lia.
  Qed.
  (** x in front of position i of w *)
  Definition ins (i : nat) (x : K) (w : list K) : list K := firstn i w ++ x :: skipn i w.
  Lemma ins_at i x w : i <= length w -> fn (ins i x w) i = x.
  Proof. intros L. unfold fn, ins. rewrite app_nth2; rewrite firstn_length_le by exact L; [rewrite Nat.sub_diag; reflexivity|lia]. Qed.
  Lemma ins_other i x x' w j : j <> i -> i <= length w -> fn (ins i x w) j = fn (ins i x' w) j.
  Proof.
    intros N L. unfold fn, ins. destruct (Nat.lt_ge_cases j i) as [C|C].
    - rewrite !app_nth1 by (rewrite firstn_length_le; lia). reflexivity.
    - rewrite !app_nth2 by (rewrite firstn_length_le; lia). rewrite firstn_length_le by exact L. destruct (j - i) as [|k] eqn:E; [lia|]. reflexivity.
  Qed.
  Lemma ins_vec i k x w : i <= k -> vec k w -> In x S0 -> vec (S k) (ins i x w).
  Proof.
    intros L [V1 V2] I. split; [unfold ins; rewrite app_length; cbn [length]; rewrite firstn_length_le, skipn_length by lia; lia|]. unfold ins. rewrite <- (firstn_skipn i w) in V2. apply Forall_app in V2 as [A B]. apply Forall_app. split; [exact A|]. constructor; assumption.
  Qed.
  Lemma ins_split i k v : i <= k -> vec (S k) v -> exists x w, In x S0 /\ vec k w /\ v = ins i x w.
  Proof.
    intros L [V1 V2]. pose proof (firstn_skipn i v) as E. destruct (skipn i v) as [|x r] eqn:Q; [apply (f_equal (@length K)) in Q; rewrite skipn_length in Q; cbn [length] in Q; lia|].
    rewrite <- E in V2. apply Forall_app in V2 as [A B]. apply Forall_cons_iff in B as [B1 B2]. exists x, (firstn i v ++ r).
    assert (Lr : length r = k - i) by (apply (f_equal (@length K)) in Q; rewrite skipn_length in Q; cbn [length] in Q; lia).
    assert (Lf : length (firstn i v) = i) by (apply firstn_length_le; lia). split; [exact B1|]. split; [split; [rewrite app_length; lia|apply Forall_app; split; assumption]|].
    unfold ins. rewrite firstn_app, skipn_app, Lf, Nat.sub_diag, firstn_all2 by lia. rewrite skipn_all2 by lia. cbn [firstn skipn app]. rewrite app_nil_r. symmetry. exact E.
  Qed.
  (** all vectors *)
  Fixpoint cube (k : nat) : list (list K) := match k with O => [[]] | S m => flat_map (fun w => map (fun x => x :: w) S0) (cube m) end.
  Lemma cube_length k : length (cube k) = length S0 ^ k.
  Proof.
    induction k as [|k IH]; [reflexivity|]. cbn [cube Nat.pow]. rewrite <- IH. clear. induction (cube k) as [|w l IH]; [cbn; lia|]. cbn [flat_map length]. rewrite app_length, map_length, IH. lia.
  Qed.
  Lemma in_cube k w : In w (cube k) <-> vec k w.
  Proof.
    revert w. induction k as [|k IH]; intros w; cbn [cube].
    - split; [intros [<-|[]]; split; [reflexivity|constructor]|intros [H _]; left; destruct w; [reflexivity|discriminate H]].
    - rewrite in_flat_map. split.
      + intros [u [I J]]. apply IH in I as [I1 I2]. apply in_map_iff in J as [x [<- J]]. split; [cbn [length]; lia|constructor; assumption].
      + intros [H F]. destruct w as [|x u]; [discriminate H|]. apply Forall_cons_iff in F as [F1 F2]. exists u. split; [apply IH; split; [cbn [length] in H; lia|exact F2]|]. apply in_map_iff. exists x. split; [reflexivity|exact F1].
  Qed.
  (** one coordinate at a time: for fixed other coordinates at most d values of the coordinate i are excluded *)
  Lemma few_step i d B (P Q : (nat -> K) -> Prop) : i < n -> few B Q ->
    (forall w, vec (n - 1) w -> exists R : list K, length R <= d /\ forall x, In x S0 -> ~ In x R -> Q (fn (ins i x w)) -> P (fn (ins i x w))) -> few (B + d) P.
  Proof.
    intros Hi [b [L H]] Hw.
    assert (G : forall l, Forall (vec (n - 1)) l -> exists b2 : list (list K), length b2 <= length l * d /\ forall w x, In w l -> In x S0 -> ~ In (ins i x w) b2 -> Q (fn (ins i x w)) -> P (fn (ins i x w))).
    { induction 1 as [|w l V F [b2 [L2 H2]]]; [exists []; split; [cbn; lia|intros ? ? []]|]. destruct (Hw w V) as [R [LR HR]]. exists (map (fun x => ins i x w) R ++ b2). split; [rewrite app_length, map_length; cbn [length]; lia|].
      intros w' x [<-|I] Ix N A.
      - apply HR; [exact Ix| |exact A]. intros J. apply N. apply in_or_app. left. apply in_map_iff. exists x. split; [reflexivity|exact J].
      - apply H2; [exact I|exact Ix| |exact A]. intros J. apply N. apply in_or_app. right. exact J. }
    destruct (G (cube (n - 1))) as [b2 [L2 H2]]; [apply Forall_forall; intros w I; apply in_cube; exact I|]. rewrite cube_length in L2. exists (b ++ b2). split; [rewrite app_length; nia|].
    intros v V N. destruct (ins_split i (n - 1) v) as [x [w [Ix [Vw E]]]]; [lia|replace (S (n - 1)) with n by lia; exact V|]. rewrite E. apply H2; [apply in_cube; exact Vw|exact Ix| |].
    - intros J. apply N. apply in_or_app. right. rewrite E. exact J.
    - rewrite <- E. apply H; [exact V|]. intros J. apply N. apply in_or_app. left. exact J.
  Qed.
End Few.

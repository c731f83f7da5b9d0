(** Degrees and leading coefficients of functions of one variable, their numbers of zeros, determinants of such functions (no modelling here). *)
From Verif Require Import Machine FField FSum FPoly LinAlg LinAlgProofs Det.
Open Scope nat_scope.

Fixpoint nsm (n : nat) (f : nat -> nat) : nat := match n with O => 0 | S m => nsm m f + f m end.
Lemma nsm_S_l n f : nsm (S n) f = f 0 + nsm n (fun i => f (S i)). Proof. induction n as [|n IH]; [cbn; lia|]. cbn [nsm] in *. lia. Qed.
Lemma nsm_ext n f g : (forall i, i < n -> f i = g i) -> nsm n f = nsm n g. Proof. induction n as [|n IH]; intros H; [reflexivity|]. cbn [nsm]. rewrite IH, H; auto. Qed.
Lemma nsm_add n f g : nsm n (fun i => f i + g i) = nsm n f + nsm n g. Proof. induction n as [|n IH]; [reflexivity|]. cbn [nsm]. lia. Qed.
Lemma nsm_le n f g : (forall i, i < n -> f i <= g i) -> nsm n f <= nsm n g. Proof. induction n as [|n IH]; intros H; [reflexivity|]. cbn [nsm]. pose proof (H n ltac:(lia)). pose proof (IH ltac:(auto)). lia. Qed.
Lemma nsm_skip : forall n f i, i <= n -> nsm n (fun r => f (skip i r)) + f i = nsm (S n) f.
Proof.
  induction n as [|n IH]; intros f i Hi; [assert (i = 0) as -> by lia; reflexivity|]. change (nsm (S (S n)) f) with (nsm (S n) f + f (S n)). destruct (Nat.eq_dec i (S n)) as [->|N].
  - rewrite (nsm_ext (S n) (fun r => f (skip (S n) r)) f); [lia|]. intros r Hr. unfold skip. destruct (Nat.ltb_spec r (S n)); [reflexivity|lia].
  - cbn [nsm] in *. specialize (IH f i ltac:(lia)). unfold skip at 2. destruct (Nat.ltb_spec n i); lia.
Qed.

Section Lead.
  Context {K : fops} (HK : flaws K).
  Add Field KF : (fl_field K HK).
  (** a polynomial of degree at most d, the coefficient of x^d is a *)
  Definition lead (d : nat) (a : K) (g : K -> K) : Prop := exists b, b d = a /\ forall x, g x = ueval (S d) b x.
  Definition deg (d : nat) (g : K -> K) : Prop := exists a, lead d a g.
  Lemma lead_ext d a g h : lead d a g -> (forall x, h x = g x) -> lead d a h. Proof. intros [b [H1 H2]] E. exists b. split; [exact H1|]. intros x. rewrite E. apply H2. Qed.
  Lemma deg_ext d g h : deg d g -> (forall x, h x = g x) -> deg d h. Proof. intros [a L] E. exists a. apply (lead_ext d a g); assumption. Qed.
  Lemma lead_deg d a g : lead d a g -> deg d g. Proof. intros H. exists a. exact H. Qed.
  Lemma deg_lead0 d d' g : deg d g -> d < d' -> lead d' f0 g.
  Proof.
    intros [a [b [_ H]]] L. exists (fun i => if i <? S d then b i else f0). split; [destruct (Nat.ltb_spec d' (S d)); [lia|reflexivity]|]. intros x. rewrite H.
    rewrite (ueval_trunc HK (S d') (S d)); [|lia|].
    - apply ueval_ext. intros i Hi. destruct (Nat.ltb_spec i (S d)); [reflexivity|lia].
    - intros i Hi. destruct (Nat.ltb_spec i (S d)); [lia|reflexivity].
  Qed.
  Lemma deg_up d d' g : deg d g -> d <= d' -> deg d' g. Proof. intros H L. destruct (Nat.eq_dec d d') as [<-|N]; [exact H|]. exists f0. apply (deg_lead0 d); [exact H|lia]. Qed.
  Lemma lead_add d a a' g h : lead d a g -> lead d a' h -> lead d (a + a')%K (fun x => g x + h x)%K.
  Proof. intros [b [B1 B2]] [c [C1 C2]]. exists (fun i => b i + c i)%K. split; [congruence|]. intros x. rewrite (ueval_add HK), <- B2, <- C2. reflexivity. Qed.
  Lemma lead_scale d a g c : lead d a g -> lead d (c * a)%K (fun x => c * g x)%K.
  Proof. intros [b [B1 B2]]. exists (fun i => c * b i)%K. split; [congruence|]. intros x. rewrite (ueval_scale HK), <- B2. reflexivity. Qed.
  Lemma lead_zero d : lead d f0 (fun _ => f0). Proof. exists (fun _ => f0). split; [reflexivity|]. intros x. symmetry. apply (ueval_0 HK). intros; reflexivity. Qed.
  Lemma lead_const a : lead 0 a (fun _ => a). Proof. exists (fun _ => a). split; [reflexivity|]. intros x. unfold ueval. cbn [fsum pw]. ring. Qed.
  Lemma lead_shift d a g : lead d a g -> lead (S d) a (fun x => x * g x)%K.
  Proof. intros [b [B1 B2]]. exists (fun i => match i with O => f0 | S j => b j end). split; [exact B1|]. intros x. rewrite (ueval_S_l HK (S d)), B2. change (x * ueval (S d) b x = f0 + x * ueval (S d) b x)%K. ring. Qed.
  Lemma lead_pw_mul i d a g : lead d a g -> lead (i + d) a (fun x => pw x i * g x)%K.
  Proof.
    intros H. induction i as [|i IH]; [apply (lead_ext d a g); [exact H|]; intros x; cbn [pw]; ring|]. apply (lead_ext _ _ (fun x => x * (pw x i * g x))%K); [apply lead_shift; exact IH|]. intros x. cbn [pw]. ring.
  Qed.
  Lemma lead_pw d : lead d f1 (fun x => pw x d). Proof. pose proof (lead_pw_mul d 0 f1 (fun _ => f1) (lead_const f1)) as H. rewrite Nat.add_0_r in H. apply (lead_ext _ _ _ _ H). intros x. ring. Qed.
  Lemma lead_mul d d' a a' g h : lead d a g -> lead d' a' h -> lead (d + d') (a * a')%K (fun x => g x * h x)%K.
  Proof.
    intros [b [B1 B2]] H. assert (G : forall k, lead (k + d') (b k * a')%K (fun x => ueval (S k) b x * h x)%K).
    { induction k as [|k IH].
      - apply (lead_ext _ _ (fun x => b 0%nat * h x)%K); [apply lead_scale; exact H|]. intros x. unfold ueval. cbn [fsum pw]. ring.
      - apply (lead_ext _ _ (fun x => ueval (S k) b x * h x + b (S k) * (pw x (S k) * h x))%K); [|intros x; rewrite (ueval_S (S k)); ring].
        replace (b (S k) * a')%K with (f0 + b (S k) * a')%K by ring. apply lead_add; [apply (deg_lead0 (k + d')); [apply (lead_deg _ _ _ IH)|lia]|]. apply lead_scale. exact (lead_pw_mul (S k) d' a' h H). }
    apply (lead_ext _ _ (fun x => ueval (S d) b x * h x)%K); [rewrite <- B1; apply G|]. intros x. rewrite B2. reflexivity.
  Qed.
  Lemma deg_mul d d' g h : deg d g -> deg d' h -> deg (d + d') (fun x => g x * h x)%K. Proof. intros [a A] [b B]. exists (a * b)%K. apply lead_mul; assumption. Qed.
  Lemma deg_scale d c g : deg d g -> deg d (fun x => c * g x)%K. Proof. intros [a A]. exists (c * a)%K. apply lead_scale; exact A. Qed.
  Lemma deg_add d g h : deg d g -> deg d h -> deg d (fun x => g x + h x)%K. Proof. intros [a A] [b B]. exists (a + b)%K. apply lead_add; assumption. Qed.
  Lemma deg_fsum n d (g : nat -> K -> K) : (forall j, j < n -> deg d (g j)) -> deg d (fun x => fsum n (fun j => g j x)).
  Proof. induction n as [|n IH]; intros H; [exists f0; apply lead_zero|]. cbn [fsum]. apply deg_add; [apply IH; auto|apply H; lia]. Qed.
  Lemma lead_fsum0 n d (g : nat -> K -> K) : (forall j, j < n -> lead d f0 (g j)) -> lead d f0 (fun x => fsum n (fun j => g j x)).
  Proof. induction n as [|n IH]; intros H; [apply lead_zero|]. cbn [fsum]. replace (@f0 K) with (@f0 K + f0)%K by ring. apply lead_add; [apply IH; auto|apply H; lia]. Qed.
  Lemma lead_fsum1 n d a (g : nat -> K -> K) j0 : j0 < n -> lead d a (g j0) -> (forall j, j < n -> j <> j0 -> lead d f0 (g j)) -> lead d a (fun x => fsum n (fun j => g j x)).
  Proof.
    induction n as [|n IH]; intros Hj H0 H; [lia|]. cbn [fsum]. destruct (Nat.eq_dec j0 n) as [->|N].
    - replace a with (f0 + a)%K by ring. apply lead_add; [|exact H0]. apply lead_fsum0. intros j L. apply H; lia.
    - replace a with (a + f0)%K by ring. apply lead_add; [apply IH; [lia|exact H0|intros; apply H; lia]|]. apply H; lia.
  Qed.
  (** zeros *)
  Lemma lead_roots d a g (S0 : list K) : lead d a g -> a <> f0 -> NoDup S0 -> length (filter (fun x => feqb (g x) f0) S0) <= d.
  Proof.
    intros [b [B1 B2]] Ha N. set (R := filter _ S0). destruct (Nat.le_gt_cases (length R) d) as [L|L]; [exact L|]. exfalso. apply Ha. rewrite <- B1.
    assert (NR : NoDup R) by (apply NoDup_filter; exact N).
    apply (roots_zero HK (S d) b (fun i => nth i R f0)); [| |lia].
    - intros i j Hi Hj E. apply (proj1 (NoDup_nth R f0) NR); [lia|lia|exact E].
    - intros i Hi. rewrite <- B2. assert (I : In (nth i R f0) R) by (apply nth_In; lia). apply filter_In in I as [_ I]. apply (fl_eqb K HK). exact I.
  Qed.
  (** differences of powers *)
  Lemma lead_diff_hi a b : b < a -> lead a f1 (fun z => pw z a - pw z b)%K.
  Proof.
    intros L. replace (@f1 K) with (@f1 K + - f1 * f0)%K by ring. apply (lead_ext _ _ (fun z => pw z a + - f1 * pw z b)%K); [|intros; ring].
    apply lead_add; [apply lead_pw|]. apply lead_scale. apply (deg_lead0 b); [apply (lead_deg _ _ _ (lead_pw b))|exact L].
  Qed.
  Lemma lead_diff_lo a b : a < b -> lead b (- f1)%K (fun z => pw z a - pw z b)%K.
  Proof. intros L. replace (- @f1 K)%K with (- @f1 K * f1)%K by ring. apply (lead_ext _ _ (fun z => - f1 * (pw z b - pw z a))%K); [apply lead_scale; apply lead_diff_hi; exact L|intros; ring]. Qed.
  Lemma lead_nodal_hi m e : forall k, (forall l, l < k -> m l < e) -> lead (k * e) f1 (fun z => nodal k (fun l => pw z (m l)) (pw z e)).
  Proof.
    induction k as [|k IH]; intros H; cbn [nodal Nat.mul]; [apply lead_const|]. rewrite Nat.add_comm. replace (@f1 K) with (@f1 K * f1)%K by ring. apply lead_mul; [apply IH; auto|apply lead_diff_hi; apply H; lia].
  Qed.
  Lemma lead_nodal_lo m e : forall i, (forall l, l < i -> e < m l) -> lead (nsm i m) (pw (- @f1 K) i)%K (fun z => nodal i (fun l => pw z (m l)) (pw z e)).
  Proof.
    induction i as [|i IH]; intros H; cbn [nodal nsm pw]; [apply lead_const|]. replace (- @f1 K * pw (- f1) i)%K with (pw (- @f1 K) i * - f1)%K by ring. apply lead_mul; [apply IH; auto|apply lead_diff_lo; apply H; lia].
  Qed.
  Lemma pw_opp1_sq i : (pw (- @f1 K) i * pw (- f1) i = f1)%K. Proof. induction i as [|i IH]; cbn [pw]; [ring|]. replace (- @f1 K * pw (- f1) i * (- f1 * pw (- f1) i))%K with (pw (- @f1 K) i * pw (- f1) i)%K by ring. exact IH. Qed.

  (** determinants *)
  Lemma det_deg : forall n (A : K -> nat -> nat -> K) R C, (forall r c, r < n -> c < n -> deg (R r + C c) (fun x => A x r c)) -> deg (nsm n R + nsm n C) (fun x => det n (A x)).
  Proof.
    induction n as [|n IH]; intros A R C H; [exists f1; apply lead_const|]. cbn [det]. apply deg_fsum. intros i Hi.
    assert (Hm : deg (nsm n (fun r => R (skip i r)) + nsm n (fun c => C (S c))) (fun x => det n (fun r c => A x (skip i r) (S c)))) by (apply (IH (fun x r c => A x (skip i r) (S c)) (fun r => R (skip i r)) (fun c => C (S c))); intros r c Hr Hc; apply H; [apply skip_lt; lia|lia]).
    pose proof (nsm_skip n R i ltac:(lia)) as Q. pose proof (nsm_S_l n C) as Q2.
    apply (deg_up ((R i + C 0) + (nsm n (fun r => R (skip i r)) + nsm n (fun c => C (S c))))); [|lia]. apply deg_mul; [|exact Hm]. apply deg_scale. apply H; lia.
  Qed.
  Lemma det_lead : forall n (A : K -> nat -> nat -> K) R C M a, (forall i j, i < j -> j < n -> M j < M i) ->
    (forall r c, r < n -> c < n -> deg (R r + C c + M (Nat.max r c)) (fun x => A x r c)) -> (forall r, r < n -> lead (R r + C r + M r) (a r) (fun x => A x r r)) ->
    lead (nsm n R + nsm n C + nsm n M) (fprod n a) (fun x => det n (A x)).
  Proof.
    induction n as [|n IH]; intros A R C M a HM H Hd; [apply lead_const|]. cbn [det]. apply lead_fsum1 with (j0 := 0); [lia| |].
    - rewrite (fprod_S_l HK). replace (nsm (S n) R + nsm (S n) C + nsm (S n) M) with ((R 0 + C 0 + M 0) + (nsm n (fun i => R (S i)) + nsm n (fun i => C (S i)) + nsm n (fun i => M (S i)))) by (rewrite !nsm_S_l; lia).
      apply lead_mul.
      + apply (lead_ext _ _ (fun x => A x 0 0)); [apply Hd; lia|]. intros x. unfold sgn. cbn [Nat.even]. ring.
      + apply (lead_ext _ _ (fun x => det n (fun r c => A x (S r) (S c)))); [|intros x; apply det_ext; intros r c Hr Hc; reflexivity].
        apply (IH (fun x r c => A x (S r) (S c)) (fun i => R (S i)) (fun i => C (S i)) (fun i => M (S i)) (fun i => a (S i))); [intros i j Hi Hj; apply HM; lia| |intros r Hr; apply Hd; lia].
        intros r c Hr Hc. change (S (Nat.max r c)) with (Nat.max (S r) (S c)). apply H; lia.
    - intros i Hi N. pose proof (nsm_skip n R i ltac:(lia)) as Q. pose proof (nsm_S_l n C) as Q2. pose proof (nsm_S_l n M) as Q3. pose proof (HM 0 i ltac:(lia) ltac:(lia)) as Q4.
      apply (deg_lead0 ((R i + C 0 + M i) + (nsm n (fun r => R (skip i r)) + nsm n (fun c => C (S c) + M (S c))))); [|rewrite nsm_add; lia].
      apply deg_mul; [apply deg_scale; pose proof (H i 0 Hi ltac:(lia)) as X; rewrite Nat.max_0_r in X; exact X|].
      apply (det_deg n (fun x r c => A x (skip i r) (S c)) (fun r => R (skip i r)) (fun c => C (S c) + M (S c))). intros r c Hr Hc. pose proof (skip_lt i r n ltac:(lia) Hr) as Sk. pose proof (H (skip i r) (S c) Sk ltac:(lia)) as X. apply (deg_up _ _ _ X).
      assert (Mx : M (Nat.max (skip i r) (S c)) <= M (S c)) by (destruct (Nat.le_gt_cases (skip i r) (S c)); [rewrite Nat.max_r by lia; lia|rewrite Nat.max_l by lia; pose proof (HM (S c) (skip i r) ltac:(lia) ltac:(lia)); lia]). lia.
  Qed.
  Lemma det_kernel n (A : nat -> nat -> K) al k : k < n -> al k <> f0 -> (forall c, c < n -> fsum n (fun r => al r * A r c)%K = f0) -> det n A = f0.
  Proof.
    intros Hk Ha H. assert (Z : det n (put_row A k (fun _ => f0)) = f0).
    { rewrite (det_scale_row HK n A (put_row A k (fun _ => f0)) k f0 Hk); [ring| |]; intros; [rewrite put_other by assumption; reflexivity|rewrite put_same; ring]. }
    assert (G : forall m, m <= n -> det n (put_row A k (fun c => fsum m (fun r => al r * A r c)%K)) = if k <? m then (al k * det n A)%K else f0).
    { induction m as [|m IH]; intros Hm; [exact Z|]. cbn [fsum]. rewrite (det_put_linear HK n A k (fun c => fsum m (fun r => al r * A r c)%K) (fun c => A m c) (al m) Hk), IH by lia.
      destruct (Nat.eq_dec k m) as [<-|N].
      - destruct (Nat.ltb_spec k k); [lia|]. destruct (Nat.ltb_spec k (S k)); [|lia]. rewrite (det_ext n (put_row A k (fun c => A k c)) A); [ring|]. intros r c _ _. unfold put_row. destruct (Nat.eqb_spec r k) as [->|]; reflexivity.
      - rewrite (det_equal_rows HK n (put_row A k (fun c => A m c)) m k); [|lia|lia|lia|intros c Hc; rewrite put_same, put_other by lia; reflexivity]. destruct (Nat.ltb_spec k m), (Nat.ltb_spec k (S m)); try lia; ring. }
    specialize (G n ltac:(lia)). destruct (Nat.ltb_spec k n); [|lia]. rewrite (det_ext n _ (put_row A k (fun _ => f0))) in G.
    - rewrite Z in G. symmetry in G. apply (fmul_0 HK) in G as [G|G]; [contradiction|exact G].
    - intros r c Hr Hc. unfold put_row. destruct (r =? k); [apply H; exact Hc|reflexivity].
  Qed.
End Lead.

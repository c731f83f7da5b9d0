From Coq Require Import QArith Qreduction Znumtheory.
From Verif Require Import Machine RatNum.
Open Scope Z_scope.

(** Representation invariant and value. *)
Definition rn_wf (a : rn) : Prop := 0 < den a /\ Z.gcd (num a) (den a) = 1.
Definition rn_val (a : rn) : Q := Qmake (num a) (Z.to_pos (den a)).

Lemma rn_reduce_ok n d : 0 < d -> exists r, rn_reduce n d = Some r /\ rn_wf r /\
  num r * d = n * den r.
Proof.
  intros Hd. unfold rn_reduce, zdiv.
  pose proof (Z.gcd_nonneg n d) as G0.
  assert (GN : Z.gcd n d <> 0) by (intros E; apply Z.gcd_eq_0_r in E; lia).
  destruct (Z.gcd n d =? 0) eqn:C; [lia|].
  eexists. split; [reflexivity|].
  destruct (Z.gcd_divide_l n d) as [x Hx]. destruct (Z.gcd_divide_r n d) as [y Hy].
  set (g := Z.gcd n d) in *.
  assert (Qn : Z.quot n g = x) by (rewrite Hx at 1; apply Z.quot_mul; lia).
  assert (Qd : Z.quot d g = y) by (rewrite Hy at 1; apply Z.quot_mul; lia).
  rewrite Qn, Qd. unfold rn_wf. cbn [num den]. split; [split|].
  - nia.
  - assert (E : g = g * Z.gcd x y).
    { unfold g at 1. rewrite Hx, Hy at 1. rewrite Z.gcd_mul_mono_r_nonneg by lia. ring. }
    pose proof (Z.gcd_nonneg x y). nia.
  - rewrite Hx, Hy at 1. ring.
Qed.

Lemma rn_reduce_zero : rn_reduce 0 0 = None. Proof. reflexivity. Qed.

Lemma rn_reduce_neg n d : d < 0 -> exists r, rn_reduce n d = Some r /\ rn_wf (mk_rn (- num r) (- den r)) /\
  num r * d = n * den r /\ den r < 0.
Proof.
  intros Hd. destruct (rn_reduce_ok (- n) (- d) ltac:(lia)) as (r & E & W & V).
  unfold rn_reduce, zdiv in *. rewrite Z.gcd_opp_l, Z.gcd_opp_r in E.
  destruct (Z.gcd n d =? 0) eqn:C; [discriminate|].
  inversion E; subst r. cbn [num den] in *. eexists. split; [reflexivity|].
  unfold rn_wf in *. cbn [num den] in *.
  assert (GN : Z.gcd n d <> 0) by lia.
  rewrite !Z.quot_opp_l in * by exact GN.
  destruct W as [W1 W2]. split; [split; [exact W1|exact W2]|]. split; lia.
Qed.

Lemma val_eq a b : 0 < den a -> 0 < den b -> (rn_val a == rn_val b)%Q <-> num a * den b = num b * den a.
Proof.
  intros Ha Hb. unfold rn_val, Qeq. cbn [Qnum Qden]. rewrite !Z2Pos.id by assumption. reflexivity.
Qed.

Lemma fix_sign_pos r : 0 < den r -> rn_fix_sign r = r.
Proof. intros H. unfold rn_fix_sign. destruct (den r <? 0) eqn:C; [lia|reflexivity]. Qed.

Lemma rn_make_ok n d : d <> 0 -> exists r, rn_make n d = Some r /\ rn_wf r /\ num r * d = n * den r.
Proof.
  intros Hd. unfold rn_make. destruct (Z_lt_le_dec d 0) as [H|H].
  - destruct (rn_reduce_neg n d H) as (r & E & W & V & S). rewrite E. cbn [option_map].
    eexists. split; [reflexivity|]. unfold rn_fix_sign. destruct (den r <? 0) eqn:C; [|lia].
    split; [exact W|]. cbn [num den]. lia.
  - destruct (rn_reduce_ok n d ltac:(lia)) as (r & E & W & V). rewrite E. cbn [option_map].
    eexists. split; [reflexivity|]. destruct W as [W1 W2]. rewrite fix_sign_pos by exact W1.
    split; [split; assumption|exact V].
Qed.

(** constructor value as a rational number *)
Lemma rn_make_val n d : d <> 0 -> exists r, rn_make n d = Some r /\ rn_wf r /\
  (rn_val r == inject_Z n / inject_Z d)%Q.
Proof.
  intros Hd. destruct (rn_make_ok n d Hd) as (r & E & W & V). exists r. split; [exact E|]. split; [exact W|].
  destruct W as [W1 W2].
  assert (ND : ~ (inject_Z d == 0)%Q) by (unfold Qeq; cbn; lia).
  apply (Qmult_inj_r _ _ (inject_Z d) ND). unfold Qdiv. rewrite <- Qmult_assoc, (Qmult_comm (/ _)), Qmult_inv_r, Qmult_1_r by exact ND.
  unfold rn_val, inject_Z, Qmult, Qeq. cbn [Qnum Qden].
  rewrite Pos.mul_1_r, Z2Pos.id by exact W1. lia.
Qed.

Lemma rn_add_ok a b : rn_wf a -> rn_wf b -> exists r, rn_add_assign a b = Some r /\ rn_wf r /\
  (rn_val r == rn_val a + rn_val b)%Q.
Proof.
  intros [A1 A2] [B1 B2]. unfold rn_add_assign.
  set (s := if den b =? den a then mk_rn (num a + num b) (den a)
            else mk_rn (num a * den b + num b * den a) (den a * den b)).
  assert (S : 0 < den s /\ (num s) * (den a * den b) = (num a * den b + num b * den a) * den s).
  { unfold s. destruct (den b =? den a) eqn:C; cbn [num den]; [|nia].
    apply Z.eqb_eq in C. rewrite C. nia. }
  destruct S as [S1 S2].
  destruct (rn_reduce_ok (num s) (den s) S1) as (r & E & W & V).
  exists r. split; [exact E|]. split; [exact W|]. destruct W as [W1 W2].
  unfold rn_val, Qplus, Qeq. cbn [Qnum Qden]. rewrite Pos2Z.inj_mul, !Z2Pos.id by assumption.
  apply (Z.mul_reg_r _ _ (den s)); [lia|].
  transitivity (num r * den s * (den a * den b)); [ring|]. rewrite V.
  transitivity (num s * (den a * den b) * den r); [ring|]. rewrite S2. ring.
Qed.

Lemma rn_sub_ok a b : rn_wf a -> rn_wf b -> exists r, rn_sub_assign a b = Some r /\ rn_wf r /\
  (rn_val r == rn_val a - rn_val b)%Q.
Proof.
  intros [A1 A2] [B1 B2]. unfold rn_sub_assign.
  set (s := if den b =? den a then mk_rn (num a - num b) (den a)
            else mk_rn (num a * den b - num b * den a) (den a * den b)).
  assert (S : 0 < den s /\ (num s) * (den a * den b) = (num a * den b - num b * den a) * den s).
  { unfold s. destruct (den b =? den a) eqn:C; cbn [num den]; [|nia].
    apply Z.eqb_eq in C. rewrite C. nia. }
  destruct S as [S1 S2]. rewrite fix_sign_pos by exact S1.
  destruct (rn_reduce_ok (num s) (den s) S1) as (r & E & W & V).
  exists r. split; [exact E|]. split; [exact W|]. destruct W as [W1 W2].
  unfold rn_val, Qminus, Qopp, Qplus, Qeq. cbn [Qnum Qden]. rewrite Pos2Z.inj_mul, !Z2Pos.id by assumption.
  apply (Z.mul_reg_r _ _ (den s)); [lia|].
  transitivity (num r * den s * (den a * den b)); [ring|]. rewrite V.
  transitivity (num s * (den a * den b) * den r); [ring|]. rewrite S2. ring.
Qed.

Lemma rn_mul_assign_ok a b : rn_wf a -> rn_wf b -> exists r, rn_mul_assign a b = Some r /\ rn_wf r /\
  (rn_val r == rn_val a * rn_val b)%Q.
Proof.
  intros [A1 A2] [B1 B2]. unfold rn_mul_assign.
  set (s := mk_rn (num a * num b) (den a * den b)).
  assert (S1 : 0 < den s) by (cbn [s den]; nia).
  rewrite fix_sign_pos by exact S1.
  destruct (rn_reduce_ok (num s) (den s) S1) as (r & E & W & V).
  exists r. split; [exact E|]. split; [exact W|]. destruct W as [W1 W2].
  unfold rn_val, Qmult, Qeq. cbn [Qnum Qden]. rewrite Pos2Z.inj_mul, !Z2Pos.id by assumption.
  exact V.
Qed.

Lemma rn_opp_ok a : rn_wf a -> exists r, rn_opp a = Some r /\ rn_wf r /\ (rn_val r == - rn_val a)%Q.
Proof.
  intros [A1 A2]. unfold rn_opp. destruct (rn_make_ok (- num a) (den a) ltac:(lia)) as (r & E & W & V).
  exists r. split; [exact E|]. split; [exact W|]. destruct W as [W1 W2].
  unfold rn_val, Qopp, Qeq. cbn [Qnum Qden]. rewrite !Z2Pos.id by assumption. exact V.
Qed.

Lemma wf_unique a b : rn_wf a -> rn_wf b -> (rn_val a == rn_val b)%Q -> a = b.
Proof.
  intros [A1 A2] [B1 B2] V. apply val_eq in V; [|assumption..].
  destruct a as [na da], b as [nb db]. cbn [num den] in *.
  assert (D1 : (da | db)).
  { apply Z.gauss with na; [|rewrite Z.gcd_comm; exact A2]. exists nb. lia. }
  assert (D2 : (db | da)).
  { apply Z.gauss with nb; [|rewrite Z.gcd_comm; exact B2]. exists na. lia. }
  assert (da = db) by (apply Z.divide_antisym_nonneg; [lia|lia|exact D1|exact D2]). subst db.
  f_equal. nia.
Qed.

Lemma rn_eqb_ok a b : rn_wf a -> rn_wf b -> rn_eqb a b = true <-> (rn_val a == rn_val b)%Q.
Proof.
  intros Ha Hb. unfold rn_eqb. split.
  - intros E. apply andb_true_iff in E. destruct E as [E1 E2].
    apply Z.eqb_eq in E1, E2. unfold rn_val. rewrite E1, E2. reflexivity.
  - intros V. rewrite (wf_unique a b Ha Hb V), !Z.eqb_refl. reflexivity.
Qed.

Lemma rn_make_exact n d : 0 < d -> Z.gcd n d = 1 -> rn_make n d = Some (mk_rn n d).
Proof.
  intros Hd HG. unfold rn_make, rn_reduce, zdiv. rewrite HG. cbn [Z.eqb option_map].
  rewrite !Z.quot_1_r. rewrite fix_sign_pos by exact Hd. reflexivity.
Qed.

(** arbitrary histories *)
Definition op_wf (o : rn_op) : Prop :=
  match o with
  | OpAdd b | OpSub b | OpMulAssign b | OpMul b => rn_wf b
  | OpNeg => True
  end.
Definition op_val (q : Q) (o : rn_op) : Q :=
  match o with
  | OpAdd b => q + rn_val b
  | OpSub b => q - rn_val b
  | OpMulAssign b | OpMul b => q * rn_val b
  | OpNeg => - q
  end.

Lemma rn_step_ok a o : rn_wf a -> op_wf o -> exists r, rn_step a o = Some r /\ rn_wf r /\
  (rn_val r == op_val (rn_val a) o)%Q.
Proof.
  intros Ha Ho. destruct o as [b|b|b|b|]; cbn [rn_step op_wf op_val] in *.
  - apply rn_add_ok; assumption.
  - apply rn_sub_ok; assumption.
  - apply rn_mul_assign_ok; assumption.
  - destruct (rn_mul_assign_ok a b Ha Ho) as (r & E & W & V). unfold rn_mul. rewrite E. cbn [option_map snd].
    exists r. auto.
  - apply rn_opp_ok; exact Ha.
Qed.

Lemma op_val_proper q q' o : (q == q')%Q -> (op_val q o == op_val q' o)%Q.
Proof. intros E. destruct o; cbn [op_val]; rewrite E; reflexivity. Qed.

Lemma fold_op_proper os : forall q q', (q == q')%Q -> (fold_left op_val os q == fold_left op_val os q')%Q.
Proof.
  induction os as [|o os IH]; intros q q' E; [exact E|]. cbn [fold_left]. apply IH, op_val_proper, E.
Qed.

Lemma rn_run_ok os : forall a, rn_wf a -> Forall op_wf os -> exists r, rn_run a os = Some r /\ rn_wf r /\
  (rn_val r == fold_left op_val os (rn_val a))%Q.
Proof.
  induction os as [|o os IH]; intros a Ha Hos.
  - exists a. cbn [rn_run fold_left]. split; [reflexivity|]. split; [exact Ha|reflexivity].
  - inversion_clear Hos as [|? ? Ho Hos']. destruct (rn_step_ok a o Ha Ho) as (r & E & W & V).
    destruct (IH r W Hos') as (r' & E' & W' & V'). exists r'.
    cbn [rn_run fold_left]. rewrite E. split; [exact E'|]. split; [exact W'|].
    rewrite V'. apply fold_op_proper, V.
Qed.

(** gcd of two rational numbers (lines 123-127): gcd(a,b) divides both, with coprime integer quotients *)
Lemma rn_gcd_ok a b : rn_wf a -> rn_wf b -> (num a <> 0 \/ num b <> 0) ->
  exists r x y, rn_gcd a b = Some r /\ rn_wf r /\ 0 < num r /\
   (rn_val a == inject_Z x * rn_val r)%Q /\ (rn_val b == inject_Z y * rn_val r)%Q /\ Z.gcd x y = 1.
Proof.
  intros [A1 A2] [B1 B2] NZ. unfold rn_gcd.
  set (g := Z.gcd (num a * den b) (num b * den a)).
  assert (DD : 0 < den a * den b) by nia.
  destruct (rn_make_ok g (den a * den b) ltac:(lia)) as (r & E & W & V).
  destruct (Z.gcd_divide_l (num a * den b) (num b * den a)) as [x Hx].
  destruct (Z.gcd_divide_r (num a * den b) (num b * den a)) as [y Hy].
  fold g in Hx, Hy.
  assert (G0 : 0 < g).
  { pose proof (Z.gcd_nonneg (num a * den b) (num b * den a)) as G. fold g in G.
    assert (g <> 0); [|lia]. intros G1. rewrite G1 in *. nia. }
  exists r, x, y. split; [exact E|]. split; [exact W|]. destruct W as [W1 W2].
  split; [nia|].
  assert (HV : forall c z, 0 < den c -> num c * (den a * den b) = z * g * den c ->
     (rn_val c == inject_Z z * rn_val r)%Q).
  { intros c z Hc H. unfold rn_val, inject_Z, Qmult, Qeq. cbn [Qnum Qden].
    rewrite Pos.mul_1_l, !Z2Pos.id by assumption.
    apply (Z.mul_reg_r _ _ (den a * den b)); [lia|].
    replace (num c * den r * (den a * den b)) with (num c * (den a * den b) * den r) by ring.
    rewrite H. replace (z * num r * den c * (den a * den b)) with (z * den c * (num r * (den a * den b))) by ring.
    rewrite V. ring. }
  split; [apply HV; [exact A1|]|split; [apply HV; [exact B1|]|]].
  - rewrite <- Hx. ring.
  - rewrite <- Hy. ring.
  - assert (EE : g = g * Z.gcd x y).
    { unfold g at 1. rewrite Hx, Hy. rewrite Z.gcd_mul_mono_r_nonneg by lia. ring. }
    pose proof (Z.gcd_nonneg x y). nia.
Qed.

(** xoshiro256**: no short cycles, hence get_rand_64 returns *)
From Coq Require Import Znumtheory.
From Verif Require Import Machine FFInt FFIntProofs Prng PrngProofs.
Open Scope Z_scope.

(** the four words *)
Definition words : Type := (Z * Z * Z * Z)%type.
Definition wxor (a b : words) : words :=
  match a, b with (a0, a1, a2, a3), (b0, b1, b2, b3) => (Z.lxor a0 b0, Z.lxor a1 b1, Z.lxor a2 b2, Z.lxor a3 b3) end.
Definition w0 : words := (0, 0, 0, 0).
Definition wok (a : words) : Prop := match a with (a0, a1, a2, a3) => u64 a0 /\ u64 a1 /\ u64 a2 /\ u64 a3 end.
Definition T (a : words) : words :=
  match a with (s0, s1, s2, s3) =>
    let t := wrap64 (Z.shiftl s1 17) in
    let s2 := Z.lxor s2 s0 in let s3 := Z.lxor s3 s1 in let s1 := Z.lxor s1 s2 in let s0 := Z.lxor s0 s3 in
    (s0, s1, Z.lxor s2 t, rol64 s3 45) end.
Definition ws (g : rng) : words := (x0 g, x1 g, x2 g, x3 g).
Lemma ws_next g : ws (xo_next g) = T (ws g).
Proof. reflexivity. Qed.

Lemma wrap64_bit z n : 0 <= n -> Z.testbit (wrap64 z) n = (n <? 64) && Z.testbit z n.
Proof.
  intros Hn. unfold wrap64. rewrite two64_pow. destruct (Z.ltb_spec n 64); [rewrite Z.mod_pow2_bits_low by lia; reflexivity|rewrite Z.mod_pow2_bits_high by lia; reflexivity].
Qed.
Lemma wrap64_lxor a b : wrap64 (Z.lxor a b) = Z.lxor (wrap64 a) (wrap64 b).
Proof. apply Z.bits_inj'. intros n Hn. rewrite Z.lxor_spec, !wrap64_bit, Z.lxor_spec by lia. destruct (n <? 64); cbn; [reflexivity|reflexivity]. Qed.
Lemma rol64_bit x k n : u64 x -> 0 <= k <= 64 -> 0 <= n ->
  Z.testbit (rol64 x k) n = if n <? k then Z.testbit x (n + (64 - k)) else (n <? 64) && Z.testbit x (n - k).
Proof.
  intros Hx Hk Hn. unfold rol64. rewrite Z.lor_spec, wrap64_bit, Z.shiftl_spec, Z.shiftr_spec by lia. destruct (Z.ltb_spec n k).
  - rewrite (Z.testbit_neg_r x (n - k)) by lia. rewrite andb_false_r. reflexivity.
  - rewrite (testbit_high x 64 (n + (64 - k))); [apply orb_false_r| |lia]. unfold u64 in Hx. rewrite two64_pow in Hx. exact Hx.
Qed.
Lemma rol64_lxor x y k : u64 x -> u64 y -> 0 <= k <= 64 -> rol64 (Z.lxor x y) k = Z.lxor (rol64 x k) (rol64 y k).
Proof.
  intros Hx Hy Hk. apply Z.bits_inj'. intros n Hn. rewrite Z.lxor_spec, !rol64_bit by (auto using u64_lxor). rewrite !Z.lxor_spec.
  destruct (n <? k); [reflexivity|]. destruct (n <? 64); reflexivity.
Qed.
Lemma wok_xor a b : wok a -> wok b -> wok (wxor a b).
Proof. destruct a as [[[a0 a1] a2] a3], b as [[[b0 b1] b2] b3]. cbn. intuition auto using u64_lxor. Qed.
Lemma wok_T a : wok a -> wok (T a).
Proof.
  destruct a as [[[a0 a1] a2] a3]. cbn [wok T]. intros [A [B [C D]]]. repeat split; try apply u64_lxor; try apply u64_lxor; auto using u64_lxor, u64_wrap;
  try (apply u64_rol; [apply u64_lxor; assumption|lia]); repeat apply u64_lxor; auto using u64_wrap.
Qed.
Lemma T_xor a b : wok a -> wok b -> T (wxor a b) = wxor (T a) (T b).
Proof.
  destruct a as [[[a0 a1] a2] a3], b as [[[b0 b1] b2] b3]. cbn [wok T wxor]. intros [A0 [A1 [A2 A3]]] [B0 [B1 [B2 B3]]].
  assert (X : forall a b c d, Z.lxor (Z.lxor a b) (Z.lxor c d) = Z.lxor (Z.lxor a c) (Z.lxor b d)).
  { intros. apply Z.bits_inj'. intros n _. rewrite !Z.lxor_spec. destruct (Z.testbit a n), (Z.testbit b n), (Z.testbit c n), (Z.testbit d n); reflexivity. }
  rewrite Z.shiftl_lxor, wrap64_lxor. rewrite (X a2 b2 a0 b0), (X a3 b3 a1 b1). rewrite rol64_lxor by (auto using u64_lxor; lia).
  rewrite !(X _ _ (Z.lxor _ _) (Z.lxor _ _)). rewrite (X (Z.lxor a2 a0)). reflexivity.
Qed.
Lemma T_0 : T w0 = w0. Proof. reflexivity. Qed.
Lemma wok_0 : wok w0. Proof. cbn. unfold u64, two64. lia. Qed.
Lemma wxor_self a : wxor a a = w0.
Proof. destruct a as [[[a0 a1] a2] a3]. cbn. rewrite !Z.lxor_nilpotent. reflexivity. Qed.
Lemma wxor_0_r a : wxor a w0 = a.
Proof. destruct a as [[[a0 a1] a2] a3]. cbn. rewrite !Z.lxor_0_r. reflexivity. Qed.
Lemma wxor_0_l a : wxor w0 a = a.
Proof. destruct a as [[[a0 a1] a2] a3]. cbn. rewrite ?Z.lxor_0_l. reflexivity. Qed.
Lemma wxor_comm a b : wxor a b = wxor b a.
Proof. destruct a as [[[a0 a1] a2] a3], b as [[[b0 b1] b2] b3]. cbn. f_equal; [f_equal; [f_equal|]|]; apply Z.lxor_comm. Qed.
Lemma wxor_assoc a b c : wxor (wxor a b) c = wxor a (wxor b c).
Proof. destruct a as [[[a0 a1] a2] a3], b as [[[b0 b1] b2] b3], c as [[[c0 c1] c2] c3]. cbn. rewrite !Z.lxor_assoc. reflexivity. Qed.
Lemma wxor_4 a b c d : wxor (wxor a b) (wxor c d) = wxor (wxor a c) (wxor b d).
Proof. rewrite !wxor_assoc. f_equal. rewrite <- !wxor_assoc. f_equal. apply wxor_comm. Qed.
Lemma wxor_eq a b : wxor a b = w0 -> a = b.
Proof.
  destruct a as [[[a0 a1] a2] a3], b as [[[b0 b1] b2] b3]. cbn. intros H. injection H as H0 H1 H2 H3.
  apply Z.lxor_eq in H0, H1, H2, H3. subst. reflexivity.
Qed.

(** ** polynomials over F2 (highest coefficient first) acting on states by Horner's rule *)
Definition pick (b : bool) (x : words) : words := if b then x else w0.
Definition hact (acc : words) (p : list bool) (x : words) : words := fold_left (fun a b => wxor (T a) (pick b x)) p acc.
Definition act (p : list bool) (x : words) : words := hact w0 p x.
Lemma wok_pick b x : wok x -> wok (pick b x).
Proof. destruct b; [auto|intros _; exact wok_0]. Qed.
Lemma wok_iter n x : wok x -> wok (Nat.iter n T x).
Proof. intros H. induction n as [|n IH]; [exact H|]. apply wok_T. exact IH. Qed.
Lemma wok_hact p : forall a x, wok a -> wok x -> wok (hact a p x).
Proof. induction p as [|b p IH]; intros a x Ha Hx; [exact Ha|]. apply IH; [|exact Hx]. apply wok_xor; [apply wok_T; exact Ha|apply wok_pick; exact Hx]. Qed.
Lemma wok_act p x : wok x -> wok (act p x).
Proof. intros H. apply wok_hact; [exact wok_0|exact H]. Qed.
Lemma iter_S n (x : words) : Nat.iter (S n) T x = Nat.iter n T (T x).
Proof. induction n as [|n IH]; [reflexivity|]. change (Nat.iter (S (S n)) T x) with (T (Nat.iter (S n) T x)). rewrite IH. reflexivity. Qed.
Lemma iter_xor n : forall a b, wok a -> wok b -> Nat.iter n T (wxor a b) = wxor (Nat.iter n T a) (Nat.iter n T b).
Proof. induction n as [|n IH]; intros a b Ha Hb; [reflexivity|]. rewrite !iter_S, T_xor by assumption. apply IH; apply wok_T; assumption. Qed.
Lemma iter_add m n (x : words) : Nat.iter (m + n) T x = Nat.iter m T (Nat.iter n T x).
Proof. induction m as [|m IH]; [reflexivity|]. change (Nat.iter (S m + n) T x) with (T (Nat.iter (m + n) T x)). rewrite IH. reflexivity. Qed.
Lemma iter_T_0 n : Nat.iter n T w0 = w0.
Proof. induction n as [|n IH]; [reflexivity|]. rewrite iter_S. exact IH. Qed.
Lemma hact_split p : forall a x, wok a -> wok x -> hact a p x = wxor (Nat.iter (length p) T a) (act p x).
Proof.
  induction p as [|b p IH]; intros a x Ha Hx; [cbn [hact fold_left length Nat.iter nat_rect]; unfold act; cbn [hact fold_left]; rewrite wxor_0_r; reflexivity|].
  unfold act. cbn [hact fold_left length]. change (fold_left (fun a b => wxor (T a) (pick b x)) p ?y) with (hact y p x).
  rewrite !IH by (try exact Hx; apply wok_xor; try apply wok_pick; try apply wok_T; assumption || exact wok_0).
  rewrite iter_S, T_0, wxor_0_l. rewrite iter_xor by (try apply wok_pick; try apply wok_T; assumption). apply wxor_assoc.
Qed.
Lemma act_app p q x : wok x -> act (p ++ q) x = wxor (Nat.iter (length q) T (act p x)) (act q x).
Proof. intros Hx. unfold act at 1, hact. rewrite fold_left_app. apply hact_split; [apply wok_act; exact Hx|exact Hx]. Qed.
Lemma act_one_coef b x : act [b] x = pick b x.
Proof. unfold act, hact. cbn [fold_left]. rewrite T_0, wxor_0_l. reflexivity. Qed.
Lemma act_snoc p b x : wok x -> act (p ++ [b]) x = wxor (T (act p x)) (pick b x).
Proof. intros Hx. rewrite act_app by exact Hx. rewrite act_one_coef. reflexivity. Qed.
Lemma act_cons b p x : wok x -> act (b :: p) x = wxor (Nat.iter (length p) T (pick b x)) (act p x).
Proof. intros Hx. change (b :: p) with ([b] ++ p). rewrite act_app by exact Hx. rewrite act_one_coef. reflexivity. Qed.
Lemma act_falses n x : wok x -> act (repeat false n) x = w0.
Proof. intros Hx. induction n as [|n IH]; [reflexivity|]. cbn [repeat]. rewrite act_cons, IH by exact Hx. cbn [pick]. rewrite iter_T_0. reflexivity. Qed.
Lemma pick_xor b x y : pick b (wxor x y) = wxor (pick b x) (pick b y).
Proof. destruct b; [reflexivity|]. cbn [pick]. rewrite wxor_0_l. reflexivity. Qed.
Lemma act_xor p x y : wok x -> wok y -> act p (wxor x y) = wxor (act p x) (act p y).
Proof.
  intros Hx Hy. induction p as [|b p IH] using rev_ind; [unfold act, hact; cbn [fold_left]; rewrite wxor_0_l; reflexivity|].
  rewrite !act_snoc by (try apply wok_xor; assumption). rewrite IH, T_xor, pick_xor by (apply wok_act; assumption). apply wxor_4.
Qed.
Lemma act_0 p : act p w0 = w0.
Proof. induction p as [|b p IH] using rev_ind; [reflexivity|]. rewrite act_snoc by exact wok_0. rewrite IH, T_0. destruct b; reflexivity. Qed.
Lemma act_pick p b x : act p (pick b x) = pick b (act p x).
Proof. destruct b; [reflexivity|apply act_0]. Qed.
Lemma T_pick b x : T (pick b x) = pick b (T x).
Proof. destruct b; [reflexivity|apply T_0]. Qed.
Lemma act_T p x : wok x -> act p (T x) = T (act p x).
Proof.
  intros Hx. induction p as [|b p IH] using rev_ind; [symmetry; apply T_0|]. rewrite !act_snoc by (try apply wok_T; assumption). rewrite IH.
  rewrite T_xor by (try apply wok_pick; try apply wok_T; try apply wok_act; assumption). rewrite T_pick. reflexivity.
Qed.
Lemma act_iter p n x : wok x -> act p (Nat.iter n T x) = Nat.iter n T (act p x).
Proof.
  intros Hx. induction n as [|n IH]; [reflexivity|]. change (Nat.iter (S n) T ?y) with (T (Nat.iter n T y)). rewrite act_T by (apply wok_iter; exact Hx). rewrite IH. reflexivity.
Qed.
(** coefficient-wise sum; the first list decides the length *)
Fixpoint zx (p q : list bool) : list bool :=
  match p, q with a :: p', b :: q' => xorb a b :: zx p' q' | _, _ => p end.
Lemma zx_length p q : length (zx p q) = length p.
Proof. revert q. induction p as [|a p IH]; intros [|b q]; cbn; try reflexivity. rewrite IH. reflexivity. Qed.
Lemma pick_xorb a b x : pick (xorb a b) x = wxor (pick a x) (pick b x).
Proof. destruct a, b; cbn [xorb pick]; rewrite ?wxor_self, ?wxor_0_r, ?wxor_0_l; reflexivity. Qed.
Lemma act_zx p : forall q x, wok x -> length q = length p -> act (zx p q) x = wxor (act p x) (act q x).
Proof.
  induction p as [|a p IH]; intros [|b q] x Hx L; cbn in L; try discriminate; [unfold act, hact; cbn [fold_left zx]; rewrite wxor_0_r; reflexivity|].
  cbn [zx]. rewrite !act_cons by exact Hx. rewrite zx_length, pick_xorb, iter_xor by (apply wok_pick; exact Hx). rewrite IH by (auto; lia).
  injection L as L. rewrite L. apply wxor_4.
Qed.
Lemma zx_app p r q : length p = length q -> zx (p ++ r) q = zx p q ++ r.
Proof. revert q. induction p as [|a p IH]; intros [|b q] L; cbn in *; try discriminate; [destruct r; reflexivity|]. rewrite IH by lia. reflexivity. Qed.

(** ** the characteristic polynomial *)
Fixpoint bits (n : nat) (z : Z) : list bool := match n with O => [] | S m => Z.odd z :: bits m (Z.div2 z) end.
Definition rev_bits (n : nat) (z : Z) : list bool := rev_append (bits n z) [].
(** all coefficients but the highest *)
Definition charpoly_low : list bool := Eval vm_compute in rev_bits 256 0x10003c03c3f3ecb1904b4edcf26259f850280002bcefd1a5e9d116f2bb0f0f001.
Lemma low_length : length charpoly_low = 256%nat. Proof. reflexivity. Qed.

(** words as lists of 64 bits, lowest first *)
Definition lwords : Type := (list bool * list bool * list bool * list bool)%type.
Definition lw (a : words) : lwords := match a with (a0, a1, a2, a3) => (bits 64 a0, bits 64 a1, bits 64 a2, bits 64 a3) end.
Definition lT (a : lwords) : lwords :=
  match a with (s0, s1, s2, s3) =>
    let t := repeat false 17 ++ firstn 47 s1 in
    let s2 := zx s2 s0 in let s3 := zx s3 s1 in let s1 := zx s1 s2 in let s0 := zx s0 s3 in
    (s0, s1, zx s2 t, skipn 19 s3 ++ firstn 19 s3) end.
Definition lxor0 (a : lwords) (x : list bool) : lwords := match a with (s0, s1, s2, s3) => (zx s0 x, s1, s2, s3) end.

Lemma bits_length n z : length (bits n z) = n.
Proof. revert z. induction n as [|n IH]; intros z; [reflexivity|]. cbn. rewrite IH. reflexivity. Qed.
Lemma bits_nth n : forall z i, (i < n)%nat -> nth i (bits n z) false = Z.testbit z (Z.of_nat i).
Proof.
  induction n as [|n IH]; intros z i Hi; [lia|]. destruct i as [|i]; [symmetry; apply Z.bit0_odd|]. cbn [bits nth]. rewrite IH by lia.
  rewrite Z.div2_spec, Z.shiftr_spec by lia. f_equal. lia.
Qed.
Lemma bits_ext n z l : length l = n -> (forall i, (i < n)%nat -> nth i l false = Z.testbit z (Z.of_nat i)) -> bits n z = l.
Proof.
  intros L H. apply (nth_ext _ _ false false); [rewrite bits_length; lia|]. rewrite bits_length. intros i Hi. rewrite bits_nth by exact Hi. symmetry. apply H. exact Hi.
Qed.
Lemma zx_nth p : forall q i, length q = length p -> nth i (zx p q) false = xorb (nth i p false) (nth i q false).
Proof.
  induction p as [|a p IH]; intros [|b q] i L; cbn in L; try discriminate; [destruct i; reflexivity|]. destruct i; cbn; [reflexivity|]. apply IH. lia.
Qed.
Lemma bits_lxor n a b : bits n (Z.lxor a b) = zx (bits n a) (bits n b).
Proof.
  apply bits_ext; [rewrite zx_length; apply bits_length|]. intros i Hi. rewrite zx_nth by (rewrite !bits_length; reflexivity). rewrite !bits_nth by exact Hi.
  symmetry. apply Z.lxor_spec.
Qed.
Lemma nth_firstn_lt {A} (l : list A) k i d : (i < k)%nat -> nth i (firstn k l) d = nth i l d.
Proof. revert k i. induction l as [|x l IH]; intros [|k] [|i] H; try lia; try reflexivity. cbn. apply IH. lia. Qed.
Lemma nth_skipn_add {A} (l : list A) k i d : nth i (skipn k l) d = nth (k + i) l d.
Proof. revert l. induction k as [|k IH]; intros [|x l]; try reflexivity; [destruct i; reflexivity|]. cbn. apply IH. Qed.
Lemma nth_repeat_false n i : nth i (repeat false n) false = false.
Proof. revert i. induction n as [|n IH]; intros [|i]; try reflexivity. cbn. apply IH. Qed.
Lemma bits_shift z : bits 64 (wrap64 (Z.shiftl z 17)) = repeat false 17 ++ firstn 47 (bits 64 z).
Proof.
  apply bits_ext; [rewrite app_length, repeat_length, firstn_length, bits_length; reflexivity|]. intros i Hi. rewrite wrap64_bit by lia.
  destruct (Z.ltb_spec (Z.of_nat i) 64); [|lia]. rewrite Z.shiftl_spec by lia. cbn [andb]. destruct (Nat.lt_ge_cases i 17) as [L|L].
  - rewrite app_nth1 by (rewrite repeat_length; exact L). rewrite nth_repeat_false. rewrite Z.testbit_neg_r by lia. reflexivity.
  - rewrite app_nth2 by (rewrite repeat_length; exact L). rewrite repeat_length, nth_firstn_lt, bits_nth by lia. f_equal. lia.
Qed.
Lemma bits_rol z : u64 z -> bits 64 (rol64 z 45) = skipn 19 (bits 64 z) ++ firstn 19 (bits 64 z).
Proof.
  intros Hz. assert (LS : length (skipn 19 (bits 64 z)) = 45%nat) by (rewrite skipn_length, bits_length; reflexivity).
  apply bits_ext; [rewrite app_length, LS, firstn_length, bits_length; reflexivity|]. intros i Hi. rewrite rol64_bit by (try exact Hz; lia).
  destruct (Z.ltb_spec (Z.of_nat i) 45).
  - rewrite app_nth1 by lia. rewrite nth_skipn_add, bits_nth by lia. f_equal. lia.
  - destruct (Z.ltb_spec (Z.of_nat i) 64); [|lia]. rewrite app_nth2 by lia. rewrite LS, nth_firstn_lt, bits_nth by lia. cbn [andb]. f_equal. lia.
Qed.
Lemma lT_ok a : wok a -> lT (lw a) = lw (T a).
Proof.
  destruct a as [[[a0 a1] a2] a3]. intros [A [B [C D]]]. cbn [lw T lT]. cbv zeta.
  rewrite bits_rol by (apply u64_lxor; assumption). rewrite !bits_lxor, bits_shift. reflexivity.
Qed.
(** the checked computation: Horner's rule on bit lists for a state with a single non-zero word *)
Fixpoint lact (acc : lwords) (p : list bool) (x : list bool) : lwords :=
  match p with [] => acc | b :: q => let r := lT acc in lact (if b then lxor0 r x else r) q x end.
Lemma lact_ok z : u64 z -> forall p a, wok a -> lact (lw a) p (bits 64 z) = lw (hact a p (z, 0, 0, 0)).
Proof.
  intros Hz. assert (X : wok (z, 0, 0, 0)) by (unfold wok; repeat split; try exact (proj1 Hz); try exact (proj2 Hz); unfold u64, two64; lia).
  induction p as [|b p IH]; intros a Ha; [reflexivity|]. unfold hact. cbn [fold_left lact]. cbv zeta.
  fold (hact (wxor (T a) (pick b (z, 0, 0, 0))) p (z, 0, 0, 0)).
  rewrite <- IH by (apply wok_xor; [apply wok_T; exact Ha|apply wok_pick; exact X]). f_equal. rewrite lT_ok by exact Ha.
  destruct (T a) as [[[t0 t1] t2] t3]. destruct b; cbn [pick wxor w0 lw lxor0]; rewrite ?Z.lxor_0_r; [rewrite bits_lxor; reflexivity|reflexivity].
Qed.
Definition unit_list (i : nat) : list bool := repeat false i ++ true :: repeat false (63 - i).
Lemma unit_bits i : (i < 64)%nat -> bits 64 (2 ^ Z.of_nat i) = unit_list i.
Proof.
  intros Hi. apply bits_ext; [unfold unit_list; rewrite app_length; cbn [length]; rewrite !repeat_length; lia|]. intros j Hj. unfold unit_list.
  destruct (Nat.lt_trichotomy j i) as [L|[->|L]].
  - rewrite app_nth1 by (rewrite repeat_length; exact L). rewrite nth_repeat_false, Z.pow2_bits_false by lia. reflexivity.
  - rewrite app_nth2 by (rewrite repeat_length; lia). rewrite repeat_length, Nat.sub_diag. cbn [nth]. rewrite Z.pow2_bits_true by lia. reflexivity.
  - rewrite app_nth2 by (rewrite repeat_length; lia). rewrite repeat_length. destruct (j - i)%nat as [|k] eqn:E; [lia|]. cbn [nth]. rewrite nth_repeat_false, Z.pow2_bits_false by lia. reflexivity.
Qed.
Definition charpoly : list bool := true :: charpoly_low.
Definition all_zero (a : lwords) : bool := match a with (s0, s1, s2, s3) => negb (existsb id s0 || existsb id s1 || existsb id s2 || existsb id s3) end.
Definition zeros64 : list bool := Eval vm_compute in repeat false 64.
Lemma charpoly_units : forallb (fun i => all_zero (lact (zeros64, zeros64, zeros64, zeros64) charpoly (unit_list i))) (seq 0 64) = true.
Proof. vm_compute. reflexivity. Qed.
Lemma bits_zero z : u64 z -> existsb id (bits 64 z) = false -> z = 0.
Proof.
  intros Hz H. apply Z.bits_inj'. intros n Hn. rewrite Z.bits_0. destruct (Z.lt_ge_cases n 64) as [L|L].
  - destruct (Z.testbit z n) eqn:E; [|reflexivity]. exfalso. assert (X : existsb id (bits 64 z) = true); [|congruence]. apply existsb_exists. exists true.
    split; [|reflexivity]. rewrite <- E. rewrite <- (Z2Nat.id n) by lia. rewrite <- (bits_nth 64 z (Z.to_nat n)) by lia. apply nth_In. rewrite bits_length. lia.
  - apply (testbit_high z 64); [unfold u64 in Hz; rewrite two64_pow in Hz; exact Hz|lia].
Qed.
Lemma all_zero_ok a : wok a -> all_zero (lw a) = true -> a = w0.
Proof.
  destruct a as [[[a0 a1] a2] a3]. intros [A [B [C D]]] H. cbn [all_zero lw] in H. apply negb_true_iff in H. rewrite !orb_false_iff in H. destruct H as [[[H0 H1] H2] H3].
  rewrite (bits_zero a0), (bits_zero a1), (bits_zero a2), (bits_zero a3) by assumption. reflexivity.
Qed.
Lemma u64_0 : u64 0. Proof. unfold u64, two64. lia. Qed.
Lemma wok_first z : u64 z -> wok (z, 0, 0, 0).
Proof. intros H. pose proof u64_0. unfold wok. tauto. Qed.
Lemma lw_w0 : (zeros64, zeros64, zeros64, zeros64) = lw w0.
Proof. vm_compute. reflexivity. Qed.
Lemma charpoly_unit n : (n < 64)%nat -> act charpoly (2 ^ Z.of_nat n, 0, 0, 0) = w0.
Proof.
  intros Hn. assert (U2 : u64 (2 ^ Z.of_nat n)).
  { unfold u64. rewrite two64_pow. split; [apply Z.pow_nonneg; lia|apply Z.pow_lt_mono_r; lia]. }
  generalize charpoly_units. rewrite lw_w0. generalize charpoly. intros P C. rewrite forallb_forall in C. specialize (C n). rewrite <- unit_bits in C by exact Hn.
  rewrite lact_ok in C by (try exact wok_0; exact U2). apply all_zero_ok; [apply wok_act; apply wok_first; exact U2|]. apply C. apply in_seq. lia.
Qed.
Lemma charpoly_first n : (n <= 64)%nat -> forall z, 0 <= z < 2 ^ Z.of_nat n -> act charpoly (z, 0, 0, 0) = w0.
Proof.
  induction n as [|n IH]; intros Hn z Hz.
  - assert (z = 0) as -> by (change (2 ^ Z.of_nat 0) with 1 in Hz; lia). apply act_0.
  - rewrite Nat2Z.inj_succ, Z.pow_succ_r in Hz by lia. set (b := 2 ^ Z.of_nat n) in *. assert (B : 0 < b) by (apply Z.pow_pos_nonneg; lia).
    assert (B64 : b < two64) by (rewrite two64_pow; unfold b; apply Z.pow_lt_mono_r; lia).
    destruct (Z.lt_ge_cases z b) as [L|L]; [apply IH; [lia|fold b; lia]|].
    assert (E : z = Z.lxor (z - b) b).
    { rewrite <- Z.add_nocarry_lxor; [lia|]. unfold b. apply Z.bits_inj'. intros k Hk. rewrite Z.land_spec, Z.bits_0.
      destruct (Z.eq_dec k (Z.of_nat n)) as [->|Nk].
      - rewrite (testbit_high (z - 2 ^ Z.of_nat n) (Z.of_nat n) (Z.of_nat n)) by (fold b; lia). reflexivity.
      - rewrite Z.pow2_bits_false by lia. apply andb_false_r. }
    assert (U1 : u64 (z - b)) by (unfold u64; lia). assert (U2 : u64 b) by (unfold u64; lia).
    assert (X : (z, 0, 0, 0) = wxor (z - b, 0, 0, 0) (b, 0, 0, 0)) by (cbn [wxor]; rewrite <- E; reflexivity).
    rewrite X, act_xor by (apply wok_first; assumption). rewrite IH by (fold b; lia). rewrite wxor_0_l.
    apply charpoly_unit. lia.
Qed.
(** every state is a combination of images of states with a single non-zero word *)
Lemma shift17_invertible z : u64 z -> exists y, u64 y /\ Z.lxor y (wrap64 (Z.shiftl y 17)) = z.
Proof.
  intros Hz. set (A := fun y => wrap64 (Z.shiftl y 17)). assert (UA : forall y, u64 (A y)) by (intros; apply u64_wrap).
  assert (AX : forall a b, A (Z.lxor a b) = Z.lxor (A a) (A b)) by (intros; unfold A; rewrite Z.shiftl_lxor; apply wrap64_lxor).
  assert (A4 : A (A (A (A z))) = 0).
  { apply Z.bits_inj'. intros n Hn. rewrite Z.bits_0. unfold A. rewrite !wrap64_bit, Z.shiftl_spec by lia.
    destruct (Z.ltb_spec n 64); [|reflexivity]. cbn [andb]. destruct (Z.lt_ge_cases (n - 17) 0); [apply Z.testbit_neg_r; lia|].
    rewrite wrap64_bit, Z.shiftl_spec by lia. destruct (Z.lt_ge_cases (n - 17 - 17) 0); [rewrite Z.testbit_neg_r by lia; apply andb_false_r|].
    rewrite wrap64_bit, Z.shiftl_spec by lia. destruct (Z.lt_ge_cases (n - 17 - 17 - 17) 0); [rewrite (Z.testbit_neg_r _ (n - 17 - 17 - 17)) by lia; rewrite !andb_false_r; reflexivity|].
    rewrite wrap64_bit, Z.shiftl_spec by lia. rewrite (Z.testbit_neg_r z) by lia. rewrite !andb_false_r. reflexivity. }
  exists (Z.lxor (Z.lxor z (A z)) (Z.lxor (A (A z)) (A (A (A z))))). split; [auto using u64_lxor|]. fold (A (Z.lxor (Z.lxor z (A z)) (Z.lxor (A (A z)) (A (A (A z)))))).
  rewrite !AX, A4. apply Z.bits_inj'. intros n _. rewrite !Z.lxor_spec, Z.bits_0.
  destruct (Z.testbit z n), (Z.testbit (A z) n), (Z.testbit (A (A z)) n), (Z.testbit (A (A (A z))) n); reflexivity.
Qed.
Lemma rol_invertible z : u64 z -> exists y, u64 y /\ rol64 y 45 = z.
Proof.
  intros Hz. exists (rol64 z 19). split; [apply u64_rol; [exact Hz|lia]|]. apply Z.bits_inj'. intros n Hn.
  rewrite rol64_bit by (first [lia|apply u64_rol; [exact Hz|lia]]). destruct (Z.ltb_spec n 45).
  - rewrite rol64_bit by (first [lia|exact Hz]). destruct (Z.ltb_spec (n + (64 - 45)) 19); [lia|]. destruct (Z.ltb_spec (n + (64 - 45)) 64); [|lia]. cbn [andb]. f_equal. lia.
  - destruct (Z.ltb_spec n 64).
    + rewrite rol64_bit by (first [lia|exact Hz]). destruct (Z.ltb_spec (n - 45) 19); [|lia]. cbn [andb]. f_equal. lia.
    + symmetry. apply (testbit_high z 64); [unfold u64 in Hz; rewrite two64_pow in Hz; exact Hz|lia].
Qed.
Lemma controllable x : wok x -> exists u0 u1 u2 u3, u64 u0 /\ u64 u1 /\ u64 u2 /\ u64 u3 /\
  x = wxor (wxor (u0, 0, 0, 0) (T (u1, 0, 0, 0))) (wxor (T (T (u2, 0, 0, 0))) (T (T (T (u3, 0, 0, 0))))).
Proof.
  destruct x as [[[s0 s1] s2] s3]. intros [H0 [H1 [H2 H3]]]. set (A := fun y => wrap64 (Z.shiftl y 17)). set (R := fun y => rol64 y 45).
  assert (UA : forall y, u64 (A y)) by (intros; apply u64_wrap).
  assert (AX : forall a b, A (Z.lxor a b) = Z.lxor (A a) (A b)) by (intros; unfold A; rewrite Z.shiftl_lxor; apply wrap64_lxor).
  assert (RX : forall a b, u64 a -> u64 b -> R (Z.lxor a b) = Z.lxor (R a) (R b)) by (intros; apply rol64_lxor; auto; lia).
  assert (UR : forall y, u64 y -> u64 (R y)) by (intros; apply u64_rol; [assumption|lia]).
  (* with v = R^-1 s3 : s1 = s2 + (1+A) v + (1+A) R u3 *)
  destruct (rol_invertible s3 H3) as [v [Hv Ev]]. fold (R v) in Ev.
  destruct (shift17_invertible (Z.lxor (Z.lxor s1 s2) (Z.lxor v (A v)))) as [r [Hr Er]]; [auto using u64_lxor|]. fold (A r) in Er.
  destruct (rol_invertible r Hr) as [u3 [Hu3 E3]]. fold (R u3) in E3.
  set (u2 := Z.lxor v (Z.lxor (R u3) u3)). assert (Hu2 : u64 u2) by (unfold u2; auto using u64_lxor).
  set (u1 := Z.lxor s2 (A u2)). assert (Hu1 : u64 u1) by (unfold u1; auto using u64_lxor).
  set (u0 := Z.lxor s0 (Z.lxor u1 (Z.lxor (R u3) u3))). assert (Hu0 : u64 u0) by (unfold u0; auto using u64_lxor).
  exists u0, u1, u2, u3. do 4 (split; [assumption|]). pose proof u64_0 as Z0.
  cbn [T wxor]. cbv zeta. rewrite !Z.lxor_0_r, !Z.lxor_0_l. fold (A u1) (A u2) (A u3) (R u1) (R u2) (R u3). change (wrap64 (Z.shiftl 0 17)) with 0. change (rol64 0 45) with 0.
  rewrite ?Z.lxor_0_r, ?Z.lxor_0_l, ?Z.lxor_nilpotent, ?Z.lxor_0_r, ?Z.lxor_0_l.
  fold (A u3). fold (R (Z.lxor (R u3) u3)). rewrite RX by auto. unfold u0, u1, u2. rewrite RX by auto using u64_lxor. rewrite RX by auto. rewrite !AX, E3, Ev.
  rewrite Z.lxor_nilpotent, Z.lxor_0_r.
  assert (B : forall n, Z.testbit s1 n = xorb (xorb (xorb (Z.testbit r n) (Z.testbit (A r) n)) (xorb (Z.testbit v n) (Z.testbit (A v) n))) (Z.testbit s2 n)).
  { intros n. apply (f_equal (fun z => Z.testbit z n)) in Er. rewrite !Z.lxor_spec in Er.
    destruct (Z.testbit r n), (Z.testbit (A r) n), (Z.testbit s1 n), (Z.testbit s2 n), (Z.testbit v n), (Z.testbit (A v) n); cbn in Er |- *; congruence. }
  f_equal; [f_equal; [f_equal|]|]; apply Z.bits_inj'; intros n _; rewrite ?B, !Z.lxor_spec; clear.
  - destruct (Z.testbit s0 n), (Z.testbit s2 n), (Z.testbit r n), (Z.testbit u3 n), (Z.testbit (A v) n), (Z.testbit (A r) n), (Z.testbit (A u3) n); reflexivity.
  - destruct (Z.testbit s2 n), (Z.testbit v n), (Z.testbit r n), (Z.testbit u3 n), (Z.testbit (A v) n), (Z.testbit (A r) n), (Z.testbit (A u3) n); reflexivity.
  - destruct (Z.testbit s2 n), (Z.testbit (A v) n), (Z.testbit (A r) n), (Z.testbit (A u3) n); reflexivity.
  - destruct (Z.testbit s3 n), (Z.testbit (R r) n), (Z.testbit r n); reflexivity.
Qed.
Lemma charpoly_0 x : wok x -> act charpoly x = w0.
Proof.
  intros Hx. destruct (controllable x Hx) as [u0 [u1 [u2 [u3 [H0 [H1 [H2 [H3 ->]]]]]]]].
  assert (P : forall z, u64 z -> 0 <= z < 2 ^ Z.of_nat 64) by (unfold u64; intros z Hz; rewrite two64_pow in Hz; exact Hz).
  rewrite !act_xor by (repeat apply wok_xor; repeat apply wok_T; apply wok_first; assumption).
  rewrite !act_T by (repeat apply wok_T; apply wok_first; assumption).
  rewrite !(charpoly_first 64) by (first [lia|apply P; assumption]). rewrite !T_0, !wxor_0_r. reflexivity.
Qed.

(** ** arithmetic modulo the characteristic polynomial *)
(** one step: the highest coefficient is removed *)
Definition red1 (p : list bool) : list bool := match p with [] => [] | true :: r => zx r charpoly_low | false :: r => r end.
Fixpoint red (n : nat) (p : list bool) : list bool := match n with O => p | S m => red m (red1 p) end.
Lemma low_act x : wok x -> act charpoly_low x = Nat.iter 256 T x.
Proof.
  intros Hx. pose proof (charpoly_0 x Hx) as H. unfold charpoly in H. rewrite act_cons in H by exact Hx. rewrite low_length in H. symmetry. apply wxor_eq. exact H.
Qed.
Lemma act_red1 p x : wok x -> (257 <= length p)%nat -> act (red1 p) x = act p x /\ length (red1 p) = (length p - 1)%nat.
Proof.
  intros Hx L. destruct p as [|b r]; [cbn in L; lia|]. cbn [length] in *. destruct b; cbn [red1].
  - split; [|rewrite zx_length; lia]. rewrite act_cons by exact Hx. cbn [pick].
    rewrite <- (firstn_skipn 256 r). rewrite zx_app by (rewrite firstn_length, low_length; lia). rewrite !act_app by exact Hx.
    rewrite act_zx by (try exact Hx; rewrite firstn_length, low_length; lia). rewrite low_act by exact Hx.
    rewrite iter_xor by (try apply wok_act; try apply wok_iter; exact Hx). rewrite <- wxor_assoc. f_equal.
    rewrite wxor_comm. f_equal. rewrite app_length, firstn_length, Nat.min_l by lia. rewrite Nat.add_comm. symmetry. apply iter_add.
  - split; [|lia]. rewrite act_cons by exact Hx. cbn [pick]. rewrite iter_T_0, wxor_0_l. reflexivity.
Qed.
Lemma act_red n : forall p x, wok x -> length p = (n + 256)%nat -> act (red n p) x = act p x /\ length (red n p) = 256%nat.
Proof.
  induction n as [|n IH]; intros p x Hx L; [split; [reflexivity|exact L]|]. cbn [red]. destruct (act_red1 p x Hx ltac:(lia)) as [A1 A2].
  destruct (IH (red1 p) x Hx ltac:(lia)) as [B1 B2]. split; [congruence|exact B2].
Qed.
(** squaring *)
Fixpoint spread (p : list bool) : list bool := match p with [] => [] | b :: q => false :: b :: spread q end.
Lemma spread_app p q : spread (p ++ q) = spread p ++ spread q.
Proof. induction p as [|b p IH]; [reflexivity|]. cbn. rewrite IH. reflexivity. Qed.
Lemma spread_length p : length (spread p) = (length p + length p)%nat.
Proof. induction p as [|b p IH]; [reflexivity|]. cbn. rewrite IH. lia. Qed.
Lemma act_spread p : forall x, wok x -> act p (act p x) = act (spread p) x.
Proof.
  induction p as [|b p IH] using rev_ind; intros x Hx; [reflexivity|]. rewrite spread_app. cbn [spread app].
  change (spread p ++ [false; b]) with (spread p ++ [false] ++ [b]). rewrite app_assoc, !act_snoc by (try apply wok_xor; try apply wok_T; try apply wok_pick; try apply wok_act; exact Hx).
  cbn [pick]. rewrite wxor_0_r, <- IH by exact Hx.
  rewrite act_xor by (try apply wok_T; try apply wok_pick; try apply wok_act; exact Hx). rewrite act_T, act_pick by (apply wok_act; exact Hx).
  rewrite T_xor by (try apply wok_T; try apply wok_pick; repeat apply wok_act; exact Hx). rewrite T_pick.
  destruct b; cbn [pick]; rewrite ?wxor_0_r; [|reflexivity]. rewrite wxor_assoc. f_equal. rewrite <- wxor_assoc, wxor_self, wxor_0_l. reflexivity.
Qed.
Definition psqr (p : list bool) : list bool := red 256 (spread p).
Lemma act_sqr p x : wok x -> length p = 256%nat -> act (psqr p) x = act p (act p x) /\ length (psqr p) = 256%nat.
Proof. intros Hx L. destruct (act_red 256 (spread p) x Hx) as [A B]; [rewrite spread_length; lia|]. split; [|exact B]. unfold psqr. rewrite A. symmetry. apply act_spread. exact Hx. Qed.
Definition pshift (p : list bool) : list bool := red1 (p ++ [false]).
Lemma act_shift p x : wok x -> length p = 256%nat -> act (pshift p) x = T (act p x) /\ length (pshift p) = 256%nat.
Proof.
  intros Hx L. destruct (act_red1 (p ++ [false]) x Hx) as [A B]; [rewrite app_length; cbn; lia|]. split; [|unfold pshift; rewrite B, app_length; cbn; lia].
  unfold pshift. rewrite A, act_snoc by exact Hx. apply wxor_0_r.
Qed.
(** powers of x *)
Definition poly_x : list bool := Eval vm_compute in repeat false 254 ++ [true; false].
Fixpoint ppow (e : positive) : list bool :=
  match e with xH => poly_x | xO e' => psqr (ppow e') | xI e' => pshift (psqr (ppow e')) end.
Lemma wok_piter e x : wok x -> wok (Pos.iter T x e).
Proof. intros H. apply Pos.iter_invariant; [intros; apply wok_T; assumption|exact H]. Qed.
Lemma act_poly_x x : wok x -> act poly_x x = T x.
Proof.
  intros Hx. change poly_x with (repeat false 254 ++ [true] ++ [false]). rewrite app_assoc, !act_snoc by exact Hx. rewrite act_falses, T_0 by exact Hx.
  cbn [pick]. rewrite wxor_0_l, wxor_0_r. reflexivity.
Qed.
Lemma act_pow e : forall x, wok x -> act (ppow e) x = Pos.iter T x e /\ length (ppow e) = 256%nat.
Proof.
  induction e as [e IH|e IH|]; intros x Hx; cbn [ppow].
  - destruct (IH x Hx) as [H1 H2]. destruct (act_sqr (ppow e) x Hx H2) as [M1 M2]. destruct (act_shift _ x Hx M2) as [R1 R2]. split; [|exact R2].
    rewrite R1, M1. rewrite (proj1 (IH _ (wok_act _ _ Hx))), H1. reflexivity.
  - destruct (IH x Hx) as [H1 H2]. destruct (act_sqr (ppow e) x Hx H2) as [M1 M2]. split; [|exact M2].
    rewrite M1. rewrite (proj1 (IH _ (wok_act _ _ Hx))), H1. reflexivity.
  - split; [apply act_poly_x; exact Hx|reflexivity].
Qed.
(** product, by Horner's rule on the first factor *)
Fixpoint pmul (acc p q : list bool) : list bool :=
  match p with [] => acc | b :: p' => let r := pshift acc in pmul (if b then zx r q else r) p' q end.
Lemma act_mul q x : wok x -> length q = 256%nat -> forall p acc, length acc = 256%nat ->
  act (pmul acc p q) x = hact (act acc x) p (act q x).
Proof.
  intros Hx Hq. induction p as [|b p IH]; intros acc L; [reflexivity|]. cbn [pmul]. cbv zeta. destruct (act_shift acc x Hx L) as [S1 S2]. unfold hact. cbn [fold_left].
  fold (hact (wxor (T (act acc x)) (pick b (act q x))) p (act q x)). rewrite <- S1. destruct b; cbn [pick].
  - rewrite IH by (rewrite zx_length; exact S2). rewrite act_zx by (try exact Hx; lia). reflexivity.
  - rewrite IH by exact S2. rewrite wxor_0_r. reflexivity.
Qed.
(** the least common multiple of 1..81, and the inverse of x^L + 1 *)
Definition lcm81 : positive := 97301577764381948734868316916891200%positive.
Definition inverse_poly : list bool := Eval vm_compute in rev_bits 256 0xd8a9f8e821cd1657c9f716e82368eaf6c7fd9ed964f8706556fbcffa45f064ac.
Definition poly_1 : list bool := Eval vm_compute in repeat false 255 ++ [true].
Definition poly_0 : list bool := Eval vm_compute in repeat false 256.
Lemma bezout : pmul poly_0 inverse_poly (zx (ppow lcm81) poly_1) = poly_1.
Proof. vm_compute. reflexivity. Qed.
Lemma act_poly_1 x : wok x -> act poly_1 x = x.
Proof. intros Hx. change poly_1 with (repeat false 255 ++ [true]). rewrite act_snoc, act_falses, T_0 by exact Hx. apply wxor_0_l. Qed.
Lemma act_poly_0 x : wok x -> act poly_0 x = w0.
Proof. intros Hx. change poly_0 with (repeat false 256). apply act_falses. exact Hx. Qed.
Lemma cycle_inverse (P inv one zero : list bool) x : wok x -> length P = 256%nat -> length one = 256%nat -> length zero = 256%nat ->
  act one x = x -> act zero x = w0 -> pmul zero inv (zx P one) = one -> act P x = x -> x = w0.
Proof.
  intros Hx P2 L1 L0 A1 A0 B P1.
  pose proof (act_mul (zx P one) x Hx ltac:(rewrite zx_length; exact P2) inv zero L0) as M.
  rewrite B, A1, A0 in M. rewrite act_zx in M by (try exact Hx; lia). rewrite P1, A1, wxor_self in M. rewrite M. apply act_0.
Qed.
Lemma poly_1_length : length poly_1 = 256%nat. Proof. reflexivity. Qed.
Lemma poly_0_length : length poly_0 = 256%nat. Proof. reflexivity. Qed.
Lemma no_short_cycle_L x : wok x -> Pos.iter T x lcm81 = x -> x = w0.
Proof.
  intros Hx H. destruct (act_pow lcm81 x Hx) as [P1 P2]. rewrite H in P1.
  exact (cycle_inverse (ppow lcm81) inverse_poly poly_1 poly_0 x Hx P2 poly_1_length poly_0_length (act_poly_1 x Hx) (act_poly_0 x Hx) bezout P1).
Qed.
Lemma lcm81_multiple : forallb (fun k => Z.pos lcm81 mod (Z.of_nat k) =? 0) (seq 1 81) = true.
Proof. vm_compute. reflexivity. Qed.
Lemma iter_mul_fix x k m : Pos.iter T x k = x -> Pos.iter T x (k * m) = x.
Proof.
  intros H. induction m as [|m IH] using Pos.peano_ind; [rewrite Pos.mul_1_r; exact H|]. rewrite Pos.mul_succ_r, Pos.iter_add, IH. exact H.
Qed.
Lemma iter_nat_pos n x : (0 < n)%nat -> Nat.iter n T x = Pos.iter T x (Pos.of_nat n).
Proof.
  intros Hn. induction n as [|[|n] IH]; [lia|reflexivity|]. change (Nat.iter (S (S n)) T x) with (T (Nat.iter (S n) T x)). rewrite IH by lia.
  rewrite (Nat2Pos.inj_succ (S n)) by lia. rewrite Pos.iter_succ. reflexivity.
Qed.
Theorem no_short_cycle x n : wok x -> (1 <= n <= 81)%nat -> Nat.iter n T x = x -> x = w0.
Proof.
  intros Hx Hn H. apply no_short_cycle_L; [exact Hx|]. pose proof lcm81_multiple as L. rewrite forallb_forall in L. specialize (L n ltac:(apply in_seq; lia)).
  apply Z.eqb_eq in L. apply Z.mod_divide in L; [|lia]. destruct L as [q E]. rewrite iter_nat_pos in H by lia.
  assert (Q : 0 < q) by nia. destruct q as [|q|q]; try lia. assert (lcm81 = (Pos.of_nat n * q)%positive) as ->.
  { apply Pos2Z.inj. rewrite Pos2Z.inj_mul. replace (Z.pos (Pos.of_nat n)) with (Z.of_nat n); [lia|]. rewrite <- (Nat2Pos.id n) at 1 by lia. apply positive_nat_Z. }
  apply iter_mul_fix. exact H.
Qed.

(** ** get_rand_64 returns *)
Lemma rol_inj x y k : u64 x -> u64 y -> 0 <= k <= 64 -> rol64 x k = rol64 y k -> x = y.
Proof.
  intros Hx Hy Hk H. apply Z.lxor_eq. apply (rol_zero _ k); [apply u64_lxor; assumption|exact Hk|]. rewrite rol64_lxor by assumption. rewrite H. apply Z.lxor_nilpotent.
Qed.
Lemma xo_out_inj g h : rng_ok g -> rng_ok h -> xo_out g = xo_out h -> x1 g = x1 h.
Proof.
  intros G H E. unfold xo_out in E. apply odd_cancel_eq in E; [|reflexivity|apply u64_rol; [apply u64_wrap|lia]|apply u64_rol; [apply u64_wrap|lia]].
  apply rol_inj in E; [|apply u64_wrap|apply u64_wrap|lia]. apply odd_cancel_eq in E; [exact E|reflexivity|apply (ok_1 g G)|apply (ok_1 h H)].
Qed.
Definition second (a : words) : Z := match a with (_, a1, _, _) => a1 end.
Lemma second_xor a b : second (wxor a b) = Z.lxor (second a) (second b).
Proof. destruct a as [[[a0 a1] a2] a3], b as [[[b0 b1] b2] b3]. reflexivity. Qed.
Lemma observe d : wok d -> second d = 0 -> second (T d) = 0 -> second (T (T d)) = 0 -> second (T (T (T d))) = 0 -> d = w0.
Proof.
  destruct d as [[[a0 a1] a2] a3]. intros [A [B [C D]]] H0 H1 H2 H3. assert (U : u64 0) by (unfold u64, two64; lia).
  destruct (four_zeros (mk_rng 0 0 a0 a1 a2 a3)) as [Z0 [Z1 [Z2 Z3]]]; [constructor; assumption|exact H0|exact H1|exact H2|exact H3|].
  cbn in *. subst. reflexivity.
Qed.
Lemma observe_eq a b : wok a -> wok b -> second a = second b -> second (T a) = second (T b) -> second (T (T a)) = second (T (T b)) ->
  second (T (T (T a))) = second (T (T (T b))) -> a = b.
Proof.
  intros Ha Hb H0 H1 H2 H3. apply wxor_eq. apply observe; [apply wok_xor; assumption| | | |]; rewrite ?T_xor by (repeat apply wok_T; assumption);
    rewrite second_xor; rewrite ?H0, ?H1, ?H2, ?H3; apply Z.lxor_nilpotent.
Qed.

Lemma pigeon (f : nat -> nat) m n : (forall i, (i < n)%nat -> (f i < m)%nat) -> (m < n)%nat -> exists i j, (i < j < n)%nat /\ f i = f j.
Proof.
  intros Hf Hmn. destruct (existsb (fun i => existsb (fun j => (i <? j)%nat && (f i =? f j)%nat) (seq 0 n)) (seq 0 n)) eqn:E.
  - apply existsb_exists in E as [i [Hi E]]. apply existsb_exists in E as [j [Hj E]]. apply andb_prop in E as [E1 E2]. apply in_seq in Hj.
    apply Nat.ltb_lt in E1. apply Nat.eqb_eq in E2. exists i, j. split; [lia|exact E2].
  - exfalso. assert (D : forall i j, (i < j < n)%nat -> f i <> f j).
    { intros i j Hij F. assert (X : existsb (fun i => existsb (fun j => (i <? j)%nat && (f i =? f j)%nat) (seq 0 n)) (seq 0 n) = true); [|congruence].
      apply existsb_exists. exists i. split; [apply in_seq; lia|]. apply existsb_exists. exists j. split; [apply in_seq; lia|].
      apply andb_true_intro. split; [apply Nat.ltb_lt; lia|apply Nat.eqb_eq; exact F]. }
    assert (N : NoDup (map f (seq 0 n))).
    { apply (NoDup_nth _ (f 0%nat)). rewrite map_length, seq_length. intros i j Hi Hj F. rewrite !map_nth, !seq_nth in F by assumption. cbn in F.
      destruct (Nat.lt_trichotomy i j) as [L|[L|L]]; [|exact L|]; exfalso; [apply (D i j); [lia|exact F]|apply (D j i); [lia|symmetry; exact F]]. }
    assert (I : incl (map f (seq 0 n)) (seq 0 m)). { intros x Hx. apply in_map_iff in Hx as [i [<- Hi]]. apply in_seq in Hi. apply in_seq. specialize (Hf i). lia. }
    pose proof (NoDup_incl_length N I) as L. rewrite map_length, !seq_length in L. lia.
Qed.

Definition xo_iter (n : nat) (g : rng) : rng := Nat.iter n xo_next g.
Lemma xo_iter_S n g : xo_iter (S n) g = xo_next (xo_iter n g). Proof. reflexivity. Qed.
Lemma xo_iter_next n g : xo_iter n (xo_next g) = xo_iter (S n) g.
Proof. induction n as [|n IH]; [reflexivity|]. rewrite xo_iter_S, IH. reflexivity. Qed.
Lemma xo_iter_ok n g : rng_ok g -> rng_ok (xo_iter n g).
Proof. intros G. induction n as [|n IH]; [exact G|]. rewrite xo_iter_S. apply xo_next_ok. exact IH. Qed.
Lemma xo_iter_nonzero n g : rng_ok g -> ~ xo_zero g -> ~ xo_zero (xo_iter n g).
Proof. intros G N. induction n as [|n IH]; [exact N|]. rewrite xo_iter_S. apply xo_next_nonzero; [apply xo_iter_ok; exact G|exact IH]. Qed.
Lemma ws_iter n g : ws (xo_iter n g) = Nat.iter n T (ws g).
Proof. induction n as [|n IH]; [reflexivity|]. rewrite xo_iter_S, ws_next, IH. reflexivity. Qed.
Lemma ws_ok g : rng_ok g -> wok (ws g).
Proof. intros [P A B C D]. cbn. tauto. Qed.

Lemma u64_out g : u64 (xo_out g). Proof. apply u64_wrap. Qed.

(** within 85 draws some output is no multiple of p *)
Theorem draws_85 p g : 2 ^ 64 < 3 * p -> rng_ok g -> ~ xo_zero g -> exists n, (n < 85)%nat /\ xo_out (xo_iter n g) mod p <> 0.
Proof.
  intros Hp G N. destruct (existsb (fun n => negb (xo_out (xo_iter n g) mod p =? 0)) (seq 0 85)) eqn:E.
  - apply existsb_exists in E as [n [Hn E]]. apply in_seq in Hn. exists n. split; [lia|]. apply negb_true_iff, Z.eqb_neq in E. exact E.
  - exfalso. assert (A : forall n, (n < 85)%nat -> xo_out (xo_iter n g) mod p = 0).
    { intros n Hn. destruct (Z.eq_dec (xo_out (xo_iter n g) mod p) 0) as [|F]; [assumption|]. exfalso.
      assert (X : existsb (fun n => negb (xo_out (xo_iter n g) mod p =? 0)) (seq 0 85) = true); [|congruence]. apply existsb_exists. exists n.
      split; [apply in_seq; lia|]. apply negb_true_iff, Z.eqb_neq. exact F. }
    clear E. set (c := fun n => Z.to_nat (xo_out (xo_iter n g) / p)).
    assert (C : forall n, (c n < 3)%nat).
    { intros n. unfold c. pose proof (u64_out (xo_iter n g)) as U. unfold u64, two64 in U. change (2 ^ 64) with 18446744073709551616 in Hp.
      assert (0 <= xo_out (xo_iter n g) / p < 3) by (split; [apply Z.div_pos; lia|apply Z.div_lt_upper_bound; lia]). lia. }
    assert (S : forall i j, (i < 85)%nat -> (j < 85)%nat -> c i = c j -> x1 (xo_iter i g) = x1 (xo_iter j g)).
    { intros i j Hi Hj F. apply xo_out_inj; [apply xo_iter_ok; exact G|apply xo_iter_ok; exact G|].
      pose proof (Z.div_mod (xo_out (xo_iter i g)) p ltac:(lia)) as Di. pose proof (Z.div_mod (xo_out (xo_iter j g)) p ltac:(lia)) as Dj.
      rewrite (A i Hi) in Di. rewrite (A j Hj) in Dj. assert (F' : xo_out (xo_iter i g) / p = xo_out (xo_iter j g) / p).
      { apply Z2Nat.inj; [apply Z.div_pos; [apply u64_out|lia]|apply Z.div_pos; [apply u64_out|lia]|exact F]. }
      rewrite F' in Di. lia. }
    destruct (pigeon (fun n => c n + 3 * c (n + 1) + 9 * c (n + 2) + 27 * c (n + 3))%nat 81 82) as [i [j [Hij F]]]; [|lia|].
    { intros i Hi. pose proof (C i). pose proof (C (i + 1)%nat). pose proof (C (i + 2)%nat). pose proof (C (i + 3)%nat). lia. }
    assert (F0 : (c i = c j /\ c (i + 1) = c (j + 1) /\ c (i + 2) = c (j + 2) /\ c (i + 3) = c (j + 3))%nat).
    { pose proof (C i). pose proof (C (i + 1)%nat). pose proof (C (i + 2)%nat). pose proof (C (i + 3)%nat).
      pose proof (C j). pose proof (C (j + 1)%nat). pose proof (C (j + 2)%nat). pose proof (C (j + 3)%nat). lia. }
    destruct F0 as [F0 [F1 [F2 F3]]]. apply S in F0; try lia. apply S in F1; try lia. apply S in F2; try lia. apply S in F3; try lia.
    rewrite !(Nat.add_comm _ 1), !(Nat.add_comm _ 2), !(Nat.add_comm _ 3) in *.
    assert (E : ws (xo_iter i g) = ws (xo_iter j g)).
    { apply observe_eq; [apply ws_ok, xo_iter_ok, G|apply ws_ok, xo_iter_ok, G|exact F0|exact F1|exact F2|exact F3]. }
    apply (xo_iter_nonzero i g G N). rewrite !ws_iter in E. replace j with ((j - i) + i)%nat in E by lia. rewrite iter_add in E. symmetry in E.
    rewrite <- ws_iter in E. apply no_short_cycle in E; [|apply ws_ok, xo_iter_ok, G|lia]. unfold ws, w0 in E. injection E as E0 E1 E2 E3. repeat split; assumption.
Qed.

(** Property theorems C26 and C43: class Poly over every field satisfying the FFInt laws. A vector of coefficients
    represents the polynomial whose coefficient i is its entry i, zero beyond its end (trailing zeros allowed). *)
From Coq Require Import Znumtheory.
From Verif Require Import Machine FField FSum FPoly FFVec Series PolyU PolyUProofs PolyUProofs2.
Open Scope nat_scope.

(** coefficient i of the represented polynomial *)
Definition coef {K : fops} (c : list K) (i : nat) : K := nth i c f0.
(** coefficient i of the product of two polynomials *)
Definition prod_coef {K : fops} (f g : nat -> K) (i : nat) : K := fsum (S i) (fun j => fmul (f j) (g (i - j))).
(** the degree of a nonzero polynomial *)
Definition has_degree {K : fops} (c : list K) (d : nat) : Prop := coef c d <> f0 /\ forall i, d < i -> coef c i = f0.
Definition zero_poly {K : fops} (c : list K) : Prop := forall i, coef c i = f0.
(** the coefficients of X - r, and of the product of X - r over a list *)
Definition coef_lin {K : fops} (r : K) (i : nat) : K := match i with O => fopp r | S O => f1 | _ => f0 end.
Fixpoint coef_roots {K : fops} (rs : list K) (i : nat) : K :=
  match rs with [] => match i with O => f1 | _ => f0 end | r :: t => prod_coef (coef_lin r) (coef_roots t) i end.
(** g divides c *)
Definition divides {K : fops} (g c : list K) : Prop := exists w : list K, forall i, coef c i = prod_coef (coef g) (coef w) i.

Lemma nz_of_degree {K : fops} (c : list K) d : has_degree c d -> ~ cf c == s0.
Proof. intros [H _] Z. apply H. apply Z. Qed.

(** ---- ring operations ---- *)
Theorem C26_add_sub : forall (K : fops), flaws K -> forall a b : list K, a <> [] -> b <> [] ->
  (exists r, padd a b = Ret r /\ r <> [] /\ forall i, coef r i = fadd (coef a i) (coef b i)) /\
  (exists r, psub a b = Ret r /\ r <> [] /\ forall i, coef r i = fsub (coef a i) (coef b i)).
Proof. intros K HK a b Ha Hb. split; [exact (padd_spec HK a b Ha Hb)|exact (psub_spec HK a b Ha Hb)]. Qed.
Print Assumptions C26_add_sub.

Theorem C26_mul : forall (K : fops), flaws K -> forall a b : list K, a <> [] -> b <> [] ->
  exists r, pmul a b = Ret r /\ r <> [] /\ forall i, coef r i = prod_coef (coef a) (coef b) i.
Proof. intros K HK a b Ha Hb. exact (pmul_spec HK a b Ha Hb). Qed.
Print Assumptions C26_mul.

Theorem C26_scalar : forall (K : fops), flaws K -> forall (a : list K) (x : K), a <> [] ->
  (exists r, psmul a x = Ret r /\ length r = length a /\ forall i, coef r i = fmul (coef a i) x) /\
  (exists r, psdiv a x = Ret r /\ length r = length a /\ forall i, coef r i = fdiv (coef a i) x).
Proof. intros K HK a x Ha. split; [exact (psmul_spec HK a x Ha)|exact (psdiv_spec HK a x Ha)]. Qed.
Print Assumptions C26_scalar.

(** get_deg is the degree, 0 for the zero polynomial *)
Theorem C26_get_deg : forall (K : fops), flaws K -> forall (a : list K), a <> [] ->
  exists d, get_deg a = Ret d /\ (has_degree a d \/ zero_poly a /\ d = 0).
Proof.
  intros K HK a Ha. destruct (get_deg_spec HK a Ha) as [d [E [_ [D T]]]]. exists d. split; [exact E|].
  destruct (K_dec HK (coef a d) f0) as [Z|Z].
  - right. destruct T as [->|T]; [|contradiction]. split; [|reflexivity]. intros [|i]; [exact Z|apply D; lia].
  - left. split; [exact Z|]. intros i Hi. apply D. exact Hi.
Qed.
Print Assumptions C26_get_deg.

(** the empty vector (default-constructed Poly): every operation that needs the degree throws *)
Theorem C26_empty_throws : forall (K : fops) (a : list K) (x : K),
  get_deg (@nil K) = Throw /\ padd a [] = Throw /\ psub a [] = Throw /\ psmul [] x = Throw /\ pmul [] a = Throw.
Proof. intros K a x. repeat split; reflexivity. Qed.
Print Assumptions C26_empty_throws.

(** ---- division ---- *)
Theorem C26_division : forall (K : fops), flaws K -> forall (a z : list K) (dz : nat), a <> [] -> has_degree z dz ->
  (zero_poly a -> 0 < dz) ->
  exists q r, fast_euclidean_division a z = Ret (q, r) /\
    (forall i, coef a i = fadd (prod_coef (coef q) (coef z) i) (coef r i)) /\
    (forall i, dz <= i -> coef r i = f0).
Proof.
  intros K HK a z dz Ha [Nz Dz] C. destruct (get_deg_spec HK a Ha) as [da [_ [_ Ia]]].
  destruct (fed_spec HK a z da dz Ha (nz_ne z dz Nz) Ia) as [q [r [E [_ [_ [V [D _]]]]]]].
  - split; [intros i Hi; apply Dz; exact Hi|right; exact Nz].
  - exact Nz.
  - destruct (K_dec HK (cf a da) f0) as [Z|Z]; [left|right; exact Z].
    destruct Ia as [D [->|N]]; [|contradiction]. apply C. intros [|i]; [exact Z|apply D; lia].
  - exists q, r. split; [exact E|]. split; [exact V|exact D].
Qed.
Print Assumptions C26_division.

(** quotient and remainder are determined by these two equations, so operator/ and operator% are the Euclidean ones *)
Theorem C26_division_unique : forall (K : fops), flaws K -> forall (a z q r q' r' : list K) (dz : nat), has_degree z dz ->
  (forall i, coef a i = fadd (prod_coef (coef q) (coef z) i) (coef r i)) -> (forall i, dz <= i -> coef r i = f0) ->
  (forall i, coef a i = fadd (prod_coef (coef q') (coef z) i) (coef r' i)) -> (forall i, dz <= i -> coef r' i = f0) ->
  forall i, coef q i = coef q' i /\ coef r i = coef r' i.
Proof.
  intros K HK a z q r q' r' dz [Nz Dz] E D E' D'.
  assert (Q : ssub (cf q) (cf q') == s0).
  { apply (dvd_small HK (cf z) _ dz Nz); [intros i Hi; apply Dz; exact Hi|apply (isp_sub HK); apply isp_cf|].
    intros i Hi. rewrite (smul_comm HK). 
    assert (X : smul (ssub (cf q) (cf q')) (cf z) i = fsub (prod_coef (coef q) (coef z) i) (prod_coef (coef q') (coef z) i)).
    { unfold smul, prod_coef, ssub. rewrite <- (fsum_sub HK). apply fsum_ext. intros j _. unfold cf, coef.
      pose proof (fl_field K HK) as F. destruct F as [R _ _ _]. destruct R. rewrite !Rsub_def. rewrite Rdistr_l. f_equal.
      assert (O : forall x y : K, fmul (fopp x) y = fopp (fmul x y)).
      { intros x y. clear - HK. pose proof (fl_field K HK) as F. 
        assert (W : fadd (fmul (fopp x) y) (fmul x y) = f0).
        { destruct F as [R _ _ _]. destruct R. rewrite <- Rdistr_l. rewrite (Radd_comm (fopp x) x), Ropp_def. rewrite Rmul_comm. apply (fmul_zero_r HK). }
        destruct F as [R _ _ _]. destruct R. rewrite <- (Radd_0_l (fmul (fopp x) y)), <- (Ropp_def (fmul x y)).
        rewrite <- Radd_assoc, (Radd_comm (fopp _)), Radd_assoc. rewrite (Radd_comm (fmul x y)), W. apply Radd_0_l. }
      apply O. }
    rewrite X. clear X. specialize (E i). specialize (E' i). rewrite D in E by exact Hi. rewrite D' in E' by exact Hi.
    pose proof (fl_field K HK) as F. destruct F as [R _ _ _]. destruct R.
    rewrite Radd_comm, Radd_0_l in E. rewrite Radd_comm, Radd_0_l in E'. rewrite <- E, <- E', Rsub_def. apply Ropp_def. }
  intros i. assert (Qi : forall j, coef q j = coef q' j) by (intros j; apply (fsub_0 HK); exact (Q j)).
  split; [apply Qi|]. specialize (E i). specialize (E' i).
  assert (P : prod_coef (coef q) (coef z) i = prod_coef (coef q') (coef z) i).
  { unfold prod_coef. apply fsum_ext. intros j _. rewrite Qi. reflexivity. }
  rewrite E, P in E'. pose proof (fl_field K HK) as F. destruct F as [R _ _ _]. destruct R.
  set (w := prod_coef (coef q') (coef z) i) in *.
  assert (G : forall x : K, fadd (fopp w) (fadd w x) = x) by (intros x; rewrite Radd_assoc, (Radd_comm (fopp w)), Ropp_def; apply Radd_0_l).
  rewrite <- (G (coef r i)), E'. apply G.
Qed.
Print Assumptions C26_division_unique.

(** the unconditional claim is false: the zero polynomial divided by a nonzero constant pops an empty vector,
    and so does every division by the zero polynomial *)
Theorem C26_zero_dividend_refuted : forall (K : fops), flaws K -> forall (a z : list K), a <> [] -> zero_poly a -> has_degree z 0 ->
  fast_euclidean_division a z = UB.
Proof.
  intros K HK a z Ha Za [Nz Dz]. unfold fast_euclidean_division.
  assert (Ia : isdeg (cf a) 0) by (split; [intros i _; apply Za|left; reflexivity]).
  destruct (get_deg_is HK a 0 Ha Ia) as [-> _].
  assert (Iz : isdeg (cf z) 0) by (split; [intros i Hi; apply Dz; lia|left; reflexivity]).
  destruct (get_deg_is HK z 0 (nz_ne z 0 Nz) Iz) as [-> _]. cbn [obind Nat.ltb Nat.leb].
  destruct (shrink_spec HK z 0 Nz) as [b0 [d0 [Eb0 [Vb0 [Lb0 [Nb0 [Tb0 Db0]]]]]]]. rewrite Eb0. cbn [obind].
  assert (d0 = 0) as -> by (apply (isdeg_unique (cf z)); assumption).
  assert (Hb0 : b0 <> []) by (apply len_ne; lia).
  destruct (psdiv_spec HK b0 (last b0 f0) Hb0) as [b [Eb [Lb Vb]]]. rewrite Eb. cbn [obind].
  assert (Nb : cf b 0 <> f0) by (rewrite Vb, Tb0; apply (fdiv_neq0 HK); exact Nb0).
  assert (Ib : isdeg (cf b) 0).
  { split; [|left; reflexivity]. intros i Hi. apply cf_out. lia. }
  destruct (get_deg_is HK b 0 (nz_ne b 0 Nb) Ib) as [-> _]. cbn [obind Nat.sub Nat.add]. cbv zeta.
  destruct (prev_spec HK b 0 Nb) as [f [df [Ef _]]]. rewrite Ef. cbn [obind].
  change (Nat.log2_up 1) with 0. cbn [newton_inv obind].
  unfold prev at 1. rewrite (shrink_zero HK a Za). reflexivity.
Qed.
Print Assumptions C26_zero_dividend_refuted.

Theorem C26_division_by_zero_refuted : forall (K : fops), flaws K -> forall (a z : list K), a <> [] -> z <> [] -> zero_poly z ->
  fast_euclidean_division a z = UB.
Proof.
  intros K HK a z Ha Hz Zz. unfold fast_euclidean_division.
  destruct (get_deg_spec HK a Ha) as [da [-> _]].
  destruct (get_deg_is HK z 0 Hz) as [-> _]; [split; [intros i _; apply Zz|left; reflexivity]|].
  cbn [obind]. destruct (Nat.ltb_spec da 0); [lia|]. rewrite (shrink_zero HK z Zz). reflexivity.
Qed.
Print Assumptions C26_division_by_zero_refuted.

(** ---- gcd ---- *)
Theorem C26_gcd : forall (K : fops), flaws K -> forall (c d : list K), c <> [] -> d <> [] ->
  (~ zero_poly c \/ zero_poly d \/ exists e, 0 < e /\ coef d e <> f0) ->
  exists g, pgcd c d = Ret g /\ divides g c /\ divides g d /\
    exists u v : list K, forall i, coef g i = fadd (prod_coef (coef u) (coef c) i) (prod_coef (coef v) (coef d) i).
Proof.
  intros K HK c d Hc Hd C. destruct (pgcd_spec HK c d Hc Hd C) as [g [E [_ [[x [Px Gx]] [[y [Py Gy]] [u [v [Pu [Pv G]]]]]]]]].
  destruct (isp_list x Px) as [lx Ex]. destruct (isp_list y Py) as [ly Ey].
  destruct (isp_list u Pu) as [lu Eu]. destruct (isp_list v Pv) as [lv Ev].
  exists g. split; [exact E|]. split; [|split].
  - exists lx. intros i. rewrite (Gx i : coef c i = _). apply smul_proper; [reflexivity|symmetry; exact Ex].
  - exists ly. intros i. rewrite (Gy i : coef d i = _). apply smul_proper; [reflexivity|symmetry; exact Ey].
  - exists lu, lv. intros i. rewrite (G i : coef g i = _). unfold sadd. f_equal; apply smul_proper; try reflexivity; symmetry; assumption.
Qed.
Print Assumptions C26_gcd.

(** gcd(0, constant) is undefined behaviour *)
Theorem C26_gcd_refuted : forall (K : fops), flaws K -> forall (c d : list K), c <> [] -> zero_poly c -> has_degree d 0 ->
  pgcd c d = UB.
Proof.
  intros K HK c d Hc Zc [Nd Dd]. unfold pgcd. cbn [gcd_loop].
  assert (Id : isdeg (cf d) 0) by (split; [intros i Hi; apply Dd; lia|left; reflexivity]).
  destruct (get_deg_is HK d 0 (nz_ne d 0 Nd) Id) as [-> L]. rewrite (at_ok d 0 L). cbn [obind Nat.eqb negb orb].
  rewrite (proj2 (feqb_neq HK (cf d 0) f0) Nd). cbn [negb]. unfold pmod.
  rewrite (C26_zero_dividend_refuted K HK c d Hc Zc (conj Nd Dd)). reflexivity.
Qed.
Print Assumptions C26_gcd_refuted.

(** ---- roots ---- *)
Lemma linprod_coef {K : fops} (rs : list K) i : linprod rs i = coef_roots rs i.
Proof.
  revert i. induction rs as [|r rs IH]; intros i; [reflexivity|]. cbn [linprod coef_roots]. unfold smul, prod_coef.
  apply fsum_ext. intros j _. rewrite IH. reflexivity.
Qed.

(** whatever numbers the random engine returns and however long it is allowed to run: roots() of a nonzero
    polynomial has not finished, or has returned a list with  c = k * prod (X - r)  and k <> 0 (so exactly the roots,
    with multiplicity, and c splits); no exception, no undefined behaviour *)
Theorem C43_roots : forall (K : fops), flaws K -> forall (s fuel : nat) (deltas c : list K), ~ zero_poly c ->
  roots s fuel deltas c = Diverge \/
  exists rs k, roots s fuel deltas c = Ret rs /\ k <> f0 /\ forall i, coef c i = fmul k (coef_roots rs i).
Proof.
  intros K HK s fuel deltas c H. destruct (roots_spec HK s fuel deltas c H) as [X|[rs [k [X [Nk V]]]]]; [left; exact X|].
  right. exists rs, k. split; [exact X|]. split; [exact Nk|]. intros i. rewrite <- linprod_coef. apply V.
Qed.
Print Assumptions C43_roots.

(** a polynomial of positive degree without a root in the field: roots() never returns, for any random numbers *)
Theorem C43_roots_hang : forall (K : fops), flaws K -> forall (s fuel : nat) (deltas c : list K) d, has_degree c d -> 0 < d ->
  (forall x, fsum (length c) (fun i => fmul (coef c i) (pw x i)) <> f0) -> roots s fuel deltas c = Diverge.
Proof. intros K HK s fuel deltas c d [Nd _] Hd Hx. exact (roots_hang HK s fuel deltas c d Hd Nd Hx). Qed.
Print Assumptions C43_roots_hang.

(** ---- concrete cases over Z/7 ---- *)
Definition l7 (l : list Z) : list F7 := map z7 l.
Definition u7 (o : outcome (list F7)) : option (list Z) := match o with Ret l => Some (map v7 l) | _ => None end.
Example C26_division_example :
  (* x^4 + 2x^3 + 5 = (4x^2 + 5) * (2x^2 + 4x + 1)  + (x) over Z/7, dividend with a trailing zero *)
  match fast_euclidean_division (l7 [5;0;0;2;1;0]%Z) (l7 [1;4;2]%Z) with
  | Ret (q, r) => (map v7 q, map v7 r) | _ => ([], []) end = ([5;0;4]%Z, [0;1;0;0;0;0]%Z).
Proof. vm_compute. reflexivity. Qed.
(** gcd(x^2-1, x^2+3x+3 with x^2 - 1 = (x-1)(x+1), x^2 + 3x - 4 = (x-1)(x+4)): a multiple of x - 1 *)
Example C26_gcd_example : u7 (pgcd (l7 [6;0;1]%Z) (l7 [3;3;1]%Z)) = Some [3;4;0]%Z.
Proof. vm_compute. reflexivity. Qed.
Example C26_refuted_example : (zero_poly (l7 [0;0]%Z) /\ has_degree (l7 [3]%Z) 0) /\
  fast_euclidean_division (l7 [0;0]%Z) (l7 [3]%Z) = UB.
Proof.
  split; [|vm_compute; reflexivity]. split; [intros [|[|[|i]]]; vm_compute; reflexivity|].
  split; [intros E; apply (f_equal v7) in E; vm_compute in E; discriminate|]. intros [|[|i]] Hi; [lia|vm_compute; reflexivity|vm_compute; reflexivity].
Qed.
(** 3 x (x-1)^2 (x-5): s = (7-1)/2 = 3; the returned list of roots *)
Example C43_roots_example : u7 (roots 3 40 (l7 [0;0;1;2;3;4;5;6;1;2]%Z) (l7 [0;6;5;0;3]%Z)) = Some [0;5;1;1]%Z.
Proof. vm_compute. reflexivity. Qed.
(** x^2 + 1 has no root modulo 7: roots() hangs *)
Example C43_hang_example : forall s fuel deltas, roots s fuel deltas (l7 [1;0;1]%Z) = Diverge.
Proof.
  intros s fuel deltas. apply (C43_roots_hang F7 F7_laws s fuel deltas (l7 [1;0;1]%Z) 2); [|lia|].
  - split; [intros E; apply (f_equal v7) in E; vm_compute in E; discriminate|].
    intros [|[|[|[|i]]]] Hi; try lia; vm_compute; reflexivity.
  - intros x E. apply (f_equal v7) in E. destruct x as [x Hx].
    pose proof (proj1 (canon_iff 7 x) Hx) as R.
    assert (C : (x = 0 \/ x = 1 \/ x = 2 \/ x = 3 \/ x = 4 \/ x = 5 \/ x = 6)%Z) by lia.
    destruct C as [->|[->|[->|[->|[->|[->| ->]]]]]]; vm_compute in E; discriminate.
Qed.

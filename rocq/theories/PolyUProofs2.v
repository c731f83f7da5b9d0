(** gcd and roots of the class Poly (model: PolyU.v). *)
From Coq Require Import Setoid Morphisms.
From Verif Require Import Machine FField FSum FPoly FFVec FFVecProofs Series PolyU PolyUProofs.
Open Scope nat_scope.

(** the series of X - r *)
Definition lin {K : fops} (r : K) : nat -> K := fun i => match i with O => fopp r | S O => f1 | _ => f0 end.
(** the product of X - r over a list *)
Fixpoint linprod {K : fops} (rs : list K) : nat -> K := match rs with [] => s1 | r :: t => smul (lin r) (linprod t) end.
Fixpoint qprod {K : fops} (qs : list (list K)) : nat -> K := match qs with [] => s1 | q :: t => smul (cf q) (qprod t) end.

Section Proofs.
  Context {K : fops} (HK : flaws K).
  Add Field KF : (fl_field K HK).
  Add Ring SR : (series_ring HK) (setoid (@seq_equiv K) (@series_ext K)).
  Implicit Types (c a b z q : list K) (f g : nat -> K) (n m i j d : nat).

  Definition isp f : Prop := exists n, dlt f n.
  Lemma isp_cf c : isp (cf c). Proof. exists (length c). apply cf_dlt. Qed.
  Lemma isp_add f g : isp f -> isp g -> isp (sadd f g).
  Proof. intros [n A] [m B]. exists (n + m). apply (dlt_add HK); eapply dlt_mono; [|exact A| |exact B]; lia. Qed.
  Lemma isp_sub f g : isp f -> isp g -> isp (ssub f g).
  Proof. intros [n A] [m B]. exists (n + m). apply (dlt_sub HK); eapply dlt_mono; [|exact A| |exact B]; lia. Qed.
  Lemma isp_mul f g : isp f -> isp g -> isp (smul f g).
  Proof. intros [n A] [m B]. exists (S (n + m)). apply (dlt_mul HK); eapply dlt_mono; [|exact A| |exact B]; lia. Qed.
  Lemma isp_s0 : isp (@s0 K). Proof. exists 0. apply dlt_s0. Qed.
  Lemma isp_s1 : isp (@s1 K). Proof. exists 1. intros [|i] Hi; [lia|reflexivity]. Qed.
  Lemma isp_list f : isp f -> exists c, cf c == f.
  Proof. intros [n D]. exists (map f (seq 0 n)). apply cf_map_seq. exact D. Qed.
  Lemma isp_deg f : isp f -> f == s0 \/ exists d, f d <> f0 /\ dlt f (S d).
  Proof.
    intros H. destruct (isp_list f H) as [c E]. destruct c as [|x t].
    - left. rewrite <- E. intros [|i]; reflexivity.
    - destruct (get_deg_spec HK (x :: t)) as [d [_ [_ [D T]]]]; [discriminate|].
      destruct (K_dec HK (cf (x :: t) d) f0) as [Z|Z].
      + destruct T as [->|T]; [|contradiction]. left. rewrite <- E. intros i. destruct i as [|i]; [exact Z|apply D; lia].
      + right. exists d. rewrite <- (E d). split; [exact Z|]. intros i Hi. rewrite <- (E i). apply D. exact Hi.
  Qed.
  Lemma nz_dec c : cf c == s0 \/ exists d, cf c d <> f0 /\ dlt (cf c) (S d).
  Proof. apply isp_deg, isp_cf. Qed.
  Lemma isdeg_nz c d : cf c d <> f0 -> dlt (cf c) (S d) -> isdeg (cf c) d.
  Proof. intros A B. split; [exact B|right; exact A]. Qed.
  Lemma nz_ne c d : cf c d <> f0 -> c <> [].
  Proof. intros H ->. apply H. destruct d; reflexivity. Qed.

  Definition pdvd f g : Prop := exists w, isp w /\ g == smul f w.

  (** a nonzero polynomial does not divide a nonzero polynomial of smaller degree *)
  Lemma dvd_small f w d : f d <> f0 -> dlt f (S d) -> isp w -> dlt (smul f w) d -> w == s0.
  Proof.
    intros N D W L. destruct (isp_deg w W) as [Z|[e [Ne De]]]; [exact Z|exfalso].
    pose proof (smul_top HK f w d e D De) as T. rewrite L in T by lia. symmetry in T. apply (fmul_0 HK) in T. tauto.
  Qed.

  (** ---- gcd ---- *)
  Lemma gcd_loop_spec : forall fuel a b, a <> [] -> b <> [] ->
    (exists m, dlt (cf b) m /\ m + 1 < fuel) ->
    (~ cf a == s0 \/ cf b == s0 \/ exists d, 0 < d /\ cf b d <> f0) ->
    exists g : list K, gcd_loop fuel a b = Ret g /\ g <> [] /\ pdvd (cf g) (cf a) /\ pdvd (cf g) (cf b) /\
      exists u v, isp u /\ isp v /\ cf g == sadd (smul u (cf a)) (smul v (cf b)).
  Proof.
    induction fuel as [|fuel IH]; intros a b Ha Hb [m [Dm Hm]] C; [lia|]. cbn [gcd_loop].
    destruct (get_deg_spec HK b Hb) as [db [Eb [Lb Ib]]]. rewrite Eb, (at_ok b 0 (ne_len b Hb)). cbn [obind].
    destruct (nz_dec b) as [Z|[d [Nd Dd]]].
    - assert (db = 0) as ->.
      { destruct Ib as [_ [E|N]]; [exact E|]. exfalso. apply N. apply Z. }
      rewrite (Z 0). unfold s0. rewrite (feqb_refl HK). cbn [Nat.eqb negb orb].
      exists a. split; [reflexivity|]. split; [exact Ha|]. split; [exists s1; split; [apply isp_s1|ring]|].
      split; [exists s0; split; [apply isp_s0|rewrite Z; ring]|].
      exists s1, s0. split; [apply isp_s1|]. split; [apply isp_s0|]. ring.
    - assert (db = d) as -> by (apply (isdeg_unique (cf b)); [exact Ib|apply isdeg_nz; assumption]).
      replace (negb (d =? 0) || negb (feqb (cf b 0) f0)) with true.
      2:{ symmetry. apply orb_true_iff. destruct d as [|d]; [right|left; reflexivity].
          apply negb_true_iff. apply (feqb_neq HK). exact Nd. }
      destruct (get_deg_spec HK a Ha) as [da [Ea [La Ia]]].
      assert (Cond : da < d \/ cf a da <> f0).
      { destruct (K_dec HK (cf a da) f0) as [Za|Za]; [left|right; exact Za].
        assert (Ea0 : cf a == s0).
        { destruct Ia as [D [->|N]]; [|contradiction]. intros [|i]; [exact Za|apply D; lia]. }
        assert (da = 0) as -> by (destruct Ia as [_ [E|N]]; [exact E|contradiction]).
        destruct C as [C|[C|[e [He Ne]]]]; [contradiction|exfalso; apply Nd; apply C|].
        destruct (le_lt_dec e d); [lia|]. exfalso. apply Ne. apply Dd. lia. }
      destruct (fed_spec HK a b da d Ha Hb Ia Ib Nd Cond) as [q [r [Er [Nq [Nr [Eq [Dr _]]]]]]].
      unfold pmod. rewrite Er. cbn [obind snd].
      assert (Hmd : d < m).
      { destruct (le_lt_dec m d) as [L|L]; [|exact L]. exfalso. apply Nd. apply Dm. exact L. }
      destruct (IH b r Hb Nr) as [g [Eg [Ng [[x [Px Gx]] [[y [Py Gy]] [u [v [Pu [Pv Guv]]]]]]]]].
      { exists d. split; [exact Dr|lia]. }
      { left. intros Z. apply Nd. apply Z. }
      exists g. split; [exact Eg|]. split; [exact Ng|]. split; [|split].
      + exists (sadd (smul (cf q) x) y). split; [apply isp_add; [apply isp_mul; [apply isp_cf|exact Px]|exact Py]|].
        rewrite Eq. transitivity (sadd (smul (cf q) (smul (cf g) x)) (smul (cf g) y)); [|ring].
        rewrite <- Gx, <- Gy. reflexivity.
      + exists x. tauto.
      + exists v, (ssub u (smul v (cf q))). split; [exact Pv|]. split; [apply isp_sub; [exact Pu|apply isp_mul; [exact Pv|apply isp_cf]]|].
        rewrite Guv. rewrite Eq. ring.
  Qed.

  Theorem pgcd_spec c (d : list K) : c <> [] -> d <> [] -> (~ cf c == s0 \/ cf d == s0 \/ exists e, 0 < e /\ cf d e <> f0) ->
    exists g : list K, pgcd c d = Ret g /\ g <> [] /\ pdvd (cf g) (cf c) /\ pdvd (cf g) (cf d) /\
      exists u v, isp u /\ isp v /\ cf g == sadd (smul u (cf c)) (smul v (cf d)).
  Proof.
    intros Hc Hd C. unfold pgcd. apply gcd_loop_spec; try assumption.
    exists (length d). split; [apply cf_dlt|lia].
  Qed.

  (** ---- roots ---- *)
  Lemma master_loop_spec (multi q : list K) d : multi <> [] -> cf q d <> f0 -> dlt (cf q) (S d) -> 0 < d ->
    forall s master, master <> [] -> exists r, master_loop s multi q master = Ret r /\ r <> [].
  Proof.
    intros Hm Nq Dq Hd. induction s as [|s IH]; intros master Hne; cbn [master_loop]; [exists master; tauto|].
    destruct (pmul_spec HK master multi Hne Hm) as [t [Et [Nt _]]]. rewrite Et. cbn [obind].
    destruct (get_deg_spec HK t Nt) as [dt [_ [_ It]]].
    destruct (fed_spec HK t q dt d Nt (nz_ne q d Nq) It (isdeg_nz q d Nq Dq) Nq) as [x [r [Er [_ [Nr _]]]]].
    { destruct (le_lt_dec d dt); [right|left; assumption]. destruct It as [_ [->|N]]; [lia|exact N]. }
    unfold pmod. rewrite Er. cbn [obind snd]. apply IH. exact Nr.
  Qed.

  Lemma split_step_spec s delta q d : cf q d <> f0 -> dlt (cf q) (S d) -> 1 < d ->
    exists h f : list K, split_step s delta q = Ret (h, f) /\ ~ cf h == s0 /\ ~ cf f == s0 /\ cf q == smul (cf f) (cf h).
  Proof.
    intros Nq Dq Hd. unfold split_step. pose proof (nz_ne q d Nq) as Hq. pose proof (isdeg_nz q d Nq Dq) as Iq.
    destruct (get_deg_is HK q d Hq Iq) as [Eq Lq]. rewrite Eq. cbn [obind].
    destruct (master_loop_spec [delta; f1] q d) with (s := s) (master := resize [@f1 K] (d + 2)) as [ms [Em Nm]]; try assumption; try discriminate; try lia.
    { apply len_ne. rewrite resize_length. lia. }
    rewrite Em. cbn [obind]. rewrite (at_ok ms 0 (ne_len ms Nm)). cbn [obind].
    set (ms' := upd ms 0 (fsub (cf ms 0) f1)).
    assert (Nm' : ms' <> []) by (apply len_ne; subst ms'; rewrite upd_length; apply ne_len; exact Nm).
    destruct (pgcd_spec q ms' Hq Nm') as [h [Eh [Nh [[w [Pw Gw]] _]]]].
    { left. intros Z. apply Nq. apply Z. }
    rewrite Eh. cbn [obind].
    destruct (nz_dec h) as [Z|[dh [Nhd Dh]]].
    { exfalso. apply Nq. rewrite (Gw d). assert (X : smul (cf h) w == s0) by (rewrite Z; ring). apply X. }
    unfold pdiv.
    destruct (fed_spec HK q h d dh Hq Nh Iq (isdeg_nz h dh Nhd Dh) Nhd (or_intror Nq)) as [f [r [Ef [Nf [Nr [Vf [Dr _]]]]]]].
    rewrite Ef. cbn [obind fst].
    assert (R0 : cf r == s0).
    { assert (X : cf r == smul (cf h) (ssub w (cf f))).
      { transitivity (ssub (cf q) (smul (cf f) (cf h))); [rewrite Vf; ring|rewrite Gw; ring]. }
      assert (Y : ssub w (cf f) == s0).
      { apply (dvd_small (cf h) _ dh Nhd Dh); [apply isp_sub; [exact Pw|apply isp_cf]|]. rewrite <- X. exact Dr. }
      rewrite X, Y. ring. }
    assert (V : cf q == smul (cf f) (cf h)) by (rewrite Vf, R0; ring).
    destruct (shrink_spec HK h dh Nhd) as [h' [dh' [Eh' [Vh' _]]]]. rewrite Eh'. cbn [obind].
    destruct (nz_dec f) as [Z|[df [Nfd Df]]].
    { exfalso. apply Nq. rewrite (V d). assert (X : smul (cf f) (cf h) == s0) by (rewrite Z; ring). apply X. }
    destruct (shrink_spec HK f df Nfd) as [f' [df' [Ef' [Vf' _]]]]. rewrite Ef'. cbn [obind].
    exists h', f'. split; [reflexivity|]. split; [|split].
    - intros Z. apply Nhd. rewrite <- (Vh' dh). apply Z.
    - intros Z. apply Nfd. rewrite <- (Vf' df). apply Z.
    - rewrite Vh', Vf'. exact V.
  Qed.

  Definition allnz (qs : list (list K)) := Forall (fun q => ~ cf q == s0) qs.
  Definition scale_eq f g : Prop := exists k : K, k <> f0 /\ f == smul (sconst k) g.
  Lemma sconst_mul (x y : K) : smul (sconst x) (sconst y) == sconst (fmul x y).
  Proof. intros i. rewrite (smul_const HK). destruct i; cbn [sconst]; [reflexivity|ring]. Qed.
  Lemma sconst_1 : sconst (@f1 K) == s1. Proof. intros [|i]; reflexivity. Qed.
  Lemma scale_refl f g : f == g -> scale_eq f g.
  Proof. intros E. exists f1. split; [apply (f1_neq_0 HK)|]. rewrite sconst_1, E. ring. Qed.
  Lemma scale_trans f g h : scale_eq f g -> scale_eq g h -> scale_eq f h.
  Proof.
    intros [x [Nx Ex]] [y [Ny Ey]]. exists (fmul x y). split; [apply (fmul_neq0 HK); assumption|].
    rewrite Ex, Ey, <- sconst_mul. ring.
  Qed.
  Lemma scale_mul_l f g h : scale_eq f g -> scale_eq (smul h f) (smul h g).
  Proof. intros [x [Nx Ex]]. exists x. split; [exact Nx|]. rewrite Ex. ring. Qed.

  Lemma linprod_app (rs ts : list K) : linprod (rs ++ ts) == smul (linprod rs) (linprod ts).
  Proof.
    induction rs as [|r rs IH]; cbn [linprod app]; [ring|].
    rewrite (smul_proper _ _ (reflexivity (lin r)) _ _ IH). ring.
  Qed.

  (** a polynomial of degree 0 or 1 *)
  Lemma deg0_const q : cf q 0 <> f0 -> dlt (cf q) 1 -> scale_eq (cf q) s1.
  Proof.
    intros N D. exists (cf q 0). split; [exact N|]. intros i. rewrite (smul_const HK). destruct i as [|i]; cbn [s1]; [ring|].
    rewrite D by lia. ring.
  Qed.
  Lemma deg1_lin q : cf q 1 <> f0 -> dlt (cf q) 2 -> scale_eq (cf q) (lin (fdiv (fopp (cf q 0)) (cf q 1))).
  Proof.
    intros N D. exists (cf q 1). split; [exact N|]. intros i. rewrite (smul_const HK). destruct i as [|[|i]]; cbn [lin].
    - field. exact N.
    - ring.
    - rewrite D by lia. ring.
  Qed.

  Lemma get_deg_nz q : ~ cf q == s0 -> exists d, get_deg q = Ret d /\ cf q d <> f0 /\ dlt (cf q) (S d) /\ d < length q.
  Proof.
    intros H. destruct (nz_dec q) as [Z|[d [N D]]]; [contradiction|]. exists d.
    destruct (get_deg_is HK q d (nz_ne q d N) (isdeg_nz q d N D)) as [E L]. tauto.
  Qed.

  Lemma take_linear_spec : forall qs rs, allnz qs -> exists qs' rs', take_linear qs rs = Ret (qs', rs') /\ allnz qs' /\
    scale_eq (smul (qprod qs) (linprod rs)) (smul (qprod qs') (linprod rs')).
  Proof.
    induction qs as [|q qs IH]; intros rs A; cbn [take_linear].
    - exists [], rs. split; [reflexivity|]. split; [exact A|]. apply scale_refl. reflexivity.
    - inversion A as [|? ? Nq Aq]; subst. destruct (get_deg_nz q Nq) as [d [E [N [D L]]]]. rewrite E. cbn [obind].
      destruct (Nat.eqb_spec d 1) as [->|N1].
      + rewrite (at_ok q 0), (at_ok q 1) by lia. cbn [obind].
        destruct (IH (rs ++ [fdiv (fopp (cf q 0)) (cf q 1)]) Aq) as [qs' [rs' [E' [A' S']]]].
        exists qs', rs'. split; [exact E'|]. split; [exact A'|]. eapply scale_trans; [|exact S'].
        destruct (deg1_lin q N D) as [k [Nk Ek]]. exists k. split; [exact Nk|]. cbn [qprod].
        rewrite (smul_proper _ _ (reflexivity (qprod qs)) _ _ (linprod_app _ _)). cbn [linprod]. rewrite Ek. ring.
      + exists (q :: qs), rs. split; [reflexivity|]. split; [exact A|]. apply scale_refl. reflexivity.
  Qed.

  Lemma roots_loop_spec s : forall fuel deltas qs rs, allnz qs ->
    roots_loop s fuel deltas qs rs = Diverge \/
    exists rs', roots_loop s fuel deltas qs rs = Ret rs' /\ scale_eq (smul (qprod qs) (linprod rs)) (linprod rs').
  Proof.
    induction fuel as [|fuel IH]; intros deltas qs rs A; cbn [roots_loop]; [left; reflexivity|].
    destruct qs as [|q t].
    { right. exists rs. split; [reflexivity|]. apply scale_refl. cbn [qprod]. ring. }
    inversion A as [|? ? Nq At]; subst. destruct (get_deg_nz q Nq) as [d [E [N [D L]]]]. rewrite E. cbn [obind].
    destruct (Nat.ltb_spec 1 d) as [G|G].
    - destruct deltas as [|delta ds]; [left; reflexivity|].
      destruct (split_step_spec s delta q d N D G) as [h [f [Es [Nh [Nf V]]]]]. rewrite Es. cbn [obind fst snd].
      destruct (IH ds (f :: h :: t) rs) as [X|[rs' [X Y]]]; [repeat constructor; assumption|left; exact X|].
      right. exists rs'. split; [exact X|]. eapply scale_trans; [|exact Y]. apply scale_refl. cbn [qprod]. rewrite V. ring.
    - assert (A2 : allnz (if d =? 0 then t else q :: t)) by (destruct (d =? 0); assumption).
      destruct (take_linear_spec _ rs A2) as [qs' [rs' [E' [A' S']]]]. rewrite E'. cbn [obind fst snd].
      destruct (IH deltas qs' rs' A') as [X|[rs'' [X Y]]]; [left; exact X|].
      right. exists rs''. split; [exact X|]. eapply scale_trans; [|exact Y]. eapply scale_trans; [|exact S'].
      destruct (Nat.eqb_spec d 0) as [->|N0]; [|apply scale_refl; reflexivity].
      destruct (deg0_const q N D) as [k [Nk Ek]]. exists k. split; [exact Nk|]. cbn [qprod]. rewrite Ek. ring.
  Qed.

  Lemma lin0_cons (x : K) t : x = f0 -> cf (x :: t) == smul (lin f0) (cf t).
  Proof.
    intros -> i. unfold smul. destruct i as [|i].
    - cbn [fsum Nat.sub lin]. unfold cf. cbn [nth]. ring.
    - rewrite (fsum_single HK _ 1); [|lia|].
      + cbn [lin Nat.sub]. rewrite Nat.sub_0_r. unfold cf. cbn [nth]. ring.
      + intros [|[|j]] Hj N1; [|lia|]; cbn [lin]; ring.
  Qed.

  Lemma strip_spec : forall c rs, ~ cf c == s0 -> exists c' rs', strip_zero_roots c rs = Ret (c', rs') /\ ~ cf c' == s0 /\
    smul (cf c) (linprod rs) == smul (cf c') (linprod rs').
  Proof.
    induction c as [|x t IH]; intros rs H; cbn [strip_zero_roots].
    - exfalso. apply H. intros [|i]; reflexivity.
    - destruct (feqb x f0) eqn:E.
      + apply (fl_eqb K HK) in E. destruct (IH (rs ++ [f0])) as [c' [rs' [A [B C]]]].
        { intros Z. apply H. rewrite (lin0_cons x t E), Z. ring. }
        exists c', rs'. split; [exact A|]. split; [exact B|]. rewrite <- C, (lin0_cons x t E).
        rewrite (smul_proper _ _ (reflexivity (cf t)) _ _ (linprod_app _ _)). cbn [linprod]. ring.
      + exists (x :: t), rs. split; [reflexivity|]. split; [exact H|reflexivity].
  Qed.

  Theorem roots_spec s fuel deltas c : ~ cf c == s0 ->
    roots s fuel deltas c = Diverge \/
    exists rs k, roots s fuel deltas c = Ret rs /\ k <> f0 /\ forall i, cf c i = fmul k (linprod rs i).
  Proof.
    intros H. unfold roots. destruct (nz_dec c) as [Z|[d [N D]]]; [contradiction|].
    destruct (shrink_spec HK c d N) as [a0 [d0 [E0 [V0 [L0 [N0 [T0 D0]]]]]]]. rewrite E0. cbn [obind].
    assert (Ha0 : a0 <> []) by (apply len_ne; lia).
    destruct (psdiv_spec HK a0 (last a0 f0) Ha0) as [a [Ea [La Va]]]. rewrite Ea. cbn [obind].
    rewrite T0 in Va. set (k0 := cf a0 d0) in *.
    assert (S1 : scale_eq (cf c) (cf a)).
    { exists k0. split; [exact N0|]. intros i. rewrite (smul_const HK), Va, (V0 i). field. exact N0. }
    assert (Na : ~ cf a == s0).
    { intros Z. destruct S1 as [k [Nk Ek]]. apply N. rewrite (Ek d), (smul_const HK), (Z d). unfold s0. ring. }
    destruct (strip_spec a [] Na) as [a' [rs [Es [Na' Vs]]]]. rewrite Es. cbn [obind fst snd].
    destruct (roots_loop_spec s fuel deltas [a'] rs) as [X|[rs' [X Y]]]; [repeat constructor; exact Na'|left; exact X|].
    right. assert (S2 : scale_eq (cf c) (linprod rs')).
    { eapply scale_trans; [exact S1|]. eapply scale_trans; [|exact Y]. apply scale_refl. cbn [qprod].
      transitivity (smul (cf a) (linprod [])); [cbn [linprod]; ring|]. rewrite Vs. ring. }
    destruct S2 as [k [Nk Ek]]. exists rs', k. split; [exact X|]. split; [exact Nk|]. intros i. rewrite (Ek i). apply (smul_const HK).
  Qed.

  (** ---- values ---- *)
  Lemma lin_value (r : K) f n : ueval (S n) (smul (lin r) f) r = (- (f n * pw r (S n)))%K.
  Proof.
    induction n as [|n IH].
    - unfold ueval. cbn [fsum pw]. unfold smul. cbn [fsum Nat.sub lin]. ring.
    - rewrite ueval_S, IH.
      assert (E : smul (lin r) f (S n) = (f n - r * f (S n))%K).
      { unfold smul. rewrite !(fsum_S_l HK). rewrite (fsum_0 HK) by (intros j _; cbn [lin]; ring).
        cbn [lin]. cbn [Nat.sub]. rewrite Nat.sub_0_r. ring. }
      rewrite E. cbn [pw]. ring.
  Qed.
  Lemma isp_linprod (rs : list K) : isp (linprod rs).
  Proof.
    induction rs as [|r rs IH]; cbn [linprod]; [apply isp_s1|]. apply isp_mul; [|exact IH].
    exists 2. intros [|[|i]] Hi; [lia|lia|reflexivity].
  Qed.

  (** a polynomial with positive degree and no root in the field: roots() never returns *)
  Theorem roots_hang s fuel deltas c d : 0 < d -> cf c d <> f0 ->
    (forall x, ueval (length c) (cf c) x <> f0) -> roots s fuel deltas c = Diverge.
  Proof.
    intros Hd Nd Hx. destruct (roots_spec s fuel deltas c) as [X|[rs [k [X [Nk V]]]]]; [|exact X|].
    { intros Z. apply Nd. apply Z. }
    exfalso. destruct rs as [|r rs].
    - apply Nd. rewrite V. cbn [linprod]. destruct d as [|d]; [lia|]. cbn [s1]. ring.
    - apply (Hx r). destruct (isp_linprod rs) as [n Dn].
      set (N := length c + n).
      rewrite <- (ueval_trunc HK (S N) (length c)) by (try lia; intros i Hi; apply cf_out; lia).
      rewrite (ueval_ext _ _ (fun i => k * linprod (r :: rs) i)%K) by (intros i _; apply V).
      rewrite (ueval_scale HK). cbn [linprod]. rewrite lin_value. rewrite Dn by lia. ring.
  Qed.
End Proofs.

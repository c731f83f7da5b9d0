(** Proofs for RatReconst in several variables: zero coefficients in the subtraction terms stand only at the constant. *)
From Coq Require Import Permutation.
From Verif Require Import Machine FField FSum LinAlg FPoly PolyFF PolySpec PolyFFProofs PolyFFProofs2 PolyFFProofs3 ThieleProofs RatUni RatUniThiele PolyRec PolyRecSpec PolyRecMath RatMulti RatMultiSpec RatMultiMath RatMultiShift RatMultiSub.
Open Scope nat_scope.

Section Clean.
  Context {K : fops} (HK : flaws K).
  Add Field KCLN : (fl_field K HK).
  Variable ord : forall A : Type, list A -> list A.
  Hypothesis Ho : forall A (l : list A), Permutation (ord A l) l.
  Variable c : mcfg.
  Local Notation n := (mc_n c).
  (** a zero coefficient only at the constant *)
  Definition clean (q : polyff K) : Prop := forall e a, In (e, a) (pf_coefs q) -> a <> f0 \/ e = zero_mon c.
  Lemma clean_step m k u : poly_ok n m -> (forall e w, In (e, w) m -> w <> f0 \/ e = zero_mon c) -> forall e w, In (e, w) (add_assign_term (K:=K) m (k, u)) -> w <> f0 \/ e = zero_mon c.
  Proof.
    intros [N _] H e w I. unfold add_assign_term in I. cbn [fst snd] in I. destruct (feqb u f0) eqn:Z; [apply (H e w I)|]. apply (feqb_neq HK) in Z. destruct (pfind m k) as [a|] eqn:E.
    - assert (G0 : forall k' c', In (k', c') (pupdate m k (fun c0 => fadd c0 u)) -> (k' = k /\ c' = fadd a u) \/ In (k', c') m).
      { intros k' c' Hin. unfold pupdate in Hin. apply in_map_iff in Hin as [[k1 c1] [E1 Hin]]. cbn [fst snd] in E1.
        destruct (mon_eqb_spec k k1) as [->|N1]; injection E1 as <- <-; [|right; exact Hin].
        left. split; [reflexivity|]. apply (pfind_In m k1 c1 N) in Hin. congruence. }
      cbn beta zeta in I. destruct (feqb (fadd a u) f0) eqn:Es.
      + unfold perase in I. apply filter_In in I as [I Hk]. cbn [fst] in Hk. apply G0 in I as [[-> _]|I]; [rewrite mon_eqb_refl in Hk; discriminate|apply (H e w I)].
      + apply G0 in I as [[_ ->]|I]; [left; apply (feqb_neq HK); exact Es|apply (H e w I)].
    - unfold passign in I. rewrite E in I. apply in_app_or in I as [I|[I|[]]]; [apply (H e w I)|]. injection I as <- <-. left. exact Z.
  Qed.
  Lemma clean_padd a b : pf_n a = n -> poly_ok n (pf_coefs a) -> poly_ok n (pf_coefs b) -> clean a -> clean (padd_assign (ord _) a b).
  Proof.
    intros _ Oa Ob H. unfold clean, padd_assign. cbn [pf_coefs]. destruct (ord_ok (ord _) (ord_any ord Ho) n _ Ob) as [_ F0]. revert Oa H. unfold clean. generalize (pf_coefs a). revert F0. generalize (ord _ (pf_coefs b)).
    intros p9; induction p9 as [|[k9 u] l9 IH9]; intros F0 m Om H; [exact H|]. cbn [fold_left]. inversion F0 as [|? ? F1 F2]; subst. apply IH9; [exact F2| |apply clean_step; assumption]. apply (add_assign_good HK n m (k9, u) Om F1).
  Qed.
  Lemma clean_add_subs l sub : (forall d q, In (d, q) l -> poly_ok n (pf_coefs q)) -> (forall d, poly_ok n (pf_coefs (nget no_poly sub d)) /\ clean (nget no_poly sub d)) ->
    forall d, clean (nget no_poly (add_subs ord sub l) d).
  Proof.
    intros Hl H. unfold add_subs. assert (Hl' : forall d q, In (d, q) (ord _ l) -> poly_ok n (pf_coefs q)) by (intros d q I; apply (Hl d q); rewrite <- (in_ord_any ord Ho); exact I). clear Hl. revert sub H Hl'. generalize (ord _ l).
    intros l8; induction l8 as [|[k q] l9 IH]; intros sub H Hl d; [apply H|]. cbn [fold_left fst snd]. apply IH; [|intros d' q' I; apply (Hl d' q'); right; exact I].
    intros e. unfold nget at 1 3. rewrite nfind_set. destruct (Nat.eqb_spec e k) as [->|Ne]; [|apply H].
    destruct (H k) as [O1 C1]. pose proof (Hl k q (or_introl eq_refl)) as Oq. split.
    - unfold padd_assign. cbn [pf_coefs]. destruct (ord_ok (ord _) (ord_any ord Ho) n _ Oq) as [_ F0]. revert O1. generalize (pf_coefs (nget no_poly sub k)). revert F0. generalize (ord _ (pf_coefs q)). clear IH.
      intros p9; induction p9 as [|[k9 u] l7 IH9]; intros F0 m Om; [exact Om|]. cbn [fold_left]. inversion F0 as [|? ? F1 F2]; subst. apply IH9; [exact F2|]. apply (add_assign_good HK n m (k9, u) Om F1).
    - unfold clean, padd_assign. cbn [pf_coefs]. destruct (ord_ok (ord _) (ord_any ord Ho) n _ Oq) as [_ F0]. revert O1 C1. unfold clean. generalize (pf_coefs (nget no_poly sub k)). revert F0. generalize (ord _ (pf_coefs q)). clear IH.
      intros p9; induction p9 as [|[k9 u] l7 IH9]; intros F0 m Om H3; [exact H3|]. cbn [fold_left]. inversion F0 as [|? ? F1 F2]; subst. apply IH9; [exact F2| |apply clean_step; assumption]. apply (add_assign_good HK n m (k9, u) Om F1).
  Qed.
  Lemma clean_zero : clean (zero_poly (K:=K) c).
  Proof. intros e a [E|[]]. injection E as <- <-. right. reflexivity. Qed.
End Clean.

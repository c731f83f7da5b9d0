(** Crash points (model: Crash.v) *)
From Coq Require Import List Bool Arith Lia.
From Verif Require Import Crash.
Import ListNotations.

(** ---- directories ---- *)
Definition sel (pick : file -> option nat) (d : dir) : list (nat * content) := flat_map (fun e => match pick (fst e) with Some k => [(k, snd e)] | None => [] end) d.
Definition pick_s (f : file) : option nat := match f with State k => Some k | _ => None end.
Definition pick_p (f : file) : option nat := match f with Probes k => Some k | _ => None end.
Lemma sf_sel d : state_files d = sel pick_s d.
Proof. apply flat_map_ext. intros [[k|k|k|k] c]; reflexivity. Qed.
Lemma pf_sel d : probe_files d = sel pick_p d.
Proof. apply flat_map_ext. intros [[k|k|k|k] c]; reflexivity. Qed.
Lemma file_eqb_eq a b : file_eqb a b = true <-> a = b.
Proof. destruct a, b; cbn; split; intros H; try discriminate; try (apply Nat.eqb_eq in H; subst; reflexivity); injection H as ->; apply Nat.eqb_refl. Qed.
Lemma sel_app pick a b : sel pick (a ++ b) = sel pick a ++ sel pick b.
Proof. apply flat_map_app. Qed.
Section Sel.
  Variable pick : file -> option nat.
  Hypothesis inj : forall f g k, pick f = Some k -> pick g = Some k -> f = g.
  Lemma sel_del_other f d : pick f = None -> sel pick (del f d) = sel pick d.
  Proof.
    intros H. induction d as [|[g c] d IH]; [reflexivity|]. cbn [del filter fst]. fold (del f d). destruct (file_eqb g f) eqn:E; cbn [negb].
    - apply file_eqb_eq in E. subst g. rewrite IH. cbn [sel flat_map fst]. rewrite H. reflexivity.
    - cbn [sel flat_map]. fold (sel pick (del f d)) (sel pick d). rewrite IH. reflexivity.
  Qed.
  Lemma sel_del f k d : pick f = Some k -> sel pick (del f d) = filter (fun e => negb (fst e =? k)) (sel pick d).
  Proof.
    intros H. induction d as [|[g c] d IH]; [reflexivity|]. cbn [del filter fst]. fold (del f d). cbn [sel flat_map fst snd]. fold (sel pick d). rewrite filter_app, <- IH.
    destruct (file_eqb g f) eqn:E; cbn [negb].
    - apply file_eqb_eq in E. subst g. rewrite H. cbn [filter fst]. rewrite Nat.eqb_refl. reflexivity.
    - cbn [sel flat_map fst snd]. fold (sel pick (del f d)). f_equal. destruct (pick g) as [j|] eqn:G; [|reflexivity]. cbn [filter fst].
      destruct (Nat.eqb_spec j k) as [->|_]; [|reflexivity]. rewrite (inj g f k G H) in E. rewrite (proj2 (file_eqb_eq f f) eq_refl) in E. discriminate.
  Qed.
  Lemma sel_put_other f c d : pick f = None -> sel pick (put f c d) = sel pick d.
  Proof. intros H. unfold put. rewrite sel_app, sel_del_other by exact H. cbn [sel flat_map fst]. rewrite H. apply app_nil_r. Qed.
  Lemma sel_put f c k d : pick f = Some k -> sel pick (put f c d) = filter (fun e => negb (fst e =? k)) (sel pick d) ++ [(k, c)].
  Proof. intros H. unfold put. rewrite sel_app, (sel_del f k) by exact H. cbn [sel flat_map fst snd]. rewrite H. reflexivity. Qed.
  Lemma get_sel f k d : pick f = Some k -> get f d = match find (fun e => fst e =? k) (sel pick d) with Some e => Some (snd e) | None => None end.
  Proof.
    intros H. unfold get. induction d as [|[g c] d IH]; [reflexivity|]. cbn [find fst sel flat_map snd]. fold (sel pick d). destruct (file_eqb g f) eqn:E.
    - apply file_eqb_eq in E. subst g. rewrite H. cbn [app find fst]. rewrite Nat.eqb_refl. reflexivity.
    - destruct (pick g) as [j|] eqn:G; [|exact IH]. cbn [app find fst]. destruct (Nat.eqb_spec j k) as [->|_]; [|exact IH].
      rewrite (inj g f k G H) in E. rewrite (proj2 (file_eqb_eq f f) eq_refl) in E. discriminate.
  Qed.
End Sel.
Lemma inj_s f g k : pick_s f = Some k -> pick_s g = Some k -> f = g.
Proof. destruct f, g; cbn; intros A B; try discriminate; congruence. Qed.
Lemma inj_p f g k : pick_p f = Some k -> pick_p g = Some k -> f = g.
Proof. destruct f, g; cbn; intros A B; try discriminate; congruence. Qed.
Lemma get_put_same f c d : get f (put f c d) = Some c.
Proof.
  unfold get, put. assert (F : find (fun e => file_eqb (fst e) f) (del f d) = None).
  { induction d as [|[g x] d IH]; [reflexivity|]. cbn [del filter fst]. fold (del f d). destruct (file_eqb g f) eqn:E; cbn [negb]; [exact IH|]. cbn [find fst]. rewrite E. exact IH. }
  induction (del f d) as [|[g x] l IH]; cbn [app find fst] in *; [rewrite (proj2 (file_eqb_eq f f) eq_refl); reflexivity|].
  destruct (file_eqb g f); [discriminate|exact (IH F)].
Qed.
Lemma get_del_other f g d : f <> g -> get f (del g d) = get f d.
Proof.
  intros N. unfold get. induction d as [|[h x] d IH]; [reflexivity|]. cbn [del filter fst]. fold (del g d). destruct (file_eqb h g) eqn:E; cbn [negb].
  - apply file_eqb_eq in E. subst h. cbn [find fst]. destruct (file_eqb g f) eqn:E2; [apply file_eqb_eq in E2; congruence|exact IH].
  - cbn [find fst]. destruct (file_eqb h f); [reflexivity|exact IH].
Qed.
Lemma get_put_other f g c d : f <> g -> get f (put g c d) = get f d.
Proof.
  intros N. rewrite <- (get_del_other f g d N). unfold put, get. generalize (del g d) as l. induction l as [|[h x] l IH]; cbn [app find fst].
  - destruct (file_eqb g f) eqn:E; [apply file_eqb_eq in E; congruence|reflexivity].
  - destruct (file_eqb h f); [reflexivity|exact IH].
Qed.

(** ---- the effect of the actions ---- *)
Lemma filter_id {A} (f : A -> bool) l : (forall x, In x l -> f x = true) -> filter f l = l.
Proof. induction l as [|a l IH]; intros H; [reflexivity|]. cbn [filter]. rewrite (H a (or_introl eq_refl)). f_equal. apply IH. intros x I. apply H. right. exact I. Qed.
Lemma sf_put_other f c d : pick_s f = None -> state_files (put f c d) = state_files d.
Proof. intros H. rewrite !sf_sel. apply sel_put_other. exact H. Qed.
Lemma pf_put_other f c d : pick_p f = None -> probe_files (put f c d) = probe_files d.
Proof. intros H. rewrite !pf_sel. apply sel_put_other. exact H. Qed.
Lemma sf_del_other f d : pick_s f = None -> state_files (del f d) = state_files d.
Proof. intros H. rewrite !sf_sel. apply sel_del_other. exact H. Qed.
Lemma pf_del_other f d : pick_p f = None -> probe_files (del f d) = probe_files d.
Proof. intros H. rewrite !pf_sel. apply sel_del_other. exact H. Qed.
Lemma sf_put_same k c x d : state_files d = [(k, x)] -> state_files (put (State k) c d) = [(k, c)].
Proof. intros H. rewrite sf_sel in *. rewrite (sel_put _ inj_s (State k) c k d eq_refl), H. cbn [filter fst]. rewrite Nat.eqb_refl. reflexivity. Qed.
Lemma get_state k x d : state_files d = [(k, x)] -> get (State k) d = Some x.
Proof. intros H. rewrite sf_sel in *. rewrite (get_sel _ inj_s (State k) k d eq_refl), H. cbn [find fst snd]. rewrite Nat.eqb_refl. reflexivity. Qed.
Lemma sf_del_same k x d : state_files d = [(k, x)] -> state_files (del (State k) d) = [].
Proof. intros H. rewrite sf_sel in *. rewrite (sel_del _ inj_s (State k) k d eq_refl), H. cbn [filter fst]. rewrite Nat.eqb_refl. reflexivity. Qed.
Lemma sf_put_new k c d : state_files d = [] -> state_files (put (State k) c d) = [(k, c)].
Proof. intros H. rewrite sf_sel in *. rewrite (sel_put _ inj_s (State k) c k d eq_refl), H. reflexivity. Qed.
Lemma pf_put_same k c x d : probe_files d = [(k, x)] -> probe_files (put (Probes k) c d) = [(k, c)].
Proof. intros H. rewrite pf_sel in *. rewrite (sel_put _ inj_p (Probes k) c k d eq_refl), H. cbn [filter fst]. rewrite Nat.eqb_refl. reflexivity. Qed.
Lemma pf_put_new k c d : probe_files d = [] -> probe_files (put (Probes k) c d) = [(k, c)].
Proof. intros H. rewrite pf_sel in *. rewrite (sel_put _ inj_p (Probes k) c k d eq_refl), H. reflexivity. Qed.
Lemma get_probes k x d : probe_files d = [(k, x)] -> get (Probes k) d = Some x.
Proof. intros H. rewrite pf_sel in *. rewrite (get_sel _ inj_p (Probes k) k d eq_refl), H. cbn [find fst snd]. rewrite Nat.eqb_refl. reflexivity. Qed.
Lemma pf_del_same k x d : probe_files d = [(k, x)] -> probe_files (del (Probes k) d) = [].
Proof. intros H. rewrite pf_sel in *. rewrite (sel_del _ inj_p (Probes k) k d eq_refl), H. cbn [filter fst]. rewrite Nat.eqb_refl. reflexivity. Qed.
Lemma ren_state_s k c d : state_files d = [(k, c)] -> state_files (apply (ORename (State k) (State (S k))) d) = [(S k, c)].
Proof. intros H. cbn [apply]. rewrite (get_state _ _ _ H). apply sf_put_new. exact (sf_del_same _ _ _ H). Qed.
Lemma ren_state_p f g d : pick_p f = None -> pick_p g = None -> probe_files (apply (ORename f g) d) = probe_files d.
Proof. intros A B. cbn [apply]. destruct (get f d); [|reflexivity]. rewrite pf_put_other, pf_del_other by assumption. reflexivity. Qed.
Lemma ren_probe_s f g d : pick_s f = None -> pick_s g = None -> state_files (apply (ORename f g) d) = state_files d.
Proof. intros A B. cbn [apply]. destruct (get f d); [|reflexivity]. rewrite sf_put_other, sf_del_other by assumption. reflexivity. Qed.
Lemma ren_tmp_s k c x d : state_files d = [(k, c)] -> get (TmpState k) d = Some x -> state_files (apply (ORename (TmpState k) (State k)) d) = [(k, x)].
Proof. intros H G. cbn [apply]. rewrite G. apply (sf_put_same k x c). rewrite sf_del_other by reflexivity. exact H. Qed.
Lemma get_ren_other h f g d : h <> f -> h <> g -> get h (apply (ORename f g) d) = get h d.
Proof. intros A B. cbn [apply]. destruct (get f d); [|reflexivity]. rewrite get_put_other, get_del_other by assumption. reflexivity. Qed.
Lemma ren_roll_p k x j d : probe_files d = [(k, x)] -> probe_files (apply (ORename (Probes k) (TmpProbes j)) d) = [].
Proof. intros H. cbn [apply]. rewrite (get_probes _ _ _ H), pf_put_other by reflexivity. exact (pf_del_same _ _ _ H). Qed.
Lemma ren_roll_t k x j d : probe_files d = [(k, x)] -> get (TmpProbes j) (apply (ORename (Probes k) (TmpProbes j)) d) = Some x.
Proof. intros H. cbn [apply]. rewrite (get_probes _ _ _ H). apply get_put_same. Qed.
Lemma ren_back_p k x d : probe_files d = [] -> get (TmpProbes k) d = Some x -> probe_files (apply (ORename (TmpProbes k) (Probes k)) d) = [(k, x)].
Proof. intros H G. cbn [apply]. rewrite G. apply pf_put_new. rewrite pf_del_other by reflexivity. exact H. Qed.

(** ---- the invariant ---- *)
(** a sensible object between two primes *)
Definition wf (m : memory) : Prop := NoDup (done_primes (data m)) /\ Forall (fun q => q < prime m) (done_primes (data m)) /\
  match data m with
  | Fresh => prime m = 0 /\ zeros m = 0 /\ fin m = false
  | ZeroFile => 1 <= prime m /\ (fin m = false -> zeros m = prime m /\ prime m <= 2)
  | Full _ f => f = fin m /\ (fin m = false -> zeros m < prime m)
  end.
(** the same object as far as it matters *)
Definition same (a m : memory) : Prop := data a = data m /\ fin a = fin m /\ (fin m = false -> prime a = prime m) /\
  (fin m = false -> match data m with Full _ _ => True | _ => zeros a = zeros m end).
Definition describes (j : nat) (c : content) (m : memory) : Prop := exists m', load j c = Some m' /\ same m' m /\ wf m' /\ (data m = Fresh -> j = 0) /\ (data m <> Fresh -> fin m = false -> prime m = S j).
Definition wfile (j : nat) (c : content) : Prop := forall m', load j c = Some m' -> wf m' /\ (data m' = Fresh -> j = 0).
Lemma describes_wfile j c m : describes j c m -> wfile j c.
Proof. intros [m' [L [[S _] [W [F _]]]]] m2 L2. rewrite L in L2. injection L2 as <-. split; [exact W|]. rewrite S. exact F. Qed.
Lemma describes_sv j c m : describes j c m -> c = Sv (data m).
Proof. intros [m' [L [[A _] _]]]. rewrite <- A. destruct c as [[| |ps f]| | |]; cbn [load] in L; try discriminate; injection L as <-; try reflexivity. destruct (2 <? S j); reflexivity. Qed.
Lemma same_refl m : same m m.
Proof. repeat split. intros _. destruct (data m); auto. Qed.
(** the writer thread *)
Definition wok (t q : nat) (w : list op) : Prop := w = [] \/ exists n, w = food_ops t q n \/ w = [OAppended (Probes q) (repeat (t, q) n)].
Definition fcontent (w : list op) (l : list (nat * nat)) : content := match w with [OAppended _ _] => CutFood l | _ => Food l end.
Definition pfile (t q : nat) (w : list op) (d : dir) : Prop := exists l, Forall (eq (t, q)) l /\ probe_files d = [(q, fcontent w l)].
Definition mid (k : nat) : list op := match k with 0 => [] | S j => [ORename (State j) (State k)] end.
(** the saves *)
Definition saving (b m : memory) (tl : list op) : Prop :=
  (m = comb_mem b /\ tl = roll_ops (prime b)) \/ (exists ps, data b = Full ps false /\ m = end_mem b ps /\ tl = []).

Section Inv.
Variable strong : Prop.
Inductive ph (t : nat) (d : dir) : memory -> nat -> list op -> list op -> memory -> Prop :=
| PIdle m n w b j c : state_files d = [(j, c)] -> describes j c m -> wf m -> wok t (prime m) w ->
    (strong -> exists q, pfile t q w d /\ (q = prime m \/ fin m = true /\ n = 0 /\ w = [])) -> ph t d m n [] w b
| PS0 m n w b tl j c : saving b m tl -> wf b -> fin b = false -> state_files d = [(j, c)] -> describes j c b -> wok t (prime b) w -> (strong -> pfile t (prime b) w d) ->
    ph t d m n (save_ops (prime b) (data m) ++ tl) w b
| PS1 m n w b tl j c : saving b m tl -> wf b -> fin b = false -> state_files d = [(j, c)] -> describes j c b -> wok t (prime b) w -> (strong -> pfile t (prime b) w d) ->
    ph t d m n (OClose (TmpState (prime b)) (data m) :: mid (prime b) ++ ORename (TmpState (prime b)) (State (prime b)) :: tl) w b
| PS2 m n w b tl j c : saving b m tl -> wf b -> fin b = false -> state_files d = [(j, c)] -> describes j c b -> get (TmpState (prime b)) d = Some (Sv (data m)) ->
    wok t (prime b) w -> (strong -> pfile t (prime b) w d) -> ph t d m n (mid (prime b) ++ ORename (TmpState (prime b)) (State (prime b)) :: tl) w b
| PS3 m n w b tl c : saving b m tl -> wf b -> fin b = false -> prime b <> 0 -> state_files d = [(prime b, c)] -> wfile (prime b) c /\ c = Sv (data b) -> get (TmpState (prime b)) d = Some (Sv (data m)) ->
    wok t (prime b) w -> (strong -> pfile t (prime b) w d) -> ph t d m n (ORename (TmpState (prime b)) (State (prime b)) :: tl) w b
| PZ0 n w b j c : wf b -> fin b = false -> state_files d = [(j, c)] -> describes j c b -> wok t (prime b) w -> (strong -> pfile t (prime b) w d) ->
    ph t d (zero_mem b) n (zero_ops (prime b) ++ roll_ops (prime b)) w b
| PZ1 n w b : wf b -> fin b = false -> prime b = 0 -> state_files d = [(0, Cut)] -> wok t (prime b) w -> (strong -> pfile t (prime b) w d) ->
    ph t d (zero_mem b) n (OClose (State 0) ZeroFile :: roll_ops 0) w b
| PR0 m n w b : prime m = prime b -> state_files d = [(prime b, Sv (data m))] -> describes (prime b) (Sv (data m)) (bump OLock m) -> wf (bump OLock m) ->
    wok t (prime b) w -> (strong -> pfile t (prime b) w d) -> ph t d m n (roll_ops (prime b)) w b
| PR1 m b k : prime m = S k -> state_files d = [(k, Sv (data m))] -> describes k (Sv (data m)) m -> wf m -> (strong -> pfile t k [] d) ->
    ph t d m 0 [ORename (Probes k) (TmpProbes (S k)); OEmpty (Probes (S k)); ORename (Probes (S k)) (TmpProbes (S k)); ORename (TmpProbes (S k)) (Probes (S k))] [] b
| PR2 m b k : prime m = S k -> state_files d = [(k, Sv (data m))] -> describes k (Sv (data m)) m -> wf m -> (strong -> probe_files d = []) ->
    ph t d m 0 [OEmpty (Probes (S k)); ORename (Probes (S k)) (TmpProbes (S k)); ORename (TmpProbes (S k)) (Probes (S k))] [] b
| PR3 m b k : prime m = S k -> state_files d = [(k, Sv (data m))] -> describes k (Sv (data m)) m -> wf m -> (strong -> probe_files d = [(S k, Food [])]) ->
    ph t d m 0 [ORename (Probes (S k)) (TmpProbes (S k)); ORename (TmpProbes (S k)) (Probes (S k))] [] b
| PR4 m b k : prime m = S k -> state_files d = [(k, Sv (data m))] -> describes k (Sv (data m)) m -> wf m -> (strong -> probe_files d = [] /\ get (TmpProbes (S k)) d = Some (Food [])) ->
    ph t d m 0 [ORename (TmpProbes (S k)) (Probes (S k))] [] b.
Definition iinv (it : item) : Prop := ph (tag it) (dsk it) (mem it) (food it) (pend it) (pendw it) (before it).

Lemma saving_prime b m tl : saving b m tl -> prime m = prime b.
Proof. intros [[-> _]|[ps [_ [-> _]]]]; reflexivity. Qed.
Lemma roll_locked k r : roll_ops k = OLock :: r -> unlocked r -> False.
Proof. intros H. injection H as <-. intros [I|I]; [|discriminate I]. cbn in I. repeat (destruct I as [I|I]; [discriminate|]). exact I. Qed.
Ltac triv := repeat match goal with |- _ /\ _ => split | |- _ -> _ => intros ? end; first [lia | discriminate | apply NoDup_nil | apply Forall_nil | reflexivity | auto].
(** the saved file describes the new object *)
Lemma NoDup_snoc (l : list nat) k : NoDup l -> Forall (fun q => q < k) l -> NoDup (l ++ [k]).
Proof.
  induction l as [|a l IH]; intros N F; cbn [app]; [constructor; [intros []|constructor]|]. inversion N; subst. inversion F; subst. constructor; [|apply IH; assumption].
  intros I. apply in_app_iff in I. destruct I as [I|[I|[]]]; [contradiction|lia].
Qed.
Lemma comb_wf b z : wf b -> fin b = false -> z < S (prime b) -> wf (mk_mem (S (prime b)) z (data (comb_mem b)) false).
Proof.
  intros [W1 [W2 W3]] F Z. unfold wf. cbn [data comb_mem done_primes prime zeros fin]. split; [apply NoDup_snoc; assumption|]. split.
  - apply Forall_app. split; [eapply Forall_impl; [|exact W2]; cbn; lia|]. constructor; [lia|constructor].
  - split; [reflexivity|]. intros _. exact Z.
Qed.
Lemma zeros_le b : wf b -> fin b = false -> zeros b <= prime b.
Proof. intros [_ [_ W]] F. destruct (data b); [lia|destruct W as [_ W]; specialize (W F); lia|destruct W as [_ W]; specialize (W F); lia]. Qed.
Lemma comb_describes b : wf b -> fin b = false -> describes (prime b) (Sv (data (comb_mem b))) (bump OLock (comb_mem b)) /\ wf (bump OLock (comb_mem b)).
Proof.
  intros W F. split; [|refine (comb_wf b (zeros b) W F _); pose proof (zeros_le b W F); lia].
  eexists. split; [reflexivity|]. split; [|split].
  - split; [reflexivity|]. split; [reflexivity|]. split; [reflexivity|]. intros _. exact I.
  - refine (comb_wf b 0 W F _). lia.
  - split; [discriminate|]. intros _ _. reflexivity.
Qed.
Lemma end_describes b ps : wf b -> fin b = false -> data b = Full ps false -> describes (prime b) (Sv (Full ps true)) (end_mem b ps) /\ wf (end_mem b ps).
Proof.
  intros [W1 [W2 W3]] F D. rewrite D in *. cbn [done_primes] in *. split.
  - eexists. split; [reflexivity|]. split; [|split].
    + split; [reflexivity|]. split; [reflexivity|]. split; [discriminate|discriminate].
    + split; [exact W1|]. split; [eapply Forall_impl; [|exact W2]; cbn; lia|]. split; [reflexivity|discriminate].
    + split; [discriminate|]. intros _ H. discriminate H.
  - split; [exact W1|]. split; [exact W2|]. split; [reflexivity|discriminate].
Qed.
Lemma zero_describes b : wf b -> fin b = false -> describes (prime b) (Sv (data (zero_mem b))) (bump OLock (zero_mem b)) /\ wf (bump OLock (zero_mem b)).
Proof.
  intros [W1 [W2 W3]] F. unfold zero_mem, bump, wf, describes. cbn [data prime zeros fin]. destruct (data b) as [| |ps f] eqn:D; cbn [zero_data done_primes] in *.
  - destruct W3 as [P [Z _]]. rewrite P, Z. cbn. split; [|triv]. eexists. split; [reflexivity|].
    split; [unfold same; cbn; triv|]. split; [|split; [discriminate|reflexivity]]. unfold wf. cbn. triv.
  - destruct W3 as [_ W3]. destruct (W3 F) as [Z P]. rewrite Z. set (k := prime b) in *. assert (E : ((S k =? 3) && (S k =? 3)) = (2 <? S k)).
    { rewrite Bool.andb_diag. destruct (Nat.eqb_spec (S k) 3), (Nat.ltb_spec 2 (S k)); lia. }
    rewrite E. cbn [load]. destruct (2 <? S k) eqn:Q.
    + split; [|triv]. eexists. split; [reflexivity|]. split; [unfold same; cbn; triv|]. split; [|split; [discriminate|discriminate]].
      unfold wf. cbn. triv.
    + apply Nat.ltb_ge in Q. split; [|triv]. eexists. split; [reflexivity|]. split; [unfold same; cbn; triv|]. split; [|split; [discriminate|reflexivity]].
      unfold wf. cbn. triv.
  - destruct W3 as [-> W3]. specialize (W3 F). rewrite F. assert (E : (S (zeros b) =? 3) && (S (prime b) =? 3) = false).
    { destruct (Nat.eqb_spec (S (zeros b)) 3), (Nat.eqb_spec (S (prime b)) 3); try reflexivity; lia. }
    rewrite E. split.
    + eexists. split; [reflexivity|]. split; [unfold same; cbn; triv|]. split; [|split; [discriminate|reflexivity]]. unfold wf. cbn [data done_primes prime zeros fin].
      split; [exact W1|]. split; [eapply Forall_impl; [|exact W2]; cbn; lia|]. split; [reflexivity|]. lia.
    + split; [exact W1|]. split; [eapply Forall_impl; [|exact W2]; cbn; lia|]. split; [reflexivity|]. lia.
Qed.
(** the file that was moved to the name of the next prime *)
Lemma moved_wfile b c j : wf b -> fin b = false -> describes j c b -> prime b = S j -> wfile (prime b) c.
Proof.
  intros [W1 [W2 W3]] F [m' [L [[A [B [C D]]] [W' [E G]]]]] P m2 L2. rewrite P in *. destruct c as [[| |ps f]| | |]; cbn [load] in L, L2; try discriminate.
  - injection L as <-. specialize (C F). discriminate C.
  - injection L2 as <-. split; [|destruct (2 <? S (S j)); discriminate]. destruct (2 <? S (S j)) eqn:Q; unfold wf; cbn.
    + triv.
    + apply Nat.ltb_ge in Q. triv.
  - injection L as <-. injection L2 as <-. split; [|discriminate]. destruct W' as [X [Y Z]]. cbn [data done_primes prime zeros fin] in *. split; [exact X|]. cbn [data done_primes prime zeros fin].
    split; [eapply Forall_impl; [|exact Y]; cbn; lia|]. split; [reflexivity|lia].
Qed.
(** where the file of the object before the event is *)
Lemma file_place b j c : wf b -> fin b = false -> describes j c b -> match prime b with 0 => j = 0 | S k => j = k end.
Proof.
  intros W F [m' [L [S [_ [E G]]]]]. destruct (data b) as [| |ps f] eqn:D.
  - destruct W as [_ [_ W]]. rewrite D in W. destruct W as [-> _]. exact (E eq_refl).
  - rewrite (G ltac:(discriminate) F). reflexivity.
  - rewrite (G ltac:(discriminate) F). reflexivity.
Qed.
Lemma pfile_eq t q w d d' : probe_files d' = probe_files d -> pfile t q w d -> pfile t q w d'.
Proof. intros E [l [F H]]. exists l. split; [exact F|]. rewrite E. exact H. Qed.
Lemma saved_state b m tl t d n w : saving b m tl -> wf b -> fin b = false -> state_files d = [(prime b, Sv (data m))] -> wok t (prime b) w -> (strong -> pfile t (prime b) w d) -> ph t d m n tl w b.
Proof.
  intros [[-> ->]|[ps [D [-> ->]]]] W F S K P.
  - destruct (comb_describes b W F) as [X Y]. apply PR0; auto.
  - destruct (end_describes b ps W F D) as [X Y]. apply (PIdle t d _ n w b (prime b) (Sv (Full ps true)) S X Y K). intros St. exists (prime b). split; [exact (P St)|left; reflexivity].
Qed.
Lemma op_inv t d m n o r w b : ph t d m n (o :: r) w b -> (o = OLock -> w = []) -> ph t (apply o d) (bump o m) (drop_food o n) r w b.
Proof.
  intros H L. remember (o :: r) as pe eqn:E.
  destruct H as [m n w b j c H1 H2 H3 H4 H5|m n w b tl j c H1 H2 H3 H4 H5 H6 H7|m n w b tl j c H1 H2 H3 H4 H5 H6 H7|m n w b tl j c H1 H2 H3 H4 H5 H6 H7 H8|m n w b tl c H1 H2 H3 H4 H5 H6 H7 H8 H9
    |n w b j c H1 H2 H3 H4 H5 H6|n w b H1 H2 H3 H4 H5 H6|m n w b H1 H2 H3 H4 H5 H6|m b k H1 H2 H3 H4 H5|m b k H1 H2 H3 H4 H5|m b k H1 H2 H3 H4 H5|m b k H1 H2 H3 H4 H5].
  - discriminate.
  - cbn [save_ops app] in E. injection E as <- <-. cbn [bump drop_food]. rewrite <- app_assoc. cbn [app]. fold (mid (prime b)). cbn [apply].
    apply (PS1 t _ m n w b tl j c H1 H2 H3); [rewrite sf_put_other by reflexivity; exact H4|exact H5|exact H6|]. intros St. apply (pfile_eq _ _ _ d); [apply pf_put_other; reflexivity|exact (H7 St)].
  - injection E as <- <-. cbn [bump drop_food apply]. apply (PS2 t _ m n w b tl j c H1 H2 H3); [rewrite sf_put_other by reflexivity; exact H4|exact H5|apply get_put_same|exact H6|].
    intros St. apply (pfile_eq _ _ _ d); [apply pf_put_other; reflexivity|exact (H7 St)].
  - pose proof (file_place b j c H2 H3 H5) as Pl. destruct (prime b) as [|k] eqn:Pb; cbn [mid app] in E.
    + injection E as <- <-. subst j. cbn [bump drop_food]. apply (saved_state b m tl t _ n w H1 H2 H3).
      * rewrite Pb. apply (ren_tmp_s 0 c); assumption.
      * rewrite Pb. exact H7.
      * intros St. rewrite Pb. apply (pfile_eq _ _ _ d); [apply ren_state_p; reflexivity|exact (H8 St)].
    + injection E as <- <-. subst j. cbn [bump drop_food]. rewrite <- Pb. apply (PS3 t _ m n w b tl c H1 H2 H3); [lia| | | | |].
      * rewrite Pb. apply ren_state_s. exact H4.
      * split; [apply (moved_wfile b c k); assumption|exact (describes_sv _ _ _ H5)].
      * rewrite Pb, get_ren_other by discriminate. exact H6.
      * rewrite Pb. exact H7.
      * intros St. rewrite Pb. apply (pfile_eq _ _ _ d); [apply ren_state_p; reflexivity|exact (H8 St)].
  - injection E as <- <-. cbn [bump drop_food]. apply (saved_state b m tl t _ n w H1 H2 H3); [apply (ren_tmp_s _ c); assumption|exact H8|].
    intros St. apply (pfile_eq _ _ _ d); [apply ren_state_p; reflexivity|exact (H9 St)].
  - pose proof (file_place b j c H1 H2 H4) as Pl. destruct (zero_describes b H1 H2) as [X Y]. destruct (prime b) as [|k] eqn:Pb; cbn [zero_ops app] in E; injection E as <- <-; cbn [bump drop_food].
    + subst j. apply (PZ1 t _ n w b H1 H2 Pb); [cbn [apply]; apply (sf_put_same 0 Cut c); exact H3|rewrite Pb; exact H5|]. intros St. rewrite Pb. apply (pfile_eq _ _ _ d); [apply pf_put_other; reflexivity|exact (H6 St)].
    + subst j. rewrite <- Pb. apply PR0; [reflexivity| |rewrite Pb; exact X|exact Y|rewrite Pb; exact H5|].
      * rewrite Pb, (ren_state_s k c) by exact H3. do 2 f_equal. destruct H4 as [m' [L' [[A _] _]]]. cbn [zero_mem data].
        destruct c as [[| |ps f]| | |]; cbn [load] in L'; try discriminate; injection L' as <-; [|destruct (2 <? S k)|]; cbn [data fresh_mem] in A; rewrite <- A; try reflexivity.
        destruct H1 as [_ [_ H1]]. rewrite <- A in H1. lia.
      * intros St. rewrite Pb. apply (pfile_eq _ _ _ d); [apply ren_state_p; reflexivity|exact (H6 St)].
  - injection E as <- <-. cbn [bump drop_food]. destruct (zero_describes b H1 H2) as [X Y]. rewrite <- H3 at 2. apply PR0; [reflexivity| |exact X|exact Y|exact H5|].
    + rewrite H3. cbn [apply]. rewrite (sf_put_same 0 _ Cut) by exact H4. do 3 f_equal. cbn [zero_mem data]. destruct (data b) as [| |ps f] eqn:D; try reflexivity.
      destruct H1 as [_ [_ H1]]. rewrite D in H1. destruct H1 as [_ H1]. specialize (H1 H2). lia.
    + intros St. apply (pfile_eq _ _ _ d); [apply pf_put_other; reflexivity|exact (H6 St)].
  - injection E as <- <-. cbn [drop_food apply]. specialize (L eq_refl). subst w. apply PR1; [cbn [bump prime]; rewrite H1; reflexivity|exact H2|exact H3|exact H4|exact H6].
  - injection E as <- <-. cbn [bump drop_food]. apply PR2; [exact H1|rewrite ren_probe_s by reflexivity; exact H2|exact H3|exact H4|]. intros St. destruct (H5 St) as [l [_ Pf]]. apply (ren_roll_p _ _ _ _ Pf).
  - injection E as <- <-. cbn [bump drop_food]. apply PR3; [exact H1|cbn [apply]; rewrite sf_put_other by reflexivity; exact H2|exact H3|exact H4|]. intros St. cbn [apply]. apply pf_put_new. exact (H5 St).
  - injection E as <- <-. cbn [bump drop_food]. apply PR4; [exact H1|rewrite ren_probe_s by reflexivity; exact H2|exact H3|exact H4|]. intros St. split; [apply (ren_roll_p _ _ _ _ (H5 St))|apply (ren_roll_t _ _ _ _ (H5 St))].
  - injection E as <- <-. cbn [bump drop_food]. apply (PIdle t _ m 0 [] b k (Sv (data m))); [rewrite ren_probe_s by reflexivity; exact H2|exact H3|exact H4|left; reflexivity|].
    intros St. destruct (H5 St) as [P G]. exists (S k). split; [|left; symmetry; exact H1]. exists []. split; [constructor|]. apply (ren_back_p _ _ _ P G).
Qed.
(** the writer *)
Lemma locked_roll m : unlocked m -> forall k r, m = ORename (Probes k) (TmpProbes (S k)) :: r -> ~ In OLock m -> False.
Proof. intros [I|I] k r -> N; [contradiction|discriminate I]. Qed.
Lemma feed_inv t d m n r w b : ph t d m n r w b -> fin m = false -> unlocked r -> ph t d m (S n) r w b.
Proof.
  intros H F U. destruct H as [m n w b j c H1 H2 H3 H4 H5|m n w b tl j c H1 H2 H3 H4 H5 H6 H7|m n w b tl j c H1 H2 H3 H4 H5 H6 H7|m n w b tl j c H1 H2 H3 H4 H5 H6 H7 H8|m n w b tl c H1 H2 H3 H4 H5 H6 H7 H8 H9
    |n w b j c H1 H2 H3 H4 H5 H6|n w b H1 H2 H3 H4 H5 H6|m n w b H1 H2 H3 H4 H5 H6|m b k H1 H2 H3 H4 H5|m b k H1 H2 H3 H4 H5|m b k H1 H2 H3 H4 H5|m b k H1 H2 H3 H4 H5];
    try (econstructor; eassumption); try (destruct U as [U|U]; [cbn in U; repeat (destruct U as [U|U]; [discriminate|]); destruct U|discriminate U]).
  apply (PIdle t d m (S n) w b j c H1 H2 H3 H4). intros St. destruct (H5 St) as [q [P [Q|[Q _]]]]; [exists q; split; [exact P|left; exact Q]|congruence].
Qed.
Definition wstate (t : nat) (d : dir) (q : nat) (w : list op) (d' : dir) (w' : list op) : Prop :=
  state_files d' = state_files d /\ (forall k, get (TmpState k) d' = get (TmpState k) d) /\ wok t q w' /\ (pfile t q w d -> pfile t q w' d').
(** replacing the writer thread in a phase in which prime_number is q *)
Lemma writer_inv t d m n r w b d' n' w' : ph t d m n r w b -> (w <> [] \/ unlocked r) -> (n' <> n -> w = [] /\ n <> 0) -> (w <> [] \/ n' <> n) -> wstate t d (prime m) w d' w' -> ph t d' m n' r w' b.
Proof.
  intros H U N N2 [S1 [S2 [S3 S4]]]. destruct H as [m n w b j c H1 H2 H3 H4 H5|m n w b tl j c H1 H2 H3 H4 H5 H6 H7|m n w b tl j c H1 H2 H3 H4 H5 H6 H7|m n w b tl j c H1 H2 H3 H4 H5 H6 H7 H8|m n w b tl c H1 H2 H3 H4 H5 H6 H7 H8 H9
    |n w b j c H1 H2 H3 H4 H5 H6|n w b H1 H2 H3 H4 H5 H6|m n w b H1 H2 H3 H4 H5 H6|m b k H1 H2 H3 H4 H5|m b k H1 H2 H3 H4 H5|m b k H1 H2 H3 H4 H5|m b k H1 H2 H3 H4 H5];
    try (destruct U as [U|[U|U]]; [congruence|cbn in U; repeat (destruct U as [U|U]; [discriminate|]); destruct U|discriminate U]);
    try (rewrite (saving_prime _ _ _ H1) in S3, S4).
  - apply (PIdle t d' m n' w' b j c); [rewrite S1; exact H1|exact H2|exact H3|exact S3|]. intros St. destruct (H5 St) as [q [P [->|[Q [Q1 Q2]]]]]; [exists (prime m); split; [exact (S4 P)|left; reflexivity]|].
    exfalso. destruct N2 as [X|X]; [contradiction|destruct (N X); contradiction].
  - apply (PS0 t d' m n' w' b tl j c); auto. rewrite S1; exact H4.
  - apply (PS1 t d' m n' w' b tl j c); auto. rewrite S1; exact H4.
  - apply (PS2 t d' m n' w' b tl j c); auto; [rewrite S1; exact H4|rewrite S2; exact H6].
  - apply (PS3 t d' m n' w' b tl c); auto; [rewrite S1; exact H5|rewrite S2; exact H7].
  - apply (PZ0 t d' n' w' b j c); auto. rewrite S1; exact H3.
  - apply (PZ1 t d' n' w' b); auto. rewrite S1; exact H4.
  - rewrite H1 in S3, S4. apply (PR0 t d' m n' w' b); auto. rewrite S1; exact H2.
Qed.
Lemma wok_ops t q o w : wok t q (o :: w) -> (exists n, o = OAppend (Probes q) /\ w = [OAppended (Probes q) (repeat (t, q) n)]) \/ (exists n, o = OAppended (Probes q) (repeat (t, q) n) /\ w = []).
Proof. intros [H|[n [H|H]]]; [discriminate|left; exists n; injection H as -> ->; split; reflexivity|right; exists n; injection H as -> ->; split; reflexivity]. Qed.
Lemma ph_wok t d m n r w b : ph t d m n r w b -> wok t (prime m) w.
Proof.
  intros H. destruct H as [m n w b j c H1 H2 H3 H4 H5|m n w b tl j c H1 H2 H3 H4 H5 H6 H7|m n w b tl j c H1 H2 H3 H4 H5 H6 H7|m n w b tl j c H1 H2 H3 H4 H5 H6 H7 H8|m n w b tl c H1 H2 H3 H4 H5 H6 H7 H8 H9
    |n w b j c H1 H2 H3 H4 H5 H6|n w b H1 H2 H3 H4 H5 H6|m n w b H1 H2 H3 H4 H5 H6|m b k H1 H2 H3 H4 H5|m b k H1 H2 H3 H4 H5|m b k H1 H2 H3 H4 H5|m b k H1 H2 H3 H4 H5];
    try (rewrite (saving_prime _ _ _ H1)); try assumption; try (left; reflexivity). rewrite H1. exact H5.
Qed.
Lemma Forall_repeat {A} (x : A) n : Forall (eq x) (repeat x n).
Proof. induction n; constructor; [reflexivity|assumption]. Qed.
Lemma foodop_inv t d m n r o w b : ph t d m n r (o :: w) b -> ph t (apply o d) m n r w b.
Proof.
  intros H. apply (writer_inv t d m n r (o :: w) b _ n w H); [left; discriminate|congruence|left; discriminate|].
  destruct (wok_ops _ _ _ _ (ph_wok _ _ _ _ _ _ _ H)) as [[k [-> ->]]|[k [-> ->]]]; cbn [apply].
  - split; [apply sf_put_other; reflexivity|]. split; [intros j; apply get_put_other; discriminate|]. split; [right; exists k; right; reflexivity|].
    intros [l [F P]]. cbn [fcontent] in P. exists l. split; [exact F|]. rewrite (pf_put_same _ _ _ _ P). cbn [fcontent]. rewrite (get_probes _ _ _ P). reflexivity.
  - split; [apply sf_put_other; reflexivity|]. split; [intros j; apply get_put_other; discriminate|]. split; [left; reflexivity|].
    intros [l [F P]]. cbn [fcontent] in P. exists (l ++ repeat (t, prime m) k). split; [apply Forall_app; split; [exact F|apply Forall_repeat]|]. rewrite (pf_put_same _ _ _ _ P). cbn [fcontent].
    rewrite (get_probes _ _ _ P). reflexivity.
Qed.
Lemma food_inv t d m n r b : ph t d m (S n) r [] b -> unlocked r -> ph t d m 0 r (food_ops t (prime m) (S n)) b.
Proof.
  intros H U. apply (writer_inv t d m (S n) r [] b d 0 _ H); [right; exact U|intros _; split; [reflexivity|discriminate]|right; discriminate|].
  split; [reflexivity|]. split; [reflexivity|]. split; [right; exists (S n); left; reflexivity|]. intros P. exact P.
Qed.
Lemma idle_inv t d m n w b : ph t d m n [] w b -> exists j c, state_files d = [(j, c)] /\ describes j c m /\ wf m /\ wok t (prime m) w /\
  (strong -> exists q, pfile t q w d /\ (q = prime m \/ fin m = true /\ n = 0 /\ w = [])).
Proof.
  intros H. remember ([] : list op) as pe eqn:E. destruct H as [m n w b j c H1 H2 H3 H4 H5|m n w b tl j c H1|m n w b tl j c H1|m n w b tl j c H1|m n w b tl c H1|n w b j c H1|n w b H1|m n w b H1|m b k H1|m b k H1|m b k H1|m b k H1]; try discriminate E.
  - exists j, c. auto.
  - destruct (prime b); discriminate E.
  - destruct (prime b); discriminate E.
Qed.
Theorem istep_inv it it' : iinv it -> istep it it' -> iinv it'.
Proof.
  unfold iinv. intros H St. destruct St as [t d m b F|t d m n w b F|t d m n w b ps F D|t d m n o r w b L|t d m n r w b F U|t d m n r b U|t d m n r o w b]; cbn [tag dsk mem food pend pendw before] in *.
  - destruct (idle_inv _ _ _ _ _ _ H) as [j [c [H1 [H2 [H3 [H4 H5]]]]]]. apply (PZ0 t d 0 [] m j c); auto.
    intros St. destruct (H5 St) as [q [P [->|[Q _]]]]; [exact P|congruence].
  - destruct (idle_inv _ _ _ _ _ _ H) as [j [c [H1 [H2 [H3 [H4 H5]]]]]]. apply (PS0 t d _ n w m (roll_ops (prime m)) j c); auto; [left; split; reflexivity|].
    intros St. destruct (H5 St) as [q [P [->|[Q _]]]]; [exact P|congruence].
  - destruct (idle_inv _ _ _ _ _ _ H) as [j [c [H1 [H2 [H3 [H4 H5]]]]]]. rewrite <- (app_nil_r (save_ops _ _)). apply (PS0 t d (end_mem m ps) n w m [] j c); auto; [right; exists ps; auto|].
    intros St. destruct (H5 St) as [q [P [->|[Q _]]]]; [exact P|congruence].
  - apply op_inv; assumption.
  - apply feed_inv; assumption.
  - apply food_inv; assumption.
  - apply foodop_inv. exact H.
Qed.
Lemma start_inv t : iinv (start t).
Proof.
  unfold iinv. cbn [start tag dsk mem food pend pendw before].
  assert (W : wf fresh_mem) by (unfold wf; cbn; triv).
  apply (PIdle t _ fresh_mem 0 [] fresh_mem 0 (Sv Fresh)); [reflexivity| |exact W|left; reflexivity|].
  - exists fresh_mem. split; [reflexivity|]. split; [apply same_refl|]. split; [exact W|]. split; [reflexivity|]. intros N. destruct N; reflexivity.
  - intros _. exists 0. split; [|left; reflexivity]. exists []. split; [constructor|reflexivity].
Qed.
End Inv.

(** ---- histories ---- *)
Lemma one_file it : iinv False it -> exists j c, state_files (dsk it) = [(j, c)] /\ wfile j c.
Proof.
  unfold iinv. intros H. destruct H as [m n w b j c H1 H2 H3 H4 H5|m n w b tl j c H1 H2 H3 H4 H5 H6 H7|m n w b tl j c H1 H2 H3 H4 H5 H6 H7|m n w b tl j c H1 H2 H3 H4 H5 H6 H7 H8|m n w b tl c H1 H2 H3 H4 H5 H6 H7 H8 H9
    |n w b j c H1 H2 H3 H4 H5 H6|n w b H1 H2 H3 H4 H5 H6|m n w b H1 H2 H3 H4 H5 H6|m b k H1 H2 H3 H4 H5|m b k H1 H2 H3 H4 H5|m b k H1 H2 H3 H4 H5|m b k H1 H2 H3 H4 H5];
    eexists _, _; (split; [eassumption|]); try (eapply describes_wfile; eassumption).
  - apply H6.
  - intros m' L. discriminate L.
Qed.
(** what the one state file holds, after any history *)
Lemma file_data it : iinv False it -> exists j c, state_files (dsk it) = [(j, c)] /\ (c = Sv (data (mem it)) \/ c = Sv (data (before it)) \/ c = Cut /\ j = 0 /\ prime (mem it) = 0).
Proof.
  unfold iinv. destruct it as [t d m n r w b]. cbn [tag dsk mem food pend pendw before]. intros H.
  destruct H as [m n w b j c H1 H2 H3 H4 H5|m n w b tl j c H1 H2 H3 H4 H5 H6 H7|m n w b tl j c H1 H2 H3 H4 H5 H6 H7|m n w b tl j c H1 H2 H3 H4 H5 H6 H7 H8|m n w b tl c H1 H2 H3 H4 H5 H6 H7 H8 H9
    |n w b j c H1 H2 H3 H4 H5 H6|n w b H1 H2 H3 H4 H5 H6|m n w b H1 H2 H3 H4 H5 H6|m b k H1 H2 H3 H4 H5|m b k H1 H2 H3 H4 H5|m b k H1 H2 H3 H4 H5|m b k H1 H2 H3 H4 H5];
    eexists _, _; (split; [eassumption|]); try (left; eapply describes_sv; eassumption); try (right; left; eapply describes_sv; eassumption); try (left; reflexivity).
  - right. left. apply H6.
  - right. right. repeat split. cbn [zero_mem prime]. exact H3.
Qed.
(** the running object *)
Lemma mem_primes it : iinv False it -> NoDup (done_primes (data (mem it))) /\ Forall (fun q => q <= prime (mem it)) (done_primes (data (mem it))).
Proof.
  assert (W : forall m, wf m -> NoDup (done_primes (data m)) /\ Forall (fun q => q <= prime m) (done_primes (data m))).
  { intros m [A [B _]]. split; [exact A|]. eapply Forall_impl; [|exact B]. cbn. lia. }
  assert (Sv : forall b m tl, saving b m tl -> wf b -> NoDup (done_primes (data m)) /\ Forall (fun q => q <= prime m) (done_primes (data m))).
  { intros b m tl [[-> ->]|[ps [D [-> ->]]]] Wb.
    - destruct Wb as [A [B _]]. cbn [comb_mem data done_primes prime]. split; [apply NoDup_snoc; assumption|]. apply Forall_app. split; [eapply Forall_impl; [|exact B]; cbn; lia|]. constructor; [lia|constructor].
    - destruct Wb as [A [B _]]. rewrite D in A, B. cbn [end_mem data done_primes prime] in *. split; [exact A|]. eapply Forall_impl; [|exact B]. cbn. lia. }
  assert (Z : forall b, wf b -> NoDup (done_primes (data (zero_mem b))) /\ Forall (fun q => q <= prime (zero_mem b)) (done_primes (data (zero_mem b)))).
  { intros b [A [B _]]. cbn [zero_mem data prime]. destruct (data b) as [| |ps f]; cbn [zero_data done_primes] in *; try (split; constructor). split; [exact A|]. eapply Forall_impl; [|exact B]. cbn. lia. }
  unfold iinv. destruct it as [t d m n r w b]. cbn [tag dsk mem food pend pendw before]. intros H.
  destruct H as [m n w b j c H1 H2 H3 H4 H5|m n w b tl j c H1 H2 H3 H4 H5 H6 H7|m n w b tl j c H1 H2 H3 H4 H5 H6 H7|m n w b tl j c H1 H2 H3 H4 H5 H6 H7 H8|m n w b tl c H1 H2 H3 H4 H5 H6 H7 H8 H9
    |n w b j c H1 H2 H3 H4 H5 H6|n w b H1 H2 H3 H4 H5 H6|m n w b H1 H2 H3 H4 H5 H6|m b k H1 H2 H3 H4 H5|m b k H1 H2 H3 H4 H5|m b k H1 H2 H3 H4 H5|m b k H1 H2 H3 H4 H5];
    try (apply W; assumption); try (eapply Sv; eassumption); try (apply Z; assumption).
  destruct H4 as [A [B _]]. cbn [bump data prime] in A, B. split; [exact A|]. eapply Forall_impl; [|exact B]. cbn. lia.
Qed.
Lemma ph_weak strong t d m n r w b : ph strong t d m n r w b -> ph False t d m n r w b.
Proof. intros H. destruct H; econstructor; try eassumption; intros []. Qed.
Lemma load_all_some ss : forall qs ms, load_all ss qs = Some ms -> Forall2 (fun s mr => load (fst s) (snd s) = Some (fst mr)) ss ms.
Proof.
  induction ss as [|[j c] ss IH]; intros [|[q f] qs] ms H; cbn [load_all] in H; try discriminate; [injection H as <-; constructor|].
  destruct (load j c) as [m|] eqn:L; [|discriminate]. destruct (load_all ss qs) as [r|] eqn:R; [|discriminate]. injection H as <-. constructor; [exact L|exact (IH _ _ R)].
Qed.
Lemma load_describes j c m : load j c = Some m -> wfile j c -> describes j c m /\ wf m.
Proof.
  intros L W. destruct (W m L) as [W1 W2]. split; [|exact W1]. exists m. split; [exact L|]. split; [apply same_refl|]. split; [exact W1|]. split; [exact W2|].
  intros N F. destruct c as [[| |ps f]| | |]; cbn [load] in L; try discriminate; injection L as <-; [destruct N; reflexivity|destruct (2 <? S j); [discriminate F|reflexivity]|reflexivity].
Qed.
Lemma restart_weak it m j c : state_files (dsk it) = [(j, c)] -> wfile j c -> load j c = Some m -> iinv False (restarted it m).
Proof.
  intros S W L. destruct (load_describes _ _ _ L W) as [D W1]. unfold iinv. cbn [restarted tag dsk mem food pend pendw before].
  apply (PIdle False _ _ m 0 [] m j c S D W1); [left; reflexivity|intros []].
Qed.
Lemma one_files is : Forall (iinv False) is -> exists ss, flat_map (fun it => state_files (dsk it)) is = ss /\ Forall2 (fun it s => state_files (dsk it) = [s] /\ wfile (fst s) (snd s)) is ss.
Proof.
  induction 1 as [|it is H Hs [ss [E F]]]; [exists []; split; [reflexivity|constructor]|]. destruct (one_file it H) as [j [c [S W]]]. exists ((j, c) :: ss).
  split; [cbn [flat_map]; rewrite S, E; reflexivity|]. constructor; [split; assumption|exact F].
Qed.
Lemma restart_all (P : item -> (memory * reading) -> Prop) (Q : item -> Prop) is ms : Forall2 P is ms -> (forall it x, P it x -> Q (restarted it (fst x))) ->
  Forall Q (map (fun x => restarted (fst x) (fst (snd x))) (combine is ms)).
Proof. intros F H. induction F as [|it x is ms A F IH]; cbn [combine map]; constructor; [exact (H it x A)|exact IH]. Qed.
Lemma Forall_replace {A} (P : A -> Prop) a x y b : Forall P (a ++ x :: b) -> (P x -> P y) -> Forall P (a ++ y :: b).
Proof. intros F H. apply Forall_app in F. destruct F as [F1 F2]. inversion F2; subst. apply Forall_app. split; [exact F1|]. constructor; auto. Qed.
Theorem history_weak n is : history (fun _ => True) n is -> Forall (iinv False) is.
Proof.
  induction 1 as [|is is' H IH St]; [apply Forall_map, Forall_forall; intros t _; apply start_inv|].
  destruct St as [a it it' b St|is ms _ R L].
  - apply (Forall_replace _ _ _ _ _ IH). intros X. exact (istep_inv _ _ _ X St).
  - destruct (one_files is IH) as [ss [E F]]. unfold resume in R. rewrite E in R. apply load_all_some in R.
    apply (restart_all (fun it x => exists j c, state_files (dsk it) = [(j, c)] /\ wfile j c /\ load j c = Some (fst x))).
    + clear - F R. revert ms R. induction F as [|it s is ss [A B] F IH]; intros ms R; inversion R; subst; constructor; [|apply IH; assumption]. exists (fst s), (snd s). destruct s. auto.
    + intros it x [j [c [A [B C]]]]. exact (restart_weak _ _ _ _ A B C).
Qed.
Lemma history_length ok n is : history ok n is -> length is = n.
Proof.
  induction 1 as [|is is' H IH St]; [rewrite map_length; apply seq_length|]. destruct St as [a it it' b St|is ms _ R L].
  - rewrite <- IH, !app_length. reflexivity.
  - rewrite map_length, combine_length, L, Nat.min_id. exact IH.
Qed.
Lemma istep_tag it it' : istep it it' -> tag it' = tag it.
Proof. intros H. destruct H; reflexivity. Qed.
(** ---- outside the windows ---- *)
Definition comes_back (it : item) (x : memory * reading) : Prop :=
  (same (fst x) (mem it) \/ pend it <> [] /\ same (fst x) (before it)) /\
  exists l, snd x = RFood l /\ Forall (eq (tag it, prime (fst x))) l /\ (fin (fst x) = false -> get (Probes (prime (fst x))) (dsk it) = Some (Food l)).
Lemma not_risky it : iinv True it -> ~ risky it -> exists j c q x, state_files (dsk it) = [(j, c)] /\ wfile j c /\ probe_files (dsk it) = [(q, x)] /\
  exists m, load j c = Some m /\ comes_back it (m, read_probes m q x) /\ (exists l, x = Food l /\ Forall (eq (tag it, q)) l) /\ (q = prime m \/ fin m = true).
Proof.
  destruct it as [t d m n r w b]. unfold iinv, risky, comes_back. cbn [tag dsk mem food pend pendw before fst snd]. intros H N.
  assert (G : forall m0 (b0 : memory) j c q, state_files d = [(j, c)] -> describes j c m0 -> pfile t q [] d -> (q = prime m0 \/ fin m0 = true) ->
    exists j c q x, state_files d = [(j, c)] /\ wfile j c /\ probe_files d = [(q, x)] /\ exists m', load j c = Some m' /\
      (same m' m0 /\ exists l, read_probes m' q x = RFood l /\ Forall (eq (t, prime m')) l /\ (fin m' = false -> get (Probes (prime m')) d = Some (Food l))) /\ (exists l, x = Food l /\ Forall (eq (t, q)) l) /\ (q = prime m' \/ fin m' = true)).
  { intros m0 _ j c q S D [l [Fl P]] Q. exists j, c, q, (Food l). split; [exact S|]. split; [exact (describes_wfile _ _ _ D)|]. split; [exact P|].
    destruct D as [m' [L [Sa [W [D1 D2]]]]]. exists m'. split; [exact L|]. destruct Sa as [Sa [Sb [Sc Sd]]]. 
    assert (Qm : q = prime m' \/ fin m' = true) by (rewrite Sb; destruct (fin m0); [right; reflexivity|left; rewrite (Sc eq_refl); destruct Q; [assumption|discriminate]]).
    split; [|split; [exists l; split; [reflexivity|exact Fl]|exact Qm]]. split; [repeat split; assumption|]. unfold read_probes.
    destruct (fin m') eqn:Fm; cbn [negb andb].
    - exists []. split; [reflexivity|]. split; [constructor|discriminate].
    - destruct Qm as [->|Qm]; [|discriminate]. rewrite Nat.eqb_refl. exists l. split; [reflexivity|]. split; [exact Fl|]. intros _. exact (get_probes _ _ _ P). }
  assert (Wn : forall q, wok t q w -> forall q', pfile t q' w d -> pfile t q' [] d).
  { intros q [->|[k [->| ->]]] q' P; [exact P|exact P|]. destruct N. exact I. }
  assert (Wp : w = [] \/ exists q k, w = food_ops t q k).
  { pose proof (ph_wok _ _ _ _ _ _ _ _ H) as [->|[k [->| ->]]]; [left; reflexivity|right; eauto|]. destruct N. exact I. }
  assert (Np : ~ match r with OClose (State _) _ :: _ => True | ORename (TmpState k) _ :: _ => k <> 0 | OLock :: _ => True | ORename (Probes k) (TmpProbes j) :: _ => j <> k | OEmpty _ :: _ => True | ORename (TmpProbes _) _ :: _ => True | _ => False end).
  { destruct Wp as [->|[q [k ->]]]; exact N. }
  clear N. destruct H as [m n w b j c H1 H2 H3 H4 H5|m n w b tl j c H1 H2 H3 H4 H5 H6 H7|m n w b tl j c H1 H2 H3 H4 H5 H6 H7|m n w b tl j c H1 H2 H3 H4 H5 H6 H7 H8|m n w b tl c H1 H2 H3 H4 H5 H6 H7 H8 H9
    |n w b j c H1 H2 H3 H4 H5 H6|n w b H1 H2 H3 H4 H5 H6|m n w b H1 H2 H3 H4 H5 H6|m b k H1 H2 H3 H4 H5|m b k H1 H2 H3 H4 H5|m b k H1 H2 H3 H4 H5|m b k H1 H2 H3 H4 H5].
  - destruct (H5 I) as [q [P Q]]. destruct (G m b j c q H1 H2 (Wn _ H4 _ P)) as [j' [c' [q' [x' [A [B [C [m' [D [[E F] [X Y]]]]]]]]]]]; [tauto|].
    exists j', c', q', x'. split; [exact A|]. split; [exact B|]. split; [exact C|]. exists m'. split; [exact D|]. split; [split; [left; exact E|exact F]|split; assumption].
  - destruct (G b b j c (prime b) H4 H5 (Wn _ H6 _ (H7 I))) as [j' [c' [q' [x' [A [B [C [m' [D [[E F] [X Y]]]]]]]]]]]; [left; reflexivity|].
    exists j', c', q', x'. split; [exact A|]. split; [exact B|]. split; [exact C|]. exists m'. split; [exact D|]. split; [split; [right; split; [discriminate|exact E]|exact F]|split; assumption].
  - destruct (G b b j c (prime b) H4 H5 (Wn _ H6 _ (H7 I))) as [j' [c' [q' [x' [A [B [C [m' [D [[E F] [X Y]]]]]]]]]]]; [left; reflexivity|].
    exists j', c', q', x'. split; [exact A|]. split; [exact B|]. split; [exact C|]. exists m'. split; [exact D|]. split; [split; [right; split; [discriminate|exact E]|exact F]|split; assumption].
  - destruct (G b b j c (prime b) H4 H5 (Wn _ H7 _ (H8 I))) as [j' [c' [q' [x' [A [B [C [m' [D [[E F] [X Y]]]]]]]]]]]; [left; reflexivity|].
    exists j', c', q', x'. split; [exact A|]. split; [exact B|]. split; [exact C|]. exists m'. split; [exact D|]. split; [split; [right; split; [destruct (prime b); discriminate|exact E]|exact F]|split; assumption].
  - destruct Np. exact H4.
  - destruct (G b b j c (prime b) H3 H4 (Wn _ H5 _ (H6 I))) as [j' [c' [q' [x' [A [B [C [m' [D [[E F] [X Y]]]]]]]]]]]; [left; reflexivity|].
    exists j', c', q', x'. split; [exact A|]. split; [exact B|]. split; [exact C|]. exists m'. split; [exact D|]. split; [split; [right; split; [destruct (prime b); discriminate|exact E]|exact F]|split; assumption].
  - destruct Np. exact I.
  - destruct Np. exact I.
  - destruct Np. lia.
  - destruct Np. exact I.
  - destruct (G m b k (Sv (data m)) (S k) H2 H3) as [j' [c' [q' [x' [A [B [C [m' [D [[E F] [X Y]]]]]]]]]]]; [exists []; split; [constructor|exact (H5 I)]|left; symmetry; exact H1|].
    exists j', c', q', x'. split; [exact A|]. split; [exact B|]. split; [exact C|]. exists m'. split; [exact D|]. split; [split; [left; exact E|exact F]|split; assumption].
  - destruct Np. exact I.
Qed.
Lemma restart_strong it m j c q x : state_files (dsk it) = [(j, c)] -> wfile j c -> load j c = Some m -> probe_files (dsk it) = [(q, x)] ->
  (exists l, x = Food l /\ Forall (eq (tag it, q)) l) -> (q = prime m \/ fin m = true) -> iinv True (restarted it m).
Proof.
  intros S W L P [l [-> F]] Q. destruct (load_describes _ _ _ L W) as [D W1]. unfold iinv. cbn [restarted tag dsk mem food pend pendw before].
  apply (PIdle True _ _ m 0 [] m j c S D W1); [left; reflexivity|]. intros _. exists q. split; [exists l; split; [exact F|exact P]|]. destruct Q; [left; assumption|right; auto].
Qed.
Definition calm (is : list item) : Prop := Forall (fun it => ~ risky it) is.
Lemma resume_calm is : Forall (iinv True) is -> calm is -> exists ms, resume is = Some ms /\ length ms = length is /\
  Forall2 (fun it x => comes_back it x /\ iinv True (restarted it (fst x))) is ms.
Proof.
  intros H N. unfold resume. induction H as [|it is H Hs IH]; [exists []; repeat split; constructor|]. inversion N as [|? ? N1 N2]; subst. destruct (IH N2) as [ms [E [L F]]].
  destruct (not_risky it H N1) as [j [c [q [x [S [W [P [m [Ld [C [X Y]]]]]]]]]]]. exists ((m, read_probes m q x) :: ms).
  split; [|split; [cbn [length]; rewrite L; reflexivity|]].
  - cbn [flat_map]. rewrite S, P. cbn [app load_all]. rewrite Ld, E. reflexivity.
  - constructor; [|exact F]. split; [exact C|]. cbn [fst]. exact (restart_strong it m j c q x S W Ld P X Y).
Qed.
Theorem history_strong n is : history calm n is -> Forall (iinv True) is.
Proof.
  induction 1 as [|is is' H IH St]; [apply Forall_map, Forall_forall; intros t _; apply start_inv|].
  destruct St as [a it it' b St|is ms C R L].
  - apply (Forall_replace _ _ _ _ _ IH). intros X. exact (istep_inv _ _ _ X St).
  - destruct (resume_calm is IH C) as [ms' [E [_ F]]]. rewrite E in R. injection R as <-. apply (restart_all _ _ _ _ F). intros it x [_ Y]. exact Y.
Qed.

(** ---- running a concrete history (used for the examples only) ---- *)
Inductive ev := EZero | ECombine | EDone | EOp | EFeed | EFood | EFoodOp.
Definition is_lock (o : op) : bool := match o with OLock => true | _ => false end.
Definition unlockedb (r : list op) : bool := existsb is_lock r || negb (existsb on_probes r).
Lemma unlockedb_ok r : unlockedb r = true -> unlocked r.
Proof.
  unfold unlockedb. intros H. apply orb_true_iff in H. destruct H as [H|H]; [left|right; apply negb_true_iff; exact H].
  apply existsb_exists in H. destruct H as [o [I E]]. destruct o; try discriminate E. exact I.
Qed.
Definition do_ev (e : ev) (it : item) : option item :=
  match it with mk_item t d m n r w b =>
  match e with
  | EZero => match n, r, w with 0, [], [] => if fin m then None else Some (mk_item t d (zero_mem m) 0 (zero_ops (prime m) ++ roll_ops (prime m)) [] m) | _, _, _ => None end
  | ECombine => match r with [] => if fin m then None else Some (mk_item t d (comb_mem m) n (save_ops (prime m) (data (comb_mem m)) ++ roll_ops (prime m)) w m) | _ => None end
  | EDone => match r with [] => if fin m then None else match data m with Full ps false => Some (mk_item t d (end_mem m ps) n (save_ops (prime m) (Full ps true)) w m) | _ => None end | _ => None end
  | EOp => match r with o :: r' => if is_lock o && negb (match w with [] => true | _ => false end) then None else Some (mk_item t (apply o d) (bump o m) (drop_food o n) r' w b) | [] => None end
  | EFeed => if fin m || negb (unlockedb r) then None else Some (mk_item t d m (S n) r w b)
  | EFood => match n, w with S n', [] => if unlockedb r then Some (mk_item t d m 0 r (food_ops t (prime m) (S n')) b) else None | _, _ => None end
  | EFoodOp => match w with o :: w' => Some (mk_item t (apply o d) m n r w' b) | [] => None end
  end end.
Lemma do_ev_ok e it it' : do_ev e it = Some it' -> istep it it'.
Proof.
  destruct it as [t d m n r w b]. destruct e; cbn [do_ev].
  - destruct n; [|discriminate]. destruct r; [|discriminate]. destruct w; [|discriminate]. destruct (fin m) eqn:F; [discriminate|]. intros H. injection H as <-. apply IZero. exact F.
  - destruct r; [|discriminate]. destruct (fin m) eqn:F; [discriminate|]. intros H. injection H as <-. apply ICombine. exact F.
  - destruct r; [|discriminate]. destruct (fin m) eqn:F; [discriminate|]. destruct (data m) as [| |ps [|]] eqn:D; try discriminate. intros H. injection H as <-. apply IDone; assumption.
  - destruct r as [|o r]; [discriminate|]. destruct (is_lock o && _) eqn:L; [discriminate|]. intros H. injection H as <-. apply IOp. intros ->. destruct w; [reflexivity|discriminate L].
  - destruct (fin m) eqn:F; [discriminate|]. cbn [orb]. destruct (unlockedb r) eqn:U; [|discriminate]. intros H. injection H as <-. apply IFeed; [exact F|apply unlockedb_ok; exact U].
  - destruct n; [discriminate|]. destruct w; [|discriminate]. destruct (unlockedb r) eqn:U; [|discriminate]. intros H. injection H as <-. apply IFood. apply unlockedb_ok. exact U.
  - destruct w; [discriminate|]. intros H. injection H as <-. apply IFoodOp.
Qed.
(** event e of the i-th function / a crash with a resume *)
Inductive gev := At (i : nat) (e : ev) | Crash.
Fixpoint do_at (i : nat) (e : ev) (is : list item) : option (list item) :=
  match i, is with
  | _, [] => None
  | 0, it :: b => match do_ev e it with Some it' => Some (it' :: b) | None => None end
  | S i', it :: b => match do_at i' e b with Some b' => Some (it :: b') | None => None end
  end.
Lemma do_at_ok ok e : forall i is is' a, do_at i e is = Some is' -> gstep ok (a ++ is) (a ++ is').
Proof.
  induction i as [|i IH]; intros [|it b] is' a H; cbn [do_at] in H; try discriminate.
  - destruct (do_ev e it) as [it'|] eqn:D; [|discriminate]. injection H as <-. apply GStep. exact (do_ev_ok _ _ _ D).
  - destruct (do_at i e b) as [b'|] eqn:D; [|discriminate]. injection H as <-. specialize (IH b b' (a ++ [it]) D). rewrite <- !app_assoc in IH. exact IH.
Qed.
Definition riskyb (it : item) : bool :=
  match pendw it with
  | OAppended _ _ :: _ => true
  | _ =>
    match pend it with
    | OClose (State _) _ :: _ => true
    | ORename (TmpState k) _ :: _ => negb (k =? 0)
    | OLock :: _ => true
    | ORename (Probes k) (TmpProbes j) :: _ => negb (j =? k)
    | OEmpty _ :: _ => true
    | ORename (TmpProbes _) _ :: _ => true
    | _ => false
    end
  end.
Lemma riskyb_ok it : riskyb it = false -> ~ risky it.
Proof.
  unfold riskyb, risky. intros H R. destruct (pendw it) as [|[] ?]; try discriminate H;
    (destruct (pend it) as [|[[]|[] ?|[] []| | | |] ?]; try exact R; try discriminate H; apply negb_false_iff, Nat.eqb_eq in H; contradiction).
Qed.
Definition do_g (careful : bool) (g : gev) (is : list item) : option (list item) :=
  match g with
  | At i e => do_at i e is
  | Crash => if careful && existsb riskyb is then None else match resume is with Some ms => if length ms =? length is then Some (map (fun x => restarted (fst x) (fst (snd x))) (combine is ms)) else None | None => None end
  end.
Fixpoint run (careful : bool) (gs : list gev) (is : list item) : option (list item) :=
  match gs with [] => Some is | g :: gs' => match do_g careful g is with Some is' => run careful gs' is' | None => None end end.
Lemma run_ok (careful : bool) n : forall gs is is', history (if careful then calm else fun _ => True) n is -> run careful gs is = Some is' -> history (if careful then calm else fun _ => True) n is'.
Proof.
  induction gs as [|g gs IH]; intros is is' H R; cbn [run] in R; [injection R as <-; exact H|].
  destruct (do_g careful g is) as [is1|] eqn:D; [|discriminate]. apply (IH is1 is'); [|exact R]. apply (HStep _ _ is is1 H).
  destruct g as [i e|]; cbn [do_g] in D; [exact (do_at_ok _ e i is is1 [] D)|].
  destruct (careful && existsb riskyb is) eqn:C; [discriminate|]. destruct (resume is) as [ms|] eqn:Rs; [|discriminate]. destruct (length ms =? length is) eqn:L; [|discriminate]. injection D as <-.
  apply GCrash; [|exact Rs|apply Nat.eqb_eq; exact L]. destruct careful; [|exact I]. cbn [andb] in C. apply Forall_forall. intros it Hi. apply riskyb_ok.
  destruct (riskyb it) eqn:Q; [|reflexivity]. assert (existsb riskyb is = true) by (apply existsb_exists; eauto). congruence.
Qed.
Lemma run_history careful n gs is : run careful gs (map start (seq 0 n)) = Some is -> history (if careful then calm else fun _ => True) n is.
Proof. apply run_ok. constructor. Qed.

(** ---- the prime of stored probes, for all crash points ---- *)
Definition foods (c : content) : list (nat * nat) := match c with Food l | CutFood l => l | _ => [] end.
Lemma In_del e f d : In e (del f d) -> In e d /\ fst e <> f.
Proof. unfold del. intros H. apply filter_In in H. destruct H as [A B]. split; [exact A|]. intros <-. rewrite (proj2 (file_eqb_eq _ _) eq_refl) in B. discriminate. Qed.
Lemma In_put e f c d : In e (put f c d) -> (In e d /\ fst e <> f) \/ e = (f, c).
Proof. unfold put. intros H. apply in_app_iff in H. destruct H as [H|[H|[]]]; [left; apply In_del; exact H|right; symmetry; exact H]. Qed.
Lemma get_In f d c : get f d = Some c -> In (f, c) d.
Proof. unfold get. destruct (find _ d) as [[f' c']|] eqn:F; [|discriminate]. intros H. injection H as <-. apply find_some in F. destruct F as [A B]. cbn [fst] in B. apply file_eqb_eq in B. subst f'. exact A. Qed.
Definition fgood (d : dir) : Prop := forall q c, In (Probes q, c) d -> Forall (fun x => snd x = q) (foods c).
Definition fpend (d : dir) (r : list op) : Prop :=
  match r with
  | [ORename (Probes k) (TmpProbes _); ORename (TmpProbes _) (Probes _)] => get (Probes k) d <> None /\ forall c, In (Probes k, c) d -> foods c = []
  | [ORename (TmpProbes k) (Probes _)] => forall c, In (TmpProbes k, c) d -> foods c = []
  | _ => True
  end.
Lemma fgood_put_other f c d : pick_p f = None -> fgood d -> fgood (put f c d).
Proof. intros N H q x I. apply In_put in I. destruct I as [[I _]|I]; [exact (H q x I)|]. injection I as <- <-. discriminate N. Qed.
Lemma fgood_del f d : fgood d -> fgood (del f d).
Proof. intros H q x I. apply In_del in I. exact (H q x (proj1 I)). Qed.
Lemma fgood_ren_other f g d : pick_p g = None -> fgood d -> fgood (apply (ORename f g) d).
Proof. intros N H. cbn [apply]. destruct (get f d); [|exact H]. apply fgood_put_other; [exact N|]. apply fgood_del. exact H. Qed.
Lemma fgood_food t q d o w : wok t q (o :: w) -> fgood d -> fgood (apply o d).
Proof.
  assert (X : forall q d, fgood d -> Forall (fun x => snd x = q) (food_of (get (Probes q) d))).
  { clear. intros q d H. destruct (get (Probes q) d) as [c|] eqn:G; [|constructor]. pose proof (H q c (get_In _ _ _ G)) as F. destruct c; cbn [food_of foods] in *; try constructor; exact F. }
  intros K H. destruct (wok_ops _ _ _ _ K) as [[k [-> ->]]|[k [-> ->]]]; cbn [apply]; intros q' c I; apply In_put in I; destruct I as [[I _]|I]; try exact (H q' c I); injection I as -> ->; cbn [foods].
  - apply X. exact H.
  - apply Forall_app. split; [apply X; exact H|]. clear. induction k; constructor; [reflexivity|assumption].
Qed.
Definition fit (it : item) : Prop := fgood (dsk it) /\ fpend (dsk it) (pend it).
Lemma fpend_nil d : fpend d []. Proof. exact I. Qed.
Lemma fpend_save k s tl d : fpend d (save_ops k s ++ tl).
Proof. exact I. Qed.
Lemma fpend_zero k d : fpend d (zero_ops k ++ roll_ops k).
Proof. destruct k; exact I. Qed.
Lemma fit_op it o r : iinv False it -> fit it -> pend it = o :: r -> fgood (apply o (dsk it)) /\ fpend (apply o (dsk it)) r.
Proof.
  unfold iinv, fit. destruct it as [t d m n r0 w b]. cbn [tag dsk mem food pend pendw before]. intros H [F P] ->. remember (o :: r) as pe eqn:E.
  destruct H as [m n w b j c H1 H2 H3 H4 H5|m n w b tl j c H1 H2 H3 H4 H5 H6 H7|m n w b tl j c H1 H2 H3 H4 H5 H6 H7|m n w b tl j c H1 H2 H3 H4 H5 H6 H7 H8|m n w b tl c H1 H2 H3 H4 H5 H6 H7 H8 H9
    |n w b j c H1 H2 H3 H4 H5 H6|n w b H1 H2 H3 H4 H5 H6|m n w b H1 H2 H3 H4 H5 H6|m b k H1 H2 H3 H4 H5|m b k H1 H2 H3 H4 H5|m b k H1 H2 H3 H4 H5|m b k H1 H2 H3 H4 H5].
  - discriminate.
  - cbn [save_ops app] in E. injection E as <- <-. split; [apply fgood_put_other; [reflexivity|exact F]|exact I].
  - injection E as <- <-. split; [apply fgood_put_other; [reflexivity|exact F]|]. destruct (prime b); exact I.
  - destruct (prime b) as [|k]; cbn [mid app] in E; injection E as <- <-; (split; [apply fgood_ren_other; [reflexivity|exact F]|]); [|exact I].
    destruct H1 as [[_ ->]|[ps [_ [_ ->]]]]; exact I.
  - injection E as <- <-. split; [apply fgood_ren_other; [reflexivity|exact F]|]. destruct H1 as [[_ ->]|[ps [_ [_ ->]]]]; exact I.
  - destruct (prime b) as [|k]; cbn [zero_ops app] in E; injection E as <- <-; (split; [|exact I]); [apply fgood_put_other; [reflexivity|exact F]|apply fgood_ren_other; [reflexivity|exact F]].
  - injection E as <- <-. split; [apply fgood_put_other; [reflexivity|exact F]|exact I].
  - injection E as <- <-. split; [exact F|exact I].
  - injection E as <- <-. split; [apply fgood_ren_other; [reflexivity|exact F]|exact I].
  - injection E as <- <-. cbn [apply]. split; [|cbn [fpend]; split; [rewrite get_put_same; discriminate|]; intros c J; apply In_put in J; destruct J as [[_ J]|J]; [destruct J; reflexivity|injection J as ->; reflexivity]].
    intros q c J. apply In_put in J. destruct J as [[J _]|J]; [exact (F q c J)|]. injection J as -> ->. constructor.
  - injection E as <- <-. split; [apply fgood_ren_other; [reflexivity|exact F]|]. cbn [fpend] in *. intros c J. cbn [apply] in J. destruct (get (Probes (S k)) d) as [x|] eqn:G.
    + apply In_put in J. destruct J as [[_ J]|J]; [destruct J; reflexivity|]. injection J as ->. exact (proj2 P x (get_In _ _ _ G)).
    + destruct P as [P _]. congruence.
  - injection E as <- <-. split; [|exact I]. cbn [apply]. destruct (get (TmpProbes (S k)) d) as [x|] eqn:G; [|exact F]. intros q c J. apply In_put in J. destruct J as [[J _]|J].
    + apply In_del in J. exact (F q c (proj1 J)).
    + injection J as -> ->. rewrite (P _ (get_In _ _ _ G)). constructor.
Qed.
Lemma fit_w it o w : iinv False it -> fit it -> pendw it = o :: w -> fgood (apply o (dsk it)) /\ fpend (apply o (dsk it)) (pend it).
Proof.
  intros H [F P] E. pose proof (ph_wok _ _ _ _ _ _ _ _ H) as K. rewrite E in K. split; [exact (fgood_food _ _ _ _ _ K F)|]. clear F P K.
  unfold iinv in H. destruct it as [t d m n r w0 b]. cbn [tag dsk mem food pend pendw before] in *.
  destruct H as [m n w1 b j c H1 H2 H3 H4 H5|m n w1 b tl j c H1 H2 H3 H4 H5 H6 H7|m n w1 b tl j c H1 H2 H3 H4 H5 H6 H7|m n w1 b tl j c H1 H2 H3 H4 H5 H6 H7 H8|m n w1 b tl c H1 H2 H3 H4 H5 H6 H7 H8 H9
    |n w1 b j c H1 H2 H3 H4 H5 H6|n w1 b H1 H2 H3 H4 H5 H6|m n w1 b H1 H2 H3 H4 H5 H6|m b k H1 H2 H3 H4 H5|m b k H1 H2 H3 H4 H5|m b k H1 H2 H3 H4 H5|m b k H1 H2 H3 H4 H5]; try discriminate; try exact I.
  - destruct (prime b); exact I.
  - destruct (prime b); exact I.
Qed.
Lemma fit_step it it' : iinv False it -> fit it -> istep it it' -> fit it'.
Proof.
  intros H F St. destruct St as [t d m b Fm|t d m n w b Fm|t d m n w b ps Fm D|t d m n o r w b L|t d m n r w b Fm U|t d m n r b U|t d m n r o w b].
  - split; [exact (proj1 F)|apply fpend_zero].
  - split; [exact (proj1 F)|apply fpend_save].
  - split; [exact (proj1 F)|]. cbn [dsk pend]. rewrite <- (app_nil_r (save_ops _ _)). apply fpend_save.
  - exact (fit_op _ o r H F eq_refl).
  - exact F.
  - exact F.
  - exact (fit_w _ o w H F eq_refl).
Qed.
Theorem history_fit n is : history (fun _ => True) n is -> Forall fit is.
Proof.
  induction 1 as [|is is' H IH St].
  - apply Forall_map, Forall_forall. intros t _. split; [|exact I]. intros q c J. cbn in J. destruct J as [J|[J|[]]]; [discriminate|injection J as <- <-; constructor].
  - pose proof (history_weak n is H) as W. destruct St as [a it it' b St|is ms _ R L].
    + apply (Forall_replace _ _ _ _ _ IH). intros X. apply Forall_app in W. destruct W as [_ W]. inversion W; subst. eapply fit_step; eassumption.
    + apply Forall_map, Forall_forall. intros [it x] J. apply in_combine_l in J. rewrite Forall_forall in IH. split; [exact (proj1 (IH it J))|exact I].
Qed.
Lemma load_all_probes ss : forall qs ms, load_all ss qs = Some ms -> Forall (fun mr => exists q c, In (q, c) qs /\ snd mr = read_probes (fst mr) q c) ms.
Proof.
  induction ss as [|[j c] ss IH]; intros [|[q f] qs] ms H; cbn [load_all] in H; try discriminate; [injection H as <-; constructor|].
  destruct (load j c) as [m|] eqn:L; [|discriminate]. destruct (load_all ss qs) as [r|] eqn:R; [|discriminate]. injection H as <-. constructor.
  - exists q, f. split; [left; reflexivity|reflexivity].
  - eapply Forall_impl; [|exact (IH _ _ R)]. intros x [q' [c' [A B]]]. exists q', c'. split; [right; exact A|exact B].
Qed.
Theorem resume_primes n is ms : history (fun _ => True) n is -> resume is = Some ms -> Forall (fun x => forall l, snd x = RFood l -> Forall (fun e => snd e = prime (fst x)) l) ms.
Proof.
  intros H R. pose proof (history_fit n is H) as F. unfold resume in R. apply load_all_probes in R. eapply Forall_impl; [|exact R]. intros [m rd] [q [c [A E]]] l Er. cbn [fst snd] in *. rewrite Er in E. clear Er rd.
  apply in_flat_map in A. destruct A as [it [Ai A]]. rewrite Forall_forall in F. destruct (F it Ai) as [G _]. unfold probe_files in A. apply in_flat_map in A. destruct A as [[f x] [Af A]]. cbn [fst snd] in A.
  destruct f; try (exfalso; exact A); destruct A as [A|[]]. injection A as -> ->. unfold read_probes in E. destruct (negb (fin m)); cbn [andb] in E; [|injection E as ->; constructor].
  destruct (Nat.eqb_spec q (prime m)) as [Q|Q]; [|injection E as ->; constructor]. pose proof (G _ _ Af) as Fo. rewrite Q in Fo. destruct c as [s| |l'|l']; try discriminate E; injection E as ->; try constructor. exact Fo.
Qed.

(** Specification for the saved states: which states can be saved, and what it means that an object has been restored. *)
From Coq Require Import Ascii String.
From Verif Require Import Machine FFInt RatNum RatNumProofs SYEval StateFile.
From Coq Require Import List.
Import ListNotations.
Open Scope Z_scope.

(** the components that survive *)
Definition small (z : Z) : Prop := 0 <= z < two31.
(** text without a line break *)
Definition no_nl (l : chars) : Prop := ~ In nl l.
(** coefficient c of the monomial v in the polynomial of degree d *)
Definition term_of (s : list (Z * list (mono * Z))) (d : Z) (v : mono) (c : Z) : Prop := exists m, In (d, m) s /\ In (v, c) m.
(** exponent vector of n variables *)
Definition mono_ok (n : nat) (v : mono) : Prop := length v = n /\ Forall small v.
(** a map from degrees to polynomials: no degree twice, no monomial twice, exponents of the non-zero terms below 2^31 *)
Definition sub_ok (n : nat) (sub : list (Z * list (mono * Z))) : Prop :=
  NoDup (map fst sub) /\ forall d m, In (d, m) sub -> NoDup (map fst m) /\ forall v c, In (v, c) m -> c <> 0 -> small d /\ mono_ok n v.
(** what a state must satisfy to be saved and read again *)
Record savable (st : rstate) : Prop := {
  sv_n : (0 < n_ st)%nat;
  sv_tag : no_nl (tag_name st) /\ ~ In (tag_name st) (map fst keywords);   (* the tag is not one of the lines that announce a variable *)
  sv_deg : - two31 <= max_deg_num st < two31 /\ - two31 <= max_deg_den st < two31;
  sv_bounds : (degree_bounds st = [] \/ length (degree_bounds st) = n_ st) /\ Forall (fun b => small (fst b) /\ small (snd b)) (degree_bounds st);
  sv_ints : small (interpolations st) /\ small (shifted_max_num_eqn st);
  sv_ndeg : mono_ok (n_ st) (normalizer_deg st);
  sv_shift : (n_ st <= length (shift st))%nat;
  sv_sub : sub_ok (n_ st) (sub_num st) /\ sub_ok (n_ st) (sub_den st);
  sv_zero : Forall small (zero_degs_num st) /\ Forall small (zero_degs_den st) /\ NoDup (zero_degs_num st) /\ NoDup (zero_degs_den st);
  sv_g : Forall (fun e => mono_ok (n_ st) (fst e) /\ rn_wf (snd e)) (g_ni st) /\ Forall (fun e => mono_ok (n_ st) (fst e) /\ rn_wf (snd e)) (g_di st) /\
         NoDup (map fst (g_ni st)) /\ NoDup (map fst (g_di st));
  sv_comb : Forall (fun m => Forall (fun e => mono_ok (n_ st) (fst e)) m /\ NoDup (map fst m)) [combined_ni st; combined_di st; combined_primes_ni st; combined_primes_di st] }.

(** whether the next prime needs the shift: always if the run makes several interpolations, else for singular systems *)
Definition need_shift (st : rstate) : bool := if interpolations st =? 1 then is_singular_system st else true.
(** the members of the loaded object *)
Record restored (st : rstate) (prime : Z) (sing sh : list Z) (s : ld) (bounds : list (Z * Z)) : Prop := {
  rs_cp : l_cp s = combined_prime st; rs_tag : l_tag s = tag_name st; rs_done : l_done s = done st;
  rs_mdn : l_mdn s = max_deg_num st; rs_mdd : l_mdd s = max_deg_den st; rs_bounds : bounds = degree_bounds st;
  rs_sing : l_sing s = (if negb (done st) && need_shift st then emplace_set sing prime else sing);
  rs_ndeg : l_ndeg s = normalizer_deg st; rs_n : l_n s = n_ st;
  rs_ntd : l_ntd s = normalize_to_den st; rs_ndn : l_ndn s = normalizer_den_num st; rs_smne : l_smne s = shifted_max_num_eqn st;
  rs_shift : if done st then l_shift s = sh else
    length (l_shift s) = length sh /\ skipn (n_ st) (l_shift s) = skipn (n_ st) sh /\
    Forall2 (fun a b => a = 0 <-> b = 0) (firstn (n_ st) (l_shift s)) (firstn (n_ st) (shift st));
  rs_subn : NoDup (map fst (l_subn s)) /\ forall d v c, term_of (l_subn s) d v c <-> c = 1 /\ exists c', c' <> 0 /\ term_of (sub_num st) d v c';
  rs_subd : NoDup (map fst (l_subd s)) /\ forall d v c, term_of (l_subd s) d v c <-> c = 1 /\ exists c', c' <> 0 /\ term_of (sub_den st) d v c';
  rs_zdn : l_zdn s = zero_degs_num st; rs_zdd : l_zdd s = zero_degs_den st;
  rs_gni : l_gni s = g_ni st; rs_gdi : l_gdi s = g_di st;
  rs_cni : l_cni s = combined_ni st; rs_cdi : l_cdi s = combined_di st; rs_cpni : l_cpni s = combined_primes_ni st; rs_cpdi : l_cpdi s = combined_primes_di st;
  rs_interp : l_interp s = interpolations st }.

(** a probe: canonical numbers, n - 1 entries of the order *)
Definition probe_ok (p : Z) (n : nat) (pr : Z * Z * list Z) : Prop :=
  let '(t, v, ord) := pr in 0 <= t < p /\ 0 <= v < p /\ S (length ord) = n /\ Forall small ord.


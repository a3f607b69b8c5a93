(** * C152: special soundness of the predicate proof.  Two accepted answers to two
    challenges for the same commitments contain a value the predicate holds for. *)
From Coq Require Import String.
From Verif Require Import Base BnModel BnProofs NumTheory UMod StrMap HelpersModel HelpersSpec HelpersProofs ClModel ClSpec ClLib ClKey ClIssue ClBlind ClPresent ClPred ClSign
  ClPresSpec ClProps ClSoundSpec ClSoundLib ClSoundNeSpec ClSoundNeLib ClSoundProps ClHideProps.
From Coq Require Import Znumtheory.
Open Scope string_scope.
Open Scope list_scope.
Open Scope Z_scope.

(** either the extracted value satisfies the predicate, over the integers, or a relation
    Z^x S^y = 1 with x <> 0 computed from the answers *)
Theorem C152_predicate_true_or_relation : forall pk sk pr1 pr2 c1 c2 ts,
  issuer_key pk sk -> prime (sk_p sk) -> prime (sk_q sk) ->
  0 < c1 -> 0 < c2 -> c1 <> c2 -> Z.abs (c1 - c2) < sk_p sk -> Z.abs (c1 - c2) < sk_q sk ->
  (forall k x, sm_get k (np_t pr1) = Some x -> 0 <= x) -> np_t pr2 = np_t pr1 -> np_predicate pr2 = np_predicate pr1 ->
  bound_in_range (np_predicate pr1) -> divisible_ne pr1 pr2 (c1 - c2) ->
  verify_ne_predicate pk pr1 c1 = Ok ts -> verify_ne_predicate pk pr2 c2 = Ok ts ->
  let d := c1 - c2 in let p := np_predicate pr1 in
  (value_gap pr1 pr2 d = 0 /\ holds (p_type p) (ext_value pr1 pr2 d) (p_value p))
  \/ (value_gap pr1 pr2 d <> 0 /\ product_is_one (pk_n pk) [(pk_z pk, 2 * value_gap pr1 pr2 d); (pk_s pk, 2 * blinding_gap pr1 pr2 d)]).
Proof.
  intros pk sk pr1 pr2 c1 c2 ts K Pp Pq C1 C2 Hc D2 D3 HT ET EP Hb Dv E1 E2. cbv zeta.
  destruct (Z.eq_dec (value_gap pr1 pr2 (c1 - c2)) 0) as [E|N].
  - left. split; [exact E|]. unfold value_gap, sum4 in E. unfold bound, bound_in_range, side in *.
    assert (0 <= ext_u pr1 pr2 (c1 - c2) "0" * ext_u pr1 pr2 (c1 - c2) "0" + ext_u pr1 pr2 (c1 - c2) "1" * ext_u pr1 pr2 (c1 - c2) "1" +
        ext_u pr1 pr2 (c1 - c2) "2" * ext_u pr1 pr2 (c1 - c2) "2" + ext_u pr1 pr2 (c1 - c2) "3" * ext_u pr1 pr2 (c1 - c2) "3") as Sq by nia.
    revert E Sq. generalize (ext_value pr1 pr2 (c1 - c2)). match goal with |- context [0 <= ?x] => generalize x end. intros q v E Sq.
    destruct (p_type (np_predicate pr1)); cbn [holds is_less] in *; lia.
  - right. split; [exact N|]. exact (ne_gap pk sk K Pp Pq pr1 pr2 c1 c2 ts C1 C2 Hc D2 D3 HT ET EP Hb Dv E1 E2).
Qed.
Print Assumptions C152_predicate_true_or_relation.

Lemma sm_get_nonneg (m : smap Z) k x : Forall (fun kv => 0 <= snd kv) m -> sm_get k m = Some x -> 0 <= x.
Proof.
  induction 1 as [|[k' v] m H _ IH]; cbn [sm_get]; [discriminate|]. destruct (String.eqb k k'); [|exact IH].
  cbn [snd] in H. intros [= <-]. exact H.
Qed.

(** an honest prover's answers meet the hypotheses; the extraction returns the attribute value and
    finds no relation *)
Theorem C152_extraction_exact : forall pk vals mtm p rnd mt cv ni c1 c2 eq1 eq2 np1 np2, valid_pk pk ->
  sm_get (p_attr p) vals = Some cv -> is_i32 (cv_value cv) -> is_i32 (p_value p) -> holds (p_type p) (cv_value cv) (p_value p) ->
  true_delta (p_type p) (cv_value cv) (p_value p) < 2 ^ 31 -> sm_get (p_attr p) mtm = Some mt ->
  0 <= nr_r rnd "DELTA" -> 0 <= nr_r_tilde rnd "DELTA" -> 0 < c1 -> 0 < c2 -> c1 <> c2 ->
  init_ne_proof pk mtm vals p rnd = Ok ni ->
  sm_get (p_attr p) (ep_m eq1) = Some (c1 * cv_value cv + mt) -> sm_get (p_attr p) (ep_m eq2) = Some (c2 * cv_value cv + mt) ->
  finalize_ne_proof c1 ni eq1 = Ok np1 -> finalize_ne_proof c2 ni eq2 = Ok np2 ->
  (forall k x, sm_get k (np_t np1) = Some x -> 0 <= x) /\ np_t np2 = np_t np1 /\ np_predicate np2 = np_predicate np1 /\
  bound_in_range (np_predicate np1) /\ divisible_ne np1 np2 (c1 - c2) /\
  verify_ne_predicate pk np1 c1 = Ok (ni_tau_list ni) /\ verify_ne_predicate pk np2 c2 = Ok (ni_tau_list ni) /\
  ext_value np1 np2 (c1 - c2) = cv_value cv /\ value_gap np1 np2 (c1 - c2) = 0 /\ blinding_gap np1 np2 (c1 - c2) = 0.
Proof.
  intros pk vals mtm p rnd mt cv ni c1 c2 eq1 eq2 np1 np2 V Ecv Ia Iv Hh Hd Hmt R1 R2 C1 C2 Hc Ei M1 M2 F1 F2. set (a := cv_value cv) in *.
  assert (exists cv, sm_get (p_attr p) vals = Some cv /\ cv_value cv = a) as Hcv by eauto.
  assert (is_i32 (true_delta (p_type p) a (p_value p))) as It.
  { unfold is_i32 in *. split; [|assumption]. destruct (p_type p); cbn [holds true_delta] in *; lia. }
  assert (0 <= get_delta (p_type p) (p_value p) a) as Hd0 by now apply get_delta_iff.
  assert (bound_in_range p) as Hb.
  { unfold bound_in_range, bound, is_i32 in *. destruct (p_type p); cbn [holds] in *; lia. }
  assert (get_delta_prime (p_type p) (p_value p) = bound p) as EB.
  { unfold bound_in_range, bound in *. unfold get_delta_prime. destruct (p_type p); try reflexivity; apply wrap_id; unfold is_i32; lia. }
  assert (get_delta (p_type p) (p_value p) a = if is_less (p_type p) then get_delta_prime (p_type p) (p_value p) - a else a - get_delta_prime (p_type p) (p_value p)) as Hrel.
  { apply delta_prime_rel; auto. unfold is_i32 in *. destruct (p_type p); cbn [holds] in *; lia. }
  destruct (four_squares_ok _ Hd0) as (u0 & u1 & u2 & u3 & Hfs & _ & _ & _ & _ & Hsum).
  rewrite (init_ne_u pk V vals p rnd mtm mt a Hcv Ia Hmt Hd0 R2 u0 u1 u2 u3 Hfs) in Ei.
  match type of Ei with Ok ?x = Ok ?y => assert (x = y) as <- by (revert Ei; generalize x y; congruence) end. clear Ei.
  rewrite (finalize_ne_u pk V p rnd mt a u0 u1 u2 u3 _ _ M1) in F1. rewrite (finalize_ne_u pk V p rnd mt a u0 u1 u2 u3 _ _ M2) in F2.
  match type of F1 with Ok ?x = Ok ?y => assert (x = y) as <- by (revert F1; generalize x y; congruence) end. clear F1.
  match type of F2 with Ok ?x = Ok ?y => assert (x = y) as <- by (revert F2; generalize x y; congruence) end. clear F2.
  pose proof (verify_ne_u pk V p rnd mt a Hrel R2 R1 u0 u1 u2 u3 Hsum) as VE.
  assert (c1 - c2 <> 0) as Hdz by lia.
  assert (forall x y, (c1 * x + y - (c2 * x + y)) / (c1 - c2) = x) as Hq by (intros x y; replace (c1 * x + y - (c2 * x + y)) with (x * (c1 - c2)) by ring; now apply Z.div_mul).
  assert (forall x y, (c1 - c2 | c1 * x + y - (c2 * x + y))) as Hdvd by (intros x y; exists x; ring).
  set (n1 := the_neproof pk V p rnd mt a u0 u1 u2 u3 c1). set (n2 := the_neproof pk V p rnd mt a u0 u1 u2 u3 c2).
  set (rho := if is_less (p_type p) then - nr_r rnd "DELTA" else nr_r rnd "DELTA").
  set (rho_t := if is_less (p_type p) then - nr_r_tilde rnd "DELTA" else nr_r_tilde rnd "DELTA").
  assert (delta_answer n1 = c1 * rho + rho_t) as A1.
  { change (delta_answer n1) with (if is_less (p_type p) then - Z.abs (c1 * nr_r rnd "DELTA" + nr_r_tilde rnd "DELTA") else c1 * nr_r rnd "DELTA" + nr_r_tilde rnd "DELTA").
    unfold rho, rho_t. destruct (is_less (p_type p)); [|ring]. rewrite Z.abs_eq by nia. ring. }
  assert (delta_answer n2 = c2 * rho + rho_t) as A2.
  { change (delta_answer n2) with (if is_less (p_type p) then - Z.abs (c2 * nr_r rnd "DELTA" + nr_r_tilde rnd "DELTA") else c2 * nr_r rnd "DELTA" + nr_r_tilde rnd "DELTA").
    unfold rho, rho_t. destruct (is_less (p_type p)); [|ring]. rewrite Z.abs_eq by nia. ring. }
  assert (ext_value n1 n2 (c1 - c2) = a) as X1 by (exact (Hq a mt)).
  assert (ext_delta n1 n2 (c1 - c2) = rho) as X2 by (unfold ext_delta; rewrite A1, A2; apply Hq).
  set (al := nr_r rnd "DELTA" - (u0 * nr_r rnd "0" + u1 * nr_r rnd "1" + u2 * nr_r rnd "2" + u3 * nr_r rnd "3")).
  assert (np_alpha n1 - np_alpha n2 = c1 * al + nr_alpha_tilde rnd - (c2 * al + nr_alpha_tilde rnd)) as X3'.
  { change (np_alpha n1) with (al * c1 + nr_alpha_tilde rnd). change (np_alpha n2) with (al * c2 + nr_alpha_tilde rnd). ring. }
  assert (ext_alpha n1 n2 (c1 - c2) = al) as X3 by (unfold ext_alpha; rewrite X3'; apply Hq).
  assert (ext_u n1 n2 (c1 - c2) "0" = u0) as Y0 by exact (Hq u0 _). assert (ext_u n1 n2 (c1 - c2) "1" = u1) as Y1 by exact (Hq u1 _).
  assert (ext_u n1 n2 (c1 - c2) "2" = u2) as Y2 by exact (Hq u2 _). assert (ext_u n1 n2 (c1 - c2) "3" = u3) as Y3 by exact (Hq u3 _).
  assert (ext_r n1 n2 (c1 - c2) "0" = nr_r rnd "0") as W0 by exact (Hq _ _). assert (ext_r n1 n2 (c1 - c2) "1" = nr_r rnd "1") as W1 by exact (Hq _ _).
  assert (ext_r n1 n2 (c1 - c2) "2" = nr_r rnd "2") as W2 by exact (Hq _ _). assert (ext_r n1 n2 (c1 - c2) "3" = nr_r rnd "3") as W3 by exact (Hq _ _).
  split.
  { intros k x G. revert G. apply sm_get_nonneg.
    assert (forall u : U (pk_n pk), 0 <= uv u) as R by (intros u; pose proof (uv_range (pk_n pk) u); lia).
    unfold n1, the_neproof, np_t, t_map, iter_keys. cbn [map app]. repeat constructor; unfold snd; apply R. }
  split; [reflexivity|]. split; [reflexivity|]. split; [exact Hb|]. split.
  { split; [exact (Hdvd a mt)|]. split; [rewrite X3'; apply Hdvd|]. split; [rewrite A1, A2; apply Hdvd|].
    intros i Hi. unfold four_names in Hi. cbn [In] in Hi. destruct Hi as [<-|[<-|[<-|[<-|[]]]]]; split; apply Hdvd. }
  split; [apply VE; lia|]. split; [apply VE; lia|]. split; [exact X1|].
  change (np_predicate n1) with p.
  unfold value_gap, blinding_gap, sum4. change (np_predicate n1) with p. rewrite X1, X2, X3, Y0, Y1, Y2, Y3, W0, W1, W2, W3.
  unfold side. change (np_predicate n1) with p. rewrite Hrel, EB in Hsum. unfold rho, al. clear - Hsum.
  revert Hsum. generalize (bound p) (nr_r rnd "DELTA") (nr_r rnd "0") (nr_r rnd "1") (nr_r rnd "2") (nr_r rnd "3"). intros. 
  destruct (is_less (p_type p)); split; lia.
Qed.
Print Assumptions C152_extraction_exact.

(** the hypotheses of both theorems at a concrete key: "name" >= 18 for the value 42 *)
Definition ex_ne_pred : predicate := mkPred "name" GE 18.
Definition ex_eq_answer (c : Z) : eqproof := mkEqProof [] 0 0 0 [("name", c * 42 + 5000)] 0.
Example C152_ex : exists np1 np2 ts,
  issuer_key small_pk (mkPSK 3 5) /\ verify_ne_predicate small_pk np1 1000 = Ok ts /\ verify_ne_predicate small_pk np2 998 = Ok ts /\
  np_t np2 = np_t np1 /\ np_predicate np1 = ex_ne_pred /\ np_predicate np2 = ex_ne_pred /\ divisible_ne np1 np2 (1000 - 998) /\
  (forall k x, sm_get k (np_t np1) = Some x -> 0 <= x) /\ ext_value np1 np2 (1000 - 998) = 42 /\
  value_gap np1 np2 (1000 - 998) = 0 /\ holds GE (ext_value np1 np2 (1000 - 998)) 18.
Proof.
  set (rnd := mkNeRand (fun _ => 11) (fun _ => 12) (fun _ => 13) 14). set (vals := [("name", Known 42)] : cred_values). set (mtm := [("name", 5000)] : smap Z).
  assert (is_i32 (cv_value (Known 42))) as Ia by (unfold is_i32; cbn; lia). assert (is_i32 (p_value ex_ne_pred)) as Iv by (unfold is_i32; cbn; lia).
  assert (holds GE (cv_value (Known 42)) 18) as Hh by (cbn; lia).
  assert (true_delta GE (cv_value (Known 42)) 18 < 2 ^ 31) as Hd by (cbn; lia).
  destruct (C27_predicate_recomputed small_pk vals mtm ex_ne_pred rnd 5000 (Known 42) small_valid eq_refl Ia Iv Hh Hd eq_refl ltac:(cbn; lia) ltac:(cbn; lia)) as (ni & E0 & F).
  destruct (F 1000 (ex_eq_answer 1000) ltac:(lia) eq_refl) as (np1 & F1 & _ & P1). destruct (F 998 (ex_eq_answer 998) ltac:(lia) eq_refl) as (np2 & F2 & _ & P2).
  destruct (C152_extraction_exact small_pk vals mtm ex_ne_pred rnd 5000 (Known 42) ni 1000 998 (ex_eq_answer 1000) (ex_eq_answer 998) np1 np2 small_valid eq_refl Ia Iv Hh Hd eq_refl
    ltac:(cbn; lia) ltac:(cbn; lia) ltac:(lia) ltac:(lia) ltac:(lia) E0 eq_refl eq_refl F1 F2) as (A1 & A2 & A3 & A4 & A5 & A6 & A7 & A8 & A9 & A10).
  exists np1, np2, (ni_tau_list ni). split; [exact small_issuer|]. split; [exact A6|]. split; [exact A7|]. split; [exact A2|]. split; [exact P1|]. split; [exact P2|].
  split; [exact A5|]. split; [exact A1|]. split; [exact A8|]. split; [exact A9|]. rewrite A8. cbn. lia.
Qed.

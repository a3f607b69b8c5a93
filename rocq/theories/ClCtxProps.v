(** C89: what the issuer signs as the credential context.
    C91: [process_credential_signature]: what an accepted credential satisfies, and
    what happens to the signature object when it is called. *)
From Verif Require Import Base BnModel BnProofs BnProps UMod Fermat StrMap HelpersModel HelpersSpec ClModel ClSpec ClLib ClKey ClIssue ClSign ClMore ClProps
  Alg ClRevModel ClRevSpec CurveInst ClProofModel ClPresSpec ClPresentation ClProofProps.
From Coq Require Import Znumtheory.
Open Scope string_scope.
Open Scope list_scope.
Open Scope Z_scope.

(** ** Specification *)
(** value of a byte string read with the least significant byte first *)
Fixpoint le_value (bs : list Z) : Z := match bs with [] => 0 | b :: r => b + 256 * le_value r end.
(** two different strings with the same hash *)
Definition collide (H : list Z -> list Z) (a b : list Z) : Prop := a <> b /\ H a = H b.
(** the signed decimal number hashed for a registry index (an index is a u32; no
    registry is shown as -1) *)
Definition index_number (i : option Z) : Z := match i with None => -1 | Some x => if x <? 2 ^ 31 then x else x - 2 ^ 32 end.
(** the string whose hash is the context *)
Definition context_string (H : list Z -> list Z) (pid : list Z) (i : option Z) : list Z :=
  bn_to_bytes (le_value (H pid)) ++ bn_to_bytes (le_value (H (bn_to_dec (index_number i)))).
(** its two parts are full 32 byte strings *)
Definition full_length (H : list Z -> list Z) (pid : list Z) (i : option Z) : Prop :=
  last (H pid) 0 <> 0 /\ last (H (bn_to_dec (index_number i))) 0 <> 0.
Definition is_u32_opt (i : option Z) : Prop := match i with None => True | Some x => 0 <= x < 2 ^ 32 end.

(** ** Proofs *)
Lemma le_value_be bs : bn_from_bytes (rev bs) = le_value bs.
Proof.
  rewrite bn_from_bytes_val, val_be_rev. induction bs as [|b r IH]; [reflexivity|].
  cbn [le_value val_le fold_right]. unfold val_le in IH. rewrite IH. reflexivity.
Qed.
Lemma wrap_index i : is_u32_opt i -> match i with Some x => i32_of_u32 x | None => -1 end = index_number i.
Proof.
  destruct i as [x|]; [|reflexivity]. cbn [is_u32_opt index_number]. intros Hx. unfold i32_of_u32. apply wrap_is.
  - unfold is_i32. destruct (Z.ltb_spec x (2 ^ 31)); lia.
  - destruct (Z.ltb_spec x (2 ^ 31)); [exists 0|exists 1]; lia.
Qed.

(** ** C89 *)
Theorem C89_attribute_encoding : forall (H : list Z -> list Z) (attribute : list Z),
  encode_attribute H attribute true = le_value (H attribute) /\
  encode_attribute H attribute false = le_value (rev (H attribute)).
Proof.
  intros H a. unfold encode_attribute. split; [apply le_value_be|]. rewrite <- le_value_be, rev_involutive. reflexivity.
Qed.
Print Assumptions C89_attribute_encoding.

(** the context as a function of its inputs *)
Theorem C89_context_value : forall (H : list Z -> list Z) (prover_id : list Z) (i : option Z), is_u32_opt i ->
  gen_credential_context H prover_id i = le_value (rev (H (context_string H prover_id i))).
Proof.
  intros H pid i Hi. unfold gen_credential_context. rewrite wrap_index by assumption. unfold encode_attribute. rewrite !le_value_be.
  unfold get_hash_as_int. rewrite <- (le_value_be (rev _)), rev_involutive. unfold bn_hash_array. cbn [concat]. rewrite app_nil_r. reflexivity.
Qed.
Print Assumptions C89_context_value.

(** every issued signature carries the context of the given prover id and index *)
Theorem C89_signed_context : forall (H : list Z -> list Z) (isp : Z -> bool) prover_id bl pr nonce issuance_nonce vals pk sk v_draw e_draws r_draw sg sp,
  sign_credential H isp prover_id bl pr nonce issuance_nonce vals pk sk v_draw e_draws r_draw = Ok (sg, sp) ->
  sg_m2 sg = le_value (rev (H (context_string H prover_id None))).
Proof.
  intros H isp pid bl pr nonce inonce vals pk sk vd ed rd sg sp E. rewrite <- (C89_context_value H pid None I). unfold sign_credential in E.
  destruct (check_blinded_correctness_proof H bl pr nonce pk) as [u|e]; [|discriminate E]. cbn [rbind] in E.
  unfold new_primary_credential in E. destruct (bn_generate_prime_in_range _ _ _ _) as [e|e]; [|discriminate E]. cbn [rbind] in E.
  destruct (sign_primary_credential pk sk (gen_credential_context H pid None) vals (generate_v_prime_prime vd) bl e) as [[a q]|x]; [|discriminate E]. cbn [rbind] in E.
  destruct (new_signature_correctness_proof _ _ _ _ _ _ _) as [s|x]; [|discriminate E]. cbn [rbind] in E.
  assert (mkPSig (gen_credential_context H pid None) a e (generate_v_prime_prime vd) = sg) as <- by congruence. reflexivity.
Qed.
Print Assumptions C89_signed_context.

(** with revocation, the index is part of the context, and the non-revocation part is
    made for the same context and index *)
Theorem C89_signed_context_with_revocation : forall (C : curve) (H : list Z -> list Z) (isp : Z -> bool) prover_id bl ur pr nonce issuance_nonce vals
    (pk : cpk C) sk rsk_ rev_idx max_cred_num dflt accum gamma access v_draw e_draws r_draw vr c accum' cs sp d,
  0 <= rev_idx < 2 ^ 32 ->
  sign_credential_with_revoc C H isp prover_id bl ur pr nonce issuance_nonce vals pk sk rsk_ rev_idx max_cred_num dflt accum gamma access v_draw e_draws r_draw vr c
    = (accum', Ok (cs, sp, d)) ->
  sg_m2 (cs_p cs) = le_value (rev (H (context_string H prover_id (Some rev_idx)))) /\
  exists rc, cs_r cs = Some rc /\ rc_i rc = rev_idx /\ bignum_to_group_element C (sg_m2 (cs_p cs)) = Ok (rc_m2 rc).
Proof.
  intros C H isp pid bl ur pr nonce inonce vals pk sk rsk_ idx max dflt accum gamma access vd ed rd vr c accum' cs sp d Hi E.
  rewrite <- (C89_context_value H pid (Some idx) Hi). unfold sign_credential_with_revoc in E.
  destruct (check_blinded_correctness_proof H bl pr nonce (cp_p pk)) as [u|e]; [|discriminate E].
  set (ctx := gen_credential_context H pid (Some idx)) in *.
  unfold new_primary_credential in E. destruct (bn_generate_prime_in_range _ _ _ _) as [e|e]; [|discriminate E]. cbn [rbind] in E.
  destruct (sign_primary_credential (cp_p pk) sk ctx vals (generate_v_prime_prime vd) bl e) as [[a q]|x]; [|discriminate E]. cbn [rbind] in E.
  unfold new_non_revocation_credential in E.
  destruct ur as [ur|]; [|discriminate E]. destruct (cp_r pk) as [rk|]; [|discriminate E]. destruct rsk_ as [rs|]; [|discriminate E].
  destruct (goe_from_bytes C (bn_to_bytes ctx)) as [m2|x] eqn:Em; [|discriminate E]. cbv zeta in E.
  destruct (new_signature_correctness_proof _ _ _ _ _ _ _) as [s|x]; cycle 1.
  { destruct dflt; [discriminate E|]. destruct (access_loop _ _ _ _ _) as [y [z|z]]; discriminate E. }
  assert (exists rc, rc_i rc = idx /\ rc_m2 rc = m2 /\ cs = mkCSig (mkPSig ctx a e (generate_v_prime_prime vd)) (Some rc)) as (rc & R1 & R2 & ->).
  { destruct dflt; [|destruct (access_loop _ _ _ _ _) as [y [z|z]]; [|discriminate E]]; cbn [rbind] in E; apply (f_equal snd) in E; cbn [snd] in E;
      apply (f_equal (fun r : res (csig C * scp * option (rdelta C)) => match r with Ok (x, _, _) => x | Err _ => cs end)) in E; cbn beta iota in E; eexists; (split; [|split; [|symmetry; exact E]]); reflexivity. }
  cbn [cs_p cs_r sg_m2]. split; [reflexivity|]. exists rc. split; [reflexivity|]. split; [exact R1|]. rewrite R2. exact Em.
Qed.
Print Assumptions C89_signed_context_with_revocation.

Lemma full_bytes bs : length bs = 32%nat -> Forall (fun b => 0 <= b < 256) bs -> last bs 0 <> 0 -> bn_to_bytes (le_value bs) = rev bs.
Proof.
  intros L F N. rewrite <- le_value_be, bn_from_bytes_val. apply Forall_rev in F.
  unfold bn_to_bytes. rewrite Z.abs_eq by (apply (val_be_bound 256); [lia|exact F]).
  rewrite (digits_be_of_val 256) by (lia || exact F).
  destruct (rev bs) as [|b r] eqn:E; [apply (f_equal (@length Z)) in E; rewrite rev_length, L in E; discriminate E|].
  assert (b = last bs 0) as Eb by (rewrite <- (rev_involutive bs), E; cbn [rev]; now rewrite last_last).
  rewrite strip_zeros_cons. destruct (Z.eqb_spec b 0); [congruence|reflexivity].
Qed.
Lemma app_inj_len {A} (a b c d : list A) : length a = length c -> a ++ b = c ++ d -> a = c /\ b = d.
Proof.
  revert c. induction a as [|x a IH]; intros [|y c] L E; try discriminate L; [split; [reflexivity|exact E]|].
  injection L as L. cbn [app] in E. injection E as -> E. destruct (IH c L E) as [-> ->]. split; reflexivity.
Qed.
Lemma list_Z_dec (a b : list Z) : {a = b} + {a <> b}.
Proof. apply list_eq_dec, Z.eq_dec. Qed.

(** equal contexts: same holder and same index, or one of three explicit collisions *)
Theorem C89_context_binds : forall (H : list Z -> list Z) (pid1 pid2 : list Z) (i1 i2 : option Z),
  hash32 H -> is_u32_opt i1 -> is_u32_opt i2 -> full_length H pid1 i1 -> full_length H pid2 i2 ->
  gen_credential_context H pid1 i1 = gen_credential_context H pid2 i2 ->
  (pid1 = pid2 /\ index_number i1 = index_number i2) \/
  collide H pid1 pid2 \/ collide H (bn_to_dec (index_number i1)) (bn_to_dec (index_number i2)) \/
  collide H (context_string H pid1 i1) (context_string H pid2 i2).
Proof.
  intros H pid1 pid2 i1 i2 Hh U1 U2 [F1 F1'] [F2 F2'] E. rewrite !C89_context_value in E by assumption.
  rewrite <- !le_value_be, !rev_involutive, !bn_from_bytes_val in E.
  apply (val_be_inj 256) in E; [|lia|apply Hh|apply Hh|now rewrite !(proj1 (Hh _))].
  destruct (list_Z_dec (context_string H pid1 i1) (context_string H pid2 i2)) as [Es|Ns]; [|right; right; right; split; assumption].
  unfold context_string in Es. rewrite !full_bytes in Es by (assumption || apply Hh).
  apply app_inj_len in Es; [|now rewrite !rev_length, !(proj1 (Hh _))]. destruct Es as [Ea Eb].
  apply (f_equal (@rev Z)) in Ea, Eb. rewrite !rev_involutive in Ea, Eb.
  destruct (list_Z_dec pid1 pid2) as [->|N1]; [|right; left; split; assumption].
  destruct (list_Z_dec (bn_to_dec (index_number i1)) (bn_to_dec (index_number i2))) as [En|N2]; [|right; right; left; split; assumption].
  left. split; [reflexivity|].
  pose proof (proj1 (C06_dec_hex_roundtrip (index_number i1))) as R1. rewrite En, (proj1 (C06_dec_hex_roundtrip (index_number i2))) in R1. congruence.
Qed.
Print Assumptions C89_context_binds.

(** index numbers determine the index, except that "no registry" and the largest u32 agree *)
Theorem C89_index_number_injective : forall i1 i2, is_u32_opt i1 -> is_u32_opt i2 -> index_number i1 = index_number i2 ->
  i1 = i2 \/ (i1 = None /\ i2 = Some (2 ^ 32 - 1)) \/ (i1 = Some (2 ^ 32 - 1) /\ i2 = None).
Proof.
  intros [x|] [y|]; cbn [is_u32_opt index_number]; intros H1 H2.
  - destruct (Z.ltb_spec x (2 ^ 31)), (Z.ltb_spec y (2 ^ 31)); intros E; left; f_equal; lia.
  - destruct (Z.ltb_spec x (2 ^ 31)); intros E; [lia|]. right. right. split; [f_equal; lia|reflexivity].
  - destruct (Z.ltb_spec y (2 ^ 31)); intros E; [lia|]. right. left. split; [reflexivity|f_equal; lia].
  - auto.
Qed.
Print Assumptions C89_index_number_injective.
Theorem C89_refuted_max_index : forall (H : list Z -> list Z) (prover_id : list Z),
  gen_credential_context H prover_id (Some (2 ^ 32 - 1)) = gen_credential_context H prover_id None.
Proof. intros H pid. rewrite !C89_context_value by (cbn [is_u32_opt]; lia || exact I). reflexivity. Qed.
Print Assumptions C89_refuted_max_index.

(** *** a concrete case: a hash with full-length outputs *)
Definition exH89 (l : list Z) : list Z := repeat 1 30 ++ [fold_left Z.add l 0 mod 256; 1].
Example C89_ex : hash32 exH89 /\ full_length exH89 [97; 98] (Some 7) /\ full_length exH89 [97; 98] None /\
  index_number (Some 7) = 7 /\ bn_to_dec (index_number None) = [45; 49] /\
  gen_credential_context exH89 [97; 98] (Some 7) <> gen_credential_context exH89 [97; 98] None.
Proof.
  split; [|split; [|split; [|split; [|split]]]].
  - intros l. unfold exH89. split; [rewrite app_length, repeat_length; reflexivity|].
    apply Forall_app. split; [rewrite Forall_forall; intros x Hx; apply repeat_spec in Hx; lia|]. constructor; [|constructor; [lia|constructor]]. apply Z.mod_pos_bound. lia.
  - split; vm_compute; discriminate.
  - split; vm_compute; discriminate.
  - reflexivity.
  - reflexivity.
  - vm_compute. discriminate.
Qed.

(** ** C91 *)
Section Check.
Variable H : list Z -> list Z.
Variable isp : Z -> bool.
Variables (pk : ppk) (V : valid_pk pk).
Notation n := (pk_n pk).
Let Hn : 2 <= n := vk_n pk V.
Local Notation "a ** b" := (umul n Hn a b) (at level 40, left associativity).
Local Notation "a ^^ k" := (zpow n Hn a k) (at level 30).
Local Notation "a ^-1" := (uinv n Hn a) (at level 25).

Lemma check_loop_u : forall (l : cred_values) acc, (forall k, In k (map fst (signed_values l)) -> In k (sm_keys (pk_r pk))) ->
  rfold (fun acc '(attr, value) =>
        let! pk_r := sm_index attr (pk_r pk) in
        let! y := bn_mod_exp pk_r (cv_value value) (pk_n pk) in
        bn_mod_mul acc y (pk_n pk))
      (filter (fun kv => (is_known (snd kv) || is_hidden (snd kv)) && sm_mem (fst kv) (pk_r pk)) l) (uv acc)
  = Ok (uv (acc ** aprod pk V (signed_values l))).
Proof.
  induction l as [|[k cv] l IH]; intros acc Hk.
  - cbn [filter rfold]. do 2 f_equal. unfold aprod, signed_values. cbn [filter map fold_right]. fold Hn. umod_ring.
  - unfold signed_values in *. cbn [filter snd fst] in *. destruct (is_known cv || is_hidden cv) eqn:Ekh; cbn [andb]; [|now apply IH].
    cbn [map fst snd] in *. assert (In k (sm_keys (pk_r pk))) as Hkk by (apply Hk; now left).
    pose proof (proj2 (sm_mem_keys k (pk_r pk)) Hkk) as Em. rewrite Em. cbn [rfold].
    rewrite (uR_index pk V) by assumption. cbn [rbind].
    rewrite (mod_exp_u n Hn). cbn [rbind]. rewrite (mod_mul_u n Hn). cbn [rbind]. rewrite IH by (intros; apply Hk; now right).
    do 2 f_equal. unfold aprod. cbn [fold_right fst snd]. fold Hn. umod_ring.
Qed.

Lemma check_sound sg vals sp nonce : 0 <= sg_a sg < n -> 0 < sg_e sg ->
  check_signature_correctness_proof H isp sg vals sp pk nonce = Ok tt ->
  unit_mod n (sg_a sg) /\ cl_signature pk sg (signed_values vals) /\ isp (sg_e sg) = true /\ (forall k, In k (map fst (signed_values vals)) -> In k (sm_keys (pk_r pk))).
Proof.
  intros Ra He E. unfold check_signature_correctness_proof in E.
  destruct (isp (sg_e sg)) eqn:Ei; [|discriminate E]. cbn [negb] in E.
  destruct (existsb _ vals) eqn:Ex; [discriminate E|].
  assert (forall k, In k (map fst (signed_values vals)) -> In k (sm_keys (pk_r pk))) as Hk.
  { intros k Hk. unfold signed_values in Hk. rewrite map_map in Hk. cbn [fst] in Hk. apply in_map_iff in Hk as ([k' cv] & <- & Hin).
    apply filter_In in Hin as [Hin Hkh]. cbn [snd fst] in *. destruct (sm_mem k' (pk_r pk)) eqn:Em; [now apply sm_mem_keys|].
    rewrite <- not_true_iff_false in Ex. exfalso. apply Ex. apply existsb_exists. exists (k', cv). cbn [fst snd]. rewrite Hkh, Em. auto. }
  rewrite (uS_eq pk V), (uC_eq pk V), (pedersen_u n Hn) in E. cbn [rbind] in E.
  rewrite check_loop_u in E by exact Hk. cbn [rbind] in E. rewrite (uZ_eq pk V), (mod_div_u n Hn) in E. cbn [rbind] in E.
  set (Q := uZ pk V ** _) in E.
  rewrite bn_mod_exp_nonneg in E by lia. cbn [rbind] in E.
  destruct (Z.eqb_spec (uv Q) (sg_a sg ^ sg_e sg mod Z.abs n)) as [Eq|]; [|discriminate E].
  rewrite Z.abs_eq in Eq by lia.
  assert (Z.gcd (sg_a sg) n = 1) as G.
  { apply Zgcd_1_rel_prime. pose proof (uv_gcd n Q) as Gq. rewrite Eq in Gq. rewrite Z.gcd_mod in Gq by lia. rewrite Z.gcd_comm in Gq.
    apply Zgcd_1_rel_prime in Gq. replace (sg_e sg) with (Z.succ (sg_e sg - 1)) in Gq by lia. rewrite Z.pow_succ_r in Gq by lia.
    apply (rel_prime_div (sg_a sg * sg_a sg ^ (sg_e sg - 1))); [exact Gq|]. exists (sg_a sg ^ (sg_e sg - 1)). ring. }
  assert (unit_mod n (sg_a sg)) as U by (split; assumption).
  split; [exact U|]. split; [|split; [reflexivity|exact Hk]].
  apply (cl_signature_u pk V); [exact U|exact Hk|].
  assert (uA pk V sg ^^ sg_e sg = Q) as EA.
  { apply uv_inj. rewrite uv_zpow_nonneg by lia. rewrite <- (uA_eq pk V sg U). now symmetry. }
  fold Hn. rewrite EA. unfold Q. umod_ring.
Qed.
End Check.

(** what acceptance means: the holder's credential satisfies the signature equation *)
Theorem C91_accepted_is_signature : forall (C : curve) (H : list Z -> list Z) (isp : Z -> bool) (sg : csig C) vals sp v_prime vr_prime pk nonce z accum omega sg',
  valid_pk (cp_p pk) -> 0 <= sg_a (cs_p sg) < pk_n (cp_p pk) -> 0 < sg_e (cs_p sg) ->
  process_credential_signature C H isp sg vals sp v_prime vr_prime pk nonce z accum omega = (sg', Ok tt) ->
  unit_mod (pk_n (cp_p pk)) (sg_a (cs_p sg')) /\ cl_signature (cp_p pk) (cs_p sg') (signed_values vals) /\ isp (sg_e (cs_p sg')) = true /\
  cs_p sg' = mkPSig (sg_m2 (cs_p sg)) (sg_a (cs_p sg)) (sg_e (cs_p sg)) (v_prime + sg_v (cs_p sg)).
Proof.
  intros C H isp sg vals sp vp vrp pk nonce z accum omega sg' V Ra He E. unfold process_credential_signature in E.
  destruct (check_signature_correctness_proof _ _ _ _ _ _ _) as [[]|x] eqn:Ec; [|discriminate E].
  assert (cs_p sg' = process_primary_credential (cs_p sg) vp) as Ep.
  { destruct (cs_r sg) as [rc|], vrp as [vr|], (cp_r pk) as [rk|], z as [z|], accum as [ac|], omega as [om|];
      try (destruct (process_non_revocation_credential _ _ _ _ _ _) as [rc' r']); apply (f_equal fst) in E; cbn [fst] in E; rewrite <- E; reflexivity. }
  rewrite Ep. destruct (check_sound H isp (cp_p pk) V (process_primary_credential (cs_p sg) vp) vals sp nonce Ra He Ec) as (A & B & D & _). repeat (split; [assumption|]). reflexivity.
Qed.
Print Assumptions C91_accepted_is_signature.

(** the signature object is changed whatever the outcome *)
Theorem C91_refuted_failure_leaves_signature_unchanged : forall (C : curve) (H : list Z -> list Z) (isp : Z -> bool) (sg : csig C) vals sp v_prime vr_prime pk nonce z accum omega sg' r,
  process_credential_signature C H isp sg vals sp v_prime vr_prime pk nonce z accum omega = (sg', r) ->
  cs_p sg' = mkPSig (sg_m2 (cs_p sg)) (sg_a (cs_p sg)) (sg_e (cs_p sg)) (v_prime + sg_v (cs_p sg)).
Proof.
  intros C H isp sg vals sp vp vrp pk nonce z accum omega sg' r E. unfold process_credential_signature in E.
  change (cs_p sg' = process_primary_credential (cs_p sg) vp).
  destruct (check_signature_correctness_proof _ _ _ _ _ _ _) as [[]|x]; [|apply (f_equal fst) in E; cbn [fst] in E; rewrite <- E; reflexivity].
  destruct (cs_r sg) as [rc|], vrp as [vr|], (cp_r pk) as [rk|], z as [z|], accum as [ac|], omega as [om|];
      try (destruct (process_non_revocation_credential _ _ _ _ _ _) as [rc' r']); apply (f_equal fst) in E; cbn [fst] in E; rewrite <- E; reflexivity.
Qed.
Print Assumptions C91_refuted_failure_leaves_signature_unchanged.

Section Retry.
Variables (pk : ppk) (V : valid_pk pk).
Notation n := (pk_n pk).
Let Hn : 2 <= n := vk_n pk V.
Local Notation "a ** b" := (umul n Hn a b) (at level 40, left associativity).
Local Notation "a ^^ k" := (zpow n Hn a k) (at level 30).
Lemma two_v sg vals v1 v2 : unit_mod n (sg_a sg) -> (forall k, In k (map fst vals) -> In k (sm_keys (pk_r pk))) ->
  cl_signature pk (mkPSig (sg_m2 sg) (sg_a sg) (sg_e sg) v1) vals -> cl_signature pk (mkPSig (sg_m2 sg) (sg_a sg) (sg_e sg) v2) vals ->
  product_is_one n [(pk_s pk, v2 - v1)].
Proof.
  intros U Hk E1 E2. apply (cl_signature_u pk V) in E1; [|exact U|exact Hk]. apply (cl_signature_u pk V) in E2; [|exact U|exact Hk].
  cbn [sg_e sg_v sg_m2] in E1, E2. unfold uA in *. cbn [sg_a] in *.
  change [(pk_s pk, v2 - v1)] with (map (fun ak : Z * Z => (fst ak, snd ak)) [(pk_s pk, v2 - v1)]). rewrite (uS_eq pk V).
  change (product_is_one n (map (fun ak => (uv (fst ak), snd ak)) [(uS pk V, v2 - v1)])). apply (product_is_one_u n Hn). unfold lprod. cbn [fold_right fst snd].
  set (A := lift n (sg_a sg) _) in *. set (P := aprod pk V vals) in *. fold Hn in E1, E2 |- *.
  replace (uS pk V ^^ (v2 - v1) ** u1 n Hn) with
    (uinv n Hn (A ^^ sg_e sg ** uS pk V ^^ v1 ** uC pk V ^^ sg_m2 sg ** P) ** (A ^^ sg_e sg ** uS pk V ^^ v2 ** uC pk V ^^ sg_m2 sg ** P)) by umod_ring.
  rewrite <- E1, <- E2. umod_ring.
Qed.
End Retry.

(** calling it again on the returned object adds v' a second time: after a first
    success, a second success is possible only if S^v' = 1 modulo n *)
Theorem C91_refuted_idempotent : forall (C : curve) (H : list Z -> list Z) (isp : Z -> bool) (sg : csig C) vals sp1 sp2 v_prime vr1 vr2 pk nonce1 nonce2 z1 accum1 omega1 z2 accum2 omega2 sg1 sg2,
  valid_pk (cp_p pk) -> 0 <= sg_a (cs_p sg) < pk_n (cp_p pk) -> 0 < sg_e (cs_p sg) ->
  process_credential_signature C H isp sg vals sp1 v_prime vr1 pk nonce1 z1 accum1 omega1 = (sg1, Ok tt) ->
  process_credential_signature C H isp sg1 vals sp2 v_prime vr2 pk nonce2 z2 accum2 omega2 = (sg2, Ok tt) ->
  product_is_one (pk_n (cp_p pk)) [(pk_s (cp_p pk), v_prime)].
Proof.
  intros C H isp sg vals sp1 sp2 vp vr1 vr2 pk n1 n2 z1 a1 o1 z2 a2 o2 sg1 sg2 V Ra He E1 E2.
  destruct (C91_accepted_is_signature C H isp sg vals sp1 vp vr1 pk n1 z1 a1 o1 sg1 V Ra He E1) as (U1 & S1 & _ & Q1).
  assert (0 <= sg_a (cs_p sg1) < pk_n (cp_p pk)) as Ra1 by (rewrite Q1; exact Ra). assert (0 < sg_e (cs_p sg1)) as He1 by (rewrite Q1; exact He).
  destruct (C91_accepted_is_signature C H isp sg1 vals sp2 vp vr2 pk n2 z2 a2 o2 sg2 V Ra1 He1 E2) as (U2 & S2 & _ & Q2).
  rewrite Q1 in Q2. cbn [sg_m2 sg_a sg_e sg_v] in Q2. rewrite Q1 in S1. rewrite Q2 in S2.
  assert (forall k, In k (map fst (signed_values vals)) -> In k (sm_keys (pk_r (cp_p pk)))) as Hk.
  { unfold process_credential_signature in E1. destruct (check_signature_correctness_proof _ _ _ _ _ _ _) as [[]|x] eqn:Ec; [|discriminate E1].
    exact (proj2 (proj2 (proj2 (check_sound H isp (cp_p pk) V (process_primary_credential (cs_p sg) vp) vals sp1 n1 Ra He Ec)))). }
  rewrite Q1 in U1. cbn [sg_a] in U1.
  pose proof (two_v (cp_p pk) V (cs_p sg) (signed_values vals) (vp + sg_v (cs_p sg)) (vp + (vp + sg_v (cs_p sg))) U1 Hk S1 S2) as P.
  replace (vp + (vp + sg_v (cs_p sg)) - (vp + sg_v (cs_p sg))) with vp in P by lia. exact P.
Qed.
Print Assumptions C91_refuted_idempotent.

(** *** a concrete accepted credential *)
Example C91_ex : exists (sg : csig T257) sp sg', 0 <= sg_a (cs_p sg) < pk_n ex_pk1 /\ 0 < sg_e (cs_p sg) /\ valid_pk ex_pk1 /\
  process_credential_signature T257 exH ex_isp sg ex_vals sp 77777 None (mkCPK ex_pk1 None) 666 None None None = (sg', Ok tt).
Proof.
  destruct C25_ex_hypotheses as (S & Hk & Ee & Eg). destruct C23_ex_issuer_key as (K & _ & V). revert Hk Eg K V. generalize ex_pk1 ex_sk1. intros pk sk Hk Eg K V.
  destruct (issue_ok exH ex_isp pk sk K ex_vals S Hk [("name", Known 42)] [1;2] 77777 555 99999 (fun _ => 31) (fun _ => 37) 666 4242 [ex_e] ex_e 7 eq_refl Ee ex_e_nonneg Eg)
    as (bl & pr & sg & sp & E1 & E2 & E3 & E4 & E5 & E6 & E7 & E8 & E9).
  exists (mkCSig sg None), sp, (mkCSig (process_primary_credential sg 77777) None). cbn [cs_p]. split; [apply E7|]. split.
  - rewrite E4. unfold ex_e. assert (0 <= LARGE_E_START_VALUE) by (unfold LARGE_E_START_VALUE; apply Z.pow_nonneg; lia). lia.
  - split; [exact V|]. unfold process_credential_signature. cbn [cs_p cs_r cp_p]. rewrite E9. reflexivity.
Qed.

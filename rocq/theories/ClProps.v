(** Properties C23-C27 and C47-C49: credential definition keys, blinded issuance and
    the two building blocks of presentations. *)
From Verif Require Import Base BnModel BnProofs NumTheory UMod Fermat StrMap HelpersModel HelpersSpec HelpersProofs ClModel ClSpec ClLib ClKey ClIssue ClBlind ClSign
  ClPresent ClPred Alg ClRevModel ClRevSpec ClProofModel ClPresSpec ClPrimary ClPresentation ClVerify ClForge ClMore.
From Coq Require Import Znumtheory.
Open Scope string_scope.
Open Scope list_scope.
Open Scope Z_scope.

(** ** C23: credential definition keys and their correctness proof *)
(** for every schema, two factors whose product is at least 2, invertible draw for S
    and all other draws: the key is generated, the proof is generated, and the check
    accepts the pair (also after the key's hash map changed its iteration order) *)
Theorem C23_honest_key_accepted : forall (H : list Z -> list Z) schema non_schema p_safe q_safe s_draw xz_draw xr_draw xrctxt_draw xz_draw' xr_draw',
  schema <> [] -> 2 <= p_safe * q_safe -> Z.gcd s_draw (p_safe * q_safe) = 1 ->
  exists pk sk meta pr,
    new_credential_primary_keys schema non_schema p_safe q_safe s_draw xz_draw xr_draw xrctxt_draw = Ok (pk, sk, meta) /\
    new_key_correctness_proof H pk sk meta xz_draw' xr_draw' = Ok pr /\
    check_key_correctness_proof H pk pr = Ok tt /\
    (forall r', (forall k, sm_get k r' = sm_get k (pk_r pk)) ->
       check_key_correctness_proof H (mkPPK (pk_n pk) (pk_s pk) r' (pk_rctxt pk) (pk_z pk)) pr = Ok tt) /\
    (forall k, In k (sm_keys (pk_r pk)) <-> In k schema \/ In k non_schema).
Proof.
  intros H schema non_schema ps qs sd xzd xrd xcd xzd' xrd' Hs Hn Hg.
  destruct (keygen_ok schema non_schema ps qs sd xzd xrd xcd Hs Hn Hg) as (pk & sk & meta & E & _ & _ & _ & _ & ND & K & V & EZ & _ & _ & ER).
  destruct (kcp_complete H pk V sk meta xzd' xrd' ND EZ) as (pr & E1 & _ & E2).
  { intros k Hk. destruct (ER k Hk). eauto. }
  exists pk, sk, meta, pr. split; [exact E|]. split; [exact E1|]. split; [|split; [|exact K]].
  - apply E2. repeat split.
  - intros r' Hr. apply E2. repeat split. exact Hr.
Qed.
Print Assumptions C23_honest_key_accepted.
(** key generation needs at least one attribute *)
Theorem C23_empty_schema : forall non_schema p_safe q_safe s_draw xz_draw xr_draw xrctxt_draw,
  new_credential_primary_keys [] non_schema p_safe q_safe s_draw xz_draw xr_draw xrctxt_draw = Err InvalidStructure.
Proof. reflexivity. Qed.
(** the generated key is an issuer key: product of the two safe primes, every base a power of the quadratic residue S *)
Theorem C23_key_structure : forall schema non_schema p q s_draw xz_draw xr_draw xrctxt_draw,
  schema <> [] -> prime (2 * p + 1) -> prime (2 * q + 1) -> p <> q -> Z.gcd s_draw ((2 * p + 1) * (2 * q + 1)) = 1 ->
  0 <= xz_draw -> (forall k, 0 <= xr_draw k) -> 0 <= xrctxt_draw ->
  exists pk sk meta, new_credential_primary_keys schema non_schema (2 * p + 1) (2 * q + 1) s_draw xz_draw xr_draw xrctxt_draw = Ok (pk, sk, meta) /\
    issuer_key pk sk /\ sk_p sk = p /\ sk_q sk = q /\ valid_pk pk.
Proof.
  intros schema non_schema p q sd xzd xrd xcd Hs Pp Pq N G D1 D2 D3.
  destruct (keygen_issuer schema non_schema p q sd xzd xrd xcd Hs Pp Pq N G D1 D2 D3) as (pk & sk & meta & E & K & E1 & E2 & _).
  exists pk, sk, meta. split; [exact E|]. split; [exact K|]. split; [exact E1|]. split; [exact E2|]. exact (issuer_key_valid pk sk K).
Qed.
Print Assumptions C23_key_structure.
(** names that differ between key and proof are rejected (except master_secret, below) *)
Theorem C23_names_rejected : forall H pk pr k,
  (In k (sm_keys (pk_r pk)) /\ k <> "master_secret" /\ ~ In k (map fst (kc_xr_cap pr))) \/ (In k (map fst (kc_xr_cap pr)) /\ ~ In k (sm_keys (pk_r pk))) ->
  check_key_correctness_proof H pk pr = Err InvalidStructure.
Proof. exact kcp_names_reject. Qed.
Print Assumptions C23_names_rejected.
(** the claim that the check covers every base is false: a proof may leave out
    master_secret, and then every value of its base is accepted *)
Theorem C23_refuted_master_secret_unchecked : forall H pk pr r,
  check_key_correctness_proof H pk pr = Ok tt -> ~ In "master_secret" (map fst (kc_xr_cap pr)) ->
  check_key_correctness_proof H (mkPPK (pk_n pk) (pk_s pk) (hm_insert "master_secret" r (pk_r pk)) (pk_rctxt pk) (pk_z pk)) pr = Ok tt.
Proof. exact kcp_master_secret. Qed.
Print Assumptions C23_refuted_master_secret_unchecked.

(** ** C24: blinded secrets *)
Theorem C24_blinded_secrets_accepted : forall (H : list Z -> list Z) pk vals v_prime nonce v_dash_tilde m_tilde r_tilde,
  valid_pk pk -> ssorted (sm_keys vals) ->
  (forall k cv, In (k, cv) vals -> is_known cv = false -> In k (sm_keys (pk_r pk))) ->
  exists bl pr, generate_blinded_primary_factors pk vals v_prime = Ok bl /\
    new_blinded_correctness_proof H pk bl v_prime nonce vals v_dash_tilde m_tilde r_tilde = Ok pr /\
    check_blinded_correctness_proof H bl pr nonce pk = Ok tt /\
    bl_hidden bl = map fst (filter (fun kv => is_hidden (snd kv)) vals) /\
    (forall k, In k (sm_keys (bl_committed bl)) <-> In k (map fst (filter (fun kv => is_commitment (snd kv)) vals))).
Proof.
  intros H pk vals v_prime nonce vdt m_t r_t V Hs Hk.
  destruct (blinded_proof_accepted H pk V vals Hs Hk v_prime nonce vdt m_t r_t) as (pr & E1 & E2).
  exists (the_blinded pk V vals v_prime), pr. split; [exact (generate_blinded_u pk V vals Hs Hk v_prime)|]. split; [exact E1|]. split; [exact E2|].
  split; [reflexivity|]. intros k. cbn [the_blinded bl_committed]. unfold sm_keys. rewrite map_map. cbn [fst]. reflexivity.
Qed.
Print Assumptions C24_blinded_secrets_accepted.

(** ** C25: issuing *)
Theorem C25_issued_signature_valid : forall (H : list Z -> list Z) (isp : Z -> bool) pk sk vals ivals prover_id v_prime nonce v_dash_tilde m_tilde r_tilde
    issuance_nonce v_draw e_draws e r_draw,
  issuer_key pk sk -> ssorted (sm_keys vals) -> (forall k, In k (sm_keys vals) -> In k (sm_keys (pk_r pk))) ->
  known_values ivals = known_values vals ->
  bn_generate_prime_in_range isp LARGE_E_START_VALUE LARGE_E_END_RANGE_VALUE e_draws = Ok e -> 0 <= e -> Z.gcd e (sk_p sk * sk_q sk) = 1 ->
  exists bl pr sg sp,
    generate_blinded_primary_factors pk vals v_prime = Ok bl /\
    new_blinded_correctness_proof H pk bl v_prime nonce vals v_dash_tilde m_tilde r_tilde = Ok pr /\
    sign_credential H isp prover_id bl pr nonce issuance_nonce ivals pk sk v_draw e_draws r_draw = Ok (sg, sp) /\
    sg_e sg = e /\ sg_m2 sg = gen_credential_context H prover_id None /\
    cl_signature pk (process_primary_credential sg v_prime) (signed_values vals) /\
    (forall C (z : option (cGT C)) accum omega, process_credential_signature C H isp (mkCSig sg None) vals sp v_prime None (mkCPK pk None) issuance_nonce z accum omega
       = (mkCSig (process_primary_credential sg v_prime) None, Ok tt)).
Proof.
  intros H isp pk sk vals ivals prover_id v_prime nonce vdt m_t r_t inonce v_draw e_draws e r_draw K Hs Hk Ek Ee He Hg.
  destruct (issue_ok H isp pk sk K vals Hs Hk ivals prover_id v_prime nonce vdt m_t r_t inonce v_draw e_draws e r_draw Ek Ee He Hg)
    as (bl & pr & sg & sp & E1 & E2 & E3 & E4 & E5 & E6 & E7 & E8 & E9).
  exists bl, pr, sg, sp. repeat (split; [assumption|]). intros C z accum omega. unfold process_credential_signature.
  cbn [cs_p cs_r cp_p]. rewrite E9. reflexivity.
Qed.
Print Assumptions C25_issued_signature_valid.
(** the side condition on e holds for two primes different from e *)
Theorem C25_e_invertible : forall e p q, prime e -> prime p -> prime q -> e <> p -> e <> q -> Z.gcd e (p * q) = 1.
Proof. exact prime_gcd_pq. Qed.
(** and the issued credential can be presented if it has no commitment attributes *)
Theorem C25_issued_presentable : forall (H : list Z -> list Z) (isp : Z -> bool) pk sk vals ivals prover_id v_prime nonce v_dash_tilde m_tilde r_tilde
    issuance_nonce v_draw e_draws e r_draw schema non_schema req,
  issuer_key pk sk -> ssorted (sm_keys vals) -> (forall k, In k (sm_keys vals) -> In k (sm_keys (pk_r pk))) ->
  (forall k cv, In (k, cv) vals -> is_commitment cv = false) ->
  known_values ivals = known_values vals ->
  bn_generate_prime_in_range isp LARGE_E_START_VALUE LARGE_E_END_RANGE_VALUE e_draws = Ok e -> 0 <= e -> Z.gcd e (sk_p sk * sk_q sk) = 1 ->
  ssorted schema -> ssorted non_schema -> wf_req req -> (forall k, In k (sm_keys vals) <-> In k schema \/ In k non_schema) ->
  (forall k, In k (rq_revealed req) -> In k schema) ->
  (forall p, In p (rq_predicates req) -> In (p_attr p) schema /\ ~ In (p_attr p) (rq_revealed req) /\ predicate_satisfied vals p) ->
  forall bl pr sg sp,
    generate_blinded_primary_factors pk vals v_prime = Ok bl ->
    new_blinded_correctness_proof H pk bl v_prime nonce vals v_dash_tilde m_tilde r_tilde = Ok pr ->
    sign_credential H isp prover_id bl pr nonce issuance_nonce ivals pk sk v_draw e_draws r_draw = Ok (sg, sp) ->
    presentable pk (process_primary_credential sg v_prime) vals schema non_schema req.
Proof.
  intros H isp pk sk vals ivals prover_id v_prime nonce vdt m_t r_t inonce v_draw e_draws e r_draw schema non_schema req K Hs Hk Hc Ek Ee He Hg S1 S2 [S3 S4] Ha Hr Hp
    bl pr sg sp B1 B2 B3.
  destruct (issue_ok H isp pk sk K vals Hs Hk ivals prover_id v_prime nonce vdt m_t r_t inonce v_draw e_draws e r_draw Ek Ee He Hg)
    as (bl' & pr' & sg' & sp' & E1 & E2 & E3 & E4 & E5 & E6 & E7 & E8 & E9).
  rewrite B1 in E1. assert (bl' = bl) as -> by congruence. rewrite B2 in E2. assert (pr' = pr) as -> by congruence. rewrite B3 in E3.
  assert (sg' = sg) as -> by congruence. clear E1 E2 E3.
  constructor; auto. rewrite <- (signed_all vals Hc). exact E8.
Qed.
Print Assumptions C25_issued_presentable.

(** ** C26: equality proofs *)
(** the verifier recomputes the prover's commitment exactly when the signature equation,
    raised to the challenge, holds; in particular always for a valid signature *)
Theorem C26_equality_recomputed : forall pk sg vals schema non_schema req common m2_t rnd c,
  valid_pk pk -> ssorted schema -> ssorted non_schema -> ssorted (rq_revealed req) -> ssorted (sm_keys vals) ->
  (forall k, In k (sm_keys vals) <-> In k schema \/ In k non_schema) -> (forall k, In k (rq_revealed req) -> In k (sm_keys vals)) ->
  (forall k, In k (sm_keys vals) -> In k (sm_keys (pk_r pk))) -> unit_mod (pk_n pk) (sg_a sg) ->
  exists ei ep t, init_eq_proof common pk sg schema non_schema req m2_t rnd = Ok ei /\
    finalize_eq_proof ei c schema non_schema vals req = Ok ep /\ verify_equality pk ep c schema non_schema req = Ok [t] /\
    (t = ei_t ei <-> cl_equation_power c pk sg (attribute_values vals)).
Proof.
  intros pk sg vals schema non_schema req common m2_t rnd c V S1 S2 S3 S4 Ha Hr Hp HA.
  exact (eq_recomputes_iff pk V sg vals schema non_schema req S1 S2 S3 S4 Ha Hr Hp HA common m2_t rnd c).
Qed.
Print Assumptions C26_equality_recomputed.
Theorem C26_valid_signature : forall pk sg vals schema non_schema req common m2_t rnd c,
  valid_pk pk -> presentable pk sg vals schema non_schema req ->
  exists ei ep, init_eq_proof common pk sg schema non_schema req m2_t rnd = Ok ei /\
    finalize_eq_proof ei c schema non_schema vals req = Ok ep /\ verify_equality pk ep c schema non_schema req = Ok [ei_t ei] /\
    ep_revealed ep = map (fun k => (k, value_of vals k)) (rq_revealed req) /\ ep_a_prime ep = ei_a_prime ei.
Proof.
  intros pk sg vals schema non_schema req common m2_t rnd c V P.
  assert (forall k, In k (rq_revealed req) -> In k (sm_keys vals)) as Hr by (intros k Hk; apply (pr_attrs P); left; now apply (pr_revealed P)).
  do 2 eexists. split; [exact (init_eq_u pk V sg vals schema non_schema req (pr_attrs P) (pr_bases P) (pr_unit P) common m2_t rnd)|].
  split; [exact (finalize_eq_u pk V sg vals schema non_schema req (pr_non_schema P) (pr_revealed_sorted P) (pr_attrs P) Hr common m2_t rnd c)|].
  split; [|split; reflexivity].
  exact (verify_eq_u pk V sg vals schema non_schema req (pr_schema P) (pr_non_schema P) (pr_revealed_sorted P) (pr_vals P) (pr_attrs P) Hr (pr_bases P) (pr_unit P) (pr_sig P) common m2_t rnd c).
Qed.
Print Assumptions C26_valid_signature.

(** ** C27: predicate proofs *)
Theorem C27_predicate_recomputed : forall pk vals mtm p rnd mt cv, valid_pk pk ->
  sm_get (p_attr p) vals = Some cv -> is_i32 (cv_value cv) -> is_i32 (p_value p) -> holds (p_type p) (cv_value cv) (p_value p) ->
  true_delta (p_type p) (cv_value cv) (p_value p) < 2 ^ 31 -> sm_get (p_attr p) mtm = Some mt ->
  0 <= nr_r rnd "DELTA" -> 0 <= nr_r_tilde rnd "DELTA" ->
  exists ni, init_ne_proof pk mtm vals p rnd = Ok ni /\
    forall c eq, 0 <= c -> sm_get (p_attr p) (ep_m eq) = Some (c * cv_value cv + mt) ->
    exists np, finalize_ne_proof c ni eq = Ok np /\ verify_ne_predicate pk np c = Ok (ni_tau_list ni) /\ np_predicate np = p.
Proof.
  intros pk vals mtm p rnd mt cv V E1 I1 I2 Hh Hd E2 R1 R2.
  destruct (ne_complete pk V vals mtm p rnd mt cv E1 I1 I2 Hh Hd E2 R1 R2) as (ni & A & _ & B). eauto.
Qed.
Print Assumptions C27_predicate_recomputed.
(** the prover refuses to prove a false predicate when the difference fits an i32 *)
Theorem C27_false_refused : forall pk mtm vals p rnd cv, sm_get (p_attr p) vals = Some cv ->
  is_i32 (true_delta (p_type p) (cv_value cv) (p_value p)) -> is_i32 (cv_value cv) -> ~ holds (p_type p) (cv_value cv) (p_value p) ->
  init_ne_proof pk mtm vals p rnd = Err InvalidStructure.
Proof. exact ne_refuses. Qed.
Print Assumptions C27_false_refused.

(** ** C48: commitment attributes *)
(** a signature made on a credential with committed attributes does not cover them: the
    honest equality proof is recomputed only if the product of the committed bases to
    the power c * value is one *)
Theorem C48_refuted_committed_attribute_presentable : forall pk sg vals schema non_schema req common m2_t rnd c,
  valid_pk pk -> ssorted schema -> ssorted non_schema -> ssorted (rq_revealed req) -> ssorted (sm_keys vals) ->
  (forall k, In k (sm_keys vals) <-> In k schema \/ In k non_schema) -> (forall k, In k (rq_revealed req) -> In k (sm_keys vals)) ->
  (forall k, In k (sm_keys vals) -> In k (sm_keys (pk_r pk))) -> unit_mod (pk_n pk) (sg_a sg) ->
  cl_signature pk sg (signed_values vals) ->
  ~ product_is_one (pk_n pk) (map (fun kv => (base_of pk (fst kv), c * cv_value (snd kv))) (filter (fun kv => is_commitment (snd kv)) vals)) ->
  exists ei ep t, init_eq_proof common pk sg schema non_schema req m2_t rnd = Ok ei /\
    finalize_eq_proof ei c schema non_schema vals req = Ok ep /\ verify_equality pk ep c schema non_schema req = Ok [t] /\ t <> ei_t ei.
Proof.
  intros pk sg vals schema non_schema req common m2_t rnd c V S1 S2 S3 S4 Ha Hr Hp HA Hsig N.
  destruct (eq_recomputes_iff pk V sg vals schema non_schema req S1 S2 S3 S4 Ha Hr Hp HA common m2_t rnd c) as (ei & ep & t & E1 & E2 & E3 & E4).
  exists ei, ep, t. repeat (split; [assumption|]). rewrite E4, (committed_equation pk V sg vals Hp HA c Hsig).
  intros Q. apply N. unfold committed_values, committed_of in Q. rewrite map_map in Q. exact Q.
Qed.
Print Assumptions C48_refuted_committed_attribute_presentable.

(** ** concrete cases: n = 7 * 11, p = 3, q = 5 *)
Definition exH (l : list Z) : list Z := repeat 0 31 ++ [fold_left Z.add l 0 mod 256].
Definition ex_keys := new_credential_primary_keys ["name"] ["master_secret"] 7 11 2 4 (fun k => if String.eqb k "name" then 5 else 9) 3.
Definition ex_pk1 : ppk := match ex_keys with Ok (pk, _, _) => pk | Err _ => mkPPK 0 0 [] 0 0 end.
Definition ex_sk1 : psk := match ex_keys with Ok (_, sk, _) => sk | Err _ => mkPSK 0 0 end.
Example C23_ex_issuer_key : issuer_key ex_pk1 ex_sk1 /\ pk_n ex_pk1 = 77 /\ valid_pk ex_pk1.
Proof.
  destruct (C23_key_structure ["name"] ["master_secret"] 3 5 2 4 (fun k => if String.eqb k "name" then 5 else 9) 3) as (pk & sk & meta & E & K & E1 & E2 & V).
  - discriminate.
  - exact prime_7.
  - apply isprimeb_prime. reflexivity.
  - lia.
  - reflexivity.
  - lia.
  - intros k. destruct (String.eqb k "name"); lia.
  - lia.
  - unfold ex_pk1, ex_sk1, ex_keys. change (2 * 3 + 1) with 7 in E. change (2 * 5 + 1) with 11 in E. rewrite E. split; [exact K|]. split; [|exact V]. rewrite (ik_n _ _ K), E1, E2. reflexivity.
Qed.
Example C23_ex_master_secret : exists pr, check_key_correctness_proof exH (mkPPK 77 4 [("name", 16)] 16 16) pr = Ok tt /\ map fst (kc_xr_cap pr) = ["name"].
Proof.
  exists (match new_key_correctness_proof exH (mkPPK 77 4 [("name", 16)] 16 16) (mkPSK 3 5) (mkPMeta 2 [("name", 2)]) 5 (fun _ => 6) with Ok pr => pr | Err _ => mkKCP 0 0 [] end).
  split; vm_compute; reflexivity.
Qed.
Definition ex_vals : cred_values := [("master_secret", Hidden 12345); ("name", Known 42)].
Definition ex_e : Z := LARGE_E_START_VALUE + 1.
Definition ex_isp (x : Z) : bool := x =? ex_e.
Example C25_ex_hypotheses : ssorted (sm_keys ex_vals) /\ (forall k, In k (sm_keys ex_vals) -> In k (sm_keys (pk_r ex_pk1))) /\
  bn_generate_prime_in_range ex_isp LARGE_E_START_VALUE LARGE_E_END_RANGE_VALUE [ex_e] = Ok ex_e /\ Z.gcd ex_e (sk_p ex_sk1 * sk_q ex_sk1) = 1.
Proof.
  split; [|split; [|split]].
  - repeat constructor; intros x Hx; cbn in Hx; (destruct Hx as [<-|[]] || destruct Hx); reflexivity.
  - intros k [<-|[<-|[]]]; vm_compute; tauto.
  - vm_compute. reflexivity.
  - vm_compute. reflexivity.
Qed.
Lemma ex_e_nonneg : 0 <= ex_e. Proof. unfold ex_e. assert (0 <= LARGE_E_START_VALUE) by (unfold LARGE_E_START_VALUE; apply Z.pow_nonneg; lia). lia. Qed.
Example C25_ex_issued : exists bl pr sg sp, generate_blinded_primary_factors ex_pk1 ex_vals 77777 = Ok bl /\
  new_blinded_correctness_proof exH ex_pk1 bl 77777 555 ex_vals 99999 (fun _ => 31) (fun _ => 37) = Ok pr /\
  sign_credential exH ex_isp [1;2] bl pr 555 666 [("name", Known 42)] ex_pk1 ex_sk1 4242 [ex_e] 7 = Ok (sg, sp) /\ sg_e sg = ex_e.
Proof.
  destruct C25_ex_hypotheses as (S & Hk & Ee & Eg). destruct C23_ex_issuer_key as (K & _ & V). revert Hk Eg K. generalize ex_pk1 ex_sk1. intros pk sk Hk Eg K.
  destruct (C25_issued_signature_valid exH ex_isp pk sk ex_vals [("name", Known 42)] [1;2] 77777 555 99999 (fun _ => 31) (fun _ => 37) 666 4242 [ex_e] ex_e 7 K S Hk eq_refl Ee ex_e_nonneg Eg)
    as (bl & pr & sg & sp & E1 & E2 & E3 & E4 & _).
  exists bl, pr, sg, sp. repeat (split; [assumption|]). assumption.
Qed.
Definition ex_req : subreq := mkSubReq [] [mkPred "name" GE 18].
Example C27_ex : predicate_satisfied ex_vals (mkPred "name" GE 18).
Proof. exists (Known 42). unfold is_i32. cbn. repeat split; lia. Qed.

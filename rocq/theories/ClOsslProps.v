(** The CL protocol compiled against the OpenSSL backend (feature cl_native) and
    against the pure Rust backend (feature cl): same results, and where they differ
    (C146, C147). *)
From Coq Require Import String Znumtheory.
From Verif Require Import Base BnModel BnProofs BnOsslModel BnOsslLib BnOsslProps HelpersModel StrMap ClModel ClSpec ClLib Alg ClRevModel ClRevSpec ClProofModel ClPresSpec CurveInst
  ClOsslModel ClOsslLib ClOsslCl ClOsslSpec ClOsslPres ClProps ClProofProps.
Local Open Scope string_scope.
Local Open Scope list_scope.
Local Open Scope Z_scope.

(** ** C146 *)
Theorem C146_verify_same : forall inv H (C : curve) v pf nonce, mod_inverse_ok inv ->
  (forall vc, In vc (vf_creds v) -> valid_pk (cp_p (vc_pk vc))) -> nonneg_proof C pf -> pf_c_hash pf <> 0 -> nonce <> 0 ->
  o_verify inv H C v pf nonce = verify C H v pf nonce.
Proof. intros inv H C v pf nonce Hinv. now apply o_verify_eq. Qed.
Print Assumptions C146_verify_same.

Theorem C146_prove_same : forall inv H (C : curve) b items nonce, mod_inverse_ok inv -> nonce <> 0 ->
  (forall it, In it items -> valid_pk (cp_p (it_pk it)) /\ unit_mod (pk_n (cp_p (it_pk it))) (sg_a (cs_p (it_sig it)))) ->
  o_build_all inv C b items = build_all C b items /\
  forall b', o_builder_finalize H C b' nonce = builder_finalize C H b' nonce.
Proof.
  intros inv H C b items nonce Hinv Hn Hi. split; [|intros b'; now apply o_builder_finalize_eq].
  apply o_build_all_eq; [exact Hinv|]. intros it Hit. destruct (Hi it Hit). split; [assumption|now apply unit_ui].
Qed.
Print Assumptions C146_prove_same.

Theorem C146_interoperate : forall inv (C : curve) (H : list Z -> list Z) (commons : list (string * Z)) (items : list (item C)) (nonce : Z),
  mod_inverse_ok inv -> curve_laws C -> hash32 H -> (forall it, In it items -> item_ok C it) -> common_ok C (map fst commons) items -> nonce <> 0 ->
  exists b v pf v',
    build_all C (common_builder C commons) items = (b, Ok tt) /\ o_build_all inv C (common_builder C commons) items = (b, Ok tt) /\
    builder_finalize C H b nonce = Ok pf /\ o_builder_finalize H C b nonce = Ok pf /\
    expect_all C (common_verifier C (map fst commons)) items = (v, Ok tt) /\
    verify C H v pf nonce = (v', Ok true) /\ (pf_c_hash pf <> 0 -> o_verify inv H C v pf nonce = (v', Ok true)).
Proof.
  intros inv C H commons items nonce Hinv LW Hh Hi Hc Hn.
  destruct (C28_presentation_accepted C H commons items nonce LW Hh Hi Hc) as (b & v & pf & v' & E1 & E2 & E3 & E4 & _).
  assert (Hi' : forall it, In it items -> valid_pk (cp_p (it_pk it)) /\ ui (pk_n (cp_p (it_pk it))) (sg_a (cs_p (it_sig it)))).
  { intros it Hit. pose proof (Hi it Hit) as K. split; [apply (io_pk _ _ _ K)|]. apply unit_ui. exact (pr_unit (io_present _ _ _ K)). }
  destruct (o_build_all_eq inv Hinv C items Hi' (common_builder C commons)) as [Eo F].
  exists b, v, pf, v'. rewrite Eo, (o_builder_finalize_eq H C b nonce Hn). repeat (split; [assumption|]).
  intros Hch. rewrite o_verify_eq; auto.
  - apply (expect_all_pks C items (common_verifier C (map fst commons)) v); [intros it Hit; apply (Hi' it Hit)| |exact E3].
    rewrite common_verifier_creds. intros vc [].
  - apply (finalize_nonneg H C b nonce pf); [|exact E2]. rewrite E1 in F. apply F. rewrite common_builder_init. constructor.
Qed.
Print Assumptions C146_interoperate.

(** issuing: every function of the issuer and the prover *)
Theorem C146_keys_same : forall inv H schema non_schema p_safe q_safe s_draw xz_draw xr_draw xrctxt_draw, mod_inverse_ok inv ->
  2 <= p_safe -> 2 <= q_safe ->
  o_new_credential_primary_keys inv schema non_schema p_safe q_safe s_draw xz_draw xr_draw xrctxt_draw =
    new_credential_primary_keys schema non_schema p_safe q_safe s_draw xz_draw xr_draw xrctxt_draw /\
  (forall pk sk meta xzd xrd, valid_pk pk -> NoDup (sm_keys (pk_r pk)) ->
     o_new_key_correctness_proof inv H pk sk meta xzd xrd = new_key_correctness_proof H pk sk meta xzd xrd) /\
  (forall pk pr, valid_pk pk -> o_check_key_correctness_proof inv H pk pr = check_key_correctness_proof H pk pr).
Proof.
  intros inv H schema non_schema p q sd xzd xrd xcd Hinv Hp Hq. split; [|split].
  - unfold o_new_credential_primary_keys, new_credential_primary_keys. destruct schema as [|a schema]; [reflexivity|]. cbv zeta.
    rewrite !ob_rshift1_eq by lia. change (ob_mul p q) with (bn_mul p q). unfold bn_mul.
    assert (Hn : 2 <= p * q) by nia.
    refine (proj1 (agree_bind (fun s => 0 <= s) (fun _ => True) _ _ _ _ _ _)).
    + unfold ob_random_qr, bn_random_qr, ob_rand_range. destruct (Z.leb_spec (p * q) 0); [lia|]. cbn [rbind]. unfold ob_modulus. rewrite bn_nnmod_eq.
      split; [reflexivity|]. intros x E. rewrite bn_modulus_pos in E by lia. injection E as <-. apply Z.mod_pos_bound. lia.
    + intros s Hs. cbv beta in Hs. change (o_gen_x (bn_rshift1 p) (bn_rshift1 q)) with (gen_x (bn_rshift1 p) (bn_rshift1 q)).
      eapply agree_bind; [apply (agree_rfold (fun _ => True)); [exact I|]|].
      * intros m [k x] _ _. eapply agree_bind; [apply (A_expN inv Hinv _ Hn _ _ Hs)|]. intros y _. now apply agree_ok.
      * intros r _. eapply agree_bind; [apply (A_expN inv Hinv _ Hn _ _ Hs)|]. intros z _.
        eapply agree_bind; [apply (A_expN inv Hinv _ Hn _ _ Hs)|]. intros c _. now apply agree_ok.
  - intros pk sk meta xzd' xrd' Hpk ND. apply (agree_new_kcp inv Hinv H pk Hpk sk meta xzd' xrd' ND).
  - intros pk pr Hpk. apply (agree_check_key inv Hinv H (fun _ => true) pk Hpk pr).
Qed.
Print Assumptions C146_keys_same.

Theorem C146_request_same : forall inv H pk vals v_prime, mod_inverse_ok inv -> valid_pk pk ->
  o_generate_blinded_primary_factors inv pk vals v_prime = generate_blinded_primary_factors pk vals v_prime /\
  (forall bl nonce vdt m_t r_t, generate_blinded_primary_factors pk vals v_prime = Ok bl -> nonce <> 0 ->
     o_new_blinded_correctness_proof inv H pk bl v_prime nonce vals vdt m_t r_t = new_blinded_correctness_proof H pk bl v_prime nonce vals vdt m_t r_t).
Proof.
  intros inv H pk vals v_prime Hinv Hpk. destruct (agree_blind inv Hinv pk Hpk vals v_prime) as [E P]. split; [exact E|].
  intros bl nonce vdt m_t r_t Eb Hn. destruct (P bl Eb) as [U Cm].
  apply (agree_blind_proof inv Hinv H pk Hpk bl v_prime nonce vals vdt m_t r_t); auto.
  - exact (ui_nonzero _ _ (vk_n _ Hpk) U).
  - intros k v Hin. exact (ui_nonzero _ _ (vk_n _ Hpk) (Cm k v Hin)).
Qed.
Print Assumptions C146_request_same.

Theorem C146_issue_same : forall inv H isp pk sk bl pr nonce inonce vals prover_id v_draw e od rd r_draw,
  mod_inverse_ok inv -> valid_pk pk -> 2 <= sk_p sk * sk_q sk ->
  0 <= bl_u bl -> (forall k v, In (k, v) (bl_committed bl) -> 0 <= v) -> nonce <> 0 -> inonce <> 0 -> 0 <= v_draw -> 0 <= e ->
  encode_attribute H prover_id true <> 0 -> encode_attribute H (bn_to_dec (-1)) true <> 0 ->
  ob_generate_prime_in_range isp LARGE_E_START_VALUE LARGE_E_END_RANGE_VALUE od = Ok e ->
  bn_generate_prime_in_range isp LARGE_E_START_VALUE LARGE_E_END_RANGE_VALUE rd = Ok e ->
  o_sign_credential inv H isp prover_id bl pr nonce inonce vals pk sk v_draw od r_draw =
    sign_credential H isp prover_id bl pr nonce inonce vals pk sk v_draw rd r_draw.
Proof.
  intros inv H isp pk sk bl pr nonce inonce vals pid vd e od rd r Hinv Hpk Hpq Hu Hcm Hn Hin Hvd He Hc1 Hc2 Eo Er.
  unfold o_sign_credential, sign_credential. cbv zeta.
  refine (proj1 (agree_bind (fun _ => True) (fun _ => True) _ _ _ _ (agree_check_blind inv Hinv H pk Hpk bl pr nonce Hu Hn Hcm) _)).
  intros _ _.
  assert (Ctx : o_gen_credential_context H pid None = gen_credential_context H pid None).
  { unfold o_gen_credential_context, gen_credential_context. cbv zeta.
    change (o_encode_attribute H) with (encode_attribute H). rewrite (ob_to_bytes_eq _ Hc1), (ob_to_bytes_eq _ Hc2). apply o_hash_eq. }
  rewrite Ctx. generalize (gen_credential_context H pid None) as ctx. intros ctx.
  unfold o_new_primary_credential, new_primary_credential. cbv zeta.
  unfold o_generate_v_prime_prime, generate_v_prime_prime.
  rewrite (o_bitwise_or_eq vd LARGE_VPRIME_PRIME_VALUE Hvd); [|unfold LARGE_VPRIME_PRIME_VALUE; apply Z.pow_nonneg; lia].
  cbn [rbind]. rewrite Eo, Er. cbn [rbind].
  destruct (agree_sign_primary inv Hinv pk Hpk sk ctx vals (bitwise_or_big_int vd LARGE_VPRIME_PRIME_VALUE) bl e Hu He Hpq) as [Es Ps].
  rewrite Es. destruct (sign_primary_credential _ _ _ _ _ _ _) as [[a q]|er] eqn:Eq; cbn [rbind]; [|apply agree_err].
  destruct (Ps (a, q) eq_refl) as [Ua Uq]. cbn [fst snd] in Ua, Uq.
  eapply agree_bind; [apply (agree_new_scp inv Hinv H pk Hpk sk (mkPSig ctx a e (bitwise_or_big_int vd LARGE_VPRIME_PRIME_VALUE)) q inonce r); auto|].
  intros sp _. now apply agree_ok.
Qed.
Print Assumptions C146_issue_same.

Theorem C146_process_same : forall inv H isp pk sg vals sp nonce v_prime, mod_inverse_ok inv -> valid_pk pk ->
  0 <= sg_a sg -> nonce <> 0 -> isp 0 = false ->
  o_process_primary_credential sg v_prime = process_primary_credential sg v_prime /\
  o_check_signature_correctness_proof inv H isp sg vals sp pk nonce = check_signature_correctness_proof H isp sg vals sp pk nonce.
Proof.
  intros inv H isp pk sg vals sp nonce v_prime Hinv Hpk Ha Hn H0. split; [reflexivity|].
  now apply (agree_check_scp inv Hinv H isp pk Hpk sg vals sp nonce).
Qed.
Print Assumptions C146_process_same.

(** the curve part sees a number as the scalar made of its bytes: the same scalar *)
Theorem C146_scalars_agree : forall (C : curve) x, goe_from_bytes C (ob_to_bytes x) = goe_from_bytes C (bn_to_bytes x).
Proof.
  intros C x. destruct (Z.eq_dec x 0) as [->|Hx]; [|now rewrite (ob_to_bytes_eq x Hx)]. reflexivity.
Qed.
Print Assumptions C146_scalars_agree.

(** a two-credential presentation accepted by either build, whichever made it *)
Definition ex_hash146 (l : list Z) : list Z := repeat 1 31 ++ [fold_left Z.add l 0 mod 256].
Lemma ex_hash146_ok : hash32 ex_hash146.
Proof.
  intros l. unfold ex_hash146. split; [rewrite app_length, repeat_length; reflexivity|].
  apply Forall_app. split; [rewrite Forall_forall; intros x Hx; apply repeat_spec in Hx; lia|]. constructor; [|constructor]. apply Z.mod_pos_bound. lia.
Qed.
Lemma ex_hash146_nonzero l : bn_from_bytes (ex_hash146 l) <> 0.
Proof.
  unfold ex_hash146, bn_from_bytes. rewrite fold_left_app. cbn [fold_left]. pose proof (Z.mod_pos_bound (fold_left Z.add l 0) 256 ltac:(lia)).
  assert (P : 0 < fold_left (fun acc b => acc * 256 + b) (repeat 1 31) 0) by reflexivity. lia.
Qed.
Example C146_ex : exists sg pf v v', nonneg_proof T257 pf /\ length (pf_proofs pf) = 2%nat /\ pf_c_hash pf <> 0 /\
  expect_all T257 (common_verifier T257 ["master_secret"]) [ex_item sg (mkSubReq ["name"] []); ex_item sg ex_req] = (v, Ok tt) /\
  verify T257 ex_hash146 v pf 4711 = (v', Ok true) /\ o_verify euclid_inv ex_hash146 T257 v pf 4711 = (v', Ok true).
Proof.
  destruct C28_ex_items as (sg & A & B).
  destruct (C146_interoperate euclid_inv T257 ex_hash146 [("master_secret", 5555)] _ 4711 euclid_inv_ok T257_laws ex_hash146_ok A B) as (b & v & pf & v' & E1 & E2 & E3 & E4 & E5 & E6 & E7); [lia|].
  assert (N : pf_c_hash pf <> 0).
  { unfold builder_finalize in E3. cbv zeta in E3. apply rbind_ok in E3 as (ps & _ & E3). injection E3 as <-. apply ex_hash146_nonzero. }
  exists sg, pf, v, v'. split; [|split].
  - destruct (o_build_all_eq euclid_inv euclid_inv_ok T257 _ (fun it Hit => conj (io_pk _ _ _ (A it Hit)) (unit_ui _ _ (pr_unit (io_present _ _ _ (A it Hit))))) (common_builder T257 [("master_secret", 5555)])) as [_ F].
    rewrite E1 in F. cbn [fst] in F. apply (finalize_nonneg ex_hash146 T257 b 4711 pf); [apply F; constructor|exact E3].
  - destruct (C28_presentation_accepted T257 ex_hash146 [("master_secret", 5555)] _ 4711 T257_laws ex_hash146_ok A B) as (b2 & v2 & pf2 & v2' & G1 & G2 & _ & _ & F).
    rewrite E1 in G1. injection G1 as <-. rewrite E3 in G2. injection G2 as <-.
    clear - F. inversion F as [|? ? ? ? _ F1]; subst. inversion F1 as [|? ? ? ? _ F2]; subst. inversion F2. reflexivity.
  - auto.
Qed.

(** the hypotheses of the issuing theorem hold of a small key *)
Example C146_ex_issue : valid_pk ex_pk1 /\ 2 <= sk_p ex_sk1 * sk_q ex_sk1 /\
  ob_generate_prime_in_range ex_isp LARGE_E_START_VALUE LARGE_E_END_RANGE_VALUE [1] = Ok ex_e /\
  bn_generate_prime_in_range ex_isp LARGE_E_START_VALUE LARGE_E_END_RANGE_VALUE [ex_e] = Ok ex_e /\
  encode_attribute ex_hash146 [1; 2] true <> 0 /\ encode_attribute ex_hash146 (bn_to_dec (-1)) true <> 0 /\ ex_isp 0 = false /\
  exists bl, generate_blinded_primary_factors ex_pk1 ex_vals 77777 = Ok bl /\ 0 <= bl_u bl /\ bl_committed bl = [].
Proof.
  split; [exact (proj2 (proj2 C23_ex_issuer_key))|]. split; [vm_compute; discriminate|]. split; [vm_compute; reflexivity|]. split; [vm_compute; reflexivity|].
  split; [vm_compute; discriminate|]. split; [vm_compute; discriminate|]. split; [vm_compute; reflexivity|].
  exists (match generate_blinded_primary_factors ex_pk1 ex_vals 77777 with Ok bl => bl | Err _ => mkBlinded 0 [] [] end).
  split; [vm_compute; reflexivity|]. split; [vm_compute; discriminate|vm_compute; reflexivity].
Qed.

(** ** C147: where the builds part *)
(** nonce zero: every presentation made by the Rust build is judged by the OpenSSL build
    on a hash without the nonce byte *)
Theorem C147_refuted_zero_nonce : forall inv (C : curve) (H : list Z -> list Z) (commons : list (string * Z)) (items : list (item C)),
  mod_inverse_ok inv -> curve_laws C -> hash32 H -> (forall it, In it items -> item_ok C it) -> common_ok C (map fst commons) items ->
  (forall l, bn_from_bytes (H l) <> 0 /\ bn_from_bytes (H (l ++ [0])) <> bn_from_bytes (H l)) ->
  exists b v pf v',
    build_all C (common_builder C commons) items = (b, Ok tt) /\ o_build_all inv C (common_builder C commons) items = (b, Ok tt) /\
    builder_finalize C H b 0 = Ok pf /\ expect_all C (common_verifier C (map fst commons)) items = (v, Ok tt) /\
    verify C H v pf 0 = (v', Ok true) /\ o_verify inv H C v pf 0 = (v', Ok false) /\ o_builder_finalize H C b 0 <> Ok pf.
Proof.
  intros inv C H commons items Hinv LW Hh Hi Hc HH.
  destruct (C28_presentation_accepted C H commons items 0 LW Hh Hi Hc) as (b & v & pf & v' & E1 & E2 & E3 & E4 & _).
  assert (Hi' : forall it, In it items -> valid_pk (cp_p (it_pk it)) /\ ui (pk_n (cp_p (it_pk it))) (sg_a (cs_p (it_sig it)))).
  { intros it Hit. pose proof (Hi it Hit) as K. split; [apply (io_pk _ _ _ K)|]. apply unit_ui. exact (pr_unit (io_present _ _ _ K)). }
  destruct (o_build_all_eq inv Hinv C items Hi' (common_builder C commons)) as [Eo F].
  assert (NN : nonneg_proof C pf).
  { apply (finalize_nonneg H C b 0 pf); [|exact E2]. rewrite E1 in F. apply F. rewrite common_builder_init. constructor. }
  assert (Ch : pf_c_hash pf = bn_from_bytes (H (concat (pb_tau_list b ++ pb_c_list b) ++ [0]))).
  { unfold builder_finalize in E2. cbv zeta in E2. apply rbind_ok in E2 as (ps & _ & E2). injection E2 as <-. cbn [pf_c_hash].
    unfold get_hash_as_int, bn_hash_array. do 2 f_equal. rewrite app_assoc, (concat_app _ [bn_to_bytes 0]). reflexivity. }
  assert (N0 : pf_c_hash pf <> 0) by (rewrite Ch; apply HH).
  destruct (o_verify_zero inv Hinv H C v pf v') as (l & El & Ev); [|exact NN|exact N0|exact E4|].
  { apply (expect_all_pks C items (common_verifier C (map fst commons)) v); [intros it Hit; apply (Hi' it Hit)| |exact E3].
    rewrite common_verifier_creds. intros vc []. }
  exists b, v, pf, v'. rewrite Eo. repeat (split; [assumption|]). split.
  - rewrite Ev. do 2 f_equal. apply Z.eqb_neq. rewrite El. intros X. destruct (HH l) as [_ X2]. exact (X2 (eq_sym X)).
  - intros X. unfold o_builder_finalize in X. cbv zeta in X. apply rbind_ok in X as (ps & _ & X).
    assert (Y : pf_c_hash pf = bn_from_bytes (H (concat (pb_tau_list b ++ pb_c_list b)))).
    { injection X as <-. cbn [pf_c_hash]. unfold o_get_hash_as_int, ob_hash_array. rewrite app_assoc, (concat_app _ [ob_to_bytes 0]).
      cbn [concat ob_to_bytes bn2bin Z.eqb]. rewrite !app_nil_r. reflexivity. }
    rewrite Ch in Y. now destruct (HH (concat (pb_tau_list b ++ pb_c_list b))) as [_ X2].
Qed.
Print Assumptions C147_refuted_zero_nonce.
(** such a hash *)
Definition ex_hash147 (l : list Z) : list Z := repeat 1 31 ++ [Z.of_nat (length l) mod 2].
Example C147_ex_hash : hash32 ex_hash147 /\ forall l, bn_from_bytes (ex_hash147 l) <> 0 /\ bn_from_bytes (ex_hash147 (l ++ [0])) <> bn_from_bytes (ex_hash147 l).
Proof.
  assert (V : forall l, bn_from_bytes (ex_hash147 l) = bn_from_bytes (repeat 1 31) * 256 + Z.of_nat (length l) mod 2).
  { intros l. unfold ex_hash147, bn_from_bytes. rewrite fold_left_app. reflexivity. }
  split.
  - intros l. unfold ex_hash147. split; [rewrite app_length, repeat_length; reflexivity|].
    apply Forall_app. split; [rewrite Forall_forall; intros x Hx; apply repeat_spec in Hx; lia|]. constructor; [|constructor].
    pose proof (Z.mod_pos_bound (Z.of_nat (length l)) 2). lia.
  - intros l. rewrite !V. assert (P : 0 < bn_from_bytes (repeat 1 31)) by reflexivity. pose proof (Z.mod_pos_bound (Z.of_nat (length l)) 2). split; [lia|].
    rewrite app_length, Nat2Z.inj_add. cbn [length]. intros E. assert (E' : (Z.of_nat (length l) + 1) mod 2 = Z.of_nat (length l) mod 2) by lia.
    rewrite Z.add_mod in E' by lia. pose proof (Z.mod_pos_bound (Z.of_nat (length l)) 2 ltac:(lia)) as B.
    assert (D : Z.of_nat (length l) mod 2 = 0 \/ Z.of_nat (length l) mod 2 = 1) by lia. destruct D as [D|D]; rewrite D in E'; discriminate E'.
Qed.
Example C147_ex_zero_nonce : exists sg b v pf v', 
  build_all T257 (common_builder T257 [("master_secret", 5555)]) [ex_item sg (mkSubReq ["name"] []); ex_item sg ex_req] = (b, Ok tt) /\
  builder_finalize T257 ex_hash147 b 0 = Ok pf /\
  verify T257 ex_hash147 v pf 0 = (v', Ok true) /\ o_verify euclid_inv ex_hash147 T257 v pf 0 = (v', Ok false).
Proof.
  destruct C28_ex_items as (sg & A & B). destruct C147_ex_hash as [H1 H2].
  destruct (C147_refuted_zero_nonce euclid_inv T257 ex_hash147 [("master_secret", 5555)] _ euclid_inv_ok T257_laws H1 A B H2) as (b & v & pf & v' & E1 & _ & E2 & E3 & E4 & E5 & _).
  exists sg, b, v, pf, v'. auto.
Qed.

(** a negative group element: the two builds recompute different commitments *)
Definition ex_pk147 : ppk := mkPPK 35 1 [] 1 1.
Definition neg_proof147 (C : curve) (c : Z) : proof C :=
  mkProof [mkSubProof (mkPProof (mkEqProof [] (-1) (-1) 0 [] 0) []) None] c [].
Definition neg_verifier147 (C : curve) : verifier C := mkVerifier [mkVCred (mkCPK ex_pk147 None) (mkSubReq [] []) [] [] None None] [].
Lemma exp_one_35 c : bn_mod_exp 1 c 35 = Ok 1.
Proof.
  destruct (Z.lt_ge_cases c 0).
  - rewrite bn_mod_exp_neg by lia. change (bn_inverse 1 35) with (Ok 1). cbn [rbind]. rewrite Z.pow_1_l by lia. reflexivity.
  - rewrite bn_mod_exp_nonneg by lia. rewrite Z.pow_1_l by lia. reflexivity.
Qed.
Lemma verify_eq_147 c : verify_equality ex_pk147 (mkEqProof [] (-1) (-1) 0 [] 0) c [] [] (mkSubReq [] []) = Ok [1].
Proof.
  unfold verify_equality. cbv zeta. change (ss_diff _ _) with (@nil string). cbn [ep_a_prime ep_e ep_v ep_m ep_m2 ep_revealed pk_n ex_pk147 pk_z].
  replace (calc_teq ex_pk147 (-1) (-1) 0 [] 0 []) with (Ok 1) by (vm_compute; reflexivity).
  replace (bn_mod_exp (-1) LARGE_E_START_VALUE 35) with (Ok 1) by (vm_compute; reflexivity).
  cbn [rbind rfold]. replace (bn_mod_div 1 1 35) with (Ok 1) by (vm_compute; reflexivity). cbn [rbind].
  replace (bn_inverse 1 35) with (Ok 1) by (vm_compute; reflexivity). cbn [rbind]. rewrite exp_one_35. reflexivity.
Qed.
Lemma o_verify_eq_147 inv c : mod_inverse_ok inv -> o_verify_equality inv ex_pk147 (mkEqProof [] (-1) (-1) 0 [] 0) c [] [] (mkSubReq [] []) = Ok [34].
Proof.
  intros Hinv. unfold o_verify_equality. cbv zeta. change (ss_diff _ _) with (@nil string). cbn [ep_a_prime ep_e ep_v ep_m ep_m2 ep_revealed pk_n ex_pk147 pk_z].
  destruct (C142_refuted_negative_agrees inv Hinv 35 ltac:(lia)) as (_ & _ & E1 & _).
  assert (P1 : forall k, ob_mod_exp inv 1 k 35 = Ok 1) by (intros k; rewrite (ob_mod_exp_eq inv Hinv) by lia; apply exp_one_35).
  assert (I1 : ob_inverse inv 1 35 = Ok 1) by (rewrite (ob_inverse_eq inv Hinv) by lia; reflexivity).
  assert (T : o_calc_teq inv ex_pk147 (-1) (-1) 0 [] 0 [] = Ok 34).
  { unfold o_calc_teq. cbn [pk_n ex_pk147 pk_s pk_rctxt rfold rbind]. rewrite E1. cbn [rbind]. rewrite !P1. reflexivity. }
  assert (B : ob_mod_exp inv (-1) LARGE_E_START_VALUE 35 = Ok 1).
  { rewrite ob_mod_exp_nonneg by (try lia; unfold LARGE_E_START_VALUE; apply Z.pow_nonneg; lia).
    assert (Q : forall k, 0 <= k -> (-1) ^ (2 * k) = 1) by (intros k Hk; rewrite Z.pow_mul_r by lia; change ((-1) ^ 2) with 1; apply Z.pow_1_l; exact Hk).
    assert (Q2 : exists k, 0 <= k /\ LARGE_E_START_VALUE = 2 * k) by (exists (2 ^ 595); split; [apply Z.pow_nonneg; lia|reflexivity]).
    destruct Q2 as (k & Hk & ->). rewrite (Q k Hk). reflexivity. }
  rewrite T, B. cbn [rbind rfold]. unfold ob_mod_div. rewrite I1. cbn [rbind]. change (ob_mod_mul 1 1 35) with (Ok 1). cbn [rbind]. rewrite I1. cbn [rbind]. rewrite P1. reflexivity.
Qed.
Theorem C147_refuted_negative_proof : forall inv (C : curve) H nonce, mod_inverse_ok inv -> nonce <> 0 ->
  valid_pk ex_pk147 /\
  (forall c, snd (verify C H (neg_verifier147 C) (neg_proof147 C c) nonce) = Ok (bn_from_bytes (H (1 :: bn_to_bytes nonce)) =? c)) /\
  (forall c, snd (o_verify inv H C (neg_verifier147 C) (neg_proof147 C c) nonce) = Ok (bn_from_bytes (H (34 :: bn_to_bytes nonce)) =? c)).
Proof.
  intros inv C H nonce Hinv Hn. split; [|split].
  - constructor; cbn; try lia; try (split; [lia|reflexivity]). discriminate.
  - intros c. unfold verify. change (check_verify_params C _ _) with (@Ok unit tt).
    cbn [neg_verifier147 vf_creds vf_common pf_proofs neg_proof147 combine pf_c_hash pf_c_list verify_loop].
    unfold verify_one. cbn [sp_r sm_keys map common_loop sp_p pp_eq vc_pk cp_p vc_schema vc_non_schema vc_req]. unfold verify_primary_proof. cbn [pp_eq pp_ne rmap].
    rewrite verify_eq_147. cbn [rbind concat app map snd]. unfold get_hash_as_int, bn_hash_array. cbn [concat]. rewrite app_nil_r. reflexivity.
  - intros c. unfold o_verify. change (check_verify_params C _ _) with (@Ok unit tt).
    cbn [neg_verifier147 vf_creds vf_common pf_proofs neg_proof147 combine pf_c_hash pf_c_list o_verify_loop].
    unfold o_verify_one. cbn [sp_r sm_keys map o_common_loop sp_p pp_eq vc_pk cp_p vc_schema vc_non_schema vc_req]. unfold o_verify_primary_proof. cbn [pp_eq pp_ne rmap].
    rewrite (o_verify_eq_147 inv c Hinv). cbn [rbind concat app map snd]. rewrite ob_eqb_eq, (ob_to_bytes_eq nonce Hn).
    unfold o_get_hash_as_int, ob_hash_array. cbn [concat]. rewrite app_nil_r. reflexivity.
Qed.
Print Assumptions C147_refuted_negative_proof.
Example C147_ex_negative : 
  snd (verify T257 ex_hash146 (neg_verifier147 T257) (neg_proof147 T257 (bn_from_bytes (ex_hash146 [1; 9]))) 9) = Ok true /\
  snd (o_verify euclid_inv ex_hash146 T257 (neg_verifier147 T257) (neg_proof147 T257 (bn_from_bytes (ex_hash146 [1; 9]))) 9) = Ok false.
Proof.
  destruct (C147_refuted_negative_proof euclid_inv T257 ex_hash146 9 euclid_inv_ok ltac:(lia)) as (_ & A & B). rewrite A, B. split; reflexivity.
Qed.

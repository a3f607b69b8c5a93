(** Model of the cl_native build: the functions of ClModel and ClProofModel over the
    OpenSSL backend.  The Rust source is the same (libursa/src/cl is compiled against
    whichever [bn] module the features select, libursa/src/lib.rs:143-148), so each
    definition is its namesake with the operations of BnOsslModel; the citations are
    repeated.  Definitions that touch no BigNumber operation are shared.  The curve part
    sees a BigNumber only as the scalar made of its bytes and is shared too
    ([ClOsslProps.C146_scalars_agree]). *)
From Coq Require Import String.
From Verif Require Import Base BnModel BnOsslModel HelpersModel StrMap ClModel Alg ClRevModel ClProofModel.
Open Scope string_scope.
Open Scope list_scope.
Open Scope Z_scope.

(** helpers.rs:262-276 [bitwise_or_big_int] *)
Definition o_bitwise_or_big_int (a b : Z) : res Z :=
  let significant_bits := Z.max (ob_num_bits a) (ob_num_bits b) in
  rfold (fun result i =>
      let i := Z.of_nat i in
      if ob_is_bit_set a i || ob_is_bit_set b i then ob_set_bit result i else Ok result)
    (seq 0 (Z.to_nat significant_bits)) 0.
(** helpers.rs:137-150 [_generate_v_prime_prime] *)
Definition o_generate_v_prime_prime (a : Z) : res Z := o_bitwise_or_big_int a LARGE_VPRIME_PRIME_VALUE.
(** helpers.rs:226-236 [_gen_x]; [draw] is the value of [rand_range] on p*q-3 *)
Definition o_gen_x (p q draw : Z) : Z := ob_add_word draw 2.
(** helpers.rs:102-122 [encode_attribute] *)
Definition o_encode_attribute (hash : list Z -> list Z) (attribute : list Z) (little : bool) : Z :=
  let result := hash attribute in
  ob_from_bytes (if little then rev result else result).

Section ClO.
Variable inv : Z -> Z -> res Z.  (* BN_mod_inverse *)
(** cl/hash.rs:4-12 [get_hash_as_int] *)
Definition o_get_hash_as_int (H : list Z -> list Z) (nums : list (list Z)) : Z := ob_from_bytes (ob_hash_array H nums).

(** utils/commitment.rs:16-31 [get_pedersen_commitment] *)
Definition o_get_pedersen_commitment (gen_1 m gen_2 r modulus : Z) : res Z :=
  let! x := ob_mod_exp inv gen_1 m modulus in
  let! y := ob_mod_exp inv gen_2 r modulus in
  ob_mod_mul x y modulus.

Variable H : list Z -> list Z.   (* SHA-256 *)
Variable isp : Z -> bool.        (* BigNumber::is_prime *)

(** ** Issuer: keys *)
(** issuer.rs:774-832 [_new_credential_primary_keys].  Draws: the two safe primes,
    the [random_qr] draw, and the [gen_x] draws for xz, each attribute and rctxt (a
    name occurring in both schemas is drawn twice, the second value is kept). *)
Definition o_new_credential_primary_keys (schema non_schema : sset)
    (p_safe q_safe s_draw xz_draw : Z) (xr_draw : string -> Z) (xrctxt_draw : Z) : res (ppk * psk * pmeta) :=
  match schema with
  | [] => Err InvalidStructure
  | _ =>
      let p := ob_rshift1 p_safe in
      let q := ob_rshift1 q_safe in
      let n := ob_mul p_safe q_safe in
      let! s := ob_random_qr n s_draw in
      let xz := o_gen_x p q xz_draw in
      let xr := fold_left (fun m a => hm_insert a (o_gen_x p q (xr_draw a)) m) (non_schema ++ schema) [] in
      let! r := rfold (fun m '(k, x) => let! y := ob_mod_exp inv s x n in Ok (hm_insert k y m)) xr [] in
      let! z := ob_mod_exp inv s xz n in
      let! rctxt := ob_mod_exp inv s (o_gen_x p q xrctxt_draw) n in
      Ok (mkPPK n s r rctxt z, mkPSK p q, mkPMeta xz xr)
  end.

(** issuer.rs:877-947 [_new_credential_key_correctness_proof] *)
Definition o_new_key_correctness_proof (pk : ppk) (sk : psk) (meta : pmeta) (xz_draw : Z) (xr_draw : string -> Z) : res kcp :=
  let xz_tilda := o_gen_x (sk_p sk) (sk_q sk) xz_draw in
  let xr_tilda := fold_left (fun m k => hm_insert k (o_gen_x (sk_p sk) (sk_q sk) (xr_draw k)) m) (sm_keys (pk_r pk)) [] in
  let! z_tilda := ob_mod_exp inv (pk_s pk) xz_tilda (pk_n pk) in
  let! r_tilda := rfold (fun m '(k, x) => let! y := ob_mod_exp inv (pk_s pk) x (pk_n pk) in Ok (hm_insert k y m)) xr_tilda [] in
  let ordered_attrs := sm_keys (pk_r pk) in
  let! tail := rmap (fun a => let! v := sm_index a r_tilda in Ok (ob_to_bytes v)) ordered_attrs in
  let values := ob_to_bytes (pk_z pk) ++ concat (map (fun kv => ob_to_bytes (snd kv)) (pk_r pk))
                ++ ob_to_bytes z_tilda ++ concat tail in
  let c := o_get_hash_as_int H [values] in
  let xz_cap := ob_add (ob_mul c (xz meta)) xz_tilda in
  let! xr_cap := rmap (fun k => let! t := sm_index k xr_tilda in
                               let! x := sm_index k (xr meta) in
                               Ok (k, ob_add (ob_mul c x) t)) ordered_attrs in
  Ok (mkKCP c xz_cap xr_cap).

(** prover.rs:306-398 [_check_credential_key_correctness_proof] *)
Definition o_check_key_correctness_proof (pk : ppk) (pr : kcp) : res unit :=
  let names := map fst (kc_xr_cap pr) in
  if existsb (fun k => negb (ss_mem k names) && negb (String.eqb k "master_secret")) (sm_keys (pk_r pk)) then Err InvalidStructure
  else if existsb (fun k => negb (sm_mem k (pk_r pk))) names then Err InvalidStructure
  else
    let! z_inverse := ob_inverse inv (pk_z pk) (pk_n pk) in
    let! z_cap := o_get_pedersen_commitment z_inverse (kc_c pr) (pk_s pk) (kc_xz_cap pr) (pk_n pk) in
    let! rs := rmap (fun '(k, x) =>
                 let! r_value := sm_index k (pk_r pk) in
                 let! r_inverse := ob_inverse inv r_value (pk_n pk) in
                 let! v := o_get_pedersen_commitment r_inverse (kc_c pr) (pk_s pk) x (pk_n pk) in
                 Ok (r_value, v)) (kc_xr_cap pr) in
    let values := ob_to_bytes (pk_z pk) ++ concat (map (fun rv => ob_to_bytes (fst rv)) rs)
                  ++ ob_to_bytes z_cap ++ concat (map (fun rv => ob_to_bytes (snd rv)) rs) in
    let c := o_get_hash_as_int H [values] in
    if ob_eqb (kc_c pr) c then Ok tt else Err InvalidStructure.

(** ** Prover: blinding *)
(** prover.rs:400-473 [_generate_blinded_primary_credential_secrets_factors];
    [v_prime] is the bn_rand(LARGE_VPRIME) draw *)
Definition o_generate_blinded_primary_factors (pk : ppk) (vals : cred_values) (v_prime : Z) : res blinded :=
  let hidden_attributes := sm_keys (filter (fun kv => is_hidden (snd kv)) vals) in
  let! u0 := ob_mod_exp inv (pk_s pk) v_prime (pk_n pk) in
  let! u := rfold (fun acc attr =>
      let! pk_r := sm_get_or InvalidStructure attr (pk_r pk) in
      let! cv := sm_index attr vals in
      let! y := ob_mod_exp inv pk_r (cv_value cv) (pk_n pk) in
      ob_mod_mul acc y (pk_n pk)) hidden_attributes u0 in
  let! committed := rfold (fun m '(attr, cv) =>
      match cv with
      | Commitment value blinding_factor =>
          let! y := o_get_pedersen_commitment (pk_s pk) blinding_factor (pk_z pk) value (pk_n pk) in
          Ok (bt_insert attr y m)
      | _ => Ok m
      end) (filter (fun kv => is_commitment (snd kv)) vals) [] in
  Ok (mkBlinded u hidden_attributes committed).

(** prover.rs:494-622 [_new_blinded_credential_secrets_correctness_proof]; draws:
    [v_dash_tilde], and per attribute [m_t], [r_t] *)
Definition o_new_blinded_correctness_proof (pk : ppk) (bl : blinded) (v_prime : Z) (nonce : Z) (vals : cred_values)
    (v_dash_tilde : Z) (m_t r_t : string -> Z) : res bproof :=
  let! u_tilde0 := ob_mod_exp inv (pk_s pk) v_dash_tilde (pk_n pk) in
  let! (u_tilde, values, m_tildes, r_tildes) :=
    rfold (fun '(u_tilde, values, m_tildes, r_tildes) '(attr, cv) =>
      let m_tilde := m_t attr in
      let! pk_r := sm_get_or InvalidStructure attr (pk_r pk) in
      match cv with
      | Hidden _ =>
          let! y := ob_mod_exp inv pk_r m_tilde (pk_n pk) in
          let! u_tilde' := ob_mod_mul u_tilde y (pk_n pk) in
          Ok (u_tilde', values, bt_insert attr m_tilde m_tildes, r_tildes)
      | Commitment _ _ =>
          let r_tilde := r_t attr in
          let! commitment_tilde := o_get_pedersen_commitment (pk_z pk) m_tilde (pk_s pk) r_tilde (pk_n pk) in
          let! ca_value := sm_get_or InvalidStructure attr (bl_committed bl) in
          Ok (u_tilde, values ++ ob_to_bytes commitment_tilde ++ ob_to_bytes ca_value,
              bt_insert attr m_tilde m_tildes, bt_insert attr r_tilde r_tildes)
      | Known _ => Ok (u_tilde, values, bt_insert attr m_tilde m_tildes, r_tildes)
      end) (filter (fun kv => is_hidden (snd kv) || is_commitment (snd kv)) vals) (u_tilde0, [], [], []) in
  let values := values ++ ob_to_bytes (bl_u bl) ++ ob_to_bytes u_tilde ++ ob_to_bytes nonce in
  let c := o_get_hash_as_int H [values] in
  let v_dash_cap := ob_add (ob_mul c v_prime) v_dash_tilde in
  let! (m_caps, r_caps) :=
    rfold (fun '(m_caps, r_caps) '(attr, m_tilde) =>
      let! ca := sm_get_or InvalidStructure attr vals in
      match ca with
      | Hidden value => Ok (bt_insert attr (ob_add m_tilde (ob_mul c value)) m_caps, r_caps)
      | Commitment value blinding_factor =>
          let! rt := sm_index attr r_tildes in
          Ok (bt_insert attr (ob_add m_tilde (ob_mul c value)) m_caps,
              bt_insert attr (ob_add rt (ob_mul c blinding_factor)) r_caps)
      | Known _ => Ok (m_caps, r_caps)
      end) m_tildes ([], []) in
  Ok (mkBProof c v_dash_cap m_caps r_caps).

(** issuer.rs:1011-1101 [_check_blinded_credential_secrets_correctness_proof] *)
Definition o_check_blinded_correctness_proof (bl : blinded) (pr : bproof) (nonce : Z) (pk : ppk) : res unit :=
  let! u_inv := ob_inverse inv (bl_u bl) (pk_n pk) in
  let! x := ob_mod_exp inv u_inv (bp_c pr) (pk_n pk) in
  let! y := ob_mod_exp inv (pk_s pk) (bp_v_dash_cap pr) (pk_n pk) in
  let! u0 := ob_mod_mul x y (pk_n pk) in
  let! u_cap := rfold (fun acc attr =>
      let! pk_r := sm_get_or InvalidStructure attr (pk_r pk) in
      let! m_cap := sm_index attr (bp_m_caps pr) in
      let! y := ob_mod_exp inv pk_r m_cap (pk_n pk) in
      ob_mod_mul acc y (pk_n pk)) (bl_hidden bl) u0 in
  let! values := rfold (fun values '(key, value) =>
      let! m_cap := sm_index key (bp_m_caps pr) in
      let! v_inv := ob_inverse inv value (pk_n pk) in
      let! x := ob_mod_exp inv v_inv (bp_c pr) (pk_n pk) in
      let! r_cap := sm_index key (bp_r_caps pr) in
      let! y := o_get_pedersen_commitment (pk_z pk) m_cap (pk_s pk) r_cap (pk_n pk) in
      let! comm_att_cap := ob_mod_mul x y (pk_n pk) in
      Ok (values ++ ob_to_bytes comm_att_cap ++ ob_to_bytes value)) (bl_committed bl) [] in
  let values := values ++ ob_to_bytes (bl_u bl) ++ ob_to_bytes u_cap ++ ob_to_bytes nonce in
  let c := o_get_hash_as_int H [values] in
  if ob_eqb (bp_c pr) c then Ok tt else Err InvalidStructure.

(** ** Issuer: signature *)
Definition o_gen_credential_context (prover_id : list Z) (rev_idx : option Z) : Z :=
  let rev_idx := match rev_idx with Some i => i32_of_u32 i | None => -1 end in
  let prover_id_bn := o_encode_attribute H prover_id true in
  let rev_idx_bn := o_encode_attribute H (bn_to_dec rev_idx) true in
  o_get_hash_as_int H [ob_to_bytes prover_id_bn ++ ob_to_bytes rev_idx_bn].

(** issuer.rs:1172-1248 [_sign_primary_credential] *)
Definition o_sign_primary_credential (pk : ppk) (sk : psk) (cred_context : Z) (vals : cred_values) (v : Z) (bl : blinded) (e : Z)
  : res (Z * Z) :=
  let! rx := ob_mod_exp inv (pk_s pk) v (pk_n pk) in
  let! rx := (if ob_eqb (bl_u bl) 0 then Ok rx else ob_mod_mul rx (bl_u bl) (pk_n pk)) in
  let! y := ob_mod_exp inv (pk_rctxt pk) cred_context (pk_n pk) in
  let! rx := ob_mod_mul rx y (pk_n pk) in
  let! rx := rfold (fun rx '(key, attr) =>
      let! pk_r := sm_get_or InvalidStructure key (pk_r pk) in
      let! y := ob_mod_exp inv pk_r (cv_value attr) (pk_n pk) in
      ob_mod_mul y rx (pk_n pk)) (filter (fun kv => is_known (snd kv)) vals) rx in
  let! q := ob_mod_div inv (pk_z pk) rx (pk_n pk) in
  let n := ob_mul (sk_p sk) (sk_q sk) in
  let! e_inverse := ob_inverse inv e n in
  let! a := ob_mod_exp inv q e_inverse (pk_n pk) in
  Ok (a, q).

(** issuer.rs:1133-1170 [_new_primary_credential]; [v] is the result of
    [generate_v_prime_prime], [e_draws] the draws of [generate_prime_in_range] *)
Definition o_new_primary_credential (cred_context : Z) (pk : ppk) (sk : psk) (bl : blinded) (vals : cred_values)
    (v_draw : Z) (e_draws : list Z) : res (psig * Z) :=
  let! v := o_generate_v_prime_prime v_draw in
  let! e := ob_generate_prime_in_range isp LARGE_E_START_VALUE LARGE_E_END_RANGE_VALUE e_draws in
  let! (a, q) := o_sign_primary_credential pk sk cred_context vals v bl e in
  Ok (mkPSig cred_context a e v, q).

(** issuer.rs:1250-1293 [_new_signature_correctness_proof]; [r] is the draw in [0, p*q) *)
Definition o_new_signature_correctness_proof (pk : ppk) (sk : psk) (sg : psig) (q nonce r : Z) : res scp :=
  let n := ob_mul (sk_p sk) (sk_q sk) in
  let! a_cap := ob_mod_exp inv q r (pk_n pk) in
  let values := ob_to_bytes q ++ ob_to_bytes (sg_a sg) ++ ob_to_bytes a_cap ++ ob_to_bytes nonce in
  let c := o_get_hash_as_int H [values] in
  let! e_inv := ob_inverse inv (sg_e sg) n in
  let! ce := ob_mod_mul c e_inv n in
  let! se := ob_mod_sub r ce n in
  Ok (mkSCP se c).

(** issuer.rs:246-310 [sign_credential] (no revocation) *)
Definition o_sign_credential (prover_id : list Z) (bl : blinded) (pr : bproof) (nonce issuance_nonce : Z) (vals : cred_values)
    (pk : ppk) (sk : psk) (v_draw : Z) (e_draws : list Z) (r_draw : Z) : res (psig * scp) :=
  let! _ := o_check_blinded_correctness_proof bl pr nonce pk in
  let ctx := o_gen_credential_context prover_id None in
  let! (sg, q) := o_new_primary_credential ctx pk sk bl vals v_draw e_draws in
  let! sp := o_new_signature_correctness_proof pk sk sg q issuance_nonce r_draw in
  Ok (sg, sp).

(** prover.rs:624-639 [_process_primary_credential] *)
Definition o_process_primary_credential (sg : psig) (v_prime : Z) : psig :=
  mkPSig (sg_m2 sg) (sg_a sg) (sg_e sg) (ob_add v_prime (sg_v sg)).

(** prover.rs:668-777 [_check_signature_correctness_proof] *)
Definition o_check_signature_correctness_proof (sg : psig) (vals : cred_values) (sp : scp) (pk : ppk) (nonce : Z) : res unit :=
  if negb (isp (sg_e sg)) then Err InvalidStructure
  else if existsb (fun kv => (is_known (snd kv) || is_hidden (snd kv)) && negb (sm_mem (fst kv) (pk_r pk))) vals
  then Err InvalidStructure
  else
    let! rx0 := o_get_pedersen_commitment (pk_s pk) (sg_v sg) (pk_rctxt pk) (sg_m2 sg) (pk_n pk) in
    let! rx := rfold (fun acc '(attr, value) =>
        let! pk_r := sm_index attr (pk_r pk) in
        let! y := ob_mod_exp inv pk_r (cv_value value) (pk_n pk) in
        ob_mod_mul acc y (pk_n pk))
      (filter (fun kv => (is_known (snd kv) || is_hidden (snd kv)) && sm_mem (fst kv) (pk_r pk)) vals) rx0 in
    let! q := ob_mod_div inv (pk_z pk) rx (pk_n pk) in
    let! expected_q := ob_mod_exp inv (sg_a sg) (sg_e sg) (pk_n pk) in
    if negb (ob_eqb q expected_q) then Err InvalidStructure
    else
      let degree := ob_add (sc_c sp) (ob_mul (sc_se sp) (sg_e sg)) in
      let! a_cap := ob_mod_exp inv (sg_a sg) degree (pk_n pk) in
      let values := ob_to_bytes q ++ ob_to_bytes (sg_a sg) ++ ob_to_bytes a_cap ++ ob_to_bytes nonce in
      let c := o_get_hash_as_int H [values] in
      if ob_eqb (sc_c sp) c then Ok tt else Err InvalidStructure.

(** ** Presentation: shared formulas *)
(** helpers.rs:315-364 [calc_teq] *)
Definition o_calc_teq (pk : ppk) (a_prime e v : Z) (m_tilde : smap Z) (m2tilde : Z) (unrevealed_attrs : list string) : res Z :=
  let! result := ob_mod_exp inv a_prime e (pk_n pk) in
  let! result := rfold (fun result k =>
      let! cur_r := sm_get_or InvalidStructure k (pk_r pk) in
      let! cur_m := sm_get_or InvalidStructure k m_tilde in
      let! y := ob_mod_exp inv cur_r cur_m (pk_n pk) in
      ob_mod_mul y result (pk_n pk)) unrevealed_attrs result in
  let! y := ob_mod_exp inv (pk_s pk) v (pk_n pk) in
  let! result := ob_mod_mul y result (pk_n pk) in
  let! y := ob_mod_exp inv (pk_rctxt pk) m2tilde (pk_n pk) in
  ob_mod_mul y result (pk_n pk).


(** helpers.rs:366-470 [calc_tne] *)
Definition o_calc_tne (pk : ppk) (u r : smap Z) (mj alpha : Z) (t : smap Z) (is_less : bool) : res (list Z) :=
  let! taus := rmap (fun i =>
      let! cur_u := sm_get_or InvalidStructure i u in
      let! cur_r := sm_get_or InvalidStructure i r in
      let! x := ob_mod_exp inv (pk_z pk) cur_u (pk_n pk) in
      let! y := ob_mod_exp inv (pk_s pk) cur_r (pk_n pk) in
      ob_mod_mul x y (pk_n pk)) iter_keys in
  let! delta := sm_get_or InvalidStructure "DELTA" r in
  let delta_predicate := if is_less then ob_set_negative delta true else delta in
  let! x := ob_mod_exp inv (pk_z pk) mj (pk_n pk) in
  let! y := ob_mod_exp inv (pk_s pk) delta_predicate (pk_n pk) in
  let! t_tau := ob_mod_mul x y (pk_n pk) in
  let! q := rfold (fun q i =>
      let! cur_t := sm_get_or InvalidStructure i t in
      let! cur_u := sm_get_or InvalidStructure i u in
      let! x := ob_mod_exp inv cur_t cur_u (pk_n pk) in
      Ok (ob_mul x q)) iter_keys 1 in
  let! x := ob_mod_exp inv (pk_s pk) alpha (pk_n pk) in
  let! q := ob_mod_mul x q (pk_n pk) in
  Ok (taus ++ [t_tau; q]).




(** prover.rs:1313-1394 [_init_eq_proof] *)
Definition o_init_eq_proof (common : smap Z) (pk : ppk) (c1 : psig) (schema non_schema : sset) (req : subreq) (m2_t : option Z)
    (rnd : eqrand) : res eqinit :=
  let m2_tilde := match m2_t with Some x => x | None => er_m2_tilde rnd end in
  let r := er_r rnd in
  let unrevealed_attrs := unrevealed non_schema schema req in
  let m_tilde := get_mtilde (er_m rnd) unrevealed_attrs common in
  let! x := ob_mod_exp inv (pk_s pk) r (pk_n pk) in
  let! a_prime := ob_mod_mul x (sg_a c1) (pk_n pk) in
  let e_prime := ob_sub (sg_e c1) LARGE_E_START_VALUE in
  let v_prime := ob_sub (sg_v c1) (ob_mul (sg_e c1) r) in
  let! t := o_calc_teq pk a_prime (er_e_tilde rnd) (er_v_tilde rnd) m_tilde m2_tilde unrevealed_attrs in
  Ok (mkEqInit a_prime t (er_e_tilde rnd) e_prime (er_v_tilde rnd) v_prime m_tilde m2_tilde (sg_m2 c1)).


(** prover.rs:1396-1531 [_init_ne_proof] *)
Definition o_init_ne_proof (pk : ppk) (m_tilde : smap Z) (vals : cred_values) (p : predicate) (rnd : nerand) : res neinit :=
  let! cv := sm_get_or InvalidStructure (p_attr p) vals in
  let! attr_value := parse_i32 (cv_value cv) in
  let delta := get_delta (p_type p) (p_value p) attr_value in
  if delta <? 0 then Err InvalidStructure
  else
    let! (u0, u1, u2, u3) := four_squares delta in
    let u := [("0", u0); ("1", u1); ("2", u2); ("3", u3)] in
    let! (r, t, c_list) := rfold (fun '(r, t, c_list) i =>
        let! cur_u := sm_get_or InvalidStructure i u in
        let cur_r := nr_r rnd i in
        let! cut_t := o_get_pedersen_commitment (pk_z pk) cur_u (pk_s pk) cur_r (pk_n pk) in
        Ok (hm_insert i cur_r r, hm_insert i cut_t t, c_list ++ [cut_t])) iter_keys ([], [], []) in
    let r_delta := nr_r rnd "DELTA" in
    let! t_delta := o_get_pedersen_commitment (pk_z pk) delta (pk_s pk) r_delta (pk_n pk) in
    let r := hm_insert "DELTA" r_delta r in
    let t := hm_insert "DELTA" t_delta t in
    let c_list := (c_list ++ [t_delta])%list in
    let u_tilde := fold_left (fun m i => hm_insert i (nr_u_tilde rnd i) m) iter_keys [] in
    let r_tilde := fold_left (fun m i => hm_insert i (nr_r_tilde rnd i) m) iter_keys [] in
    let r_tilde := hm_insert "DELTA" (nr_r_tilde rnd "DELTA") r_tilde in
    let! mj := sm_get_or InvalidStructure (p_attr p) m_tilde in
    let! tau_list := o_calc_tne pk u_tilde r_tilde mj (nr_alpha_tilde rnd) t (is_less (p_type p)) in
    Ok (mkNeInit c_list tau_list u u_tilde r r_tilde (nr_alpha_tilde rnd) p t).

(** prover.rs:1214-1275 [_init_primary_proof] *)
Definition o_init_primary_proof (common : smap Z) (pk : ppk) (c1 : psig) (vals : cred_values) (schema non_schema : sset)
    (req : subreq) (m2_t : option Z) (rnd : eqrand) (nrnd : predicate -> nerand) : res pinit :=
  let! eq_proof := o_init_eq_proof common pk c1 schema non_schema req m2_t rnd in
  let! ne_proofs := rmap (fun p => o_init_ne_proof pk (ei_m_tilde eq_proof) vals p (nrnd p)) (rq_predicates req) in
  Ok (mkPInit eq_proof ne_proofs).

(** mod.rs:1097-1112 [as_c_list], [as_tau_list] *)
Definition o_pinit_c_list (p : pinit) : list (list Z) :=
  ob_to_bytes (ei_a_prime (pi_eq p)) :: concat (map (fun ne => map ob_to_bytes (ni_c_list ne)) (pi_ne p)).
Definition o_pinit_tau_list (p : pinit) : list (list Z) :=
  ob_to_bytes (ei_t (pi_eq p)) :: concat (map (fun ne => map ob_to_bytes (ni_tau_list ne)) (pi_ne p)).

(** prover.rs:1533-1633 [_finalize_eq_proof] *)
Definition o_finalize_eq_proof (ip : eqinit) (challenge : Z) (schema non_schema : sset) (vals : cred_values) (req : subreq)
  : res eqproof :=
  let e := ob_add (ob_mul challenge (ei_e_prime ip)) (ei_e_tilde ip) in
  let v := ob_add (ob_mul challenge (ei_v_prime ip)) (ei_v_tilde ip) in
  let! m_hat := rfold (fun m k =>
      let! cur_mtilde := sm_get_or InvalidStructure k (ei_m_tilde ip) in
      let! cur_val := sm_get_or InvalidStructure k vals in
      Ok (hm_insert k (ob_add (ob_mul challenge (cv_value cur_val)) cur_mtilde) m)) (unrevealed non_schema schema req) [] in
  let m2 := ob_add (ob_mul challenge (ei_m2 ip)) (ei_m2_tilde ip) in
  let! revealed := rfold (fun m attr =>
      let! cv := sm_get_or InvalidStructure attr vals in
      Ok (bt_insert attr (cv_value cv) m)) (rq_revealed req) [] in
  Ok (mkEqProof revealed (ei_a_prime ip) e v m_hat m2).

(** prover.rs:1635-1695 [_finalize_ne_proof] *)
Definition o_finalize_ne_proof (c_h : Z) (ip : neinit) (eq : eqproof) : res neproof :=
  let! (u, r, urproduct) := rfold (fun '(u, r, urproduct) i =>
      let! cur_utilde := sm_index i (ni_u_tilde ip) in
      let! cur_u := sm_index i (ni_u ip) in
      let! cur_rtilde := sm_index i (ni_r_tilde ip) in
      let! cur_r := sm_index i (ni_r ip) in
      let new_u := ob_add (ob_mul c_h cur_u) cur_utilde in
      let new_r := ob_add (ob_mul c_h cur_r) cur_rtilde in
      let urproduct := ob_add (ob_mul cur_u cur_r) urproduct in
      let! cur_rtilde_delta := sm_index "DELTA" (ni_r_tilde ip) in
      let! rd := sm_index "DELTA" (ni_r ip) in
      let new_delta := ob_add (ob_mul c_h rd) cur_rtilde_delta in
      Ok (hm_insert i new_u u, hm_insert "DELTA" new_delta (hm_insert i new_r r), urproduct)) iter_keys ([], [], 0) in
  let! rd := sm_index "DELTA" (ni_r ip) in
  let alpha := ob_add (ob_mul (ob_sub rd urproduct) c_h) (ni_alpha_tilde ip) in
  let! mj := sm_index (p_attr (ni_predicate ip)) (ep_m eq) in
  Ok (mkNeProof u r mj alpha (ni_t ip) (ni_predicate ip)).

(** prover.rs:1697-1741 [_finalize_primary_proof] *)
Definition o_finalize_primary_proof (ip : pinit) (challenge : Z) (schema non_schema : sset) (vals : cred_values) (req : subreq)
  : res pproof :=
  let! eq := o_finalize_eq_proof (pi_eq ip) challenge schema non_schema vals req in
  let! nes := rmap (fun ne => o_finalize_ne_proof challenge ne eq) (pi_ne ip) in
  Ok (mkPProof eq nes).

(** ** Verifier *)
(** verifier.rs:446-506 [_verify_equality] *)
Definition o_verify_equality (pk : ppk) (proof : eqproof) (c_hash : Z) (schema non_schema : sset) (req : subreq) : res (list Z) :=
  let unrevealed_attrs := ss_diff (ss_union schema non_schema) (rq_revealed req) in
  let! t1 := o_calc_teq pk (ep_a_prime proof) (ep_e proof) (ep_v proof) (ep_m proof) (ep_m2 proof) unrevealed_attrs in
  let! rar := ob_mod_exp inv (ep_a_prime proof) LARGE_E_START_VALUE (pk_n pk) in
  let! rar := rfold (fun rar '(attr, encoded_value) =>
      let! cur_r := sm_get_or ProofRejected attr (pk_r pk) in
      let! y := ob_mod_exp inv cur_r encoded_value (pk_n pk) in
      ob_mod_mul y rar (pk_n pk)) (ep_revealed proof) rar in
  let! x := ob_mod_div inv (pk_z pk) rar (pk_n pk) in
  let! x := ob_inverse inv x (pk_n pk) in
  let! t2 := ob_mod_exp inv x c_hash (pk_n pk) in
  let! t := ob_mod_mul t1 t2 (pk_n pk) in
  Ok [t].

(** verifier.rs:508-581 [_verify_ne_predicate].  [tau_list] from [calc_tne] always
    has six entries. *)
Definition o_verify_ne_predicate (pk : ppk) (proof : neproof) (c_hash : Z) : res (list Z) :=
  let p := np_predicate proof in
  let! tau_list := o_calc_tne pk (np_u proof) (np_r proof) (np_mj proof) (np_alpha proof) (np_t proof) (is_less (p_type p)) in
  let! firsts := rmap (fun '(i, tau) =>
      let! cur_t := sm_get_or ProofRejected i (np_t proof) in
      let! x := ob_mod_exp inv cur_t c_hash (pk_n pk) in
      let! y := ob_inverse inv x (pk_n pk) in
      ob_mod_mul y tau (pk_n pk)) (combine iter_keys (firstn ITERATION tau_list)) in
  let! delta := sm_get_or ProofRejected "DELTA" (np_t proof) in
  let! delta_prime := (if is_less (p_type p) then ob_inverse inv delta (pk_n pk) else Ok delta) in
  let! x := ob_mod_exp inv (pk_z pk) (get_delta_prime (p_type p) (p_value p)) (pk_n pk) in
  let! x := ob_mod_exp inv (ob_mul x delta_prime) c_hash (pk_n pk) in
  let! x := ob_inverse inv x (pk_n pk) in
  let! t4 := ob_mod_mul x (nth ITERATION tau_list 0) (pk_n pk) in
  let! y := ob_mod_exp inv delta c_hash (pk_n pk) in
  let! y := ob_inverse inv y (pk_n pk) in
  let! t5 := ob_mod_mul y (nth (ITERATION + 1) tau_list 0) (pk_n pk) in
  Ok (firsts ++ [t4; t5]).

(** verifier.rs:412-444 [_verify_primary_proof] *)
Definition o_verify_primary_proof (pk : ppk) (c_hash : Z) (proof : pproof) (schema non_schema : sset) (req : subreq) : res (list Z) :=
  let! t_hat := o_verify_equality pk (pp_eq proof) c_hash schema non_schema req in
  let! rest := rmap (fun ne => o_verify_ne_predicate pk ne c_hash) (pp_ne proof) in
  Ok (t_hat ++ concat rest).

Section Proof_.
Variable C : curve.
Notation K := (cK C). Notation G1 := (cG1 C). Notation G2 := (cG2 C). Notation GT := (cGT C).
(** ** ProofBuilder *)

(** prover.rs:933-1010 [ProofBuilder::add_sub_proof_request] *)
Definition o_builder_add (b : builder C) (req : subreq) (schema non_schema : sset) (sg : csig C) (vals : cred_values) (pk : cpk C)
    (rev_reg witness : option G2) (rnd : subrand C) : builder C * res unit :=
  match builder_check vals req schema non_schema with
  | Err e => (b, Err e)
  | Ok _ =>
      let nr := match cs_r sg, rev_reg, cp_r pk, witness with
                | Some rc, Some accum, Some rk, Some omega => Some (init_non_revocation_proof C rc accum rk omega (su_d C rnd) (su_tp C rnd))
                | _, _, _, _ => None
                end in
      let b1 := match nr with
                | Some n => mkBuilder (pb_common b) (pb_init b) (pb_c_list b ++ c_as_list C (nr_cl n)) (pb_tau_list b ++ tau_as_list C (nr_tl n))
                | None => b
                end in
      let m2_t := match nr with Some n => Some (group_element_to_bignum C (x_m2 (nr_tp n))) | None => None end in
      match o_init_primary_proof (pb_common b) (cp_p pk) (cs_p sg) vals schema non_schema req m2_t (su_eq C rnd) (su_ne C rnd) with
      | Err e => (b1, Err e)
      | Ok ip =>
          (mkBuilder (pb_common b1) (pb_init b1 ++ [mkInitProof ip nr vals req schema non_schema])
             (pb_c_list b1 ++ o_pinit_c_list ip) (pb_tau_list b1 ++ o_pinit_tau_list ip), Ok tt)
      end
  end.
(** prover.rs:1092-1143 [ProofBuilder::finalize] *)
Definition o_finalize_one (challenge : Z) (ip : initproof C) : res (subproof C) :=
  let! nr := match in_r ip with
             | Some n => let! x := finalize_non_revocation_proof C n challenge in Ok (Some x)
             | None => Ok None
             end in
  let! pp := o_finalize_primary_proof (in_p ip) challenge (in_schema ip) (in_non_schema ip) (in_vals ip) (in_req ip) in
  Ok (mkSubProof pp nr).
Definition o_builder_finalize (b : builder C) (nonce : Z) : res (proof C) :=
  let challenge := o_get_hash_as_int H (pb_tau_list b ++ pb_c_list b ++ [ob_to_bytes nonce]) in
  let! ps := rmap (o_finalize_one challenge) (pb_init b) in
  Ok (mkProof ps challenge (pb_c_list b)).

(** ** ProofVerifier *)


(** verifier.rs:251-296: the common-attribute loop of one sub proof; [m] is the
    equality proof's response map.  Iterates the keys of the state map. *)
Fixpoint o_common_loop (m : smap Z) (names : list string) (st : smap (option Z)) : smap (option Z) * res unit :=
  match names with
  | [] => (st, Ok tt)
  | a :: rest =>
      match sm_get a m with
      | None => (st, Err ProofRejected)
      | Some m_hat =>
          match sm_get a st with
          | Some (Some v) => if ob_eqb v m_hat then o_common_loop m rest st else (st, Err ProofRejected)
          | Some None => o_common_loop m rest (hm_insert a (Some m_hat) st)
          | None => o_common_loop m rest st
          end
      end
  end.
(** verifier.rs:227-307: one iteration of the main loop *)
Definition o_verify_one (c_hash : Z) (st : smap (option Z)) (sp : subproof C) (vc : vcred C) : smap (option Z) * res (list (list Z)) :=
  let nr := match sp_r sp, cp_r (vc_pk vc), vc_accum vc, vc_z vc with
            | Some nrp, Some rk, Some accum, Some z =>
                let! t := verify_non_revocation_proof C rk accum z c_hash nrp in Ok (tau_as_list C t)
            | _, _, _, _ => Ok []
            end in
  match nr with
  | Err e => (st, Err e)
  | Ok t1 =>
      match o_common_loop (ep_m (pp_eq (sp_p sp))) (sm_keys st) st with
      | (st', Err e) => (st', Err e)
      | (st', Ok _) =>
          (st', let! t2 := o_verify_primary_proof (cp_p (vc_pk vc)) c_hash (sp_p sp) (vc_schema vc) (vc_non_schema vc) (vc_req vc) in
                Ok (t1 ++ map ob_to_bytes t2))
      end
  end.
Fixpoint o_verify_loop (c_hash : Z) (st : smap (option Z)) (l : list (subproof C * vcred C)) (tau : list (list Z))
  : smap (option Z) * res (list (list Z)) :=
  match l with
  | [] => (st, Ok tau)
  | (sp, vc) :: rest =>
      match o_verify_one c_hash st sp vc with
      | (st', Err e) => (st', Err e)
      | (st', Ok t) => o_verify_loop c_hash st' rest (tau ++ t)
      end
  end.
(** verifier.rs:218-320 [ProofVerifier::verify] *)
Definition o_verify (v : verifier C) (pf : proof C) (nonce : Z) : verifier C * res bool :=
  match check_verify_params C (vf_creds v) pf with
  | Err e => (v, Err e)
  | Ok _ =>
      let (st, r) := o_verify_loop (pf_c_hash pf) (vf_common v) (combine (pf_proofs pf) (vf_creds v)) [] in
      (mkVerifier (vf_creds v) st,
       let! tau := r in
       let c_hver := o_get_hash_as_int H (tau ++ pf_c_list pf ++ [ob_to_bytes nonce]) in
       Ok (ob_eqb c_hver (pf_c_hash pf)))
  end.
End Proof_.
End ClO.

(** Model of the primary (Camenisch-Lysyanskaya) part of libursa/src/cl:
    issuer.rs, prover.rs, verifier.rs, helpers.rs and the data types of mod.rs.

    Conventions.  A [BigNumber] is an integer and its operations are those of
    BnModel (the rust backend).  [H] is SHA-256 and [isp] the primality test of
    the backend: both are arbitrary functions.  Values drawn from the random
    number generator are explicit arguments; a value drawn once per attribute is a
    function of the attribute name.  [trace!], clones and [new_context] are dropped. *)
From Verif Require Import Base BnModel HelpersModel StrMap.
Open Scope string_scope.
Open Scope list_scope.
Open Scope Z_scope.

(** cl/hash.rs:4-12 [get_hash_as_int] *)
Definition get_hash_as_int (H : list Z -> list Z) (nums : list (list Z)) : Z := bn_from_bytes (bn_hash_array H nums).

(** utils/commitment.rs:16-31 [get_pedersen_commitment] *)
Definition get_pedersen_commitment (gen_1 m gen_2 r modulus : Z) : res Z :=
  let! x := bn_mod_exp gen_1 m modulus in
  let! y := bn_mod_exp gen_2 r modulus in
  bn_mod_mul x y modulus.

(** ** Data types *)
(** mod.rs:97-109 [CredentialValue] *)
Inductive cred_value := Known (value : Z) | Hidden (value : Z) | Commitment (value blinding_factor : Z).
(** mod.rs:131-158 *)
Definition is_known (v : cred_value) : bool := match v with Known _ => true | _ => false end.
Definition is_hidden (v : cred_value) : bool := match v with Hidden _ => true | _ => false end.
Definition is_commitment (v : cred_value) : bool := match v with Commitment _ _ => true | _ => false end.
Definition cv_value (v : cred_value) : Z := match v with Known x => x | Hidden x => x | Commitment x _ => x end.
(** mod.rs:163-165 [CredentialValues]: a BTreeMap *)
Definition cred_values := smap cred_value.

(** mod.rs:318-324 [CredentialPrimaryPublicKey]; [pk_r] is a HashMap: any order *)
Record ppk := mkPPK { pk_n : Z; pk_s : Z; pk_r : smap Z; pk_rctxt : Z; pk_z : Z }.
(** mod.rs:369-372 *)
Record psk := mkPSK { sk_p : Z; sk_q : Z }.
(** mod.rs:376-379 *)
Record pmeta := mkPMeta { xz : Z; xr : smap Z }.
(** mod.rs:384-388 *)
Record kcp := mkKCP { kc_c : Z; kc_xz_cap : Z; kc_xr_cap : list (string * Z) }.
(** mod.rs:625-630 *)
Record psig := mkPSig { sg_m2 : Z; sg_a : Z; sg_e : Z; sg_v : Z }.
(** mod.rs:657-660 *)
Record scp := mkSCP { sc_se : Z; sc_c : Z }.
(** mod.rs:799-804, without the revocation part [ur] (see ClRevModel) *)
Record blinded := mkBlinded { bl_u : Z; bl_hidden : sset; bl_committed : smap Z }.
(** mod.rs:850-855 *)
Record bproof := mkBProof { bp_c : Z; bp_v_dash_cap : Z; bp_m_caps : smap Z; bp_r_caps : smap Z }.
(** mod.rs:933-938 *)
Record predicate := mkPred { p_attr : string; p_type : predicate_type; p_value : Z }.
(** mod.rs:872-875 *)
Record subreq := mkSubReq { rq_revealed : sset; rq_predicates : list predicate }.
(** mod.rs:1135-1145 *)
Record eqinit := mkEqInit { ei_a_prime : Z; ei_t : Z; ei_e_tilde : Z; ei_e_prime : Z; ei_v_tilde : Z; ei_v_prime : Z;
                            ei_m_tilde : smap Z; ei_m2_tilde : Z; ei_m2 : Z }.
(** mod.rs:1158-1168 *)
Record neinit := mkNeInit { ni_c_list : list Z; ni_tau_list : list Z; ni_u : smap Z; ni_u_tilde : smap Z; ni_r : smap Z;
                            ni_r_tilde : smap Z; ni_alpha_tilde : Z; ni_predicate : predicate; ni_t : smap Z }.
(** mod.rs:1091-1094 *)
Record pinit := mkPInit { pi_eq : eqinit; pi_ne : list neinit }.
(** mod.rs:1023-1030 *)
Record eqproof := mkEqProof { ep_revealed : smap Z; ep_a_prime : Z; ep_e : Z; ep_v : Z; ep_m : smap Z; ep_m2 : Z }.
(** mod.rs:1064-1071 *)
Record neproof := mkNeProof { np_u : smap Z; np_r : smap Z; np_mj : Z; np_alpha : Z; np_t : smap Z; np_predicate : predicate }.
(** mod.rs:1015-1019 *)
Record pproof := mkPProof { pp_eq : eqproof; pp_ne : list neproof }.

Section Cl.
Variable H : list Z -> list Z.   (* SHA-256 *)
Variable isp : Z -> bool.        (* BigNumber::is_prime *)

(** ** Issuer: keys *)
(** issuer.rs:774-832 [_new_credential_primary_keys].  Draws: the two safe primes,
    the [random_qr] draw, and the [gen_x] draws for xz, each attribute and rctxt (a
    name occurring in both schemas is drawn twice, the second value is kept). *)
Definition new_credential_primary_keys (schema non_schema : sset)
    (p_safe q_safe s_draw xz_draw : Z) (xr_draw : string -> Z) (xrctxt_draw : Z) : res (ppk * psk * pmeta) :=
  match schema with
  | [] => Err InvalidStructure
  | _ =>
      let p := bn_rshift1 p_safe in
      let q := bn_rshift1 q_safe in
      let n := bn_mul p_safe q_safe in
      let! s := bn_random_qr n s_draw in
      let xz := gen_x p q xz_draw in
      let xr := fold_left (fun m a => hm_insert a (gen_x p q (xr_draw a)) m) (non_schema ++ schema) [] in
      let! r := rfold (fun m '(k, x) => let! y := bn_mod_exp s x n in Ok (hm_insert k y m)) xr [] in
      let! z := bn_mod_exp s xz n in
      let! rctxt := bn_mod_exp s (gen_x p q xrctxt_draw) n in
      Ok (mkPPK n s r rctxt z, mkPSK p q, mkPMeta xz xr)
  end.

(** issuer.rs:877-947 [_new_credential_key_correctness_proof] *)
Definition new_key_correctness_proof (pk : ppk) (sk : psk) (meta : pmeta) (xz_draw : Z) (xr_draw : string -> Z) : res kcp :=
  let xz_tilda := gen_x (sk_p sk) (sk_q sk) xz_draw in
  let xr_tilda := fold_left (fun m k => hm_insert k (gen_x (sk_p sk) (sk_q sk) (xr_draw k)) m) (sm_keys (pk_r pk)) [] in
  let! z_tilda := bn_mod_exp (pk_s pk) xz_tilda (pk_n pk) in
  let! r_tilda := rfold (fun m '(k, x) => let! y := bn_mod_exp (pk_s pk) x (pk_n pk) in Ok (hm_insert k y m)) xr_tilda [] in
  let ordered_attrs := sm_keys (pk_r pk) in
  let! tail := rmap (fun a => let! v := sm_index a r_tilda in Ok (bn_to_bytes v)) ordered_attrs in
  let values := bn_to_bytes (pk_z pk) ++ concat (map (fun kv => bn_to_bytes (snd kv)) (pk_r pk))
                ++ bn_to_bytes z_tilda ++ concat tail in
  let c := get_hash_as_int H [values] in
  let xz_cap := bn_add (bn_mul c (xz meta)) xz_tilda in
  let! xr_cap := rmap (fun k => let! t := sm_index k xr_tilda in
                               let! x := sm_index k (xr meta) in
                               Ok (k, bn_add (bn_mul c x) t)) ordered_attrs in
  Ok (mkKCP c xz_cap xr_cap).

(** prover.rs:306-398 [_check_credential_key_correctness_proof] *)
Definition check_key_correctness_proof (pk : ppk) (pr : kcp) : res unit :=
  let names := map fst (kc_xr_cap pr) in
  if existsb (fun k => negb (ss_mem k names) && negb (String.eqb k "master_secret")) (sm_keys (pk_r pk)) then Err InvalidStructure
  else if existsb (fun k => negb (sm_mem k (pk_r pk))) names then Err InvalidStructure
  else
    let! z_inverse := bn_inverse (pk_z pk) (pk_n pk) in
    let! z_cap := get_pedersen_commitment z_inverse (kc_c pr) (pk_s pk) (kc_xz_cap pr) (pk_n pk) in
    let! rs := rmap (fun '(k, x) =>
                 let! r_value := sm_index k (pk_r pk) in
                 let! r_inverse := bn_inverse r_value (pk_n pk) in
                 let! v := get_pedersen_commitment r_inverse (kc_c pr) (pk_s pk) x (pk_n pk) in
                 Ok (r_value, v)) (kc_xr_cap pr) in
    let values := bn_to_bytes (pk_z pk) ++ concat (map (fun rv => bn_to_bytes (fst rv)) rs)
                  ++ bn_to_bytes z_cap ++ concat (map (fun rv => bn_to_bytes (snd rv)) rs) in
    let c := get_hash_as_int H [values] in
    if kc_c pr =? c then Ok tt else Err InvalidStructure.

(** ** Prover: blinding *)
(** prover.rs:400-473 [_generate_blinded_primary_credential_secrets_factors];
    [v_prime] is the bn_rand(LARGE_VPRIME) draw *)
Definition generate_blinded_primary_factors (pk : ppk) (vals : cred_values) (v_prime : Z) : res blinded :=
  let hidden_attributes := sm_keys (filter (fun kv => is_hidden (snd kv)) vals) in
  let! u0 := bn_mod_exp (pk_s pk) v_prime (pk_n pk) in
  let! u := rfold (fun acc attr =>
      let! pk_r := sm_get_or InvalidStructure attr (pk_r pk) in
      let! cv := sm_index attr vals in
      let! y := bn_mod_exp pk_r (cv_value cv) (pk_n pk) in
      bn_mod_mul acc y (pk_n pk)) hidden_attributes u0 in
  let! committed := rfold (fun m '(attr, cv) =>
      match cv with
      | Commitment value blinding_factor =>
          let! y := get_pedersen_commitment (pk_s pk) blinding_factor (pk_z pk) value (pk_n pk) in
          Ok (bt_insert attr y m)
      | _ => Ok m
      end) (filter (fun kv => is_commitment (snd kv)) vals) [] in
  Ok (mkBlinded u hidden_attributes committed).

(** prover.rs:494-622 [_new_blinded_credential_secrets_correctness_proof]; draws:
    [v_dash_tilde], and per attribute [m_t], [r_t] *)
Definition new_blinded_correctness_proof (pk : ppk) (bl : blinded) (v_prime : Z) (nonce : Z) (vals : cred_values)
    (v_dash_tilde : Z) (m_t r_t : string -> Z) : res bproof :=
  let! u_tilde0 := bn_mod_exp (pk_s pk) v_dash_tilde (pk_n pk) in
  let! (u_tilde, values, m_tildes, r_tildes) :=
    rfold (fun '(u_tilde, values, m_tildes, r_tildes) '(attr, cv) =>
      let m_tilde := m_t attr in
      let! pk_r := sm_get_or InvalidStructure attr (pk_r pk) in
      match cv with
      | Hidden _ =>
          let! y := bn_mod_exp pk_r m_tilde (pk_n pk) in
          let! u_tilde' := bn_mod_mul u_tilde y (pk_n pk) in
          Ok (u_tilde', values, bt_insert attr m_tilde m_tildes, r_tildes)
      | Commitment _ _ =>
          let r_tilde := r_t attr in
          let! commitment_tilde := get_pedersen_commitment (pk_z pk) m_tilde (pk_s pk) r_tilde (pk_n pk) in
          let! ca_value := sm_get_or InvalidStructure attr (bl_committed bl) in
          Ok (u_tilde, values ++ bn_to_bytes commitment_tilde ++ bn_to_bytes ca_value,
              bt_insert attr m_tilde m_tildes, bt_insert attr r_tilde r_tildes)
      | Known _ => Ok (u_tilde, values, bt_insert attr m_tilde m_tildes, r_tildes)
      end) (filter (fun kv => is_hidden (snd kv) || is_commitment (snd kv)) vals) (u_tilde0, [], [], []) in
  let values := values ++ bn_to_bytes (bl_u bl) ++ bn_to_bytes u_tilde ++ bn_to_bytes nonce in
  let c := get_hash_as_int H [values] in
  let v_dash_cap := bn_add (bn_mul c v_prime) v_dash_tilde in
  let! (m_caps, r_caps) :=
    rfold (fun '(m_caps, r_caps) '(attr, m_tilde) =>
      let! ca := sm_get_or InvalidStructure attr vals in
      match ca with
      | Hidden value => Ok (bt_insert attr (bn_add m_tilde (bn_mul c value)) m_caps, r_caps)
      | Commitment value blinding_factor =>
          let! rt := sm_index attr r_tildes in
          Ok (bt_insert attr (bn_add m_tilde (bn_mul c value)) m_caps,
              bt_insert attr (bn_add rt (bn_mul c blinding_factor)) r_caps)
      | Known _ => Ok (m_caps, r_caps)
      end) m_tildes ([], []) in
  Ok (mkBProof c v_dash_cap m_caps r_caps).

(** issuer.rs:1011-1101 [_check_blinded_credential_secrets_correctness_proof] *)
Definition check_blinded_correctness_proof (bl : blinded) (pr : bproof) (nonce : Z) (pk : ppk) : res unit :=
  let! u_inv := bn_inverse (bl_u bl) (pk_n pk) in
  let! x := bn_mod_exp u_inv (bp_c pr) (pk_n pk) in
  let! y := bn_mod_exp (pk_s pk) (bp_v_dash_cap pr) (pk_n pk) in
  let! u0 := bn_mod_mul x y (pk_n pk) in
  let! u_cap := rfold (fun acc attr =>
      let! pk_r := sm_get_or InvalidStructure attr (pk_r pk) in
      let! m_cap := sm_index attr (bp_m_caps pr) in
      let! y := bn_mod_exp pk_r m_cap (pk_n pk) in
      bn_mod_mul acc y (pk_n pk)) (bl_hidden bl) u0 in
  let! values := rfold (fun values '(key, value) =>
      let! m_cap := sm_index key (bp_m_caps pr) in
      let! v_inv := bn_inverse value (pk_n pk) in
      let! x := bn_mod_exp v_inv (bp_c pr) (pk_n pk) in
      let! r_cap := sm_index key (bp_r_caps pr) in
      let! y := get_pedersen_commitment (pk_z pk) m_cap (pk_s pk) r_cap (pk_n pk) in
      let! comm_att_cap := bn_mod_mul x y (pk_n pk) in
      Ok (values ++ bn_to_bytes comm_att_cap ++ bn_to_bytes value)) (bl_committed bl) [] in
  let values := values ++ bn_to_bytes (bl_u bl) ++ bn_to_bytes u_cap ++ bn_to_bytes nonce in
  let c := get_hash_as_int H [values] in
  if bp_c pr =? c then Ok tt else Err InvalidStructure.

(** ** Issuer: signature *)
(** issuer.rs:1104-1131 [_gen_credential_context]; [show_i32] renders an i32 in
    decimal; strings are their UTF-8 bytes *)
Definition i32_of_u32 (x : Z) : Z := wrap_i32 x.
Definition gen_credential_context (prover_id : list Z) (rev_idx : option Z) : Z :=
  let rev_idx := match rev_idx with Some i => i32_of_u32 i | None => -1 end in
  let prover_id_bn := encode_attribute H prover_id true in
  let rev_idx_bn := encode_attribute H (bn_to_dec rev_idx) true in
  get_hash_as_int H [bn_to_bytes prover_id_bn ++ bn_to_bytes rev_idx_bn].

(** issuer.rs:1172-1248 [_sign_primary_credential] *)
Definition sign_primary_credential (pk : ppk) (sk : psk) (cred_context : Z) (vals : cred_values) (v : Z) (bl : blinded) (e : Z)
  : res (Z * Z) :=
  let! rx := bn_mod_exp (pk_s pk) v (pk_n pk) in
  let! rx := (if bl_u bl =? 0 then Ok rx else bn_mod_mul rx (bl_u bl) (pk_n pk)) in
  let! y := bn_mod_exp (pk_rctxt pk) cred_context (pk_n pk) in
  let! rx := bn_mod_mul rx y (pk_n pk) in
  let! rx := rfold (fun rx '(key, attr) =>
      let! pk_r := sm_get_or InvalidStructure key (pk_r pk) in
      let! y := bn_mod_exp pk_r (cv_value attr) (pk_n pk) in
      bn_mod_mul y rx (pk_n pk)) (filter (fun kv => is_known (snd kv)) vals) rx in
  let! q := bn_mod_div (pk_z pk) rx (pk_n pk) in
  let n := bn_mul (sk_p sk) (sk_q sk) in
  let! e_inverse := bn_inverse e n in
  let! a := bn_mod_exp q e_inverse (pk_n pk) in
  Ok (a, q).

(** issuer.rs:1133-1170 [_new_primary_credential]; [v] is the result of
    [generate_v_prime_prime], [e_draws] the draws of [generate_prime_in_range] *)
Definition new_primary_credential (cred_context : Z) (pk : ppk) (sk : psk) (bl : blinded) (vals : cred_values)
    (v_draw : Z) (e_draws : list Z) : res (psig * Z) :=
  let v := generate_v_prime_prime v_draw in
  let! e := bn_generate_prime_in_range isp LARGE_E_START_VALUE LARGE_E_END_RANGE_VALUE e_draws in
  let! (a, q) := sign_primary_credential pk sk cred_context vals v bl e in
  Ok (mkPSig cred_context a e v, q).

(** issuer.rs:1250-1293 [_new_signature_correctness_proof]; [r] is the draw in [0, p*q) *)
Definition new_signature_correctness_proof (pk : ppk) (sk : psk) (sg : psig) (q nonce r : Z) : res scp :=
  let n := bn_mul (sk_p sk) (sk_q sk) in
  let! a_cap := bn_mod_exp q r (pk_n pk) in
  let values := bn_to_bytes q ++ bn_to_bytes (sg_a sg) ++ bn_to_bytes a_cap ++ bn_to_bytes nonce in
  let c := get_hash_as_int H [values] in
  let! e_inv := bn_inverse (sg_e sg) n in
  let! ce := bn_mod_mul c e_inv n in
  let! se := bn_mod_sub r ce n in
  Ok (mkSCP se c).

(** issuer.rs:246-310 [sign_credential] (no revocation) *)
Definition sign_credential (prover_id : list Z) (bl : blinded) (pr : bproof) (nonce issuance_nonce : Z) (vals : cred_values)
    (pk : ppk) (sk : psk) (v_draw : Z) (e_draws : list Z) (r_draw : Z) : res (psig * scp) :=
  let! _ := check_blinded_correctness_proof bl pr nonce pk in
  let ctx := gen_credential_context prover_id None in
  let! (sg, q) := new_primary_credential ctx pk sk bl vals v_draw e_draws in
  let! sp := new_signature_correctness_proof pk sk sg q issuance_nonce r_draw in
  Ok (sg, sp).

(** prover.rs:624-639 [_process_primary_credential] *)
Definition process_primary_credential (sg : psig) (v_prime : Z) : psig :=
  mkPSig (sg_m2 sg) (sg_a sg) (sg_e sg) (bn_add v_prime (sg_v sg)).

(** prover.rs:668-777 [_check_signature_correctness_proof] *)
Definition check_signature_correctness_proof (sg : psig) (vals : cred_values) (sp : scp) (pk : ppk) (nonce : Z) : res unit :=
  if negb (isp (sg_e sg)) then Err InvalidStructure
  else if existsb (fun kv => (is_known (snd kv) || is_hidden (snd kv)) && negb (sm_mem (fst kv) (pk_r pk))) vals
  then Err InvalidStructure
  else
    let! rx0 := get_pedersen_commitment (pk_s pk) (sg_v sg) (pk_rctxt pk) (sg_m2 sg) (pk_n pk) in
    let! rx := rfold (fun acc '(attr, value) =>
        let! pk_r := sm_index attr (pk_r pk) in
        let! y := bn_mod_exp pk_r (cv_value value) (pk_n pk) in
        bn_mod_mul acc y (pk_n pk))
      (filter (fun kv => (is_known (snd kv) || is_hidden (snd kv)) && sm_mem (fst kv) (pk_r pk)) vals) rx0 in
    let! q := bn_mod_div (pk_z pk) rx (pk_n pk) in
    let! expected_q := bn_mod_exp (sg_a sg) (sg_e sg) (pk_n pk) in
    if negb (q =? expected_q) then Err InvalidStructure
    else
      let degree := bn_add (sc_c sp) (bn_mul (sc_se sp) (sg_e sg)) in
      let! a_cap := bn_mod_exp (sg_a sg) degree (pk_n pk) in
      let values := bn_to_bytes q ++ bn_to_bytes (sg_a sg) ++ bn_to_bytes a_cap ++ bn_to_bytes nonce in
      let c := get_hash_as_int H [values] in
      if sc_c sp =? c then Ok tt else Err InvalidStructure.

(** ** Presentation: shared formulas *)
(** helpers.rs:315-364 [calc_teq] *)
Definition calc_teq (pk : ppk) (a_prime e v : Z) (m_tilde : smap Z) (m2tilde : Z) (unrevealed_attrs : list string) : res Z :=
  let! result := bn_mod_exp a_prime e (pk_n pk) in
  let! result := rfold (fun result k =>
      let! cur_r := sm_get_or InvalidStructure k (pk_r pk) in
      let! cur_m := sm_get_or InvalidStructure k m_tilde in
      let! y := bn_mod_exp cur_r cur_m (pk_n pk) in
      bn_mod_mul y result (pk_n pk)) unrevealed_attrs result in
  let! y := bn_mod_exp (pk_s pk) v (pk_n pk) in
  let! result := bn_mod_mul y result (pk_n pk) in
  let! y := bn_mod_exp (pk_rctxt pk) m2tilde (pk_n pk) in
  bn_mod_mul y result (pk_n pk).

(** [i.to_string()] for i in 0..ITERATION *)
Definition iter_keys : list string := ["0"; "1"; "2"; "3"].

(** helpers.rs:366-470 [calc_tne] *)
Definition calc_tne (pk : ppk) (u r : smap Z) (mj alpha : Z) (t : smap Z) (is_less : bool) : res (list Z) :=
  let! taus := rmap (fun i =>
      let! cur_u := sm_get_or InvalidStructure i u in
      let! cur_r := sm_get_or InvalidStructure i r in
      let! x := bn_mod_exp (pk_z pk) cur_u (pk_n pk) in
      let! y := bn_mod_exp (pk_s pk) cur_r (pk_n pk) in
      bn_mod_mul x y (pk_n pk)) iter_keys in
  let! delta := sm_get_or InvalidStructure "DELTA" r in
  let delta_predicate := if is_less then bn_set_negative delta true else delta in
  let! x := bn_mod_exp (pk_z pk) mj (pk_n pk) in
  let! y := bn_mod_exp (pk_s pk) delta_predicate (pk_n pk) in
  let! t_tau := bn_mod_mul x y (pk_n pk) in
  let! q := rfold (fun q i =>
      let! cur_t := sm_get_or InvalidStructure i t in
      let! cur_u := sm_get_or InvalidStructure i u in
      let! x := bn_mod_exp cur_t cur_u (pk_n pk) in
      Ok (bn_mul x q)) iter_keys 1 in
  let! x := bn_mod_exp (pk_s pk) alpha (pk_n pk) in
  let! q := bn_mod_mul x q (pk_n pk) in
  Ok (taus ++ [t_tau; q]).

(** helpers.rs:295-313 [get_mtilde]; [draw] gives the bn_rand(LARGE_MVECT) value *)
Definition get_mtilde (draw : string -> Z) (unrevealed_attrs : list string) (m_tilde : smap Z) : smap Z :=
  fold_left (fun m attr => if sm_mem attr m then m else hm_insert attr (draw attr) m) unrevealed_attrs m_tilde.

(** prover.rs:1344-1351 / 1561-1568, verifier.rs: all schema attributes that are not revealed *)
Definition unrevealed (non_schema schema : sset) (req : subreq) : sset :=
  ss_diff (ss_union non_schema schema) (rq_revealed req).

(** prover.rs:1145-1212 [ProofBuilder::_check_add_sub_proof_request_params_consistency] *)
Definition predicate_attrs (req : subreq) : sset := ss_of_list (map p_attr (rq_predicates req)).
Definition builder_check (vals : cred_values) (req : subreq) (schema non_schema : sset) : res unit :=
  let schema_attrs := ss_union non_schema schema in
  let cred_attrs := ss_of_list (sm_keys vals) in
  if negb (ss_eqb schema_attrs cred_attrs) then Err InvalidStructure
  else if negb (Nat.eqb (length (ss_diff (rq_revealed req) cred_attrs)) 0) then Err InvalidStructure
  else if negb (Nat.eqb (length (ss_diff (predicate_attrs req) cred_attrs)) 0) then Err InvalidStructure
  else if negb (Nat.eqb (length (ss_inter (predicate_attrs req) (rq_revealed req))) 0) then Err InvalidStructure
  else Ok tt.

(** random draws of [_init_eq_proof] *)
Record eqrand := mkEqRand { er_m2_tilde : Z; er_r : Z; er_e_tilde : Z; er_v_tilde : Z; er_m : string -> Z }.
(** prover.rs:1313-1394 [_init_eq_proof] *)
Definition init_eq_proof (common : smap Z) (pk : ppk) (c1 : psig) (schema non_schema : sset) (req : subreq) (m2_t : option Z)
    (rnd : eqrand) : res eqinit :=
  let m2_tilde := match m2_t with Some x => x | None => er_m2_tilde rnd end in
  let r := er_r rnd in
  let unrevealed_attrs := unrevealed non_schema schema req in
  let m_tilde := get_mtilde (er_m rnd) unrevealed_attrs common in
  let! x := bn_mod_exp (pk_s pk) r (pk_n pk) in
  let! a_prime := bn_mod_mul x (sg_a c1) (pk_n pk) in
  let e_prime := bn_sub (sg_e c1) LARGE_E_START_VALUE in
  let v_prime := bn_sub (sg_v c1) (bn_mul (sg_e c1) r) in
  let! t := calc_teq pk a_prime (er_e_tilde rnd) (er_v_tilde rnd) m_tilde m2_tilde unrevealed_attrs in
  Ok (mkEqInit a_prime t (er_e_tilde rnd) e_prime (er_v_tilde rnd) v_prime m_tilde m2_tilde (sg_m2 c1)).

(** [to_dec()?.parse::<i32>()]: succeeds exactly on the decimal numerals of an i32 *)
Definition parse_i32 (x : Z) : res Z := if (- 2 ^ 31 <=? x) && (x <? 2 ^ 31) then Ok x else Err InvalidStructure.

(** random draws of [_init_ne_proof] *)
Record nerand := mkNeRand { nr_r : string -> Z; nr_u_tilde : string -> Z; nr_r_tilde : string -> Z; nr_alpha_tilde : Z }.
(** prover.rs:1396-1531 [_init_ne_proof] *)
Definition init_ne_proof (pk : ppk) (m_tilde : smap Z) (vals : cred_values) (p : predicate) (rnd : nerand) : res neinit :=
  let! cv := sm_get_or InvalidStructure (p_attr p) vals in
  let! attr_value := parse_i32 (cv_value cv) in
  let delta := get_delta (p_type p) (p_value p) attr_value in
  if delta <? 0 then Err InvalidStructure
  else
    let! (u0, u1, u2, u3) := four_squares delta in
    let u := [("0", u0); ("1", u1); ("2", u2); ("3", u3)] in
    let! (r, t, c_list) := rfold (fun '(r, t, c_list) i =>
        let! cur_u := sm_get_or InvalidStructure i u in
        let cur_r := nr_r rnd i in
        let! cut_t := get_pedersen_commitment (pk_z pk) cur_u (pk_s pk) cur_r (pk_n pk) in
        Ok (hm_insert i cur_r r, hm_insert i cut_t t, c_list ++ [cut_t])) iter_keys ([], [], []) in
    let r_delta := nr_r rnd "DELTA" in
    let! t_delta := get_pedersen_commitment (pk_z pk) delta (pk_s pk) r_delta (pk_n pk) in
    let r := hm_insert "DELTA" r_delta r in
    let t := hm_insert "DELTA" t_delta t in
    let c_list := (c_list ++ [t_delta])%list in
    let u_tilde := fold_left (fun m i => hm_insert i (nr_u_tilde rnd i) m) iter_keys [] in
    let r_tilde := fold_left (fun m i => hm_insert i (nr_r_tilde rnd i) m) iter_keys [] in
    let r_tilde := hm_insert "DELTA" (nr_r_tilde rnd "DELTA") r_tilde in
    let! mj := sm_get_or InvalidStructure (p_attr p) m_tilde in
    let! tau_list := calc_tne pk u_tilde r_tilde mj (nr_alpha_tilde rnd) t (is_less (p_type p)) in
    Ok (mkNeInit c_list tau_list u u_tilde r r_tilde (nr_alpha_tilde rnd) p t).

(** prover.rs:1214-1275 [_init_primary_proof] *)
Definition init_primary_proof (common : smap Z) (pk : ppk) (c1 : psig) (vals : cred_values) (schema non_schema : sset)
    (req : subreq) (m2_t : option Z) (rnd : eqrand) (nrnd : predicate -> nerand) : res pinit :=
  let! eq_proof := init_eq_proof common pk c1 schema non_schema req m2_t rnd in
  let! ne_proofs := rmap (fun p => init_ne_proof pk (ei_m_tilde eq_proof) vals p (nrnd p)) (rq_predicates req) in
  Ok (mkPInit eq_proof ne_proofs).

(** mod.rs:1097-1112 [as_c_list], [as_tau_list] *)
Definition pinit_c_list (p : pinit) : list (list Z) :=
  bn_to_bytes (ei_a_prime (pi_eq p)) :: concat (map (fun ne => map bn_to_bytes (ni_c_list ne)) (pi_ne p)).
Definition pinit_tau_list (p : pinit) : list (list Z) :=
  bn_to_bytes (ei_t (pi_eq p)) :: concat (map (fun ne => map bn_to_bytes (ni_tau_list ne)) (pi_ne p)).

(** prover.rs:1533-1633 [_finalize_eq_proof] *)
Definition finalize_eq_proof (ip : eqinit) (challenge : Z) (schema non_schema : sset) (vals : cred_values) (req : subreq)
  : res eqproof :=
  let e := bn_add (bn_mul challenge (ei_e_prime ip)) (ei_e_tilde ip) in
  let v := bn_add (bn_mul challenge (ei_v_prime ip)) (ei_v_tilde ip) in
  let! m_hat := rfold (fun m k =>
      let! cur_mtilde := sm_get_or InvalidStructure k (ei_m_tilde ip) in
      let! cur_val := sm_get_or InvalidStructure k vals in
      Ok (hm_insert k (bn_add (bn_mul challenge (cv_value cur_val)) cur_mtilde) m)) (unrevealed non_schema schema req) [] in
  let m2 := bn_add (bn_mul challenge (ei_m2 ip)) (ei_m2_tilde ip) in
  let! revealed := rfold (fun m attr =>
      let! cv := sm_get_or InvalidStructure attr vals in
      Ok (bt_insert attr (cv_value cv) m)) (rq_revealed req) [] in
  Ok (mkEqProof revealed (ei_a_prime ip) e v m_hat m2).

(** prover.rs:1635-1695 [_finalize_ne_proof] *)
Definition finalize_ne_proof (c_h : Z) (ip : neinit) (eq : eqproof) : res neproof :=
  let! (u, r, urproduct) := rfold (fun '(u, r, urproduct) i =>
      let! cur_utilde := sm_index i (ni_u_tilde ip) in
      let! cur_u := sm_index i (ni_u ip) in
      let! cur_rtilde := sm_index i (ni_r_tilde ip) in
      let! cur_r := sm_index i (ni_r ip) in
      let new_u := bn_add (bn_mul c_h cur_u) cur_utilde in
      let new_r := bn_add (bn_mul c_h cur_r) cur_rtilde in
      let urproduct := bn_add (bn_mul cur_u cur_r) urproduct in
      let! cur_rtilde_delta := sm_index "DELTA" (ni_r_tilde ip) in
      let! rd := sm_index "DELTA" (ni_r ip) in
      let new_delta := bn_add (bn_mul c_h rd) cur_rtilde_delta in
      Ok (hm_insert i new_u u, hm_insert "DELTA" new_delta (hm_insert i new_r r), urproduct)) iter_keys ([], [], 0) in
  let! rd := sm_index "DELTA" (ni_r ip) in
  let alpha := bn_add (bn_mul (bn_sub rd urproduct) c_h) (ni_alpha_tilde ip) in
  let! mj := sm_index (p_attr (ni_predicate ip)) (ep_m eq) in
  Ok (mkNeProof u r mj alpha (ni_t ip) (ni_predicate ip)).

(** prover.rs:1697-1741 [_finalize_primary_proof] *)
Definition finalize_primary_proof (ip : pinit) (challenge : Z) (schema non_schema : sset) (vals : cred_values) (req : subreq)
  : res pproof :=
  let! eq := finalize_eq_proof (pi_eq ip) challenge schema non_schema vals req in
  let! nes := rmap (fun ne => finalize_ne_proof challenge ne eq) (pi_ne ip) in
  Ok (mkPProof eq nes).

(** ** Verifier *)
(** verifier.rs:446-506 [_verify_equality] *)
Definition verify_equality (pk : ppk) (proof : eqproof) (c_hash : Z) (schema non_schema : sset) (req : subreq) : res (list Z) :=
  let unrevealed_attrs := ss_diff (ss_union schema non_schema) (rq_revealed req) in
  let! t1 := calc_teq pk (ep_a_prime proof) (ep_e proof) (ep_v proof) (ep_m proof) (ep_m2 proof) unrevealed_attrs in
  let! rar := bn_mod_exp (ep_a_prime proof) LARGE_E_START_VALUE (pk_n pk) in
  let! rar := rfold (fun rar '(attr, encoded_value) =>
      let! cur_r := sm_get_or ProofRejected attr (pk_r pk) in
      let! y := bn_mod_exp cur_r encoded_value (pk_n pk) in
      bn_mod_mul y rar (pk_n pk)) (ep_revealed proof) rar in
  let! x := bn_mod_div (pk_z pk) rar (pk_n pk) in
  let! x := bn_inverse x (pk_n pk) in
  let! t2 := bn_mod_exp x c_hash (pk_n pk) in
  let! t := bn_mod_mul t1 t2 (pk_n pk) in
  Ok [t].

(** verifier.rs:508-581 [_verify_ne_predicate].  [tau_list] from [calc_tne] always
    has six entries. *)
Definition verify_ne_predicate (pk : ppk) (proof : neproof) (c_hash : Z) : res (list Z) :=
  let p := np_predicate proof in
  let! tau_list := calc_tne pk (np_u proof) (np_r proof) (np_mj proof) (np_alpha proof) (np_t proof) (is_less (p_type p)) in
  let! firsts := rmap (fun '(i, tau) =>
      let! cur_t := sm_get_or ProofRejected i (np_t proof) in
      let! x := bn_mod_exp cur_t c_hash (pk_n pk) in
      let! y := bn_inverse x (pk_n pk) in
      bn_mod_mul y tau (pk_n pk)) (combine iter_keys (firstn ITERATION tau_list)) in
  let! delta := sm_get_or ProofRejected "DELTA" (np_t proof) in
  let! delta_prime := (if is_less (p_type p) then bn_inverse delta (pk_n pk) else Ok delta) in
  let! x := bn_mod_exp (pk_z pk) (get_delta_prime (p_type p) (p_value p)) (pk_n pk) in
  let! x := bn_mod_exp (bn_mul x delta_prime) c_hash (pk_n pk) in
  let! x := bn_inverse x (pk_n pk) in
  let! t4 := bn_mod_mul x (nth ITERATION tau_list 0) (pk_n pk) in
  let! y := bn_mod_exp delta c_hash (pk_n pk) in
  let! y := bn_inverse y (pk_n pk) in
  let! t5 := bn_mod_mul y (nth (ITERATION + 1) tau_list 0) (pk_n pk) in
  Ok (firsts ++ [t4; t5]).

(** verifier.rs:412-444 [_verify_primary_proof] *)
Definition verify_primary_proof (pk : ppk) (c_hash : Z) (proof : pproof) (schema non_schema : sset) (req : subreq) : res (list Z) :=
  let! t_hat := verify_equality pk (pp_eq proof) c_hash schema non_schema req in
  let! rest := rmap (fun ne => verify_ne_predicate pk ne c_hash) (pp_ne proof) in
  Ok (t_hat ++ concat rest).

End Cl.

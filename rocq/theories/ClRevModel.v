(** Model of the revocation part of libursa/src/cl (mod.rs, issuer.rs, prover.rs,
    verifier.rs, helpers.rs).

    Conventions.  The pairing curve is an operation record [curve]: a scalar field
    (GroupOrderElement), groups G1, G2, GT written additively (PointG1, PointG2,
    Pair, whose [mul]/[pow]/[inverse] are madd/smul/mopp), the pairing, the byte
    encodings, and the two conversions between scalars and integers.  The algebraic
    laws are hypotheses of the theorems, not part of the record.  amcl's
    unreduced 256-bit scalars are represented by their class modulo the group order.
    u32 arithmetic wraps (release build).  A HashSet<u32> is a list in iteration
    order.  A tails accessor is any function from index to tail or error; functions
    mutating the registry return the new accumulator also when they fail. *)
From Verif Require Import Base BnModel HelpersModel StrMap ClModel Alg.
Open Scope list_scope.
Open Scope Z_scope.

Record curve := mkCurve {
  cK : fieldOps;
  cG1 : modOps cK; cG2 : modOps cK; cGT : modOps cK;
  pair : cG1 -> cG2 -> cGT;                      (* pair/amcl.rs:544-549 *)
  enc1 : cG1 -> list Z; enc2 : cG2 -> list Z; encT : cGT -> list Z;   (* to_bytes *)
  ofZ : Z -> cK;                                  (* BIG::frombytes *)
  toZ : cK -> Z }.                                (* BIG::tobytes, read big-endian *)
Arguments pair {c}. Arguments enc1 {c}. Arguments enc2 {c}. Arguments encT {c}. Arguments ofZ {c}. Arguments toZ {c}.

Definition u32w (x : Z) : Z := x mod 2 ^ 32.

(** HashSet operations used by the code *)
Definition zs_mem (x : Z) (s : list Z) : bool := existsb (Z.eqb x) s.
Definition zs_insert (x : Z) (s : list Z) : list Z := if zs_mem x s then s else s ++ [x].
Definition zs_extend (s l : list Z) : list Z := fold_left (fun s x => zs_insert x s) l s.
Definition zs_diff (a b : list Z) : list Z := filter (fun x => negb (zs_mem x b)) a.
Definition zs_remove (x : Z) (s : list Z) : list Z := filter (fun y => negb (Z.eqb x y)) s.

Section Types.
Variable C : curve.
Notation K := (cK C). Notation G1 := (cG1 C). Notation G2 := (cG2 C). Notation GT := (cGT C).
(** mod.rs:405-419 *)
Record rpk := mkRPK { rk_g : G1; rk_g_dash : G2; rk_h : G1; rk_h0 : G1; rk_h1 : G1; rk_h2 : G1; rk_htilde : G1;
                      rk_h_cap : G2; rk_u : G2; rk_pk : G1; rk_y : G2 }.
(** mod.rs:421-426 *)
Record rsk := mkRSK { rs_x : K; rs_sk : K }.
(** mod.rs:447-460 *)
Record rdelta := mkDelta { rd_prev : option G2; rd_accum : G2; rd_issued : list Z; rd_revoked : list Z }.
(** mod.rs:767-773 *)
Record witsig := mkWitSig { ws_sigma_i : G2; ws_u_i : G2; ws_g_i : G1 }.
(** mod.rs:643-652 *)
Record rcred := mkRCred { rc_sigma : G1; rc_c : K; rc_vr : K; rc_ws : witsig; rc_g_i : G1; rc_i : Z; rc_m2 : K }.
(** mod.rs:1182-1197 *)
Record xlist := mkX { x_rho : K; x_r : K; x_r1 : K; x_r2 : K; x_r3 : K; x_o : K; x_o1 : K; x_m : K; x_m1 : K; x_t : K; x_t1 : K;
                      x_m2 : K; x_s : K; x_c : K }.
(** mod.rs:1241-1249 *)
Record clist := mkC { cl_e : G1; cl_d : G1; cl_a : G1; cl_g : G1; cl_w : G2; cl_s : G2; cl_u : G2 }.
(** mod.rs:1266-1275 *)
Record taulist := mkTau { ta1 : G1; ta2 : G1; ta3 : GT; ta4 : GT; ta5 : G1; ta6 : G1; ta7 : GT; ta8 : GT }.
(** mod.rs:1115-1120 *)
Record nrinit := mkNrInit { nr_cp : xlist; nr_tp : xlist; nr_cl : clist; nr_tl : taulist }.
(** mod.rs:1074-1079 *)
Record nrproof := mkNrProof { nv_x : xlist; nv_c : clist }.
End Types.
Arguments mkRPK {C}. Arguments rk_g {C}. Arguments rk_g_dash {C}. Arguments rk_h {C}. Arguments rk_h0 {C}. Arguments rk_h1 {C}.
Arguments rk_h2 {C}. Arguments rk_htilde {C}. Arguments rk_h_cap {C}. Arguments rk_u {C}. Arguments rk_pk {C}. Arguments rk_y {C}.
Arguments mkRSK {C}. Arguments rs_x {C}. Arguments rs_sk {C}.
Arguments mkDelta {C}. Arguments rd_prev {C}. Arguments rd_accum {C}. Arguments rd_issued {C}. Arguments rd_revoked {C}.
Arguments mkWitSig {C}. Arguments ws_sigma_i {C}. Arguments ws_u_i {C}. Arguments ws_g_i {C}.
Arguments mkRCred {C}. Arguments rc_sigma {C}. Arguments rc_c {C}. Arguments rc_vr {C}. Arguments rc_ws {C}. Arguments rc_g_i {C}.
Arguments rc_i {C}. Arguments rc_m2 {C}.
Arguments mkX {C}. Arguments x_rho {C}. Arguments x_r {C}. Arguments x_r1 {C}. Arguments x_r2 {C}. Arguments x_r3 {C}. Arguments x_o {C}.
Arguments x_o1 {C}. Arguments x_m {C}. Arguments x_m1 {C}. Arguments x_t {C}. Arguments x_t1 {C}. Arguments x_m2 {C}. Arguments x_s {C}. Arguments x_c {C}.
Arguments mkC {C}. Arguments cl_e {C}. Arguments cl_d {C}. Arguments cl_a {C}. Arguments cl_g {C}. Arguments cl_w {C}. Arguments cl_s {C}. Arguments cl_u {C}.
Arguments mkTau {C}. Arguments ta1 {C}. Arguments ta2 {C}. Arguments ta3 {C}. Arguments ta4 {C}. Arguments ta5 {C}. Arguments ta6 {C}. Arguments ta7 {C}. Arguments ta8 {C}.
Arguments mkNrInit {C}. Arguments nr_cp {C}. Arguments nr_tp {C}. Arguments nr_cl {C}. Arguments nr_tl {C}.
Arguments mkNrProof {C}. Arguments nv_x {C}. Arguments nv_c {C}.

Section Rev.
Variable C : curve.
Notation K := (cK C). Notation G1 := (cG1 C). Notation G2 := (cG2 C). Notation GT := (cGT C).

(** ** scalars *)
(** pair/amcl.rs:485-507 [GroupOrderElement::from_bytes]: at most MODBYTES = 32 bytes *)
Definition goe_from_bytes (b : list Z) : res K :=
  if (32 <? Z.of_nat (length b)) then Err InvalidStructure else Ok (ofZ (bn_from_bytes b)).
(** helpers.rs:539-545 *)
Definition group_element_to_bignum (x : K) : Z := toZ x.
Definition bignum_to_group_element (x : Z) : res K := goe_from_bytes (bn_to_bytes x).
(** [gamma.pow_mod(from_bytes(transform_u32_to_array_of_u8(i)))]: pair/amcl.rs:411-417
    powmod by the integer of the four bytes *)
Definition gpow (gamma : K) (i : Z) : K := fpow gamma (Z.to_nat (bn_from_bytes (transform_u32_to_array_of_u8 i))).

(** ** tails *)
(** mod.rs:525-530 [Tail::new_tail] *)
Definition new_tail (index : Z) (g_dash : G2) (gamma : K) : G2 := smul (gpow gamma index) g_dash.
(** mod.rs:536-541 *)
Record tailgen := mkTailGen { tg_size : Z; tg_cur : Z; tg_g_dash : G2; tg_gamma : K }.
(** mod.rs:544-551 [RevocationTailsGenerator::new] *)
Definition tailgen_new (max_cred_num : Z) (gamma : K) (g_dash : G2) : tailgen := mkTailGen (u32w (2 * max_cred_num + 1)) 0 g_dash gamma.
(** mod.rs:553-555 [count] *)
Definition tailgen_count (t : tailgen) : Z := u32w (tg_size t - tg_cur t).
(** mod.rs:557-567 [try_next] *)
Definition tailgen_next (t : tailgen) : tailgen * option G2 :=
  if (tg_size t <=? tg_cur t) then (t, None)
  else (mkTailGen (tg_size t) (u32w (tg_cur t + 1)) (tg_g_dash t) (tg_gamma t), Some (new_tail (tg_cur t) (tg_g_dash t) (tg_gamma t))).
(** mod.rs:588-597 [SimpleTailsAccessor::new]: the while-let loop; [fuel] bounds the
    number of iterations (theorems use enough of it) *)
Fixpoint tails_collect (fuel : nat) (t : tailgen) : list G2 * tailgen :=
  match fuel with
  | O => ([], t)
  | S f => match tailgen_next t with
           | (t', None) => ([], t')
           | (t', Some x) => let (l, t'') := tails_collect f t' in (x :: l, t'')
           end
  end.
(** mod.rs:580-585 [SimpleTailsAccessor::access_tail]: Vec indexing *)
Definition simple_access (tails : list G2) (i : Z) : res G2 :=
  match nth_error tails (Z.to_nat i) with Some t => Ok t | None => Err Panic end.

(** ** deltas *)
(** mod.rs:463-476 [from_parts] *)
Definition delta_from_parts (from : option G2) (to : G2) (issued revoked : list Z) : rdelta C := mkDelta from to issued revoked.
(** mod.rs:479-504 [merge] *)
Definition delta_merge (self other : rdelta C) : res (rdelta C) :=
  match rd_prev other with
  | None => Err InvalidStructure
  | Some p =>
      if negb (meqb (rd_accum self) p) then Err InvalidStructure
      else
        let issued := zs_extend (rd_issued self) (zs_diff (rd_issued other) (rd_revoked self)) in
        let revoked := zs_extend (rd_revoked self) (zs_diff (rd_revoked other) issued) in
        let issued := fold_left (fun s i => zs_remove i s) (rd_revoked other) issued in
        let revoked := fold_left (fun s i => zs_remove i s) (rd_issued other) revoked in
        Ok (mkDelta (rd_prev self) (rd_accum other) issued revoked)
  end.

(** ** registry operations *)
(** issuer.rs:1295-1297 [_get_index] *)
Definition get_index (max_cred_num rev_idx : Z) : Z := u32w (max_cred_num + 1 - rev_idx).
(** [1..=max] *)
Definition idx_range (max_cred_num : Z) : list Z := map Z.of_nat (seq 1 (Z.to_nat max_cred_num)).
(** issuer.rs:949-979 [_new_revocation_registry] *)
Definition new_revocation_registry (pk : rpk C) (gamma : K) (max_cred_num : Z) (issuance_by_default : bool) : G2 :=
  if issuance_by_default
  then fold_left (fun accum i => madd accum (new_tail (get_index max_cred_num i) (rk_g_dash pk) gamma)) (idx_range max_cred_num) m0
  else m0.
(** issuer.rs:981-1009 [_new_revocation_registry_keys]: the public key z *)
Definition new_revocation_key_public (pk : rpk C) (gamma : K) (max_cred_num : Z) : GT :=
  smul (gpow gamma (u32w (max_cred_num + 1))) (pair (rk_g pk) (rk_g_dash pk)).

(** a loop of [access_tail] calls updating a point; stops at the first error *)
Fixpoint access_loop (access : Z -> res G2) (op : G2 -> G2 -> G2) (idxs : list Z) (accum : G2) : G2 * res unit :=
  match idxs with
  | [] => (accum, Ok tt)
  | i :: rest => match access i with
                 | Ok t => access_loop access op rest (op accum t)
                 | Err e => (accum, Err e)
                 end
  end.
(** issuer.rs:522-560 [revoke_credential] *)
Definition revoke_credential (accum : G2) (max_cred_num rev_idx : Z) (access : Z -> res G2) : G2 * res (rdelta C) :=
  match access_loop access msub [get_index max_cred_num rev_idx] accum with
  | (accum', Ok _) => (accum', Ok (mkDelta (Some accum) accum' [] [rev_idx]))
  | (accum', Err e) => (accum', Err e)
  end.
(** issuer.rs:623-661 [recovery_credential] *)
Definition recovery_credential (accum : G2) (max_cred_num rev_idx : Z) (access : Z -> res G2) : G2 * res (rdelta C) :=
  match access_loop access madd [get_index max_cred_num rev_idx] accum with
  | (accum', Ok _) => (accum', Ok (mkDelta (Some accum) accum' [rev_idx] []))
  | (accum', Err e) => (accum', Err e)
  end.
(** issuer.rs:727-772 [update_revocation_registry] *)
Definition update_revocation_registry (accum : G2) (max_cred_num : Z) (issued revoked : list Z) (access : Z -> res G2)
  : G2 * res (rdelta C) :=
  match access_loop access madd (map (get_index max_cred_num) issued) accum with
  | (a1, Err e) => (a1, Err e)
  | (a1, Ok _) =>
      match access_loop access msub (map (get_index max_cred_num) revoked) a1 with
      | (a2, Err e) => (a2, Err e)
      | (a2, Ok _) => (a2, Ok (mkDelta (Some accum) a2 issued revoked))
      end
  end.

(** issuer.rs:834-875 [_new_credential_revocation_keys]; points and scalars are draws *)
Definition new_credential_revocation_keys (g : G1) (g_dash : G2) (h h0 h1 h2 htilde : G1) (h_cap u : G2) (x sk : K) : rpk C * rsk C :=
  (mkRPK g g_dash h h0 h1 h2 htilde h_cap u (smul sk g) (smul x h_cap), mkRSK x sk).

(** issuer.rs:1299-1416 [_new_non_revocation_credential]; draws: vr'' and c *)
Definition new_non_revocation_credential (rev_idx cred_context : Z) (ur : option G1) (r_pub : option (rpk C)) (r_priv : option (rsk C))
    (max_cred_num : Z) (issuance_by_default : bool) (accum : G2) (gamma : K) (access : Z -> res G2) (vr c : K)
  : G2 * res (rcred C * option (rdelta C)) :=
  match ur, r_pub, r_priv with
  | Some ur, Some pk, Some sk =>
      match goe_from_bytes (bn_to_bytes cred_context) with
      | Err e => (accum, Err e)
      | Ok m2 =>
          let g_i := smul (gpow gamma rev_idx) (rk_g pk) in
          let sigma := smul (finv (fadd (rs_x sk) c))
            (madd (madd (madd (madd (rk_h0 pk) (smul m2 (rk_h1 pk))) ur) g_i) (smul vr (rk_h2 pk))) in
          let sigma_i := smul (finv (fadd (rs_sk sk) (gpow gamma rev_idx))) (rk_g_dash pk) in
          let u_i := smul (gpow gamma rev_idx) (rk_u pk) in
          let cred := mkRCred sigma c vr (mkWitSig sigma_i u_i g_i) g_i rev_idx m2 in
          if issuance_by_default then (accum, Ok (cred, None))
          else match access_loop access madd [get_index max_cred_num rev_idx] accum with
               | (accum', Ok _) => (accum', Ok (cred, Some (mkDelta (Some accum) accum' [rev_idx] [])))
               | (accum', Err e) => (accum', Err e)
               end
      end
  | _, _, _ => (accum, Err InvalidStructure)
  end.

(** ** witness *)
(** mod.rs:691-707: index expression *)
Definition wit_index (max_cred_num j rev_idx : Z) : Z := u32w (max_cred_num + 1 - j + rev_idx).
(** mod.rs:677-714 [Witness::new] (a BTreeSet is iterated in order; the order does not
    matter for the result, any list is allowed for the delta's sets) *)
Definition witness_new (rev_idx max_cred_num : Z) (issuance_by_default : bool) (d : rdelta C) (access : Z -> res G2) : res G2 :=
  let issued := if issuance_by_default then filter (fun i => negb (zs_mem i (rd_revoked d))) (idx_range max_cred_num)
                else rd_issued d in
  let issued := zs_remove rev_idx issued in
  let (omega, r) := access_loop access madd (map (fun j => wit_index max_cred_num j rev_idx) issued) m0 in
  let! _ := r in Ok omega.
(** mod.rs:716-764 [Witness::update] *)
Definition witness_update (omega : G2) (rev_idx max_cred_num : Z) (d : rdelta C) (access : Z -> res G2) : res G2 :=
  let (denom, r1) := access_loop access madd (map (fun j => wit_index max_cred_num j rev_idx) (zs_remove rev_idx (rd_revoked d))) m0 in
  let! _ := r1 in
  let (num, r2) := access_loop access madd (map (fun j => wit_index max_cred_num j rev_idx) (zs_remove rev_idx (rd_issued d))) m0 in
  let! _ := r2 in
  Ok (madd omega (msub num denom)).

(** ** prover: revocation credential *)
(** prover.rs:475-492 *)
Definition blinded_revocation_secrets (pk : rpk C) (vr_prime : K) : G1 := smul vr_prime (rk_h2 pk).
(** prover.rs:779-841 [_test_witness_signature] *)
Definition test_witness_signature (cred : rcred C) (pk : rpk C) (z : GT) (accum omega : G2) (r_cnxt_m2 : Z) : res unit :=
  let z_calc := madd (pair (ws_g_i (rc_ws cred)) accum) (mopp (pair (rk_g pk) omega)) in
  if negb (meqb z_calc z) then Err InvalidStructure
  else if negb (meqb (pair (madd (rk_pk pk) (rc_g_i cred)) (ws_sigma_i (rc_ws cred))) (pair (rk_g pk) (rk_g_dash pk)))
  then Err InvalidStructure
  else
    let! m2 := goe_from_bytes (bn_to_bytes r_cnxt_m2) in
    let h1 := pair (rc_sigma cred) (madd (rk_y pk) (smul (rc_c cred) (rk_h_cap pk))) in
    let h2 := pair (madd (madd (madd (rk_h0 pk) (smul m2 (rk_h1 pk))) (smul (rc_vr cred) (rk_h2 pk))) (rc_g_i cred)) (rk_h_cap pk) in
    if negb (meqb h1 h2) then Err InvalidStructure else Ok tt.
(** prover.rs:641-666 [_process_non_revocation_credential]: the credential is mutated
    also when the test fails *)
Definition process_non_revocation_credential (cred : rcred C) (vr_prime : K) (pk : rpk C) (z : GT) (accum omega : G2)
  : rcred C * res unit :=
  let cred' := mkRCred (rc_sigma cred) (rc_c cred) (fadd vr_prime (rc_vr cred)) (rc_ws cred) (rc_g_i cred) (rc_i cred) (rc_m2 cred) in
  (cred', test_witness_signature cred' pk z accum omega (toZ (rc_m2 cred))).

(** ** non-revocation proof *)
(** mod.rs:1200-1217 [as_list], 1219-1236 [from_list] (indexing panics on a short list) *)
Definition x_as_list (x : xlist C) : list K :=
  [x_rho x; x_o x; x_c x; x_o1 x; x_m x; x_m1 x; x_t x; x_t1 x; x_m2 x; x_s x; x_r x; x_r1 x; x_r2 x; x_r3 x].
Definition x_from_list (l : list K) : res (xlist C) :=
  match l with
  | s0 :: s1 :: s2 :: s3 :: s4 :: s5 :: s6 :: s7 :: s8 :: s9 :: s10 :: s11 :: s12 :: s13 :: _ =>
      Ok (mkX s0 s10 s11 s12 s13 s1 s3 s4 s5 s6 s7 s8 s9 s2)
  | _ => Err Panic
  end.
(** mod.rs:1252-1263, 1278-1290 *)
Definition c_as_list (c : clist C) : list (list Z) :=
  [enc1 (cl_e c); enc1 (cl_d c); enc1 (cl_a c); enc1 (cl_g c); enc2 (cl_w c); enc2 (cl_s c); enc2 (cl_u c)].
Definition tau_as_list (t : taulist C) : list (list Z) :=
  [enc1 (ta1 t); enc1 (ta2 t); encT (ta3 t); encT (ta4 t); enc1 (ta5 t); enc1 (ta6 t); encT (ta7 t); encT (ta8 t)].

(** helpers.rs:547-589 *)
Definition create_tau_list_expected_values (pk : rpk C) (accum : G2) (z : GT) (pc : clist C) : taulist C :=
  mkTau (cl_e pc) m0
    (madd (pair (madd (rk_h0 pk) (cl_g pc)) (rk_h_cap pk)) (mopp (pair (cl_a pc) (rk_y pk))))
    (madd (pair (cl_g pc) accum) (mopp (madd (pair (rk_g pk) (cl_w pc)) z)))
    (cl_d pc) m0
    (madd (pair (madd (rk_pk pk) (cl_g pc)) (cl_s pc)) (mopp (pair (rk_g pk) (rk_g_dash pk))))
    (madd (pair (cl_g pc) (rk_u pk)) (mopp (pair (rk_g pk) (cl_u pc)))).

(** helpers.rs:591-660; the replacement of an infinity by a fresh infinity is the
    identity on group elements *)
Definition create_tau_list_values (pk : rpk C) (accum : G2) (p : xlist C) (pc : clist C) : taulist C :=
  let hc := pair (rk_htilde pk) (rk_h_cap pk) in
  mkTau
    (madd (smul (x_rho p) (rk_h pk)) (smul (x_o p) (rk_htilde pk)))
    (madd (madd (smul (x_c p) (cl_e pc)) (smul (fopp (x_m p)) (rk_h pk))) (smul (fopp (x_t p)) (rk_htilde pk)))
    (madd (madd (smul (x_c p) (pair (cl_a pc) (rk_h_cap pk))) (smul (x_r p) hc))
       (mopp (madd (madd (madd (smul (x_rho p) (pair (rk_htilde pk) (rk_y pk))) (smul (x_m p) hc))
                         (smul (x_m2 p) (pair (rk_h1 pk) (rk_h_cap pk)))) (smul (x_s p) (pair (rk_h2 pk) (rk_h_cap pk))))))
    (madd (smul (x_r p) (pair (rk_htilde pk) accum)) (smul (x_r1 p) (pair (mopp (rk_g pk)) (rk_h_cap pk))))
    (madd (smul (x_r p) (rk_g pk)) (smul (x_o1 p) (rk_htilde pk)))
    (madd (madd (smul (x_r2 p) (cl_d pc)) (smul (fopp (x_m1 p)) (rk_g pk))) (smul (fopp (x_t1 p)) (rk_htilde pk)))
    (madd (madd (smul (x_r2 p) (pair (madd (rk_pk pk) (cl_g pc)) (rk_h_cap pk))) (smul (fopp (x_m1 p)) hc))
          (smul (x_r p) (pair (rk_htilde pk) (cl_s pc))))
    (madd (smul (x_r p) (pair (rk_htilde pk) (rk_u pk))) (smul (x_r3 p) (pair (mopp (rk_g pk)) (rk_h_cap pk)))).

(** prover.rs:1743-1784 [_gen_c_list_params]; [d] holds the draws (its fields m, m',
    t, t', m2, s, c are not used).  m2 is copied through its bytes. *)
Definition gen_c_list_params (cred : rcred C) (d : xlist C) : xlist C :=
  mkX (x_rho d) (x_r d) (x_r1 d) (x_r2 d) (x_r3 d) (x_o d) (x_o1 d)
      (fmul (x_rho d) (rc_c cred)) (fmul (x_r d) (x_r2 d)) (fmul (x_o d) (rc_c cred)) (fmul (x_o1 d) (x_r2 d))
      (rc_m2 cred) (rc_vr cred) (rc_c cred).
(** prover.rs:1786-1840 [_create_c_list_values] *)
Definition create_c_list_values (cred : rcred C) (p : xlist C) (pk : rpk C) (omega : G2) : clist C :=
  mkC (madd (smul (x_rho p) (rk_h pk)) (smul (x_o p) (rk_htilde pk)))
      (madd (smul (x_r p) (rk_g pk)) (smul (x_o1 p) (rk_htilde pk)))
      (madd (rc_sigma cred) (smul (x_rho p) (rk_htilde pk)))
      (madd (rc_g_i cred) (smul (x_r p) (rk_htilde pk)))
      (madd omega (smul (x_r1 p) (rk_h_cap pk)))
      (madd (ws_sigma_i (rc_ws cred)) (smul (x_r2 p) (rk_h_cap pk)))
      (madd (ws_u_i (rc_ws cred)) (smul (x_r3 p) (rk_h_cap pk))).
(** prover.rs:1277-1311 [_init_non_revocation_proof]; [tp] are the draws of
    [_gen_tau_list_params] (prover.rs:1842-1868) *)
Definition init_non_revocation_proof (cred : rcred C) (accum : G2) (pk : rpk C) (omega : G2) (d tp : xlist C) : nrinit C :=
  let cp := gen_c_list_params cred d in
  let cl := create_c_list_values cred cp pk omega in
  mkNrInit cp tp cl (create_tau_list_values pk accum tp cl).
(** prover.rs:1870-1905 [_finalize_non_revocation_proof] *)
Definition finalize_non_revocation_proof (ip : nrinit C) (c_h : Z) : res (nrproof C) :=
  let! ch := bignum_to_group_element c_h in
  let xs := map (fun '(x, y) => fadd x (fopp (fmul ch y))) (combine (x_as_list (nr_tp ip)) (x_as_list (nr_cp ip))) in
  let! x := x_from_list xs in
  Ok (mkNrProof x (nr_cl ip)).

(** verifier.rs:583-641 [_verify_non_revocation_proof] *)
Definition verify_non_revocation_proof (pk : rpk C) (accum : G2) (z : GT) (c_hash : Z) (proof : nrproof C) : res (taulist C) :=
  let! ch := bignum_to_group_element c_hash in
  let te := create_tau_list_expected_values pk accum z (nv_c proof) in
  let tc := create_tau_list_values pk accum (nv_x proof) (nv_c proof) in
  Ok (mkTau (madd (smul ch (ta1 te)) (ta1 tc)) (madd (smul ch (ta2 te)) (ta2 tc)) (madd (smul ch (ta3 te)) (ta3 tc))
            (madd (smul ch (ta4 te)) (ta4 tc)) (madd (smul ch (ta5 te)) (ta5 tc)) (madd (smul ch (ta6 te)) (ta6 tc))
            (madd (smul ch (ta7 te)) (ta7 tc)) (madd (smul ch (ta8 te)) (ta8 tc))).
End Rev.

(** The revocation properties C34-C40 and C45, stated for any pairing curve
    satisfying [curve_laws]. *)
From Verif Require Import Base BnModel BnProofs StrMap HelpersModel ClModel Alg Fp NumTheory ClRevModel ClProofModel ClRevSpec ClNonRevoc ClRevProofs ClRevCred CurveInst ClRevMore.
Open Scope string_scope.
Open Scope list_scope.
Open Scope Z_scope.

(** ** C34: the accumulator invariant *)
Theorem C34_accumulator_history : forall (C : curve), curve_laws C ->
  forall (L : Z) (dflt : bool) (pk : rpk C) (gamma : cK C) (access : Z -> res (cG2 C)) ds accum V,
  0 <= L -> 2 * L + 1 < 2 ^ 32 -> serves_tails C access (rk_g_dash pk) gamma L ->
  reg_history C L dflt access (new_revocation_registry C pk gamma L dflt, initial_valid L dflt) ds (accum, V) ->
  NoDup V /\ (forall i, In i V -> 1 <= i <= L) /\ accum = accum_of C (rk_g_dash pk) gamma L V.
Proof.
  intros C LW L dflt pk gamma access ds accum V HL HL32 HA Hh.
  exact (history_inv C LW L _ gamma access HL HL32 HA dflt _ _ _ Hh (initial_inv C LW L _ gamma HL HL32 pk dflt eq_refl)).
Qed.
Print Assumptions C34_accumulator_history.

(** calls on indices of the registry always succeed, and the delta records them *)
Theorem C34_revoke : forall (C : curve), curve_laws C -> forall L g_dash gamma access, 0 <= L -> 2 * L + 1 < 2 ^ 32 ->
  serves_tails C access g_dash gamma L -> forall i accum, 1 <= i <= L ->
  let accum' := msub accum (tail_at C g_dash gamma (L + 1 - i)) in
  revoke_credential C accum L i access = (accum', Ok (mkDelta (Some accum) accum' [] [i])).
Proof. intros C LW L g_dash gamma access HL HL32 HA i accum Hi. exact (revoke_ok C LW L g_dash gamma access HL HL32 HA i accum Hi). Qed.
Print Assumptions C34_revoke.
Theorem C34_recover : forall (C : curve), curve_laws C -> forall L g_dash gamma access, 0 <= L -> 2 * L + 1 < 2 ^ 32 ->
  serves_tails C access g_dash gamma L -> forall i accum, 1 <= i <= L ->
  let accum' := madd accum (tail_at C g_dash gamma (L + 1 - i)) in
  recovery_credential C accum L i access = (accum', Ok (mkDelta (Some accum) accum' [i] [])).
Proof. intros C LW L g_dash gamma access HL HL32 HA i accum Hi. exact (recovery_ok C LW L g_dash gamma access HL HL32 HA i accum Hi). Qed.
Print Assumptions C34_recover.
Theorem C34_update : forall (C : curve), curve_laws C -> forall L g_dash gamma access, 0 <= L -> 2 * L + 1 < 2 ^ 32 ->
  serves_tails C access g_dash gamma L -> forall issued revoked accum,
  (forall i, In i issued -> 1 <= i <= L) -> (forall i, In i revoked -> 1 <= i <= L) ->
  let accum' := msub (madd accum (accum_of C g_dash gamma L issued)) (accum_of C g_dash gamma L revoked) in
  update_revocation_registry C accum L issued revoked access = (accum', Ok (mkDelta (Some accum) accum' issued revoked)).
Proof. intros C LW L g_dash gamma access HL HL32 HA i r accum Hi Hr. exact (update_ok C LW L g_dash gamma access HL HL32 HA i r accum Hi Hr). Qed.
Print Assumptions C34_update.
(** revoking and recovering are inverse *)
Theorem C34_revoke_recover : forall (C : curve), curve_laws C -> forall L g_dash gamma access, 0 <= L -> 2 * L + 1 < 2 ^ 32 ->
  serves_tails C access g_dash gamma L -> forall i accum, 1 <= i <= L ->
  fst (recovery_credential C (fst (revoke_credential C accum L i access)) L i access) = accum.
Proof.
  intros C LW L g_dash gamma access HL HL32 HA i accum Hi.
  rewrite (revoke_ok C LW L g_dash gamma access HL HL32 HA i accum Hi). cbn [fst].
  rewrite (recovery_ok C LW L g_dash gamma access HL HL32 HA i _ Hi). cbn [fst].
  exact (msub_madd_cancel C LW accum _).
Qed.
Print Assumptions C34_revoke_recover.
(** "revoking makes the index invalid until it is recovered" fails without the
    caller's bookkeeping: the second revocation is not refused and recovering once
    does not bring the index back *)
Theorem C34_double_revoke_refuted : forall (C : curve), curve_laws C -> forall L g_dash gamma access, 0 <= L -> 2 * L + 1 < 2 ^ 32 ->
  serves_tails C access g_dash gamma L -> forall V i, NoDup V -> In i V -> 1 <= i <= L ->
  let a1 := fst (revoke_credential C (accum_of C g_dash gamma L V) L i access) in
  let a2 := fst (revoke_credential C a1 L i access) in
  let a3 := fst (recovery_credential C a2 L i access) in
  is_ok (snd (revoke_credential C a1 L i access)) = true /\ a3 = accum_of C g_dash gamma L (without [i] V).
Proof. intros C LW L g_dash gamma access HL HL32 HA V i N I Hi. exact (double_revoke C LW L g_dash gamma access HL HL32 HA V i N I Hi). Qed.
Print Assumptions C34_double_revoke_refuted.
(** a failing single operation leaves the registry as it was ... *)
Theorem C34_failed_single_unchanged : forall (C : curve) L i accum access,
  (is_ok (snd (revoke_credential C accum L i access)) = false -> fst (revoke_credential C accum L i access) = accum) /\
  (is_ok (snd (recovery_credential C accum L i access)) = false -> fst (recovery_credential C accum L i access) = accum).
Proof. exact failed_single. Qed.
Print Assumptions C34_failed_single_unchanged.
(** ... but a failing batch update does not: the first tails are already added *)
Theorem C34_failed_update_changes_refuted : forall (C : curve) L i j accum access t e,
  access (get_index L i) = Ok t -> access (get_index L j) = Err e ->
  update_revocation_registry C accum L [i] [j] access = (madd accum t, Err e).
Proof. exact failed_update. Qed.
Print Assumptions C34_failed_update_changes_refuted.

(** ** C35: witnesses *)
(** the witness computed from all deltas published since the registry was created
    satisfies the prover's equation iff the index is valid *)
Theorem C35_witness_iff : forall (C : curve), curve_laws C ->
  forall (L : Z) (dflt : bool) (pk : rpk C) (gamma : cK C) (access : Z -> res (cG2 C)) ds accum V i,
  0 <= L -> 2 * L + 1 < 2 ^ 32 -> serves_tails C access (rk_g_dash pk) gamma L ->
  gamma <> f0 -> pair (rk_g pk) (rk_g_dash pk) <> m0 -> 1 <= i <= L ->
  reg_history C L dflt access (new_revocation_registry C pk gamma L dflt, initial_valid L dflt) ds (accum, V) ->
  let d0 := delta_from_parts C None (new_revocation_registry C pk gamma L dflt) [] [] in
  exists d omega, merge_all C d0 (flat_map (keep_delta C) ds) = Ok d /\ witness_new C i L dflt d access = Ok omega /\
    (pair (smul (fpow gamma (Z.to_nat i)) (rk_g pk)) accum = madd (pair (rk_g pk) omega) (new_revocation_key_public C pk gamma L)
     <-> In i V).
Proof. exact witness_iff_history. Qed.
Print Assumptions C35_witness_iff.
(** the witness point is unique when pairing with g is injective *)
Theorem C35_witness_unique : forall (C : curve), curve_laws C -> forall L g_dash gamma g i V omega,
  (forall a b : cG2 C, pair g a = pair g b -> a = b) -> 1 <= i <= L -> NoDup V -> (forall j, In j V -> 1 <= j <= L) -> In i V ->
  pair (smul (fpow gamma (Z.to_nat i)) g) (accum_of C g_dash gamma L V) =
    madd (pair g omega) (smul (fpow gamma (Z.to_nat (L + 1))) (pair g g_dash)) ->
  omega = witness_of C g_dash gamma L i V.
Proof. exact witness_unique_in. Qed.
Print Assumptions C35_witness_unique.
(** an issued revocation credential passes the prover's checks once the witness of a
    set containing its index is used, and then satisfies all four equations *)
Theorem C35_issue_process : forall (C : curve), curve_laws C ->
  forall g g_dash h h0 h1 h2 htilde h_cap u x sk L gamma, 0 <= L -> 2 * L + 1 < 2 ^ 32 ->
  let keys := new_credential_revocation_keys C g g_dash h h0 h1 h2 htilde h_cap u x sk in
  let pk := fst keys in
  let z := new_revocation_key_public C pk gamma L in
  forall i ctx vr_prime dflt accum access vr c accum' cred d V,
  1 <= i <= L -> fadd x c <> f0 -> fadd sk (fpow gamma (Z.to_nat i)) <> f0 ->
  new_non_revocation_credential C i ctx (Some (blinded_revocation_secrets C pk vr_prime)) (Some pk) (Some (snd keys)) L dflt accum gamma
    access vr c = (accum', Ok (cred, d)) ->
  NoDup V -> (forall j, In j V -> 1 <= j <= L) -> In i V ->
  exists cred',
    process_non_revocation_credential C cred vr_prime pk z (accum_of C g_dash gamma L V) (witness_of C g_dash gamma L i V) = (cred', Ok tt) /\
    rcred_valid C pk z (accum_of C g_dash gamma L V) (witness_of C g_dash gamma L i V) cred'.
Proof. exact issued_processed. Qed.
Print Assumptions C35_issue_process.
(** what the prover checks, exactly *)
Theorem C35_prover_check_iff : forall (C : curve), curve_laws C -> forall cred pk z accum omega m2, 0 <= m2 < 2 ^ 256 ->
  (test_witness_signature C cred pk z accum omega m2 = Ok tt <->
   pair (ws_g_i (rc_ws cred)) accum = madd (pair (rk_g pk) omega) z /\
   pair (madd (rk_pk pk) (rc_g_i cred)) (ws_sigma_i (rc_ws cred)) = pair (rk_g pk) (rk_g_dash pk) /\
   pair (rc_sigma cred) (madd (rk_y pk) (smul (rc_c cred) (rk_h_cap pk))) =
     pair (madd (madd (madd (rk_h0 pk) (smul (ofZ m2) (rk_h1 pk))) (smul (rc_vr cred) (rk_h2 pk))) (rc_g_i cred)) (rk_h_cap pk)).
Proof. exact test_witness_iff. Qed.
Print Assumptions C35_prover_check_iff.
(** "a credential accepted by the prover can be used in a proof" is false: u_i is
    never checked, and with a wrong one every proof is rejected *)
Theorem C35_accepted_credential_unusable_refuted : forall (C : curve), curve_laws C ->
  forall cred vr_prime pk z accum omega cred' delta,
  process_non_revocation_credential C cred vr_prime pk z accum omega = (cred', Ok tt) -> rcred_valid C pk z accum omega cred' ->
  pair (rk_g pk) delta <> m0 ->
  let bad c := mkRCred (rc_sigma c) (rc_c c) (rc_vr c) (mkWitSig (ws_sigma_i (rc_ws c)) (madd (ws_u_i (rc_ws c)) delta) (ws_g_i (rc_ws c)))
                 (rc_g_i c) (rc_i c) (rc_m2 c) in
  process_non_revocation_credential C (bad cred) vr_prime pk z accum omega = (bad cred', Ok tt) /\
  forall d tp ch pr ts, bignum_to_group_element C ch <> Ok f0 ->
    finalize_non_revocation_proof C (init_non_revocation_proof C (bad cred') accum pk omega d tp) ch = Ok pr ->
    verify_non_revocation_proof C pk accum z ch pr = Ok ts ->
    ta8 ts <> ta8 (nr_tl (init_non_revocation_proof C (bad cred') accum pk omega d tp)).
Proof. exact unchecked_u. Qed.
Print Assumptions C35_accepted_credential_unusable_refuted.

(** ** C36: updating equals recomputing *)
Theorem C36_update_equals_recompute : forall (C : curve), curve_laws C ->
  forall (L : Z) (dflt : bool) (pk : rpk C) (gamma : cK C) (access : Z -> res (cG2 C)) ds1 ds2 accum1 V1 accum2 V2 i,
  0 <= L -> 2 * L + 1 < 2 ^ 32 -> serves_tails C access (rk_g_dash pk) gamma L -> 1 <= i <= L ->
  reg_history C L dflt access (new_revocation_registry C pk gamma L dflt, initial_valid L dflt) ds1 (accum1, V1) ->
  reg_history C L dflt access (accum1, V1) ds2 (accum2, V2) ->
  let d0 := delta_from_parts C None (new_revocation_registry C pk gamma L dflt) [] [] in
  exists d1 d2 w1 w2,
    merge_all C d0 (flat_map (keep_delta C) ds1) = Ok d1 /\ witness_new C i L dflt d1 access = Ok w1 /\
    merge_all C d0 (flat_map (keep_delta C) (ds1 ++ ds2)) = Ok d2 /\ witness_new C i L dflt d2 access = Ok w2 /\
    update_all C w1 i L access (flat_map (keep_delta C) ds2) = Ok w2 /\
    w2 = witness_of C (rk_g_dash pk) gamma L i V2.
Proof. exact update_recompute. Qed.
Print Assumptions C36_update_equals_recompute.

(** ** C37: merging deltas *)
Theorem C37_merge_iff_consecutive : forall (C : curve), curve_laws C -> forall a b : rdelta C,
  is_ok (delta_merge C a b) = true <-> rd_prev b = Some (rd_accum a).
Proof. exact merge_refused. Qed.
Print Assumptions C37_merge_iff_consecutive.
Theorem C37_merge_composes : forall (C : curve), curve_laws C -> forall (a b m : rdelta C) V0 V1 V2,
  delta_merge C a b = Ok m -> net_change C a V0 V1 -> net_change C b V1 V2 ->
  rd_prev m = rd_prev a /\ rd_accum m = rd_accum b /\ net_change C m V0 V2.
Proof. intros C _. exact (merge_net C). Qed.
Print Assumptions C37_merge_composes.
Theorem C37_merge_associative : forall (C : curve), curve_laws C -> forall (a b c : rdelta C) V0 V1 V2 V3,
  net_change C a V0 V1 -> net_change C b V1 V2 -> net_change C c V2 V3 ->
  rd_prev b = Some (rd_accum a) -> rd_prev c = Some (rd_accum b) ->
  exists ab bc l r, delta_merge C a b = Ok ab /\ delta_merge C ab c = Ok l /\ delta_merge C b c = Ok bc /\ delta_merge C a bc = Ok r /\
    rd_prev l = rd_prev r /\ rd_accum l = rd_accum r /\ same_set (rd_issued l) (rd_issued r) /\ same_set (rd_revoked l) (rd_revoked r).
Proof. exact merge_assoc. Qed.
Print Assumptions C37_merge_associative.

(** ** C38: tails *)
Theorem C38_tails : forall (C : curve) L gamma g_dash fuel, 0 <= L -> 2 * L + 1 < 2 ^ 32 -> (Z.to_nat (2 * L + 1) < fuel)%nat ->
  tailgen_count C (tailgen_new C L gamma g_dash) = 2 * L + 1 /\
  exists t', tails_collect C fuel (tailgen_new C L gamma g_dash) =
      (map (fun k => tail_at C g_dash gamma (Z.of_nat k)) (seq 0 (Z.to_nat (2 * L + 1))), t') /\
    tailgen_count C t' = 0 /\ snd (tailgen_next C t') = None.
Proof. exact tails_all. Qed.
Print Assumptions C38_tails.
Theorem C38_simple_accessor : forall (C : curve) L gamma g_dash fuel, 0 <= L -> 2 * L + 1 < 2 ^ 32 -> (Z.to_nat (2 * L + 1) < fuel)%nat ->
  serves_tails C (simple_access C (fst (tails_collect C fuel (tailgen_new C L gamma g_dash)))) g_dash gamma L.
Proof. exact simple_accessor_serves. Qed.
Print Assumptions C38_simple_accessor.
(** 2*L+1 wraps in u32: from L = 2^31 on the tails file is too short *)
Theorem C38_large_registry_refuted : forall (C : curve) gamma g_dash,
  tailgen_count C (tailgen_new C (2 ^ 31) gamma g_dash) = 1.
Proof. reflexivity. Qed.
Print Assumptions C38_large_registry_refuted.
(** "a revoked credential cannot be proved valid" is false: the tails file contains
    the tail L+1; subtracting it from the public witness sum gives a witness with
    which the holder of any once-valid credential passes verification for every
    challenge although the index is not in the accumulated set *)
Theorem C38_revoked_still_proves_refuted : forall (C : curve), curve_laws C ->
  forall L g_dash gamma access pk cred V V' i omega,
  0 <= L -> 2 * L + 1 < 2 ^ 32 -> serves_tails C access g_dash gamma L -> rk_g_dash pk = g_dash ->
  1 <= i <= L -> rc_g_i cred = smul (fpow gamma (Z.to_nat i)) (rk_g pk) ->
  let z := new_revocation_key_public C pk gamma L in
  rcred_valid C pk z (accum_of C g_dash gamma L V) omega cred ->
  NoDup V' -> (forall j, In j V' -> 1 <= j <= L) -> ~ In i V' ->
  exists t omega', access (L + 1) = Ok t /\
    (forall d, NoDup (rd_issued d) -> same_set (rd_issued d) V' ->
       omega' = match witness_new C i L false d access with Ok w => msub w t | Err _ => m0 end) /\
    forall d tp ch, 0 <= ch < 2 ^ 256 ->
      exists pr, finalize_non_revocation_proof C (init_non_revocation_proof C cred (accum_of C g_dash gamma L V') pk omega' d tp) ch = Ok pr /\
        verify_non_revocation_proof C pk (accum_of C g_dash gamma L V') z ch pr =
          Ok (nr_tl (init_non_revocation_proof C cred (accum_of C g_dash gamma L V') pk omega' d tp)).
Proof. exact revoked_proves. Qed.
Print Assumptions C38_revoked_still_proves_refuted.

(** ** C39: non-revocation proof completeness *)
Theorem C39_non_revocation_complete : forall (C : curve), curve_laws C ->
  forall pk z accum omega cred d tp ch, rcred_valid C pk z accum omega cred -> 0 <= ch < 2 ^ 256 ->
  let ip := init_non_revocation_proof C cred accum pk omega d tp in
  exists pr, finalize_non_revocation_proof C ip ch = Ok pr /\ nv_c pr = nr_cl ip /\
    verify_non_revocation_proof C pk accum z ch pr = Ok (nr_tl ip).
Proof. exact nonrevoc_complete_total. Qed.
Print Assumptions C39_non_revocation_complete.
(** a challenge of more than 256 bits is refused by both sides *)
Theorem C39_large_challenge_refused : forall (C : curve) ip pk accum z pr ch, 2 ^ 256 <= ch ->
  is_ok (finalize_non_revocation_proof C ip ch) = false /\ is_ok (verify_non_revocation_proof C pk accum z ch pr) = false.
Proof. exact large_challenge. Qed.
Print Assumptions C39_large_challenge_refused.

(** ** C40: lists and legacy fields *)
Theorem C40_xlist_roundtrip : forall (C : curve) (x : xlist C), x_from_list C (x_as_list C x) = Ok x.
Proof. exact x_list_round. Qed.
Print Assumptions C40_xlist_roundtrip.
Theorem C40_xlist_roundtrip_list : forall (C : curve) l x, length l = 14%nat -> x_from_list C l = Ok x -> x_as_list C x = l.
Proof. exact x_list_round'. Qed.
Print Assumptions C40_xlist_roundtrip_list.
Theorem C40_lengths : forall (C : curve) (x : xlist C) (c : clist C) (t : taulist C),
  length (x_as_list C x) = 14%nat /\ length (c_as_list C c) = 7%nat /\ length (tau_as_list C t) = 8%nat.
Proof. repeat split. Qed.
Print Assumptions C40_lengths.
(** a list shorter than fourteen panics, a longer one is silently truncated *)
Theorem C40_from_list_iff : forall (C : curve) l, is_ok (x_from_list C l) = true <-> (14 <= length l)%nat.
Proof. exact x_from_list_iff. Qed.
Print Assumptions C40_from_list_iff.
Theorem C40_legacy_rms : forall n s r rctxt rms z,
  (forall k, sm_get k (pk_r (ppk_from_json n s r rctxt rms z)) =
     match rms with
     | Some x => if (negb (x =? 0) && String.eqb k "master_secret")%bool then Some x else sm_get k r
     | None => sm_get k r
     end) /\
  forall pk, let '(n, s, r, rctxt, rms, z) := ppk_to_json pk in ppk_from_json n s r rctxt rms z = pk.
Proof. exact legacy_rms. Qed.
Print Assumptions C40_legacy_rms.
Theorem C40_legacy_m1 : forall rv a e v m m1 m2,
  (forall k, sm_get k (ep_m (eqproof_from_json rv a e v m m1 m2)) =
     match m1 with
     | Some x => if (negb (x =? 0) && String.eqb k "master_secret")%bool then Some x else sm_get k m
     | None => sm_get k m
     end) /\
  forall p, let '(rv, a, e, v, m, m1, m2) := eqproof_to_json p in eqproof_from_json rv a e v m m1 m2 = p.
Proof. exact legacy_m1. Qed.
Print Assumptions C40_legacy_m1.

(** ** C45: special soundness of the non-revocation proof *)
(** From two accepting transcripts with the same commitments and different challenges
    the responses yield explicit values: either they form a revocation credential with
    witness satisfying all four equations, or they give explicitly the discrete
    logarithm of h or of g to the base h~. *)
Theorem C45_special_soundness : forall (C : curve), curve_laws C ->
  forall pk accum z pc ch1 ch2 p q ts c1 c2,
  bignum_to_group_element C ch1 = Ok c1 -> bignum_to_group_element C ch2 = Ok c2 -> c1 <> c2 ->
  verify_non_revocation_proof C pk accum z ch1 (mkNrProof p pc) = Ok ts ->
  verify_non_revocation_proof C pk accum z ch2 (mkNrProof q pc) = Ok ts ->
  let quot f := fmul (fadd (f p) (fopp (f q))) (finv (fadd c2 (fopp c1))) in
  let a1 := fadd (fmul (quot x_c) (quot x_rho)) (fopp (quot x_m)) in
  let b1 := fadd (fmul (quot x_c) (quot x_o)) (fopp (quot x_t)) in
  let a2 := fadd (fmul (quot x_r2) (quot x_r)) (fopp (quot x_m1)) in
  let b2 := fadd (fmul (quot x_r2) (quot x_o1)) (fopp (quot x_t1)) in
  let g_i := madd (cl_g pc) (mopp (smul (quot x_r) (rk_htilde pk))) in
  let cred := mkRCred (madd (cl_a pc) (mopp (smul (quot x_rho) (rk_htilde pk)))) (quot x_c) (quot x_s)
                (mkWitSig (madd (cl_s pc) (mopp (smul (quot x_r2) (rk_h_cap pk)))) (madd (cl_u pc) (mopp (smul (quot x_r3) (rk_h_cap pk)))) g_i)
                g_i 0 (quot x_m2) in
  let omega := madd (cl_w pc) (mopp (smul (quot x_r1) (rk_h_cap pk))) in
  (a1 <> f0 /\ rk_h pk = smul (fopp (fmul b1 (finv a1))) (rk_htilde pk)) \/
  (a2 <> f0 /\ rk_g pk = smul (fopp (fmul b2 (finv a2))) (rk_htilde pk)) \/
  rcred_valid C pk z accum omega cred.
Proof. exact special_soundness. Qed.
Print Assumptions C45_special_soundness.

(** ** concrete cases *)
Definition ex_pk : rpk T257 := fst (new_credential_revocation_keys T257 (fp 257 2) (fp 257 3) (fp 257 5) (fp 257 7) (fp 257 11) (fp 257 13) (fp 257 17)
  (fp 257 19) (fp 257 23) (fp 257 29) (fp 257 31)).
Definition ex_gamma : cK T257 := fp 257 6.
Definition ex_access := simple_access T257 (fst (tails_collect T257 20 (tailgen_new T257 3 ex_gamma (rk_g_dash ex_pk)))).
Example C34_ex_serves : serves_tails T257 ex_access (rk_g_dash ex_pk) ex_gamma 3.
Proof. apply C38_simple_accessor; cbn; lia. Qed.
(** registry of 3, issued by default; revoke 2, recover 2, revoke 1 and 3 *)
Example C34_ex_history : exists ds accum,
  reg_history T257 3 true ex_access (new_revocation_registry T257 ex_pk ex_gamma 3 true, initial_valid 3 true) ds (accum, [2]).
Proof.
  do 2 eexists.
  eapply h_step. { apply st_revoke with (i := 2); [right; left; reflexivity|]. reflexivity. }
  eapply h_step. { apply st_recover with (i := 2); [lia|vm_compute; intuition discriminate|]. reflexivity. }
  eapply h_step. { apply st_update with (issued := []) (revoked := [1; 3]); [constructor|intros i []| | |]; [repeat constructor; cbn; intuition lia|intros i [<-|[<-|[]]]; vm_compute; tauto|reflexivity]. }
  apply h_nil.
Qed.
Definition ex_sk : rsk T257 := snd (new_credential_revocation_keys T257 (fp 257 2) (fp 257 3) (fp 257 5) (fp 257 7) (fp 257 11) (fp 257 13) (fp 257 17)
  (fp 257 19) (fp 257 23) (fp 257 29) (fp 257 31)).
Example C35_ex_issue : exists accum' cred d,
  new_non_revocation_credential T257 2 1000 (Some (blinded_revocation_secrets T257 ex_pk (fp 257 9))) (Some ex_pk) (Some ex_sk) 3 true
    (new_revocation_registry T257 ex_pk ex_gamma 3 true) ex_gamma ex_access (fp 257 4) (fp 257 8) = (accum', Ok (cred, d)).
Proof. do 3 eexists. reflexivity. Qed.
Example C35_ex_nonzero : @fadd (cK T257) (fp 257 29) (fp 257 8) <> f0 /\ @fadd (cK T257) (fp 257 31) (fpow ex_gamma (Z.to_nat 2)) <> f0 /\
  ex_gamma <> f0 /\ pair (rk_g ex_pk) (rk_g_dash ex_pk) <> (m0 : cGT T257).
Proof. repeat split; intros E; apply (f_equal (@fpv 257)) in E; vm_compute in E; discriminate. Qed.

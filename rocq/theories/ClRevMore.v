(** Derived facts for ClRevProps. *)
From Verif Require Import Base BnModel BnProofs StrMap HelpersModel ClModel Alg ClRevModel ClProofModel ClRevSpec ClNonRevoc ClRevProofs ClRevCred.
Open Scope string_scope.
Open Scope list_scope.
Open Scope Z_scope.

Lemma failed_single (C : curve) L i accum access :
  (is_ok (snd (revoke_credential C accum L i access)) = false -> fst (revoke_credential C accum L i access) = accum) /\
  (is_ok (snd (recovery_credential C accum L i access)) = false -> fst (recovery_credential C accum L i access) = accum).
Proof.
  unfold revoke_credential, recovery_credential. cbn [access_loop].
  destruct (access (get_index L i)); cbn [snd fst is_ok]; split; intros; congruence.
Qed.
Lemma failed_update (C : curve) L i j accum access t e :
  access (get_index L i) = Ok t -> access (get_index L j) = Err e ->
  update_revocation_registry C accum L [i] [j] access = (madd accum t, Err e).
Proof. intros A B. unfold update_revocation_registry. cbn [map access_loop]. now rewrite A, B. Qed.

Lemma x_from_list_iff (C : curve) l : is_ok (x_from_list C l) = true <-> (14 <= length l)%nat.
Proof.
  do 14 (destruct l as [|? l]; [cbn [x_from_list is_ok length]; split; [discriminate|lia]|]).
  cbn [x_from_list is_ok length]. split; [lia|reflexivity].
Qed.
Lemma legacy_rms n s r rctxt rms z :
  (forall k, sm_get k (pk_r (ppk_from_json n s r rctxt rms z)) =
     match rms with
     | Some x => if (negb (x =? 0) && String.eqb k "master_secret")%bool then Some x else sm_get k r
     | None => sm_get k r
     end) /\
  forall pk, let '(n, s, r, rctxt, rms, z) := ppk_to_json pk in ppk_from_json n s r rctxt rms z = pk.
Proof.
  split.
  - intros k. unfold ppk_from_json. destruct rms as [x|]; cbn [pk_r].
    + destruct (negb (x =? 0)); cbn [andb]; [|reflexivity]. rewrite sm_get_hm_insert. destruct (String.eqb k "master_secret"); reflexivity.
    + reflexivity.
  - intros []. reflexivity.
Qed.
Lemma legacy_m1 rv a e v m m1 m2 :
  (forall k, sm_get k (ep_m (eqproof_from_json rv a e v m m1 m2)) =
     match m1 with
     | Some x => if (negb (x =? 0) && String.eqb k "master_secret")%bool then Some x else sm_get k m
     | None => sm_get k m
     end) /\
  forall p, let '(rv, a, e, v, m, m1, m2) := eqproof_to_json p in eqproof_from_json rv a e v m m1 m2 = p.
Proof.
  split.
  - intros k. unfold eqproof_from_json. destruct m1 as [x|]; cbn [ep_m].
    + destruct (negb (x =? 0)); cbn [andb]; [|reflexivity]. rewrite sm_get_hm_insert. destruct (String.eqb k "master_secret"); reflexivity.
    + reflexivity.
  - intros []. reflexivity.
Qed.
Lemma large_bytes ch : 2 ^ 256 <= ch -> (32 < length (bn_to_bytes ch))%nat.
Proof.
  intros Hc. destruct (Nat.le_gt_cases (length (bn_to_bytes ch)) 32) as [G|]; [exfalso|assumption].
  assert (0 < 2 ^ 256) by (apply Z.pow_pos_nonneg; lia).
  unfold bn_to_bytes in G. rewrite Z.abs_eq in G by lia.
  pose proof (val_be_bound 256 (digits_be 256 ch) ltac:(lia) (digits_be_range 256 ch ltac:(lia))) as B.
  rewrite digits_be_val in B by lia.
  assert (256 ^ Z.of_nat (length (digits_be 256 ch)) <= 256 ^ 32) by (apply Z.pow_le_mono_r; lia).
  change (256 ^ 32) with (2 ^ 256) in *. lia.
Qed.
Lemma large_challenge (C : curve) ip pk accum z pr ch : 2 ^ 256 <= ch ->
  is_ok (finalize_non_revocation_proof C ip ch) = false /\ is_ok (verify_non_revocation_proof C pk accum z ch pr) = false.
Proof.
  intros Hc. apply large_bytes in Hc.
  unfold finalize_non_revocation_proof, verify_non_revocation_proof, bignum_to_group_element, goe_from_bytes.
  replace (32 <? Z.of_nat (length (bn_to_bytes ch))) with true by (symmetry; apply Z.ltb_lt; lia). split; reflexivity.
Qed.

Lemma tails_all (C : curve) L gamma g_dash fuel : 0 <= L -> 2 * L + 1 < 2 ^ 32 -> (Z.to_nat (2 * L + 1) < fuel)%nat ->
  tailgen_count C (tailgen_new C L gamma g_dash) = 2 * L + 1 /\
  exists t', tails_collect C fuel (tailgen_new C L gamma g_dash) =
      (map (fun k => tail_at C g_dash gamma (Z.of_nat k)) (seq 0 (Z.to_nat (2 * L + 1))), t') /\
    tailgen_count C t' = 0 /\ snd (tailgen_next C t') = None.
Proof.
  intros HL H32 Hf. unfold tailgen_new, tailgen_count. cbn [tg_size tg_cur]. unfold u32w at 2. rewrite (Z.mod_small (2 * L + 1)) by lia.
  split; [unfold u32w; rewrite Z.mod_small; lia|].
  unfold u32w at 1. rewrite (Z.mod_small (2 * L + 1)) by lia.
  eexists. rewrite (tails_collect_eq C (Z.to_nat (2 * L + 1))) by lia.
  split; [reflexivity|]. unfold tailgen_next. cbn [tg_size tg_cur]. rewrite Z.leb_refl. split; [|reflexivity].
  rewrite Z.sub_diag. reflexivity.
Qed.
Lemma simple_accessor_serves (C : curve) L gamma g_dash fuel : 0 <= L -> 2 * L + 1 < 2 ^ 32 -> (Z.to_nat (2 * L + 1) < fuel)%nat ->
  serves_tails C (simple_access C (fst (tails_collect C fuel (tailgen_new C L gamma g_dash)))) g_dash gamma L.
Proof.
  intros HL H32 Hf i Hi. destruct (tails_all C L gamma g_dash fuel HL H32 Hf) as (_ & t' & E & _). rewrite E. cbn [fst].
  unfold simple_access. rewrite nth_error_map.
  rewrite (nth_error_nth' (seq 0 (Z.to_nat (2 * L + 1))) 0%nat) by (rewrite seq_length; lia).
  rewrite seq_nth by lia. cbn [option_map]. f_equal. f_equal. lia.
Qed.

Section More.
Variable C : curve.
Hypothesis LW : curve_laws C.
Notation K := (cK C). Notation G1 := (cG1 C). Notation G2 := (cG2 C). Notation GT := (cGT C).
Let HK := cl_field C LW.
Let H1 := cl_g1 C LW.
Let H2 := cl_g2 C LW.
Let HT := cl_gt C LW.
Add Field KfRM : (proj1 HK).

Lemma msub_madd_cancel (a b : G2) : madd (msub a b) b = a.
Proof. unfold msub. module_coefs HK H2; ring. Qed.
Lemma double_revoke L g_dash gamma access : 0 <= L -> 2 * L + 1 < 2 ^ 32 ->
  serves_tails C access g_dash gamma L -> forall V i, NoDup V -> In i V -> 1 <= i <= L ->
  let a1 := fst (revoke_credential C (accum_of C g_dash gamma L V) L i access) in
  let a2 := fst (revoke_credential C a1 L i access) in
  let a3 := fst (recovery_credential C a2 L i access) in
  is_ok (snd (revoke_credential C a1 L i access)) = true /\ a3 = accum_of C g_dash gamma L (without [i] V).
Proof.
  intros HL HL32 HA V i N I Hi.
  rewrite (revoke_ok C LW L g_dash gamma access HL HL32 HA i _ Hi). cbn [fst snd is_ok].
  rewrite (revoke_ok C LW L g_dash gamma access HL HL32 HA i _ Hi). cbn [fst snd is_ok]. split; [reflexivity|].
  rewrite (recovery_ok C LW L g_dash gamma access HL HL32 HA) by assumption. cbn [fst].
  rewrite msub_madd_cancel. rewrite (acc_without C LW L g_dash gamma); [|assumption|repeat constructor; intros []|intros x [<-|[]]; assumption].
  unfold msub, accum_of. cbn [map msum]. module_coefs HK H2; ring.
Qed.

Lemma zpub_eq (pk : rpk C) gamma L : 0 <= L -> 2 * L + 1 < 2 ^ 32 ->
  new_revocation_key_public C pk gamma L = smul (fpow gamma (Z.to_nat (L + 1))) (pair (rk_g pk) (rk_g_dash pk)).
Proof. intros. unfold new_revocation_key_public, u32w. rewrite Z.mod_small by lia. now rewrite gpow_eq by lia. Qed.

Lemma witness_iff_history (L : Z) (dflt : bool) (pk : rpk C) (gamma : K) (access : Z -> res G2) ds accum V i :
  0 <= L -> 2 * L + 1 < 2 ^ 32 -> serves_tails C access (rk_g_dash pk) gamma L ->
  gamma <> f0 -> pair (rk_g pk) (rk_g_dash pk) <> m0 -> 1 <= i <= L ->
  reg_history C L dflt access (new_revocation_registry C pk gamma L dflt, initial_valid L dflt) ds (accum, V) ->
  let d0 := delta_from_parts C None (new_revocation_registry C pk gamma L dflt) [] [] in
  exists d omega, merge_all C d0 (flat_map (keep_delta C) ds) = Ok d /\ witness_new C i L dflt d access = Ok omega /\
    (pair (smul (fpow gamma (Z.to_nat i)) (rk_g pk)) accum = madd (pair (rk_g pk) omega) (new_revocation_key_public C pk gamma L)
     <-> In i V).
Proof.
  intros HL HL32 HA Ng Np Hi Hh d0.
  destruct (witness_from_history C LW L _ gamma access dflt HL HL32 HA i pk ds accum V d0 Hi eq_refl eq_refl Hh) as (d & M & _ & W).
  pose proof (history_inv C LW L _ gamma access HL HL32 HA dflt _ _ _ Hh (initial_inv C LW L _ gamma HL HL32 pk dflt eq_refl)) as (N & R & A).
  cbn [fst snd] in *. exists d. eexists. split; [exact M|]. split; [exact W|].
  rewrite zpub_eq by assumption. subst accum. now apply (witness_equation_iff C LW L).
Qed.
Lemma witness_unique_in L g_dash gamma g i V omega :
  (forall a b : G2, pair g a = pair g b -> a = b) -> 1 <= i <= L -> NoDup V -> (forall j, In j V -> 1 <= j <= L) -> In i V ->
  pair (smul (fpow gamma (Z.to_nat i)) g) (accum_of C g_dash gamma L V) =
    madd (pair g omega) (smul (fpow gamma (Z.to_nat (L + 1))) (pair g g_dash)) ->
  omega = witness_of C g_dash gamma L i V.
Proof.
  intros Inj Hi N R I E. apply (witness_unique C LW L g_dash gamma g i V omega Inj Hi N R) in E.
  apply zs_mem_in in I. now rewrite I in E.
Qed.
Lemma issued_processed g g_dash h h0 h1 h2 htilde h_cap u x sk L gamma : 0 <= L -> 2 * L + 1 < 2 ^ 32 ->
  let keys := new_credential_revocation_keys C g g_dash h h0 h1 h2 htilde h_cap u x sk in
  let pk := fst keys in
  let z := new_revocation_key_public C pk gamma L in
  forall i ctx vr_prime dflt accum access vr c accum' cred d V,
  1 <= i <= L -> fadd x c <> f0 -> fadd sk (fpow gamma (Z.to_nat i)) <> f0 ->
  new_non_revocation_credential C i ctx (Some (blinded_revocation_secrets C pk vr_prime)) (Some pk) (Some (snd keys)) L dflt accum gamma
    access vr c = (accum', Ok (cred, d)) ->
  NoDup V -> (forall j, In j V -> 1 <= j <= L) -> In i V ->
  exists cred',
    process_non_revocation_credential C cred vr_prime pk z (accum_of C g_dash gamma L V) (witness_of C g_dash gamma L i V) = (cred', Ok tt) /\
    rcred_valid C pk z (accum_of C g_dash gamma L V) (witness_of C g_dash gamma L i V) cred'.
Proof.
  intros HL HL32 keys pk z i ctx vr_prime dflt accum access vr c accum' cred d V Hi Nx Ns E NV RV IV.
  destruct (process_non_revocation_credential C cred vr_prime pk z (accum_of C g_dash gamma L V) (witness_of C g_dash gamma L i V)) as [cred' r] eqn:P.
  destruct (issued_valid C LW g g_dash h h0 h1 h2 htilde h_cap u x sk L gamma HL HL32 i ctx vr_prime dflt accum access vr c accum' cred d V cred' r Hi Nx Ns E NV RV IV P) as [-> Q].
  exists cred'. auto.
Qed.
Lemma nonrevoc_complete_total pk z accum omega cred d tp ch : rcred_valid C pk z accum omega cred -> 0 <= ch < 2 ^ 256 ->
  let ip := init_non_revocation_proof C cred accum pk omega d tp in
  exists pr, finalize_non_revocation_proof C ip ch = Ok pr /\ nv_c pr = nr_cl ip /\
    verify_non_revocation_proof C pk accum z ch pr = Ok (nr_tl ip).
Proof.
  intros V Hc ip. destruct (nonrevoc_finalize_ok C cred accum pk omega d tp ch Hc) as (pr & F & E).
  exists pr. split; [exact F|]. split; [exact E|]. exact (nonrevoc_complete C LW pk z accum omega cred d tp ch pr V F).
Qed.

Lemma unchecked_u cred vr_prime pk z accum omega cred' delta :
  process_non_revocation_credential C cred vr_prime pk z accum omega = (cred', Ok tt) -> rcred_valid C pk z accum omega cred' ->
  pair (rk_g pk) delta <> m0 ->
  let bad c := mkRCred (rc_sigma c) (rc_c c) (rc_vr c) (mkWitSig (ws_sigma_i (rc_ws c)) (madd (ws_u_i (rc_ws c)) delta) (ws_g_i (rc_ws c)))
                 (rc_g_i c) (rc_i c) (rc_m2 c) in
  process_non_revocation_credential C (bad cred) vr_prime pk z accum omega = (bad cred', Ok tt) /\
  forall d tp ch pr ts, bignum_to_group_element C ch <> Ok f0 ->
    finalize_non_revocation_proof C (init_non_revocation_proof C (bad cred') accum pk omega d tp) ch = Ok pr ->
    verify_non_revocation_proof C pk accum z ch pr = Ok ts ->
    ta8 ts <> ta8 (nr_tl (init_non_revocation_proof C (bad cred') accum pk omega d tp)).
Proof.
  intros P RV Nd bad. split.
  - unfold process_non_revocation_credential in *. inversion P as [[P1 P2]]. rewrite P2. subst bad. cbn [rc_sigma rc_c rc_vr rc_ws rc_g_i rc_i rc_m2].
    f_equal. exact P2.
  - intros d tp ch pr ts Nc F V E. unfold finalize_non_revocation_proof in F. unfold verify_non_revocation_proof in V.
    destruct (bignum_to_group_element C ch) as [c|]; cbn [rbind] in *; [|discriminate].
    cbn [x_as_list init_non_revocation_proof nr_tp nr_cp nr_cl nr_tl combine map x_from_list rbind] in F.
    match type of F with Ok ?x = _ => assert (pr = x) as -> by congruence end. clear F.
    match type of V with Ok ?x = _ => assert (ts = x) as -> by congruence end. clear V.
    cbn [nv_x nv_c ta8] in E.
    unfold create_tau_list_values, create_tau_list_expected_values, create_c_list_values, gen_c_list_params in E.
    cbn [x_rho x_r x_r1 x_r2 x_r3 x_o x_o1 x_m x_m1 x_t x_t1 x_m2 x_s x_c cl_e cl_d cl_a cl_g cl_w cl_s cl_u ta8 init_non_revocation_proof nr_tl] in E.
    subst bad. cbn [rc_ws ws_u_i rc_g_i] in E.
    destruct RV as [_ _ _ U].
    rewrite !(pr_opp_l C LW), !(pr_add_l C LW), !(pr_add_r C LW), !(pr_mul_l C LW), !(pr_mul_r C LW), U in E.
    assert (c <> f0) as Nz by congruence. apply Nd.
    apply (smul_nz C LW c); [|exact Nz].
    match type of E with ?a = ?b => apply (msub_eq C LW); transitivity (madd b (mopp a)) end.
    + unfold create_tau_list_values. cbn [ta8]. rewrite !(pr_opp_l C LW). module_coefs HK HT; ring.
    + rewrite E. module_coefs HK HT; ring.
Qed.

Lemma update_recompute (L : Z) (dflt : bool) (pk : rpk C) (gamma : K) (access : Z -> res G2) ds1 ds2 accum1 V1 accum2 V2 i :
  0 <= L -> 2 * L + 1 < 2 ^ 32 -> serves_tails C access (rk_g_dash pk) gamma L -> 1 <= i <= L ->
  reg_history C L dflt access (new_revocation_registry C pk gamma L dflt, initial_valid L dflt) ds1 (accum1, V1) ->
  reg_history C L dflt access (accum1, V1) ds2 (accum2, V2) ->
  let d0 := delta_from_parts C None (new_revocation_registry C pk gamma L dflt) [] [] in
  exists d1 d2 w1 w2,
    merge_all C d0 (flat_map (keep_delta C) ds1) = Ok d1 /\ witness_new C i L dflt d1 access = Ok w1 /\
    merge_all C d0 (flat_map (keep_delta C) (ds1 ++ ds2)) = Ok d2 /\ witness_new C i L dflt d2 access = Ok w2 /\
    update_all C w1 i L access (flat_map (keep_delta C) ds2) = Ok w2 /\
    w2 = witness_of C (rk_g_dash pk) gamma L i V2.
Proof.
  intros HL HL32 HA Hi Hh1 Hh2 d0.
  pose proof (history_inv C LW L _ gamma access HL HL32 HA dflt _ _ _ Hh1 (initial_inv C LW L _ gamma HL HL32 pk dflt eq_refl)) as I1.
  assert (reg_history C L dflt access (new_revocation_registry C pk gamma L dflt, initial_valid L dflt) (ds1 ++ ds2) (accum2, V2)) as Hh.
  { clear I1. revert Hh1 Hh2. generalize (new_revocation_registry C pk gamma L dflt, initial_valid L dflt). intros s0 A B.
    remember (accum1, V1) as s1. revert Heqs1. induction A as [|s s' s'' d ds St _ IH]; intros ->; cbn [app]; [assumption|].
    eapply h_step; [exact St|]. now apply IH. }
  destruct (witness_from_history C LW L _ gamma access dflt HL HL32 HA i pk ds1 accum1 V1 d0 Hi eq_refl eq_refl Hh1) as (d1 & M1 & _ & W1).
  destruct (witness_from_history C LW L _ gamma access dflt HL HL32 HA i pk (ds1 ++ ds2) accum2 V2 d0 Hi eq_refl eq_refl Hh) as (d2 & M2 & _ & W2).
  exists d1, d2. do 2 eexists. split; [exact M1|]. split; [exact W1|]. split; [exact M2|]. split; [exact W2|]. split; [|reflexivity].
  exact (update_history C LW L _ gamma access dflt HL HL32 HA i _ _ _ Hi Hh2 I1).
Qed.

Lemma merge_ok (a b : rdelta C) : rd_prev b = Some (rd_accum a) -> exists m, delta_merge C a b = Ok m.
Proof. intros E. apply (merge_refused C LW) in E. destruct (delta_merge C a b) as [m|]; [eauto|discriminate]. Qed.
Lemma merge_assoc (a b c : rdelta C) V0 V1 V2 V3 :
  net_change C a V0 V1 -> net_change C b V1 V2 -> net_change C c V2 V3 ->
  rd_prev b = Some (rd_accum a) -> rd_prev c = Some (rd_accum b) ->
  exists ab bc l r, delta_merge C a b = Ok ab /\ delta_merge C ab c = Ok l /\ delta_merge C b c = Ok bc /\ delta_merge C a bc = Ok r /\
    rd_prev l = rd_prev r /\ rd_accum l = rd_accum r /\ same_set (rd_issued l) (rd_issued r) /\ same_set (rd_revoked l) (rd_revoked r).
Proof.
  intros NA NB NC' EB EC.
  destruct (merge_ok a b EB) as (ab & Mab). destruct (merge_net C a b ab V0 V1 V2 Mab NA NB) as (P1 & P2 & P3).
  destruct (merge_ok b c EC) as (bc & Mbc). destruct (merge_net C b c bc V1 V2 V3 Mbc NB NC') as (Q1 & Q2 & Q3).
  destruct (merge_ok ab c) as (l & Ml); [congruence|]. destruct (merge_net C ab c l V0 V2 V3 Ml P3 NC') as (R1 & R2 & R3).
  destruct (merge_ok a bc) as (r & Mr); [congruence|]. destruct (merge_net C a bc r V0 V1 V3 Mr NA Q3) as (S1 & S2 & S3).
  exists ab, bc, l, r. split; [assumption|]. split; [assumption|]. split; [assumption|]. split; [assumption|].
  split; [congruence|]. split; [congruence|]. exact (net_change_unique C l r V0 V3 R3 S3).
Qed.

Lemma revoked_proves L g_dash gamma access pk cred V V' i omega :
  0 <= L -> 2 * L + 1 < 2 ^ 32 -> serves_tails C access g_dash gamma L -> rk_g_dash pk = g_dash ->
  1 <= i <= L -> rc_g_i cred = smul (fpow gamma (Z.to_nat i)) (rk_g pk) ->
  let z := new_revocation_key_public C pk gamma L in
  rcred_valid C pk z (accum_of C g_dash gamma L V) omega cred ->
  NoDup V' -> (forall j, In j V' -> 1 <= j <= L) -> ~ In i V' ->
  exists t omega', access (L + 1) = Ok t /\
    (forall d, NoDup (rd_issued d) -> same_set (rd_issued d) V' ->
       omega' = match witness_new C i L false d access with Ok w => msub w t | Err _ => m0 end) /\
    forall d tp ch, 0 <= ch < 2 ^ 256 ->
      exists pr, finalize_non_revocation_proof C (init_non_revocation_proof C cred (accum_of C g_dash gamma L V') pk omega' d tp) ch = Ok pr /\
        verify_non_revocation_proof C pk (accum_of C g_dash gamma L V') z ch pr =
          Ok (nr_tl (init_non_revocation_proof C cred (accum_of C g_dash gamma L V') pk omega' d tp)).
Proof.
  intros HL HL32 HA Eg Hi EG z RV N R I.
  exists (tail_at C g_dash gamma (L + 1)), (msub (witness_of C g_dash gamma L i V') (tail_at C g_dash gamma (L + 1))).
  split; [apply HA; lia|]. split.
  - intros d Nd Sd. rewrite (witness_new_ok C LW L g_dash gamma access HL HL32 HA i false d V'); auto.
  - intros d tp ch Hc.
    assert (rcred_valid C pk z (accum_of C g_dash gamma L V') (msub (witness_of C g_dash gamma L i V') (tail_at C g_dash gamma (L + 1))) cred) as RV'.
    { destruct RV as [_ B D E]. constructor; [|exact B|exact D|exact E].
      rewrite EG. unfold z. rewrite zpub_eq, Eg by assumption. now apply (witness_forgery C LW L g_dash gamma). }
    destruct (nonrevoc_complete_total pk z _ _ cred d tp ch RV' Hc) as (pr & A & _ & B). exists pr. auto.
Qed.

Lemma special_soundness pk accum z pc ch1 ch2 p q ts c1 c2 :
  bignum_to_group_element C ch1 = Ok c1 -> bignum_to_group_element C ch2 = Ok c2 -> c1 <> c2 ->
  verify_non_revocation_proof C pk accum z ch1 (mkNrProof p pc) = Ok ts ->
  verify_non_revocation_proof C pk accum z ch2 (mkNrProof q pc) = Ok ts ->
  let quot f := fmul (fadd (f p) (fopp (f q))) (finv (fadd c2 (fopp c1))) in
  let a1 := fadd (fmul (quot x_c) (quot x_rho)) (fopp (quot x_m)) in
  let b1 := fadd (fmul (quot x_c) (quot x_o)) (fopp (quot x_t)) in
  let a2 := fadd (fmul (quot x_r2) (quot x_r)) (fopp (quot x_m1)) in
  let b2 := fadd (fmul (quot x_r2) (quot x_o1)) (fopp (quot x_t1)) in
  let g_i := madd (cl_g pc) (mopp (smul (quot x_r) (rk_htilde pk))) in
  let cred := mkRCred (madd (cl_a pc) (mopp (smul (quot x_rho) (rk_htilde pk)))) (quot x_c) (quot x_s)
                (mkWitSig (madd (cl_s pc) (mopp (smul (quot x_r2) (rk_h_cap pk)))) (madd (cl_u pc) (mopp (smul (quot x_r3) (rk_h_cap pk)))) g_i)
                g_i 0 (quot x_m2) in
  let omega := madd (cl_w pc) (mopp (smul (quot x_r1) (rk_h_cap pk))) in
  (a1 <> f0 /\ rk_h pk = smul (fopp (fmul b1 (finv a1))) (rk_htilde pk)) \/
  (a2 <> f0 /\ rk_g pk = smul (fopp (fmul b2 (finv a2))) (rk_htilde pk)) \/
  rcred_valid C pk z accum omega cred.
Proof.
  intros B1 B2 N V1 V2 quot a1 b1 a2 b2 g_i cred omega.
  pose proof (nonrevoc_extract C LW pk accum z pc ch1 ch2 p q ts c1 c2 B1 B2 N V1 V2) as E.
  destruct (nonrevoc_special C LW pk accum z pc _ E) as (R1 & R2 & R3).
  assert (forall s t : K, fadd s (fopp t) = f0 -> s = t) as SE.
  { intros s t Q. replace s with (fadd (fadd s (fopp t)) t) by ring. rewrite Q. ring. }
  destruct (feq_dec K HK a1 f0) as [Z1|N1].
  - destruct (feq_dec K HK a2 f0) as [Z2|N2].
    + right. right. apply R3.
      * apply SE in Z1. unfold x_quot. cbn [x_m x_rho x_c]. transitivity (quot x_m); [reflexivity|]. rewrite <- Z1. unfold quot. ring.
      * apply SE in Z2. unfold x_quot. cbn [x_m1 x_r x_r2]. transitivity (quot x_m1); [reflexivity|]. rewrite <- Z2. unfold quot. ring.
    + right. left. split; [exact N2|]. exact (rel_div C LW G1 H1 a2 b2 _ _ N2 R2).
  - left. split; [exact N1|]. exact (rel_div C LW G1 H1 a1 b1 _ _ N1 R1).
Qed.
End More.

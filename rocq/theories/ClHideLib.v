(** Proofs for C149 and C150. *)
From Verif Require Import Base BnModel BnProofs UMod StrMap HelpersModel HelpersSpec HelpersProofs ClModel ClSpec ClLib ClKey ClIssue ClBlind ClPresent ClPred
  Alg ClRevModel ClRevSpec ClProofModel ClPresSpec ClPrimary ClPresentation ClHideSpec.
Open Scope string_scope.
Open Scope list_scope.
Open Scope Z_scope.

Lemma pinned_sum bits c s t : 0 < c -> 0 <= bits -> drawn bits t -> pinned bits c (c * s + t) s.
Proof.
  intros Hc Hb [T1 T2]. unfold pinned. rewrite (Z.mul_comm c s), Z.div_add_l by lia.
  pose proof (Z.div_pos t c T1 Hc). pose proof (Z.div_le_mono t (2 ^ bits) c Hc ltac:(lia)). lia.
Qed.

(** ** exchanging one credential *)
Section Swap.
Variables (pk : ppk) (V : valid_pk pk).
Notation n := (pk_n pk).
Let Hn : 2 <= n := vk_n pk V.
Local Notation "a ** b" := (umul n Hn a b) (at level 40, left associativity).
Local Notation "a ^^ k" := (zpow n Hn a k) (at level 30).
Local Notation "a ^-1" := (uinv n Hn a) (at level 25).
Notation S_ := (uS pk V).
Notation C_ := (uC pk V).
Notation RP := (uprod n Hn (uR pk V)).
Variables (schema non_schema : sset) (req : subreq).
Variables (sg1 sg2 : psig) (vals1 vals2 : cred_values).
Hypothesis P1 : presentable_for (predicate_provable vals1) pk sg1 vals1 schema non_schema req.
Hypothesis P2 : presentable_for (predicate_provable vals2) pk sg2 vals2 schema non_schema req.
Variable k : Z.
Hypothesis Hk : 0 <= k.
Hypothesis HA : sg_a sg1 = (sg_a sg2 * pk_s pk ^ k) mod n.
Hypothesis Hrev : forall a, In a (rq_revealed req) -> value_of vals1 a = value_of vals2 a.
Variables (common1 common2 : smap Z) (rnd1 rnd2 : eqrand) (c : Z).
Notation unrev := (unrevealed non_schema schema req).
Hypothesis Dr : er_r rnd2 = er_r rnd1 + k.
Hypothesis De : er_e_tilde rnd2 = er_e_tilde rnd1 + c * (sg_e sg1 - sg_e sg2).
Hypothesis Dv : er_v_tilde rnd2 = er_v_tilde rnd1 + c * ((sg_v sg1 - sg_e sg1 * er_r rnd1) - (sg_v sg2 - sg_e sg2 * er_r rnd2)).
Hypothesis Dm2 : er_m2_tilde rnd2 = er_m2_tilde rnd1 + c * (sg_m2 sg1 - sg_m2 sg2).
Hypothesis Dm : forall a, In a unrev -> eq_mt common2 rnd2 a = eq_mt common1 rnd1 a + c * (value_of vals1 a - value_of vals2 a).

Lemma swap_A : uA pk V sg1 = uA pk V sg2 ** S_ ^^ k.
Proof.
  apply uv_inj. rewrite uv_mul. rewrite <- (Z2Nat.id k Hk). rewrite zpow_nat, uv_upow. rewrite Z2Nat.id by assumption.
  rewrite <- (uA_eq pk V sg1 (pr_unit P1)), <- (uA_eq pk V sg2 (pr_unit P2)), <- (uS_eq pk V).
  rewrite Z.mul_mod_idemp_r by lia. exact HA.
Qed.
Lemma swap_uA' : uA' pk V sg2 rnd2 = uA' pk V sg1 rnd1.
Proof. unfold uA'. fold Hn. rewrite swap_A, Dr. umod_ring. Qed.
Lemma swap_uT : uT pk V sg2 schema non_schema req common2 None rnd2 = uT pk V sg1 schema non_schema req common1 None rnd1.
Proof.
  unfold uT. rewrite swap_uA'. cbv zeta. fold Hn.
  assert (forall a, In a (rq_revealed req) -> In a (sm_keys vals1)) as I1 by (intros a Ha; apply (pr_attrs P1); left; now apply (pr_revealed P1)).
  assert (forall a, In a (rq_revealed req) -> In a (sm_keys vals2)) as I2 by (intros a Ha; apply (pr_attrs P2); left; now apply (pr_revealed P2)).
  pose proof (sig_u pk V sg1 vals1 schema non_schema req (pr_non_schema P1) (pr_revealed_sorted P1) (pr_vals P1) (pr_attrs P1) I1 (pr_bases P1) (pr_unit P1) (pr_sig P1)) as Z1.
  pose proof (sig_u pk V sg2 vals2 schema non_schema req (pr_non_schema P2) (pr_revealed_sorted P2) (pr_vals P2) (pr_attrs P2) I2 (pr_bases P2) (pr_unit P2) (pr_sig P2)) as Z2.
  fold Hn in Z1, Z2. 
  assert (RP (val_of vals1) (rq_revealed req) = RP (val_of vals2) (rq_revealed req)) as ER by (apply uprod_ext; intros a Ha; split; [reflexivity|exact (Hrev a Ha)]).
  rewrite ER in Z1. rewrite Z1 in Z2. clear Z1 ER I1 I2.
  assert (RP (eq_mt common2 rnd2) unrev = RP (eq_mt common1 rnd1) unrev ** (RP (val_of vals1) unrev ^^ c ** RP (val_of vals2) unrev ^^ (- c))) as EM.
  { rewrite <- !uprod_scale, <- !uprod_add. apply uprod_ext. intros a Ha. split; [reflexivity|]. rewrite (Dm a Ha). unfold value_of, val_of. ring. }
  rewrite EM, De, Dv, Dm2.
  (* one equation between the two signatures, raised to the power c *)
  assert (uA' pk V sg1 rnd1 ^^ sg_e sg1 ** S_ ^^ (sg_v sg1 - sg_e sg1 * er_r rnd1) ** C_ ^^ sg_m2 sg1 ** RP (val_of vals1) unrev =
          uA' pk V sg1 rnd1 ^^ sg_e sg2 ** S_ ^^ (sg_v sg2 - sg_e sg2 * er_r rnd2) ** C_ ^^ sg_m2 sg2 ** RP (val_of vals2) unrev) as EB.
  { apply (umul_cancel_l n Hn (RP (val_of vals2) (rq_revealed req))).
    rewrite <- swap_uA' at 2. unfold uA'. fold Hn. 
    match type of Z2 with ?x = ?y => transitivity x; [umod_ring|]; transitivity y; [exact Z2|umod_ring] end. }
  clear Z2 EM.
  set (X := uA' pk V sg1 rnd1) in *. set (M1 := RP (val_of vals1) unrev) in *. set (M2 := RP (val_of vals2) unrev) in *. set (MT := RP (eq_mt common1 rnd1) unrev).
  match type of EB with ?x = ?y => assert ((x ** y ^-1) ^^ c = u1 n Hn) as EC by (rewrite EB; rewrite umul_inv_r, zpow_one; reflexivity) end.
  match goal with |- _ = ?r => transitivity (r ** u1 n Hn); [|umod_ring] end. rewrite <- EC. umod_ring.
Qed.
Lemma swap_eqproof : the_eqproof pk V sg2 vals2 schema non_schema req common2 None rnd2 c = the_eqproof pk V sg1 vals1 schema non_schema req common1 None rnd1 c.
Proof.
  unfold the_eqproof. rewrite swap_uA'. f_equal.
  - apply map_ext_in. intros a Ha. f_equal. symmetry. exact (Hrev a Ha).
  - rewrite De. ring.
  - rewrite Dv. ring.
  - apply map_ext_in. intros a Ha. f_equal. rewrite (Dm a Ha). unfold value_of, val_of. ring.
  - rewrite Dm2. ring.
Qed.
End Swap.

(** ** sessions *)
Section Session.
Variable C : curve.
Notation Hn V := (vk_n _ V).
(** the step of an item without predicates and non-revocation part *)
Definition plain_init (it : item C) (V : valid_pk (cp_p (it_pk it))) (common : smap Z) : initproof C :=
  mkInitProof (mkPInit (the_eqinit _ V (cs_p (it_sig it)) (it_schema it) (it_non_schema it) (it_req it) common None (su_eq C (it_rnd it))) [])
    None (it_vals it) (it_req it) (it_schema it) (it_non_schema it).
Definition plain_proof (it : item C) (V : valid_pk (cp_p (it_pk it))) (common : smap Z) (c : Z) : subproof C :=
  mkSubProof (mkPProof (the_eqproof _ V (cs_p (it_sig it)) (it_vals it) (it_schema it) (it_non_schema it) (it_req it) common None (su_eq C (it_rnd it)) c) []) None.
Lemma plain_add b (it : item C) (I : item_ok C it) V : cs_r (it_sig it) = None -> rq_predicates (it_req it) = [] ->
  builder_add C b (it_req it) (it_schema it) (it_non_schema it) (it_sig it) (it_vals it) (it_pk it) (it_accum it) (it_omega it) (it_rnd it) =
  (mkBuilder (pb_common b) (pb_init b ++ [plain_init it V (pb_common b)])
     (pb_c_list b ++ [bn_to_bytes (uv (uA' _ V (cs_p (it_sig it)) (su_eq C (it_rnd it))))])
     (pb_tau_list b ++ [bn_to_bytes (uv (uT _ V (cs_p (it_sig it)) (it_schema it) (it_non_schema it) (it_req it) (pb_common b) None (su_eq C (it_rnd it))))]), Ok tt).
Proof.
  intros Er Ep. pose proof (io_present _ _ _ I) as P. unfold builder_add. rewrite (builder_check_ok _ _ _ _ _ _ _ P). rewrite Er. cbv zeta.
  unfold init_primary_proof.
  rewrite (init_eq_u _ V _ _ _ _ _ (pr_attrs P) (pr_bases P) (pr_unit P)). cbn [rbind]. rewrite Ep. cbn [rmap rbind]. reflexivity.
Qed.
Lemma plain_finalize (it : item C) (I : item_ok C it) V common c : rq_predicates (it_req it) = [] ->
  finalize_one C c (plain_init it V common) = Ok (plain_proof it V common c).
Proof.
  intros Ep. pose proof (io_present _ _ _ I) as P. unfold finalize_one, plain_init. cbn [in_r in_p in_vals in_req in_schema in_non_schema rbind].
  unfold finalize_primary_proof. cbn [pi_eq pi_ne]. rewrite (finalize_eq_u _ V _ _ _ _ _ (pr_non_schema P) (pr_revealed_sorted P) (pr_attrs P)).
  - reflexivity.
  - intros a Ha. apply (pr_attrs P). left. now apply (pr_revealed P).
Qed.

(** how the draws change *)
Definition shift_draws (c k : Z) (sg1 sg2 : psig) (vals1 vals2 : cred_values) (commons : list string) (unrev : sset) (rnd : eqrand) : eqrand :=
  mkEqRand (er_m2_tilde rnd + c * (sg_m2 sg1 - sg_m2 sg2)) (er_r rnd + k) (er_e_tilde rnd + c * (sg_e sg1 - sg_e sg2))
    (er_v_tilde rnd + c * ((sg_v sg1 - sg_e sg1 * er_r rnd) - (sg_v sg2 - sg_e sg2 * (er_r rnd + k))))
    (fun a => if ss_mem a unrev && negb (ss_mem a commons) then er_m rnd a + c * (value_of vals1 a - value_of vals2 a) else er_m rnd a).
Definition it_unrev (it : item C) : sset := unrevealed (it_non_schema it) (it_schema it) (it_req it).

(** the responses lie in the middle, in terms of secrets and draws *)
Definition mid (c : Z) (common : smap Z) (it : item C) : Prop :=
  let rnd := su_eq C (it_rnd it) in let sg := cs_p (it_sig it) in
  2 ^ 512 <= c * sg_m2 sg + er_m2_tilde rnd < 2 ^ 592 /\
  2 ^ 375 <= c * (sg_e sg - LARGE_E_START_VALUE) + er_e_tilde rnd < 2 ^ 456 /\
  2 ^ 2981 <= c * (sg_v sg - sg_e sg * er_r rnd) + er_v_tilde rnd < 2 ^ 3060 - 2 ^ 2981 /\
  forall a, In a (it_unrev it) -> 2 ^ 512 <= c * value_of (it_vals it) a + eq_mt common rnd a < 2 ^ 592.
Lemma middle_mid (it : item C) V common c : middle (plain_proof it V common c) -> mid c common it.
Proof.
  intros [M1 M2 M3 M4]. unfold plain_proof in *. cbn [sp_p pp_eq ep_m2 ep_e ep_v the_eqproof] in M1, M2, M3. unfold mid.
  split; [exact M1|]. split; [exact M2|]. split; [exact M3|]. intros a Ha. apply (M4 a). unfold response. cbn [sp_p pp_eq the_eqproof ep_m].
  rewrite (sm_get_map (fun k => c * val_of (it_vals it) k + eq_mt common (su_eq C (it_rnd it)) k)).
  fold (it_unrev it). apply ss_mem_in in Ha. rewrite Ha. reflexivity.
Qed.
Lemma finalize_init_mono (b : builder C) H nonce pf : builder_finalize C H b nonce = Ok pf ->
  pf_c_hash pf = get_hash_as_int H (pb_tau_list b ++ pb_c_list b ++ [bn_to_bytes nonce]) /\ rmap (finalize_one C (pf_c_hash pf)) (pb_init b) = Ok (pf_proofs pf) /\ pf_c_list pf = pb_c_list b.
Proof.
  unfold builder_finalize. intros E. apply rbind_ok in E as (ps & E1 & E). injection E as <-. cbn [pf_c_hash pf_proofs pf_c_list]. auto.
Qed.

Lemma small_c_mul c x a b : 0 <= c < 2 ^ 256 -> 0 <= x <= 2 ^ b -> a = 256 + b -> 0 <= b -> 0 <= c * x <= 2 ^ a.
Proof. intros Hc Hx -> Hb. rewrite Z.pow_add_r by lia. split; [nia|]. apply Z.mul_le_mono_nonneg; lia. Qed.

(** the exchange of the credentials of a whole list *)
Lemma swap_step c common1 common2 names (it : item C) other :
  exchangeable it other -> mid c common1 it -> 0 <= c < 2 ^ 256 -> draws_ok (su_eq C (it_rnd it)) ->
  er_r (su_eq C (it_rnd it)) + pk_n (cp_p (it_pk it)) <= 2 ^ 2128 ->
  (forall a, sm_get a common1 = None <-> ~ In a names) -> (forall a, sm_get a common2 = None <-> ~ In a names) ->
  (forall a d, In a names -> sm_get a common1 = Some d -> sm_get a common2 = Some (d + c * (value_of (it_vals it) a - value_of (snd other) a))) ->
  exists rnd', draws_ok (su_eq C rnd') /\ forall b1 b2, pb_common b1 = common1 -> pb_common b2 = common2 ->
    pb_c_list b1 = pb_c_list b2 -> pb_tau_list b1 = pb_tau_list b2 ->
    let it' := with_credential it other rnd' in
    exists ip ip' cs ts,
      builder_add C b1 (it_req it) (it_schema it) (it_non_schema it) (it_sig it) (it_vals it) (it_pk it) (it_accum it) (it_omega it) (it_rnd it) =
        (mkBuilder common1 (pb_init b1 ++ [ip]) cs ts, Ok tt) /\
      builder_add C b2 (it_req it') (it_schema it') (it_non_schema it') (it_sig it') (it_vals it') (it_pk it') (it_accum it') (it_omega it') (it_rnd it') =
        (mkBuilder common2 (pb_init b2 ++ [ip']) cs ts, Ok tt) /\
      finalize_one C c ip' = finalize_one C c ip.
Proof.
  intros X M Bc D Er N1 N2 N3. destruct other as [sg' vals']. destruct (ex_coset C _ _ X) as (k & Bk & EA). cbn [fst snd] in EA.
  destruct M as (M1 & M2 & M3 & M4).
  pose (rnd := su_eq C (it_rnd it)). fold rnd in M1, M2, M3, M4, D, Er.
  pose (sg1 := cs_p (it_sig it)). fold sg1 in M1, M2, M3, EA.
  pose (e' := shift_draws c k sg1 (cs_p sg') (it_vals it) vals' names (it_unrev it) rnd).
  exists (mkSubRand C e' (su_ne C (it_rnd it)) (su_d C (it_rnd it)) (su_tp C (it_rnd it))). cbn [su_eq].
  destruct (ex_size1 C _ _ X) as [A1 A2 A3 A4]. destruct (ex_size2 C _ _ X) as [B1 B2 B3 B4]. cbn [fst snd] in B1, B2, B3, B4. fold sg1 in A2, A3, A4.
  destruct D as [D1 D2 D3 D4 D5]. unfold drawn in *.
  assert (LARGE_E_START_VALUE = 2 ^ 596) as LE by reflexivity. rewrite LE in M2.
  split.
  { assert (forall x, 0 <= x <= 2 ^ 256 -> 0 <= c * x <= 2 ^ 512) as Q by (intros; eapply small_c_mul; eauto; lia).
    unfold e', shift_draws. constructor; unfold drawn; cbn [er_m2_tilde er_r er_e_tilde er_v_tilde er_m].
    - pose proof (Q (sg_m2 (cs_p sg')) ltac:(lia)). rewrite Z.mul_sub_distr_l. lia.
    - lia.
    - pose proof (small_c_mul c (sg_e (cs_p sg') - 2 ^ 596) 375 119 Bc ltac:(lia) eq_refl ltac:(lia)).
      replace (er_e_tilde rnd + c * (sg_e sg1 - sg_e (cs_p sg'))) with (c * (sg_e sg1 - 2 ^ 596) + er_e_tilde rnd - c * (sg_e (cs_p sg') - 2 ^ 596)) by ring. lia.
    - set (r2 := er_r rnd + k) in *. set (s2 := cs_p sg') in *.
      assert (0 <= sg_e s2 * r2 <= 2 ^ 2725) as E1.
      { split; [apply Z.mul_nonneg_nonneg; lia|]. transitivity (2 ^ 597 * 2 ^ 2128); [|rewrite <- Z.pow_add_r by lia; apply Z.pow_le_mono_r; lia].
        apply Z.mul_le_mono_nonneg; lia. }
      pose proof (small_c_mul c (sg_v s2) 2981 2725 Bc ltac:(lia) eq_refl ltac:(lia)) as E2.
      pose proof (small_c_mul c (sg_e s2 * r2) 2981 2725 Bc E1 eq_refl ltac:(lia)) as E3.
      replace (er_v_tilde rnd + c * (sg_v sg1 - sg_e sg1 * er_r rnd - (sg_v s2 - sg_e s2 * r2)))
        with (c * (sg_v sg1 - sg_e sg1 * er_r rnd) + er_v_tilde rnd - c * sg_v s2 + c * (sg_e s2 * r2)) by ring. lia.
    - intros a. destruct (ss_mem a (it_unrev it)) eqn:Eu; cbn [andb]; [|apply D5]. destruct (ss_mem a names) eqn:En; cbn [negb]; [apply D5|].
      apply ss_mem_in in Eu. pose proof (M4 a Eu) as Ma. unfold eq_mt in Ma. assert (~ In a names) as Nn by (intros Hn; apply ss_mem_in in Hn; congruence).
      rewrite (proj2 (N1 a) Nn) in Ma. pose proof (Q (value_of vals' a) ltac:(specialize (B1 a); lia)). rewrite Z.mul_sub_distr_l. lia. }
  intros b1 b2 C1 C2 C3 C4. set (it' := with_credential it (sg', vals') _).
  pose proof (ex_ok1 C _ _ X) as I1.
  assert (item_ok C it') as I2.
  { destruct (ex_ok2 C _ _ X) as [W1 W2 W3 W4]. constructor; [exact W1|exact W2|exact W3|exact W4]. }
  pose proof (io_pk _ _ _ I1) as V.
  rewrite (plain_add b1 it I1 V (ex_plain1 C _ _ X) (ex_no_preds C _ _ X)).
  rewrite (plain_add b2 it' I2 V (ex_plain2 C _ _ X) (ex_no_preds C _ _ X)).
  assert (forall a, In a (it_unrev it) -> eq_mt common2 e' a = eq_mt common1 rnd a + c * (value_of (it_vals it) a - value_of vals' a)) as Dm.
  { intros a Ha. unfold eq_mt. destruct (sm_get a common1) as [d|] eqn:E1.
    - assert (In a names) as Hn. { destruct (in_dec String.string_dec a names) as [|Nn]; [assumption|]. apply N1 in Nn. congruence. }
      rewrite (N3 a d Hn E1). reflexivity.
    - pose proof (proj1 (N1 a) E1) as Nn. rewrite (proj2 (N2 a) Nn). unfold e', shift_draws. cbn [er_m].
      apply ss_mem_in in Ha. rewrite Ha. destruct (ss_mem a names) eqn:En; [apply ss_mem_in in En; contradiction|]. reflexivity. }
  pose proof (io_present _ _ _ I1) as P1. pose proof (io_present _ _ _ I2) as P2.
  apply (presentable_weaken _ (predicate_provable (it_vals it))) in P1; [|apply satisfied_provable].
  apply (presentable_weaken _ (predicate_provable (it_vals it'))) in P2; [|apply satisfied_provable].
  cbn [it' with_credential it_pk it_vals it_sig it_schema it_non_schema it_req fst snd] in P2.
  assert (0 <= k) as Hk by lia.
  pose proof (swap_uA' (cp_p (it_pk it)) V _ _ _ sg1 (cs_p sg') (it_vals it) vals' P1 P2 k Hk EA rnd e' eq_refl) as SA.
  pose proof (swap_uT (cp_p (it_pk it)) V _ _ _ sg1 (cs_p sg') (it_vals it) vals' P1 P2 k Hk EA (ex_revealed C _ _ X) common1 common2 rnd e' c eq_refl eq_refl eq_refl eq_refl Dm) as ST.
  pose proof (swap_eqproof (cp_p (it_pk it)) V _ _ _ sg1 (cs_p sg') (it_vals it) vals' P1 P2 k Hk EA (ex_revealed C _ _ X) common1 common2 rnd e' c eq_refl eq_refl eq_refl eq_refl Dm) as SP.
  exists (plain_init it V common1), (plain_init it' V common2). do 2 eexists.
  rewrite C1, C2. split; [reflexivity|]. split.
  - cbn [it' with_credential it_pk it_vals it_sig it_schema it_non_schema it_req it_rnd fst snd su_eq]. rewrite SA, ST, C3, C4. reflexivity.
  - rewrite (plain_finalize it I1 V common1 c (ex_no_preds C _ _ X)), (plain_finalize it' I2 V common2 c (ex_no_preds C _ _ X)).
    unfold plain_proof. cbn [it' with_credential it_pk it_vals it_sig it_schema it_non_schema it_req it_rnd fst snd su_eq]. rewrite SP. reflexivity.
Qed.

Lemma swap_all c common1 common2 names : 0 <= c < 2 ^ 256 ->
  (forall a, sm_get a common1 = None <-> ~ In a names) -> (forall a, sm_get a common2 = None <-> ~ In a names) ->
  forall items others, Forall2 exchangeable items others ->
  (forall it, In it items -> mid c common1 it /\ draws_ok (su_eq C (it_rnd it)) /\ er_r (su_eq C (it_rnd it)) + pk_n (cp_p (it_pk it)) <= 2 ^ 2128) ->
  (forall it other a d, In (it, other) (combine items others) -> In a names -> sm_get a common1 = Some d ->
     sm_get a common2 = Some (d + c * (value_of (it_vals it) a - value_of (snd other) a))) ->
  exists rnds, length rnds = length items /\ Forall (fun r => draws_ok (su_eq C r)) rnds /\
    forall b1 b2, pb_common b1 = common1 -> pb_common b2 = common2 -> pb_c_list b1 = pb_c_list b2 -> pb_tau_list b1 = pb_tau_list b2 ->
    exists ips ips' cs ts,
      build_all C b1 items = (mkBuilder common1 (pb_init b1 ++ ips) cs ts, Ok tt) /\
      build_all C b2 (exchange items others rnds) = (mkBuilder common2 (pb_init b2 ++ ips') cs ts, Ok tt) /\
      rmap (finalize_one C c) ips' = rmap (finalize_one C c) ips.
Proof.
  intros Bc N1 N2 items others F. induction F as [|it other items others X F IH]; intros Hi Hn.
  { exists []. split; [reflexivity|]. split; [constructor|]. intros b1 b2 C1 C2 C3 C4. exists [], [], (pb_c_list b1), (pb_tau_list b1). cbn [build_all exchange].
    rewrite !app_nil_r. split; [destruct b1; cbn in *; subst; reflexivity|]. split; [rewrite C3, C4; destruct b2; cbn in *; subst; reflexivity|reflexivity]. }
  destruct (Hi it (or_introl eq_refl)) as (M & D & Er).
  destruct (swap_step c common1 common2 names it other X M Bc D Er N1 N2) as (r & Dr & St).
  { intros a d Ha Ed. apply Hn; [now left|assumption|assumption]. }
  destruct IH as (rnds & L & FD & Stp).
  { intros; apply Hi; now right. }
  { intros; eapply Hn; eauto. now right. }
  exists (r :: rnds). split; [cbn [length]; congruence|]. split; [now constructor|]. intros b1 b2 C1 C2 C3 C4.
  destruct (St b1 b2 C1 C2 C3 C4) as (ip & ip' & cs & ts & E1 & E2 & E3).
  destruct (Stp (mkBuilder common1 (pb_init b1 ++ [ip]) cs ts) (mkBuilder common2 (pb_init b2 ++ [ip']) cs ts) eq_refl eq_refl eq_refl eq_refl) as (ips & ips' & cs' & ts' & F1 & F2 & F3).
  exists (ip :: ips), (ip' :: ips'), cs', ts'. cbn [build_all exchange]. rewrite E1, E2, F1, F2. cbn [pb_init]. rewrite <- !app_assoc.
  split; [reflexivity|]. split; [reflexivity|]. cbn [rmap]. rewrite E3, F3. reflexivity.
Qed.

Lemma common_builder_map commons : NoDup (map fst commons) -> forall a, sm_get a (pb_common (common_builder C commons)) = sm_get a commons.
Proof.
  unfold common_builder. intros N a.
  assert (forall l b, NoDup (map fst l) -> sm_get a (pb_common (fold_left (fun b '(a, d) => builder_add_common C b a d) l b)) =
    match sm_get a l with Some d => Some d | None => sm_get a (pb_common b) end) as G.
  { induction l as [|[k d] l IH]; intros b Nd; cbn [fold_left sm_get]; [reflexivity|]. inversion Nd as [|? ? Nk Nd']; subst. rewrite (IH _ Nd').
    unfold builder_add_common at 1. cbn [pb_common]. rewrite sm_get_hm_insert. destruct (String.eqb_spec a k) as [->|].
    - destruct (sm_get k l) eqn:E; [|reflexivity]. exfalso. apply Nk. cbn [map fst]. apply (sm_get_keys k l). eauto.
    - reflexivity. }
  rewrite G by exact N. destruct (sm_get a commons); reflexivity.
Qed.
Lemma plain_responses H commons items nonce (pf : proof C) : session H commons items nonce pf ->
  (forall it, In it items -> item_ok C it /\ cs_r (it_sig it) = None /\ rq_predicates (it_req it) = []) ->
  Forall2 (fun it sp => exists V, sp = plain_proof it V (pb_common (common_builder C commons)) (pf_c_hash pf)) items (pf_proofs pf).
Proof.
  intros (b & Eb & Ef) Hi. destruct (common_builder_shape C commons) as (S1 & _ & _). apply finalize_init_mono in Ef as (_ & Ef & _).
  assert (forall items b b', (forall it, In it items -> item_ok C it /\ cs_r (it_sig it) = None /\ rq_predicates (it_req it) = []) -> build_all C b items = (b', Ok tt) ->
    exists ips, pb_init b' = pb_init b ++ ips /\ Forall2 (fun it ip => exists V, finalize_one C (pf_c_hash pf) ip = Ok (plain_proof it V (pb_common b) (pf_c_hash pf))) items ips) as G.
  { clear. induction items as [|it items IH]; intros b b' Hi E; cbn [build_all] in E.
    - injection E as <-. exists []. rewrite app_nil_r. split; [reflexivity|constructor].
    - destruct (Hi it (or_introl eq_refl)) as (I & R & P). rewrite (plain_add b it I (io_pk _ _ _ I) R P) in E.
      apply IH in E; [|intros; apply Hi; now right]. destruct E as (ips & E1 & F). cbn [pb_init pb_common] in E1, F.
      exists (plain_init it (io_pk _ _ _ I) (pb_common b) :: ips). split; [rewrite E1, <- app_assoc; reflexivity|]. constructor; [|exact F].
      exists (io_pk _ _ _ I). now apply plain_finalize. }
  destruct (G _ _ _ Hi Eb) as (ips & E1 & F). rewrite S1 in E1. cbn [app] in E1. rewrite E1 in Ef. clear - F Ef. revert Ef. generalize (pf_proofs pf).
  induction F as [|it ip items ips (V & E) F IH]; intros sps Ef; cbn [rmap] in Ef; [injection Ef as <-; constructor|].
  rewrite E in Ef. cbn [rbind] in Ef. apply rbind_ok in Ef as (sps' & E2 & Ef). injection Ef as <-. constructor; [eauto|now apply IH].
Qed.
End Session.

(** Presentations that should not be accepted but are (C30-C33, C46). *)
From Verif Require Import Base BnModel BnProofs UMod Fermat StrMap HelpersModel HelpersSpec HelpersProofs ClModel ClSpec ClLib ClKey ClIssue ClBlind
  ClPresent ClPred Alg ClRevModel ClRevSpec ClNonRevoc ClRevMore ClProofModel ClPresSpec ClPrimary ClPresentation ClVerify.
Open Scope string_scope.
Open Scope list_scope.
Open Scope Z_scope.

Section Forge.
Variables (pk : ppk) (V : valid_pk pk).
Notation n := (pk_n pk).
Let Hn : 2 <= n := vk_n pk V.
Local Notation "a ** b" := (umul n Hn a b) (at level 40, left associativity).
Local Notation "a ^^ k" := (zpow n Hn a k) (at level 30).

Lemma forge_loop : forall (l : cred_values) acc, (forall k, In k (sm_keys l) -> In k (sm_keys (pk_r pk))) ->
  rfold (fun rx '(k, cv) =>
      let! r := sm_get_or InvalidStructure k (pk_r pk) in
      let! y := bn_mod_exp r (cv_value cv) (pk_n pk) in
      bn_mod_mul rx y (pk_n pk)) l (uv acc) = Ok (uv (acc ** aprod pk V (int_values l))).
Proof.
  induction l as [|[k cv] l IH]; intros acc Hk; cbn [rfold].
  - do 2 f_equal. unfold aprod, int_values. cbn [map fold_right]. fold Hn. umod_ring.
  - rewrite (uR_get_or pk V) by (apply Hk; now left). cbn [rbind]. rewrite (mod_exp_u n Hn). cbn [rbind]. rewrite (mod_mul_u n Hn). cbn [rbind].
    rewrite IH by (intros; apply Hk; now right). do 2 f_equal. unfold aprod, int_values. cbn [map fold_right fst snd]. fold Hn. umod_ring.
Qed.
Lemma forge_ok vals : (forall k, In k (sm_keys vals) -> In k (sm_keys (pk_r pk))) ->
  exists sg, forge pk vals = Ok sg /\ unit_mod n (sg_a sg) /\ cl_signature pk sg (attribute_values vals) /\ sg_e sg = 1.
Proof.
  intros Hk. unfold forge.
  pose proof (forge_loop vals (u1 n Hn) Hk) as EL. rewrite (uv_1 n Hn) in EL. rewrite EL. cbn [rbind]. rewrite (uZ_eq pk V), (mod_div_u n Hn). cbn [rbind].
  eexists. split; [reflexivity|]. cbn [sg_a sg_e].
  assert (forall x : U n, unit_mod n (uv x)) as Hu.
  { intros x. split; [apply (uv_range n x)|apply (uv_gcd n x)]. }
  split; [apply Hu|]. split; [|reflexivity].
  apply (cl_signature_u pk V); [apply Hu| |].
  { unfold attribute_values. rewrite map_map. exact Hk. }
  cbn [sg_e sg_v sg_m2].
  set (x := umul n Hn (uZ pk V) _).
  assert (uA pk V (mkPSig 0 (uv x) 1 0) = x) as ->.
  { apply uv_inj. unfold uA. cbn [sg_a]. apply uv_lift. apply Hu. }
  unfold x. change (attribute_values vals) with (int_values vals). fold Hn. umod_ring.
Qed.
End Forge.

(** ** predicates *)
Lemma ne_complete pk (V : valid_pk pk) vals mtm p rnd mt cv :
  sm_get (p_attr p) vals = Some cv -> is_i32 (cv_value cv) -> is_i32 (p_value p) -> holds (p_type p) (cv_value cv) (p_value p) ->
  true_delta (p_type p) (cv_value cv) (p_value p) < 2 ^ 31 -> sm_get (p_attr p) mtm = Some mt ->
  0 <= nr_r rnd "DELTA" -> 0 <= nr_r_tilde rnd "DELTA" ->
  exists ni, init_ne_proof pk mtm vals p rnd = Ok ni /\ ni_predicate ni = p /\
    forall c eq, 0 <= c -> sm_get (p_attr p) (ep_m eq) = Some (c * cv_value cv + mt) ->
    exists np, finalize_ne_proof c ni eq = Ok np /\ verify_ne_predicate pk np c = Ok (ni_tau_list ni) /\ np_predicate np = p.
Proof.
  intros Ecv Ia Iv Hh Hd Hmt R1 R2. set (a := cv_value cv) in *.
  assert (exists cv, sm_get (p_attr p) vals = Some cv /\ cv_value cv = a) as Hcv by eauto.
  assert (is_i32 (true_delta (p_type p) a (p_value p))) as It.
  { unfold is_i32 in *. split; [|assumption]. destruct (p_type p); cbn [holds true_delta] in *; lia. }
  assert (0 <= get_delta (p_type p) (p_value p) a) as Hd0 by now apply get_delta_iff.
  assert (get_delta (p_type p) (p_value p) a = if is_less (p_type p) then get_delta_prime (p_type p) (p_value p) - a else a - get_delta_prime (p_type p) (p_value p)) as Hrel.
  { apply delta_prime_rel; auto. unfold is_i32 in *. destruct (p_type p); cbn [holds] in *; lia. }
  destruct (four_squares_ok _ Hd0) as (u0 & u1 & u2 & u3 & Hfs & _ & _ & _ & _ & Hsum).
  pose proof (init_ne_u pk V vals p rnd mtm mt a Hcv Ia Hmt Hd0 R2 u0 u1 u2 u3 Hfs) as Ein.
  eexists. split; [exact Ein|]. split; [reflexivity|]. intros c eq Hc Em.
  eexists. split; [|split].
  - eapply finalize_ne_u. exact Em.
  - eapply verify_ne_u; eauto.
  - reflexivity.
Qed.

Section Attacks.
Variable C : curve.
Hypothesis LW : curve_laws C.
Variable H : list Z -> list Z.

Lemma predicate_attrs_in req p : In p (rq_predicates req) -> In (p_attr p) (predicate_attrs req).
Proof. intros Hp. unfold predicate_attrs. apply ss_of_list_in, in_map, Hp. Qed.

Lemma cheat_ok pk rk (z : option (cGT C)) accum sg vals schema non_schema revealed ps claim nonce rnd nrnd :
  hash32 H -> valid_pk pk -> presentable_for (predicate_provable vals) pk sg vals schema non_schema (mkSubReq revealed []) ->
  pset_of_list ps = ps ->
  (forall p, In p ps -> In (p_attr p) schema /\ is_i32 (claim p) /\ is_i32 (p_value p) /\ holds (p_type p) (claim p) (p_value p) /\
     true_delta (p_type p) (claim p) (p_value p) < 2 ^ 31 /\ 0 <= nr_r (nrnd p) "DELTA" /\ 0 <= nr_r_tilde (nrnd p) "DELTA") ->
  exists pf v v', cheat C H pk sg vals schema non_schema revealed ps claim nonce rnd nrnd = Ok pf /\
    verifier_add C (verifier_new C) (mkSubReq revealed ps) schema non_schema (mkCPK pk rk) z accum = (v, Ok tt) /\
    verify C H v pf nonce = (v', Ok true) /\
    forall sp, In sp (pf_proofs pf) -> ep_revealed (pp_eq (sp_p sp)) = map (fun k => (k, val_of vals k)) revealed /\
      forall k cv, sm_get k vals = Some cv -> ~ In k revealed -> response C sp k = Some (pf_c_hash pf * cv_value cv + er_m rnd k).
Proof.
  intros Hh V P Sps Hps. unfold cheat.
  destruct (primary_complete pk V sg vals schema non_schema (mkSubReq revealed []) P [] None rnd nrnd) as (ip & Eip & _ & Hc).
  { intros p []. }
  rewrite Eip. cbn [rbind].
  pose (R := fun p ni => ni_predicate ni = p /\ forall c eq, 0 <= c -> sm_get (p_attr p) (ep_m eq) = Some (c * claim p + 0) ->
     exists np, finalize_ne_proof c ni eq = Ok np /\ verify_ne_predicate pk np c = Ok (ni_tau_list ni) /\ np_predicate np = p).
  destruct (rmap_exists (fun p => init_ne_proof pk [(p_attr p, 0)] (made_up claim p) p (nrnd p)) R ps) as (nes & En & FR).
  { intros p Hp. destruct (Hps p Hp) as (_ & I1 & I2 & I3 & I4 & R1 & R2).
    destruct (ne_complete pk V (made_up claim p) [(p_attr p, 0)] p (nrnd p) 0 (Known (claim p))) as (ni & E1 & E2 & E3);
      cbn [cv_value]; try assumption; try (unfold made_up; cbn [sm_get fst snd]; now rewrite String.eqb_refl).
    exists ni. split; [exact E1|]. split; [exact E2|]. exact E3. }
  rewrite En. cbn [rbind]. set (ip' := mkPInit (pi_eq ip) nes). set (nums := pinit_tau_list ip' ++ _).
  set (c := get_hash_as_int H nums). pose proof (challenge_bound H nums Hh) as Bc. fold c in Bc.
  destruct (Hc c ltac:(lia)) as (pf & ts & Ef & Ev & Et & Er & Ep & Em & _). rewrite Ef. cbn [rbind].
  assert (pp_ne pf = []) as Ene by (destruct (pp_ne pf); [reflexivity|discriminate Ep]).
  set (fake := fun ne => mkEqProof [] 0 0 0 [(p_attr (ni_predicate ne), c * claim (ni_predicate ne))] 0).
  destruct (rmap_exists2 (fun ne => finalize_ne_proof c ne (fake ne)) R (fun p ni np => verify_ne_predicate pk np c = Ok (ni_tau_list ni) /\ np_predicate np = p) ps nes FR)
    as (nps & Enp & FQ).
  { intros p ni _ [E1 Hr]. destruct (Hr c (fake ni) ltac:(lia)) as (np & F1 & F2 & F3).
    { unfold fake. cbn [ep_m]. rewrite E1. cbn [sm_get fst snd]. rewrite String.eqb_refl. now rewrite Z.add_0_r. }
    exists np. rewrite F1. auto. }
  match goal with |- context [rmap ?f nes] => replace (rmap f nes) with (@Ok (list neproof) nps) by (symmetry; exact Enp) end. cbn [rbind].
  assert (map np_predicate nps = ps /\ rmap (fun ne => verify_ne_predicate pk ne c) nps = Ok (map ni_tau_list nes)) as [Epp Evp].
  { clearbody c. clear - FQ FR. revert nps FQ. induction FR as [|p ni ps nis' Rp F IH]; intros nps FQ; cbn [combine] in FQ; inversion FQ; subst; cbn [map rmap].
    - auto.
    - match goal with H : _ /\ _ |- _ => destruct H as [Q1 Q2] end. cbn [fst snd] in Q1, Q2.
      destruct (IH _ ltac:(eassumption)) as [I1 I2]. rewrite Q1, I2. cbn [rbind]. split; [congruence|reflexivity]. }
  unfold verify_primary_proof in Ev. rewrite Ene in Ev. cbn [rmap rbind concat] in Ev.
  destruct (verify_equality pk (pp_eq pf) c schema non_schema (mkSubReq revealed [])) as [th|e] eqn:Eeq; [|discriminate].
  cbn [rbind] in Ev. rewrite app_nil_r in Ev. assert (th = ts) as -> by congruence.
  set (v := mkVerifier [mkVCred (mkCPK pk rk) (mkSubReq revealed ps) schema non_schema z accum] []).
  set (pr := mkProof [mkSubProof (mkPProof (pp_eq pf) nps) None] c (pinit_c_list ip')).
  assert (map bn_to_bytes ts = [bn_to_bytes (ei_t (pi_eq ip))]) as Et'.
  { rewrite Et. unfold pinit_tau_list. destruct (pi_ne ip) as [|x l] eqn:Epi; [reflexivity|].
    exfalso. unfold init_primary_proof in Eip. cbn [rq_predicates rmap] in Eip.
    destruct (init_eq_proof _ _ _ _ _ _ _ _) as [q|]; cbn [rbind] in Eip; [|discriminate].
    assert (ip = mkPInit q []) as -> by congruence. discriminate. }
  assert (exists v', verify C H v pr nonce = (v', Ok true)) as [v' Evv].
  { apply (verify_iff C H).
    { intros vc [<-|[]]. cbn [vc_req]. split; [exact (pr_revealed_sorted P)|exact Sps]. }
    cbn [v pr vf_creds vf_common pf_proofs pf_c_hash pf_c_list length combine].
    split; [reflexivity|]. split; [|split].
    - constructor; [|constructor]. split; cbn [sp_p pp_eq pp_ne vc_req rq_revealed rq_predicates].
      + intros k. rewrite Er. unfold sm_keys. rewrite map_map. cbn [fst rq_revealed]. now rewrite map_id.
      + intros p. rewrite Epp. tauto.
    - intros a [].
    - exists [map bn_to_bytes ts ++ concat (map (fun ne => map bn_to_bytes (ni_tau_list ne)) nes)]. split.
      + constructor; [|constructor]. unfold recomputed. cbn [sp_r rbind sp_p vc_pk cp_p vc_schema vc_non_schema vc_req].
        unfold verify_primary_proof. cbn [pp_eq pp_ne].
        replace (verify_equality pk (pp_eq pf) c schema non_schema (mkSubReq revealed ps)) with (@Ok (list Z) ts)
          by (symmetry; exact Eeq).
        cbn [rbind]. rewrite Evp. cbn [rbind app]. rewrite map_app. do 2 f_equal.
        now rewrite concat_map, map_map.
      + cbn [concat app]. rewrite app_nil_r, Et'. reflexivity. }
  exists pr, v, v'. split; [reflexivity|]. split; [|split; [exact Evv|]].
  - unfold verifier_add.
    assert (Nat.eqb (length (ss_diff (rq_revealed (mkSubReq revealed ps)) schema)) 0 = true) as ->.
    { apply length0_iff. intros x. rewrite ss_diff_in. cbn [rq_revealed]. intros [Hx Nx]. apply Nx. now apply (pr_revealed P). }
    assert (Nat.eqb (length (ss_diff (predicate_attrs (mkSubReq revealed ps)) schema)) 0 = true) as ->.
    { apply length0_iff. intros x. unfold predicate_attrs. rewrite ss_diff_in, ss_of_list_in, in_map_iff. cbn [rq_predicates].
      intros [(p & <- & Hp) Nx]. apply Nx. now apply Hps. }
    reflexivity.
  - cbn [pr pf_proofs pf_c_hash]. intros sp [<-|[]]. cbn [sp_p pp_eq]. split; [exact Er|].
    intros k cv Ecv Nk. unfold response. cbn [sp_p pp_eq]. rewrite Em. unfold m_response.
    assert (ss_mem k (unrevealed non_schema schema (mkSubReq revealed [])) = true) as ->.
    { apply ss_mem_in. unfold unrevealed. rewrite ss_diff_in, ss_union_in. cbn [rq_revealed]. split; [|exact Nk].
      apply or_comm, (pr_attrs P). apply sm_get_keys. eauto. }
    cbn [sm_get]. unfold val_of. now rewrite Ecv.
Qed.

(** ** common attributes across verifications *)
Lemma second_rejected v pf1 pf2 nonce1 nonce2 v1 a sp1 sp2 :
  (forall vc, In vc (vf_creds v) -> wf_req (vc_req vc)) ->
  verify C H v pf1 nonce1 = (v1, Ok true) -> In a (sm_keys (vf_common v)) ->
  In sp1 (pf_proofs pf1) -> In sp2 (pf_proofs pf2) -> response C sp1 a <> response C sp2 a ->
  forall v2 r, verify C H v1 pf2 nonce2 = (v2, r) -> r <> Ok true.
Proof.
  intros W E1 Ha H1 H2 N v2 r E2 ->.
  destruct (verify_state C H _ _ _ _ E1) as [S1 S2].
  destruct (proj1 (verify_iff C H v pf1 nonce1 W) (ex_intro _ _ E1)) as (_ & _ & Q1 & _).
  assert (forall vc, In vc (vf_creds v1) -> wf_req (vc_req vc)) as W1 by (rewrite S1; exact W).
  destruct (proj1 (verify_iff C H v1 pf2 nonce2 W1) (ex_intro _ _ E2)) as (_ & _ & Q2 & _).
  destruct (Q1 a Ha) as (m1 & M1 & _).
  assert (sm_get a (vf_common v1) = Some (Some m1)) as G.
  { rewrite S2. unfold after. destruct (pf_proofs pf1) as [|sp0 l]; [destruct H1|].
    pose proof Ha as Ha'. apply ss_mem_in in Ha'. rewrite Ha'. f_equal. apply M1. now left. }
  destruct (Q2 a) as (m2 & M2 & M3); [apply sm_get_keys; eauto|].
  apply N. rewrite (M1 sp1 H1), (M2 sp2 H2). f_equal. now apply M3.
Qed.

(** ** nonces *)
Lemma bn_to_bytes_suffix high low k : 1 <= high -> 1 <= k -> 256 ^ (k - 1) <= low < 256 ^ k ->
  bn_to_bytes (with_suffix high low k) = bn_to_bytes high ++ bn_to_bytes low.
Proof.
  intros Hh Hk Hl. unfold with_suffix.
  assert (0 < 256 ^ (k - 1)) by (apply Z.pow_pos_nonneg; lia).
  assert (0 < 256 ^ k) by (apply Z.pow_pos_nonneg; lia).
  unfold bn_to_bytes. rewrite (Z.abs_eq high), (Z.abs_eq low), (Z.abs_eq (_ + _)) by nia.
  destruct (digits_be_head 256 high ltac:(lia) ltac:(lia)) as (d & ds & Ed & Nd).
  pose proof (digits_be_range 256 high ltac:(lia)) as R1. pose proof (digits_be_range 256 low ltac:(lia)) as R2.
  assert (Z.of_nat (length (digits_be 256 low)) = k) as L.
  { destruct (digits_be_head 256 low ltac:(lia) ltac:(lia)) as (d' & ds' & Ed' & Nd').
    pose proof (digits_be_val 256 low ltac:(lia) ltac:(lia)) as Ev. rewrite Ed' in *. pose proof (Forall_inv R2) as B1. pose proof (Forall_inv_tail R2) as B2. cbn beta in B1.
    pose proof (val_be_bound 256 ds' ltac:(lia) B2) as Bd. rewrite val_be_cons in Ev. cbn [length]. rewrite Nat2Z.inj_succ.
    set (j := Z.of_nat (length ds')) in *. assert (0 <= j) by (unfold j; lia). clearbody j.
    assert (256 ^ j <= low < 256 ^ (j + 1)) as [B3 B4].
    { rewrite Z.pow_add_r by lia. assert (0 < 256 ^ j) by (apply Z.pow_pos_nonneg; lia). nia. }
    destruct (Z.lt_trichotomy (Z.succ j) k) as [Q|[Q|Q]]; [|exact Q|]; exfalso.
    - assert (256 ^ (j + 1) <= 256 ^ (k - 1)) by (apply Z.pow_le_mono_r; lia). lia.
    - assert (256 ^ k <= 256 ^ j) by (apply Z.pow_le_mono_r; lia). lia. }
  replace (high * 256 ^ k + low) with (val_be 256 (digits_be 256 high ++ digits_be 256 low)).
  - rewrite digits_be_of_val by (try lia; apply Forall_app; auto). rewrite Ed. cbn [app]. rewrite strip_zeros_cons.
    destruct (Z.eqb_spec d 0); [contradiction|reflexivity].
  - unfold val_be. rewrite fold_left_app. rewrite (val_be_acc 256 (digits_be 256 low)). fold (val_be 256 (digits_be 256 high)).
    rewrite L, !digits_be_val by lia. reflexivity.
Qed.

Lemma nonce_suffix v pf high low k : (forall vc, In vc (vf_creds v) -> wf_req (vc_req vc)) ->
  1 <= high -> 1 <= k -> 256 ^ (k - 1) <= low < 256 ^ k ->
  (exists v', verify C H v pf (with_suffix high low k) = (v', Ok true)) ->
  exists v', verify C H v (mkProof (pf_proofs pf) (pf_c_hash pf) (pf_c_list pf ++ [bn_to_bytes high])) low = (v', Ok true).
Proof.
  intros W Hh Hk Hl E. apply (verify_iff C H _ _ _ W) in E as (E1 & E2 & E3 & tss & F & EH).
  apply (verify_iff C H _ _ _ W). cbn [pf_proofs pf_c_hash pf_c_list]. repeat (split; [assumption|]). exists tss. split; [assumption|].
  rewrite <- EH. unfold get_hash_as_int, bn_hash_array. f_equal. f_equal.
  rewrite bn_to_bytes_suffix by assumption. rewrite !concat_app. cbn [concat]. now rewrite !app_nil_r, <- !app_assoc.
Qed.
End Attacks.

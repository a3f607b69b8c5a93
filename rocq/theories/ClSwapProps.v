(** Property C153: the non-revocation proof of a presentation is not tied to the
    credential that is presented.  The verifier never compares the m2 of the equality
    proof with the m2 of the non-revocation proof, so the holder of a revoked
    credential can use the revocation part of any valid one of the same registry. *)
From Coq Require Import Lia.
From Verif Require Import Base BnModel BnProofs StrMap HelpersModel HelpersSpec HelpersProofs ClModel ClSpec ClLib Alg Fp ClRevModel ClRevSpec ClProofModel ClPresSpec
  ClPresentation ClProps CurveInst ClProofProps ClCtxProps ClRevProps ClLinkProps.
Open Scope string_scope.
Open Scope list_scope.
Open Scope Z_scope.

(** ** specification *)
(** the session of a holder who puts the revocation part [rc] and witness [omega] of
    another credential beside his own primary credential *)
Definition with_revocation {C : curve} (it : item C) (rc : rcred C) (omega : cG2 C) : item C :=
  mkItem (it_req it) (it_schema it) (it_non_schema it) (mkCSig (cs_p (it_sig it)) (Some rc)) (it_vals it) (it_pk it) (it_accum it) (Some omega) (it_z it) (it_rnd it).
(** everything about a credential and a request that has nothing to do with revocation *)
Record primary_ok {C : curve} (it : item C) : Prop := {
  po_pk : valid_pk (cp_p (it_pk it));
  po_present : presentable (cp_p (it_pk it)) (cs_p (it_sig it)) (it_vals it) (it_schema it) (it_non_schema it) (it_req it);
  po_rnd : forall p, In p (rq_predicates (it_req it)) -> 0 <= nr_r (su_ne C (it_rnd it) p) "DELTA" /\ 0 <= nr_r_tilde (su_ne C (it_rnd it) p) "DELTA" }.
(** what the verifier is given for one credential *)
Definition verifier_input {C : curve} (it : item C) := (it_req it, it_schema it, it_non_schema it, it_pk it, it_z it, it_accum it).
(** the prover's side makes a presentation with a non-revocation proof for every
    credential, and the verifier accepts it *)
Definition accepted_with_non_revocation {C : curve} (H : list Z -> list Z) (commons : list (string * Z)) (items : list (item C)) (nonce : Z) (pf : proof C) : Prop :=
  presents H commons items nonce pf /\
  (exists v v', expect_all C (common_verifier C (map fst commons)) items = (v, Ok tt) /\ verify C H v pf nonce = (v', Ok true)) /\
  Forall2 (fun it sp => sp_r sp <> None /\ ep_revealed (pp_eq (sp_p sp)) = map (fun k => (k, value_of (it_vals it) k)) (rq_revealed (it_req it))) items (pf_proofs pf).

(** ** the non-revocation part of a sub proof *)
Definition has_nr {C : curve} (it : item C) (ip : initproof C) : Prop := shows_non_revocation it -> in_r ip <> None.
Lemma builder_add_nr (C : curve) b (it : item C) b' :
  builder_add C b (it_req it) (it_schema it) (it_non_schema it) (it_sig it) (it_vals it) (it_pk it) (it_accum it) (it_omega it) (it_rnd it) = (b', Ok tt) ->
  exists ip, pb_init b' = pb_init b ++ [ip] /\ has_nr it ip.
Proof.
  unfold builder_add. destruct (builder_check _ _ _ _) as [|e]; [|discriminate].
  set (nr := match cs_r (it_sig it) with Some _ => _ | None => _ end).
  set (m2_t := match nr with Some _ => _ | None => _ end).
  destruct (init_primary_proof _ _ _ _ _ _ _ _ _ _) as [ip|e] eqn:E; [|discriminate].
  intros Eb. injection Eb as <-. cbn [pb_init].
  exists (mkInitProof ip nr (it_vals it) (it_req it) (it_schema it) (it_non_schema it)). split.
  - destruct nr; reflexivity.
  - intros (A & B & D & F). cbn [in_r]. unfold nr. destruct (cs_r (it_sig it)); [|congruence]. destruct (it_accum it); [|congruence].
    destruct (cp_r (it_pk it)); [|congruence]. destruct (it_omega it); [discriminate|congruence].
Qed.
Lemma build_all_nr (C : curve) : forall (items : list (item C)) b b', build_all C b items = (b', Ok tt) ->
  exists ips, pb_init b' = pb_init b ++ ips /\ Forall2 has_nr items ips.
Proof.
  induction items as [|it items IH]; intros b b' E; cbn [build_all] in E.
  { exists []. injection E as <-. rewrite app_nil_r. split; [reflexivity|constructor]. }
  destruct (builder_add C b _ _ _ _ _ _ _ _ _) as [b1 [[]|e]] eqn:Eb; [|discriminate].
  apply builder_add_nr in Eb as (ip & E1 & K). apply IH in E as (ips & E2 & F).
  exists (ip :: ips). split; [rewrite E2, E1, <- app_assoc; reflexivity|now constructor].
Qed.
Lemma finalize_one_nr (C : curve) c (ip : initproof C) sp : finalize_one C c ip = Ok sp -> in_r ip <> None -> sp_r sp <> None.
Proof.
  intros E N. unfold finalize_one in E. destruct (in_r ip) as [n|]; [|congruence].
  apply rbind_ok in E as (nr & E0 & E). apply rbind_ok in E0 as (x & _ & E0). injection E0 as <-.
  apply rbind_ok in E as (pp & _ & E). injection E as <-. discriminate.
Qed.
Lemma presents_nr (C : curve) H commons items nonce (pf : proof C) : presents H commons items nonce pf ->
  Forall2 (fun it sp => shows_non_revocation it -> sp_r sp <> None) items (pf_proofs pf).
Proof.
  intros (b & Eb & Ef). destruct (common_builder_shape C commons) as (S1 & _ & _).
  apply build_all_nr in Eb as (ips & E1 & F). rewrite S1 in E1. cbn [app] in E1.
  unfold builder_finalize in Ef. rewrite E1 in Ef. apply rbind_ok in Ef as (sps & E2 & Ef). injection Ef as <-. cbn [pf_proofs].
  clear E1 S1. revert sps E2. induction F as [|it ip items' ips K F IH]; intros sps E2; cbn [rmap] in E2.
  { injection E2 as <-. constructor. }
  apply rbind_ok in E2 as (sp & E3 & E2). apply rbind_ok in E2 as (sps' & E4 & E2). injection E2 as <-.
  constructor; [|now apply IH]. intros Sh. exact (finalize_one_nr C _ _ _ E3 (K Sh)).
Qed.

(** ** C153 *)
(** refuted: "the non-revocation proof is about the presented credential".  Whatever the primary
    credentials, with the revocation parts of any other credentials that are valid in the
    registries the verifier asks about, the presentation is accepted *)
Theorem C153_refuted_bound_to_credential : forall (C : curve) (H : list Z -> list Z) (commons : list (string * Z)) (items mixed : list (item C)) (nonce : Z),
  curve_laws C -> hash32 H -> (forall it, In it items -> primary_ok it) -> common_ok C (map fst commons) items ->
  Forall2 (fun it m => exists rk accum z rc omega, cp_r (it_pk it) = Some rk /\ it_accum it = Some accum /\ it_z it = Some z /\
      rcred_valid C rk z accum omega rc /\ m = with_revocation it rc omega) items mixed ->
  exists pf, accepted_with_non_revocation H commons mixed nonce pf /\ map verifier_input mixed = map verifier_input items /\
    map (fun m => cs_p (it_sig m)) mixed = map (fun it => cs_p (it_sig it)) items.
Proof.
  intros C H commons items mixed nonce LW Hh Hi Hc F.
  assert (forall m, In m mixed -> item_ok C m /\ shows_non_revocation m) as Hm.
  { intros m Hm. revert Hi. clear Hc. induction F as [|it0 m0 its ms X F IH]; intros Hi; [destruct Hm|]. destruct Hm as [->|Hm].
    2:{ apply IH; [exact Hm|]. intros it Hit. apply Hi. now right. }
    destruct X as (rk & accum & z & rc & omega & E1 & E2 & E3 & RV & ->). destruct (Hi it0 (or_introl eq_refl)) as [V P R]. split.
    - constructor; cbn [with_revocation it_pk it_sig cs_p it_vals it_schema it_non_schema it_req it_rnd]; [exact V|exact P| |exact R].
      unfold revocation_ok. cbn [with_revocation it_pk it_sig cs_r it_accum it_omega it_z]. rewrite E1, E2, E3. exists z. split; [reflexivity|exact RV].
    - unfold shows_non_revocation. cbn [with_revocation it_pk it_sig cs_r it_accum it_omega]. rewrite E1, E2. repeat split; discriminate. }
  assert (map verifier_input mixed = map verifier_input items /\ map (fun m => cs_p (it_sig m)) mixed = map (fun it => cs_p (it_sig it)) items /\
     map (fun m => (it_req m, it_vals m)) mixed = map (fun it => (it_req it, it_vals it)) items) as (EV & ES & ER).
  { clear - F. induction F as [|it m its ms X F (I1 & I2 & I3)]; [repeat split|]. cbn [map]. rewrite I1, I2, I3.
    destruct X as (rk & accum & z & rc & omega & _ & _ & _ & _ & ->). repeat split. }
  assert (common_ok C (map fst commons) mixed) as Hcm.
  { intros a Ha. destruct (Hc a Ha) as (x & Hx). exists x. intros m Him.
    assert (In (it_req m, it_vals m) (map (fun it => (it_req it, it_vals it)) items)) as I0 by (rewrite <- ER; now apply (in_map (fun m => (it_req m, it_vals m)))).
    apply in_map_iff in I0 as (it & E & Hit). injection E as E1 E2. rewrite <- E1, <- E2. now apply Hx. }
  destruct (C28_presentation_accepted C H commons mixed nonce LW Hh (fun m X => proj1 (Hm m X)) Hcm) as (b & v & pf & v' & E1 & E2 & E3 & E4 & G).
  assert (presents H commons mixed nonce pf) as Pr by (exists b; split; assumption).
  exists pf. split; [|split; assumption]. split; [exact Pr|]. split; [exists v, v'; split; assumption|].
  pose proof (presents_nr C H commons mixed nonce pf Pr) as N. clear - Hm G N. induction G as [|m sp ms sps X G IH]; [constructor|].
  inversion N as [|? ? ? ? N1 N2]; subst. constructor; [split; [apply N1, Hm; now left|exact X]|]. apply IH; [intros m' Hm'; apply Hm; now right|exact N2].
Qed.
Print Assumptions C153_refuted_bound_to_credential.

(** refuted: "a revoked credential can not be presented with a non-revocation proof".  After any
    history of the registry in which index [i] was revoked and [j] is valid: the witness of [i] is
    refused, and the holder of [i] who has got the revocation credential of [j] is accepted *)
Theorem C153_refuted_revoked_refused : forall (C : curve) (H : list Z -> list Z), curve_laws C -> hash32 H ->
  forall g g_dash h h0 h1 h2 htilde h_cap u x sk L gamma, 0 <= L -> 2 * L + 1 < 2 ^ 32 -> gamma <> f0 -> pair g g_dash <> m0 ->
  let keys := new_credential_revocation_keys C g g_dash h h0 h1 h2 htilde h_cap u x sk in
  let pk := fst keys in let z := new_revocation_key_public C pk gamma L in
  forall dflt access ds accum V, serves_tails C access g_dash gamma L ->
  reg_history C L dflt access (new_revocation_registry C pk gamma L dflt, initial_valid L dflt) ds (accum, V) ->
  forall i j ctx vr_prime accum0 vr c accum1 cred d, 1 <= i <= L -> ~ In i V -> In j V ->
  fadd x c <> f0 -> fadd sk (fpow gamma (Z.to_nat j)) <> f0 ->
  new_non_revocation_credential C j ctx (Some (blinded_revocation_secrets C pk vr_prime)) (Some pk) (Some (snd keys)) L dflt accum0 gamma
    access vr c = (accum1, Ok (cred, d)) ->
  forall (it : item C) nonce, primary_ok it -> cp_r (it_pk it) = Some pk -> it_accum it = Some accum -> it_z it = Some z ->
  (exists d omega, merge_all C (delta_from_parts C None (new_revocation_registry C pk gamma L dflt) [] []) (flat_map (keep_delta C) ds) = Ok d /\
     witness_new C i L dflt d access = Ok omega /\
     forall rc, ws_g_i (rc_ws rc) = smul (fpow gamma (Z.to_nat i)) g -> forall m2, 0 <= m2 < 2 ^ 256 -> test_witness_signature C rc pk z accum omega m2 <> Ok tt) /\
  exists rc omega pf, process_non_revocation_credential C cred vr_prime pk z accum omega = (rc, Ok tt) /\
    accepted_with_non_revocation H [] [with_revocation it rc omega] nonce pf.
Proof.
  intros C H LW Hh g g_dash h h0 h1 h2 htilde h_cap u x sk L gamma HL HL32 Hg Hp keys pk z dflt access ds accum V HA Hist
    i j ctx vr_prime accum0 vr c accum1 cred d Hi Hni Hj X1 X2 Iss it nonce P Ek Ea Ez.
  destruct (C34_accumulator_history C LW L dflt pk gamma access ds accum V HL HL32 HA Hist) as (ND & Rng & EA).
  split.
  - destruct (C35_witness_iff C LW L dflt pk gamma access ds accum V i HL HL32 HA Hg Hp Hi Hist) as (d' & omega & E1 & E2 & Iff).
    exists d', omega. split; [exact E1|]. split; [exact E2|]. intros rc Erc m2 Bm T.
    apply (C35_prover_check_iff C LW rc pk z accum omega m2 Bm) in T. destruct T as (T & _). rewrite Erc in T.
    apply Hni, Iff. exact T.
  - destruct (C35_issue_process C LW g g_dash h h0 h1 h2 htilde h_cap u x sk L gamma HL HL32 j ctx vr_prime dflt accum0 access vr c accum1 cred d V
      (Rng j Hj) X1 X2 Iss ND Rng Hj) as (rc & E & RV).
    change (rk_g_dash pk) with g_dash in EA. rewrite <- EA in E, RV. 
    exists rc, (witness_of C g_dash gamma L j V).
    destruct (C153_refuted_bound_to_credential C H [] [it] [with_revocation it rc (witness_of C g_dash gamma L j V)] nonce LW Hh) as (pf & A & _).
    + intros y [<-|[]]. exact P.
    + intros a [].
    + constructor; [|constructor]. exists pk, accum, z, rc, (witness_of C g_dash gamma L j V). split; [exact Ek|]. split; [exact Ea|]. split; [exact Ez|]. split; [exact RV|reflexivity].
    + exists pf. split; [exact E|exact A].
Qed.
Print Assumptions C153_refuted_revoked_refused.

(** a concrete case: a registry of three from which 1 and 3 were revoked, the primary credential of
    C28 whose holder takes the revocation credential of 2 *)
Example C153_ex : exists (it : item T257) rc accum omega z pf,
  primary_ok it /\ cp_r (it_pk it) = Some ClRevProps.ex_pk /\ it_accum it = Some accum /\ it_z it = Some z /\
  (exists ds, reg_history T257 3 true ClRevProps.ex_access (new_revocation_registry T257 ClRevProps.ex_pk ClRevProps.ex_gamma 3 true, initial_valid 3 true) ds (accum, [2])) /\
  (exists omega1, forall rc1 : rcred T257, ws_g_i (rc_ws rc1) = smul (fpow ClRevProps.ex_gamma (Z.to_nat 1)) (rk_g ClRevProps.ex_pk) -> forall m2, 0 <= m2 < 2 ^ 256 ->
     test_witness_signature T257 rc1 ClRevProps.ex_pk z accum omega1 m2 <> Ok tt) /\
  accepted_with_non_revocation exH [] [with_revocation it rc omega] 4711 pf.
Proof.
  destruct ex_presentable as (sg & P). destruct C23_ex_issuer_key as (_ & _ & V).
  destruct ClRevProps.C35_ex_issue as (accum1 & cred & d & E). destruct ClRevProps.C35_ex_nonzero as (N1 & N2 & N3 & N4).
  destruct ClRevProps.C34_ex_history as (ds & accum & Hist).
  set (z := new_revocation_key_public T257 ClRevProps.ex_pk ClRevProps.ex_gamma 3).
  pose (it := mkItem (mkSubReq ["name"] []) ["name"] ["master_secret"] (mkCSig sg None) ex_vals (mkCPK ex_pk1 (Some ClRevProps.ex_pk)) (Some accum) None (Some z) ex_rnd).
  assert (primary_ok it) as PO.
  { assert (presentable ex_pk1 sg ex_vals ["name"] ["master_secret"] (mkSubReq ["name"] [])) as P1.
    { apply P; [split; [cbn [ssorted rq_revealed]; split; [intros ? []|exact I]|reflexivity]|intros k [<-|[]]; reflexivity|intros p []]. }
    clear P. subst it. revert V P1. generalize ex_pk1. intros pk1 V P1. constructor; cbn [it_pk cp_p it_sig cs_p it_vals it_schema it_non_schema it_req it_rnd]; [exact V|exact P1|intros p []]. }
  destruct (C153_refuted_revoked_refused T257 exH T257_laws C28_ex_hash (fp 257 2) (fp 257 3) (fp 257 5) (fp 257 7) (fp 257 11) (fp 257 13) (fp 257 17)
     (fp 257 19) (fp 257 23) (fp 257 29) (fp 257 31) 3 ClRevProps.ex_gamma ltac:(lia) ltac:(lia) N3 N4 true ClRevProps.ex_access ds accum [2]
     ClRevProps.C34_ex_serves Hist 1 2 1000 (fp 257 9) (new_revocation_registry T257 ClRevProps.ex_pk ClRevProps.ex_gamma 3 true) (fp 257 4) (fp 257 8) accum1 cred d
     ltac:(lia) ltac:(cbn; intuition lia) ltac:(now left) N1 N2 E it 4711 PO eq_refl eq_refl eq_refl) as ((d1 & omega1 & _ & _ & R) & rc & omega & pf & _ & A).
  exists it, rc, accum, omega, z, pf. split; [exact PO|]. split; [reflexivity|]. split; [reflexivity|]. split; [reflexivity|].
  split; [exists ds; exact Hist|]. split; [exists omega1; exact R|exact A].
Qed.

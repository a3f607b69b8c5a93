(** C90: the commitments listed in a presentation, and what the verifier checks about
    that list.  C92: a failed [add_sub_proof_request]. *)
From Verif Require Import Base BnModel BnProofs StrMap HelpersModel HelpersSpec ClModel ClSpec ClProps
  Alg ClRevModel ClRevSpec CurveInst ClProofModel ClPresSpec ClPresentation ClProofProps ClCtxProps.
Open Scope string_scope.
Open Scope list_scope.
Open Scope Z_scope.

(** ** Specification *)
(** the values a sub proof publishes: the non-revocation commitments, A', and the T
    values of every predicate proof *)
Definition published_t (t : smap Z) : list (list Z) :=
  map (fun k => match sm_get k t with Some x => bn_to_bytes x | None => [] end) ["0"; "1"; "2"; "3"; "DELTA"].
Definition published {C : curve} (sp : subproof C) : list (list Z) :=
  match sp_r sp with Some nr => c_as_list C (nv_c nr) | None => [] end ++
  bn_to_bytes (ep_a_prime (pp_eq (sp_p sp))) :: concat (map (fun np => published_t (np_t np)) (pp_ne (sp_p sp))).
(** the same builder with another commitment list *)
Definition with_c_list {C : curve} (b : builder C) (l : list (list Z)) : builder C := mkBuilder (pb_common b) (pb_init b) l (pb_tau_list b).

(** ** C90 *)
Lemma init_ne_published pk mt vals p rnd ni : init_ne_proof pk mt vals p rnd = Ok ni -> map bn_to_bytes (ni_c_list ni) = published_t (ni_t ni).
Proof.
  intros E. unfold init_ne_proof in E.
  destruct (sm_get_or InvalidStructure (p_attr p) vals) as [cv|e]; [|discriminate E]. cbn [rbind] in E.
  destruct (parse_i32 (cv_value cv)) as [a|e]; [|discriminate E]. cbn [rbind] in E.
  destruct (get_delta (p_type p) (p_value p) a <? 0); [discriminate E|].
  destruct (four_squares _) as [[[[u0 u1] u2] u3]|e]; [|discriminate E]. cbn [rbind] in E.
  set (st := rfold _ iter_keys _) in E.
  assert (forall x, st = Ok x -> exists t0 t1 t2 t3, x = ([("0", nr_r rnd "0"); ("1", nr_r rnd "1"); ("2", nr_r rnd "2"); ("3", nr_r rnd "3")],
     [("0", t0); ("1", t1); ("2", t2); ("3", t3)], [t0; t1; t2; t3])) as Hst.
  { unfold st. unfold iter_keys. intros x Ex. cbn [rfold] in Ex.
    assert (forall i, In i iter_keys -> sm_get_or InvalidStructure i [("0", u0); ("1", u1); ("2", u2); ("3", u3)] =
      Ok (if String.eqb i "0" then u0 else if String.eqb i "1" then u1 else if String.eqb i "2" then u2 else u3)) as G
      by (intros i [<-|[<-|[<-|[<-|[]]]]]; reflexivity).
    rewrite (G "0" ltac:(cbn; tauto)) in Ex. cbn [rbind] in Ex. change (if String.eqb "0" "0" then u0 else _) with u0 in Ex.
    destruct (get_pedersen_commitment (pk_z pk) u0 (pk_s pk) (nr_r rnd "0") (pk_n pk)) as [t0|e]; [|discriminate Ex]. cbn [rbind] in Ex.
    rewrite (G "1" ltac:(cbn; tauto)) in Ex. cbn [rbind] in Ex. change (if String.eqb "1" "0" then u0 else _) with u1 in Ex.
    destruct (get_pedersen_commitment (pk_z pk) u1 (pk_s pk) (nr_r rnd "1") (pk_n pk)) as [t1|e]; [|discriminate Ex]. cbn [rbind] in Ex.
    rewrite (G "2" ltac:(cbn; tauto)) in Ex. cbn [rbind] in Ex. change (if String.eqb "2" "0" then u0 else _) with u2 in Ex.
    destruct (get_pedersen_commitment (pk_z pk) u2 (pk_s pk) (nr_r rnd "2") (pk_n pk)) as [t2|e]; [|discriminate Ex]. cbn [rbind] in Ex.
    rewrite (G "3" ltac:(cbn; tauto)) in Ex. cbn [rbind] in Ex. change (if String.eqb "3" "0" then u0 else _) with u3 in Ex.
    destruct (get_pedersen_commitment (pk_z pk) u3 (pk_s pk) (nr_r rnd "3") (pk_n pk)) as [t3|e]; [|discriminate Ex]. cbn [rbind] in Ex.
    exists t0, t1, t2, t3. injection Ex as <-. reflexivity. }
  destruct st as [[[r t] cl]|e]; [|discriminate E]. destruct (Hst _ eq_refl) as (t0 & t1 & t2 & t3 & Q). injection Q as -> -> ->. clear Hst.
  cbn [rbind] in E. destruct (get_pedersen_commitment _ _ _ _ _) as [td|e]; [|discriminate E]. cbn [rbind] in E.
  destruct (sm_get_or InvalidStructure (p_attr p) mt) as [mj|e]; [|discriminate E]. cbn [rbind] in E.
  destruct (calc_tne _ _ _ _ _ _ _) as [tl|e]; [|discriminate E]. cbn [rbind] in E.
  assert (forall x y : neinit, Ok x = Ok y -> x = y) as Inj by congruence. apply Inj in E. rewrite <- E. reflexivity.
Qed.
Definition init_published {C : curve} (ip : initproof C) : list (list Z) :=
  match in_r ip with Some n => c_as_list C (nr_cl n) | None => [] end ++ pinit_c_list (in_p ip).
Definition listed {C : curve} (ip : initproof C) : Prop :=
  Forall (fun ni => map bn_to_bytes (ni_c_list ni) = published_t (ni_t ni)) (pi_ne (in_p ip)).

Lemma init_primary_listed common pk c1 vals schema non_schema req m2 rnd nrnd ip : init_primary_proof common pk c1 vals schema non_schema req m2 rnd nrnd = Ok ip ->
  Forall (fun ni => map bn_to_bytes (ni_c_list ni) = published_t (ni_t ni)) (pi_ne ip).
Proof.
  unfold init_primary_proof. intros E. destruct (init_eq_proof _ _ _ _ _ _ _ _) as [ei|e]; [|discriminate E]. cbn [rbind] in E.
  destruct (rmap _ (rq_predicates req)) as [nes|e] eqn:Em; [|discriminate E]. cbn [rbind] in E.
  assert (forall x y : pinit, Ok x = Ok y -> x = y) as Inj by congruence. apply Inj in E. rewrite <- E. cbn [pi_ne]. clear E Inj.
  revert nes Em. induction (rq_predicates req) as [|p ps IH]; intros nes Em; cbn [rmap] in Em.
  - assert (nes = []) as -> by congruence. constructor.
  - destruct (init_ne_proof pk (ei_m_tilde ei) vals p (nrnd p)) as [ni|e] eqn:En; [|discriminate Em]. cbn [rbind] in Em.
    destruct (rmap _ ps) as [nis|e]; [|discriminate Em]. cbn [rbind] in Em. assert (nes = ni :: nis) as -> by congruence.
    constructor; [exact (init_ne_published _ _ _ _ _ _ En)|now apply IH].
Qed.

Section Builder.
Variable C : curve.
Variable H : list Z -> list Z.
Definition wf_builder (b : builder C) : Prop := pb_c_list b = concat (map init_published (pb_init b)) /\ Forall listed (pb_init b).

Lemma builder_add_wf b req schema non_schema sg vals pk rr w rnd b' : wf_builder b ->
  builder_add C b req schema non_schema sg vals pk rr w rnd = (b', Ok tt) -> wf_builder b'.
Proof.
  intros [W1 W2] E. unfold builder_add in E. destruct (builder_check vals req schema non_schema) as [u|e]; [|discriminate E].
  set (nr := match cs_r sg with Some rc => _ | None => _ end) in E.
  set (m2 := match nr with Some n => _ | None => _ end) in E.
  destruct (init_primary_proof (pb_common b) (cp_p pk) (cs_p sg) vals schema non_schema req m2 (su_eq C rnd) (su_ne C rnd)) as [ip|e] eqn:Ei; [|discriminate E].
  apply (f_equal fst) in E. cbn [fst] in E. rewrite <- E. split; cbn [pb_c_list pb_init].
  - destruct nr as [n|]; cbn [pb_c_list pb_init]; rewrite map_app, concat_app, W1; cbn [map concat]; rewrite app_nil_r; unfold init_published at 3; cbn [in_r in_p]; [now rewrite app_assoc|reflexivity].
  - destruct nr as [n|]; cbn [pb_init]; (apply Forall_app; split; [exact W2|]); (constructor; [|constructor]); unfold listed; cbn [in_p]; exact (init_primary_listed _ _ _ _ _ _ _ _ _ _ _ Ei).
Qed.
Lemma build_all_wf : forall items b b', wf_builder b -> build_all C b items = (b', Ok tt) -> wf_builder b'.
Proof.
  induction items as [|it items IH]; intros b b' W E; cbn [build_all] in E; [assert (b = b') as <- by congruence; exact W|].
  destruct (builder_add C b _ _ _ _ _ _ _ _ _) as [b1 [[]|e]] eqn:Ea; [|discriminate E]. exact (IH b1 b' (builder_add_wf _ _ _ _ _ _ _ _ _ _ _ W Ea) E).
Qed.

Lemma finalize_eq_a_prime ip c schema non_schema vals req ep : finalize_eq_proof ip c schema non_schema vals req = Ok ep -> ep_a_prime ep = ei_a_prime ip.
Proof.
  unfold finalize_eq_proof. intros E. destruct (rfold _ (unrevealed _ _ _) _) as [m|e]; [|discriminate E]. cbn [rbind] in E.
  destruct (rfold _ (rq_revealed req) _) as [r|e]; [|discriminate E]. cbn [rbind] in E.
  apply (f_equal (fun r => match r with Ok x => ep_a_prime x | Err _ => 0 end)) in E. now symmetry.
Qed.
Lemma finalize_ne_t c ip eq np : finalize_ne_proof c ip eq = Ok np -> np_t np = ni_t ip.
Proof.
  unfold finalize_ne_proof. intros E. destruct (rfold _ iter_keys _) as [[[u r] w]|e]; [|discriminate E]. cbn [rbind] in E.
  destruct (sm_index "DELTA" (ni_r ip)) as [rd|e]; [|discriminate E]. cbn [rbind] in E.
  destruct (sm_index _ (ep_m eq)) as [mj|e]; [|discriminate E]. cbn [rbind] in E.
  apply (f_equal (fun r => match r with Ok x => np_t x | Err _ => [] end)) in E. now symmetry.
Qed.
Lemma finalize_one_published c ip sp : listed ip -> finalize_one C c ip = Ok sp -> published sp = init_published ip.
Proof.
  intros L E. unfold finalize_one in E.
  assert (exists nr, match in_r ip with Some n => let! x := finalize_non_revocation_proof C n c in Ok (Some x) | None => Ok None end = Ok nr /\
    match nr with Some x => c_as_list C (nv_c x) | None => [] end = match in_r ip with Some n => c_as_list C (nr_cl n) | None => [] end) as (nr & E1 & E2).
  { destruct (in_r ip) as [n|]; [|exists None; split; reflexivity].
    destruct (finalize_non_revocation_proof C n c) as [x|e] eqn:Ef; [|discriminate E]. exists (Some x). split; [reflexivity|].
    unfold finalize_non_revocation_proof in Ef. destruct (bignum_to_group_element C c) as [ch|e]; [|discriminate Ef]. cbn [rbind] in Ef.
    destruct (x_from_list _ _) as [y|e]; [|discriminate Ef]. cbn [rbind] in Ef.
    apply (f_equal (fun r => match r with Ok x => c_as_list C (nv_c x) | Err _ => [] end)) in Ef. now symmetry. }
  rewrite E1 in E. cbn [rbind] in E.
  destruct (finalize_primary_proof _ _ _ _ _ _) as [pp|e] eqn:Ep; [|discriminate E]. cbn [rbind] in E.
  assert (sp = mkSubProof pp nr) as -> by congruence. unfold published, init_published. cbn [sp_r sp_p]. rewrite E2. f_equal.
  unfold finalize_primary_proof in Ep. destruct (finalize_eq_proof _ _ _ _ _ _) as [eq|e] eqn:Ee; [|discriminate Ep]. cbn [rbind] in Ep.
  destruct (rmap _ (pi_ne (in_p ip))) as [nes|e] eqn:En; [|discriminate Ep]. cbn [rbind] in Ep. assert (pp = mkPProof eq nes) as -> by congruence.
  cbn [pp_eq pp_ne]. unfold pinit_c_list. rewrite (finalize_eq_a_prime _ _ _ _ _ _ _ Ee). f_equal. f_equal.
  unfold listed in L. clear - L En. revert nes En. induction L as [|ni nis Hn L IH]; intros nes En; cbn [rmap] in En.
  - assert (nes = []) as -> by congruence. reflexivity.
  - destruct (finalize_ne_proof c ni eq) as [np|e] eqn:Ef; [|discriminate En]. cbn [rbind] in En.
    destruct (rmap _ nis) as [nps|e]; [|discriminate En]. cbn [rbind] in En. assert (nes = np :: nps) as -> by congruence.
    cbn [map]. rewrite (finalize_ne_t _ _ _ _ Ef), Hn, (IH nps eq_refl). reflexivity.
Qed.
Lemma finalize_published b nonce pf : wf_builder b -> builder_finalize C H b nonce = Ok pf -> pf_c_list pf = concat (map published (pf_proofs pf)).
Proof.
  intros [W1 W2] E. unfold builder_finalize in E. set (c := get_hash_as_int H _) in E.
  destruct (rmap (finalize_one C c) (pb_init b)) as [ps|e] eqn:Em; [|discriminate E]. cbn [rbind] in E.
  assert (pf = mkProof ps c (pb_c_list b)) as -> by congruence. cbn [pf_c_list pf_proofs]. rewrite W1. clear - W2 Em. revert ps Em.
  induction W2 as [|ip ips Hl W2 IH]; intros ps Em; cbn [rmap] in Em.
  - assert (ps = []) as -> by congruence. reflexivity.
  - destruct (finalize_one C c ip) as [sp|e] eqn:Ef; [|discriminate Em]. cbn [rbind] in Em.
    destruct (rmap _ ips) as [sps|e]; [|discriminate Em]. cbn [rbind] in Em. assert (ps = sp :: sps) as -> by congruence.
    cbn [map concat]. now rewrite (finalize_one_published _ _ _ Hl Ef), (IH sps eq_refl).
Qed.
End Builder.

(** the list the builder publishes is exactly the list of published commitments *)
Theorem C90_c_list_is_published_values : forall (C : curve) (H : list Z -> list Z) (commons : list (string * Z)) (items : list (item C)) (nonce : Z) b pf,
  build_all C (common_builder C commons) items = (b, Ok tt) -> builder_finalize C H b nonce = Ok pf ->
  pf_c_list pf = concat (map published (pf_proofs pf)).
Proof.
  intros C H commons items nonce b pf Eb Ef. apply (finalize_published C H b nonce pf); [|exact Ef].
  apply (build_all_wf C items (common_builder C commons) b); [|exact Eb].
  destruct (common_builder_shape C commons) as (S1 & S2 & S3). split; rewrite S1; [exact S2|constructor].
Qed.
Print Assumptions C90_c_list_is_published_values.

(** but the verifier does not compare it with them: any other list will do *)
Theorem C90_refuted_c_list_checked : forall (C : curve) (H : list Z -> list Z) (commons : list (string * Z)) (items : list (item C)) (nonce : Z) (l : list (list Z)),
  curve_laws C -> hash32 H -> (forall it, In it items -> item_ok C it) -> common_ok C (map fst commons) items ->
  exists b v pf v', build_all C (common_builder C commons) items = (b, Ok tt) /\ builder_finalize C H (with_c_list b l) nonce = Ok pf /\
    expect_all C (common_verifier C (map fst commons)) items = (v, Ok tt) /\ verify C H v pf nonce = (v', Ok true) /\ pf_c_list pf = l.
Proof.
  intros C H commons items nonce l LW Hh Hi Hco. pose proof (fun it Hit => item_weaken C it (Hi it Hit)) as Hi'.
  destruct (build_all_ok C LW items (common_builder C commons) Hi') as (ips & cs & tss & Eb & F & L).
  destruct (common_builder_shape C commons) as (S1 & S2 & S3). rewrite S1, S2, S3 in Eb. cbn [app] in Eb.
  destruct (common_verifier_shape C (map fst commons)) as [W1 W2].
  pose proof (expect_all_ok C items (common_verifier C (map fst commons)) Hi') as Ev. rewrite W1 in Ev. cbn [app] in Ev.
  set (c := get_hash_as_int H (concat tss ++ l ++ [bn_to_bytes nonce])).
  pose proof (challenge_bound H (concat tss ++ l ++ [bn_to_bytes nonce]) Hh) as Bc. fold c in Bc.
  destruct (finalize_all C (pb_common (common_builder C commons)) c Bc items ips tss L F) as (sps & I1 & I2 & I5 & I3 & I4).
  pose (x := fun a => match items with it :: _ => value_of (it_vals it) a | [] => 0 end).
  destruct (I4 x (vf_common (common_verifier C (map fst commons))) []) as (st' & E & _ & _).
  { intros a Ha. apply (W2 a) in Ha. destruct (common_builder_get C commons a Ha) as [d Hd]. exists d. split; [exact Hd|].
    intros v Hv. now apply (W2 a) in Hv. }
  { intros a it Ha Hit. apply (W2 a) in Ha. destruct (Hco a Ha) as [y Hy]. destruct (Hy it Hit) as (Nr & cv & Ecv & Ey).
    split; [exact Nr|]. exists cv. split; [exact Ecv|]. rewrite Ey. unfold x. destruct items as [|it0 items]; [destruct Hit|].
    destruct (Hy it0 ltac:(now left)) as (_ & cv0 & Ecv0 & Ey0). unfold value_of. rewrite Ecv0. now symmetry. }
  cbn [app] in E.
  eexists. eexists. exists (mkProof sps c l). eexists. split; [exact Eb|]. split; [|split; [exact Ev|split; [|reflexivity]]].
  - unfold builder_finalize, with_c_list. cbn [pb_tau_list pb_c_list pb_init]. fold c. rewrite I1. reflexivity.
  - unfold verify, check_verify_params. cbn [vf_creds vf_common pf_proofs pf_c_hash pf_c_list]. rewrite map_length, I2, Nat.eqb_refl, I3.
    cbn [negb]. rewrite E. cbn [rbind]. fold c. rewrite Z.eqb_refl. reflexivity.
Qed.
Print Assumptions C90_refuted_c_list_checked.
(** a presentation with an empty list *)
Example C90_ex : exists sg b pf v v', build_all T257 (common_builder T257 [("master_secret", 5555)]) [ex_item sg (mkSubReq ["name"] []); ex_item sg ex_req] = (b, Ok tt) /\
  builder_finalize T257 exH (with_c_list b []) 4711 = Ok pf /\ verify T257 exH v pf 4711 = (v', Ok true) /\ pf_c_list pf = [] /\ length (vf_creds v) = 2%nat.
Proof.
  destruct C28_ex_items as (sg & A & B).
  destruct (C90_refuted_c_list_checked T257 exH [("master_secret", 5555)] _ 4711 [] T257_laws C28_ex_hash A B) as (b & v & pf & v' & E1 & E2 & E3 & E4 & E5).
  exists sg, b, pf, v, v'. repeat (split; [assumption|]).
  change (map fst [("master_secret", 5555)]) with ["master_secret"] in E3.
  rewrite (expect_all_ok T257 _ (common_verifier T257 ["master_secret"]) (fun it Hit => item_weaken T257 it (A it Hit))) in E3.
  apply (f_equal (fun p => length (vf_creds (fst p)))) in E3. cbn [fst] in E3. rewrite <- E3. cbn [vf_creds]. rewrite app_length, map_length.
  rewrite (proj1 (common_verifier_shape T257 ["master_secret"])). reflexivity.
Qed.

(** ** C92 *)
(** what a failing call leaves behind *)
Theorem C92_failed_add : forall (C : curve) (b : builder C) req schema non_schema sg vals pk rev_reg witness rnd b' e,
  builder_add C b req schema non_schema sg vals pk rev_reg witness rnd = (b', Err e) ->
  b' = b \/
  exists rc accum rk omega, cs_r sg = Some rc /\ rev_reg = Some accum /\ cp_r pk = Some rk /\ witness = Some omega /\
    let n := init_non_revocation_proof C rc accum rk omega (su_d C rnd) (su_tp C rnd) in
    b' = mkBuilder (pb_common b) (pb_init b) (pb_c_list b ++ c_as_list C (nr_cl n)) (pb_tau_list b ++ tau_as_list C (nr_tl n)).
Proof.
  intros C b req schema non_schema sg vals pk rr w rnd b' e E. unfold builder_add in E.
  destruct (builder_check vals req schema non_schema) as [u|x]; [|left; congruence].
  destruct (cs_r sg) as [rc|]; [|left; destruct (init_primary_proof _ _ _ _ _ _ _ _ _ _); [discriminate E|apply (f_equal fst) in E; now symmetry]].
  destruct rr as [accum|]; [|left; destruct (init_primary_proof _ _ _ _ _ _ _ _ _ _); [discriminate E|apply (f_equal fst) in E; now symmetry]].
  destruct (cp_r pk) as [rk|]; [|left; destruct (init_primary_proof _ _ _ _ _ _ _ _ _ _); [discriminate E|apply (f_equal fst) in E; now symmetry]].
  destruct w as [omega|]; [|left; destruct (init_primary_proof _ _ _ _ _ _ _ _ _ _); [discriminate E|apply (f_equal fst) in E; now symmetry]].
  right. exists rc, accum, rk, omega. repeat (split; [reflexivity|]). cbv zeta.
  destruct (init_primary_proof _ _ _ _ _ _ _ _ _ _); [discriminate E|]. apply (f_equal fst) in E. now symmetry.
Qed.
Print Assumptions C92_failed_add.

Lemma build_all_app C : forall (i1 i2 : list (item C)) b b1, build_all C b i1 = (b1, Ok tt) -> build_all C b (i1 ++ i2) = build_all C b1 i2.
Proof.
  induction i1 as [|it i1 IH]; intros i2 b b1 E; cbn [build_all app] in *; [now assert (b = b1) as -> by congruence|].
  destruct (builder_add C b _ _ _ _ _ _ _ _ _) as [b2 [[]|e]]; [|discriminate E]. now apply IH.
Qed.
Lemma combine_app {A B} (a c : list A) (b d : list B) : length a = length b -> combine (a ++ c) (b ++ d) = combine a b ++ combine c d.
Proof. revert b. induction a as [|x a IH]; intros [|y b] L; try discriminate L; [reflexivity|]. cbn [app combine]. f_equal. apply IH. now injection L. Qed.
(** what a call appends does not depend on what is there *)
Definition shift {C : curve} (i0 : list (initproof C)) (c0 t0 : list (list Z)) (b : builder C) : builder C :=
  mkBuilder (pb_common b) (i0 ++ pb_init b) (c0 ++ pb_c_list b) (t0 ++ pb_tau_list b).
Lemma builder_add_shift C i0 c0 t0 b req schema non_schema sg vals pk rr w rnd :
  builder_add C (shift i0 c0 t0 b) req schema non_schema sg vals pk rr w rnd =
  let (b', r) := builder_add C b req schema non_schema sg vals pk rr w rnd in (shift i0 c0 t0 b', r).
Proof.
  unfold builder_add. destruct (builder_check vals req schema non_schema); [|reflexivity].
  set (nr := match cs_r sg with Some rc => _ | None => _ end). set (m2 := match nr with Some n => _ | None => _ end).
  change (pb_common (shift i0 c0 t0 b)) with (pb_common b).
  destruct (init_primary_proof _ _ _ _ _ _ _ m2 _ _); destruct nr; unfold shift; cbn [pb_common pb_init pb_c_list pb_tau_list]; now rewrite ?app_assoc.
Qed.
Lemma build_all_shift C i0 c0 t0 : forall items b, build_all C (shift i0 c0 t0 b) items = let (b', r) := build_all C b items in (shift i0 c0 t0 b', r).
Proof.
  induction items as [|it items IH]; intros b; cbn [build_all]; [reflexivity|]. rewrite builder_add_shift.
  destruct (builder_add C b _ _ _ _ _ _ _ _ _) as [b1 [[]|e]]; [apply IH|reflexivity].
Qed.

(** a request that is refused because its predicate is false (or for any other reason
    found after the consistency check) spoils the presentation when the credential has
    a non-revocation part: with all other credentials in order, the proof is accepted
    only if two explicit different strings have the same hash *)
Theorem C92_refuted_failed_add_harmless : forall (C : curve) (H : list Z -> list Z) (commons : list (string * Z)) (items1 items2 : list (item C)) (nonce : Z)
    req schema non_schema sg vals pk rev_reg witness rnd b1 b2 e,
  curve_laws C -> hash32 H -> (forall P : cG1 C, enc1 P <> []) ->
  (forall it, In it (items1 ++ items2) -> item_ok C it) -> common_ok C (map fst commons) (items1 ++ items2) ->
  build_all C (common_builder C commons) items1 = (b1, Ok tt) ->
  builder_add C b1 req schema non_schema sg vals pk rev_reg witness rnd = (b2, Err e) -> b2 <> b1 ->
  exists b3 v pf v' ok bh,
    build_all C b2 items2 = (b3, Ok tt) /\ builder_finalize C H b3 nonce = Ok pf /\
    expect_all C (common_verifier C (map fst commons)) (items1 ++ items2) = (v, Ok tt) /\ verify C H v pf nonce = (v', Ok ok) /\
    build_all C (common_builder C commons) (items1 ++ items2) = (bh, Ok tt) /\
    (ok = true -> collide H (concat (pb_tau_list b3 ++ pb_c_list b3 ++ [bn_to_bytes nonce])) (concat (pb_tau_list bh ++ pb_c_list b3 ++ [bn_to_bytes nonce]))).
Proof.
  intros C H commons items1 items2 nonce req schema non_schema sg vals pk rr w rnd b1 b2 e LW Hh Henc Hi Hco Eb1 Eb2 Nb.
  pose proof (fun it Hit => item_weaken C it (Hi it Hit)) as Hi'.
  destruct (build_all_ok C LW items1 (common_builder C commons)) as (ips1 & cs1 & tss1 & Eb & F1 & L1); [intros; apply Hi'; apply in_or_app; now left|].
  destruct (common_builder_shape C commons) as (S1 & S2 & S3). rewrite S1, S2, S3 in Eb. cbn [app] in Eb.
  rewrite Eb1 in Eb. apply (f_equal fst) in Eb. cbn [fst] in Eb.
  destruct (C92_failed_add _ _ _ _ _ _ _ _ _ _ _ _ _ Eb2) as [->|(rc & accum & rk & omega & _ & _ & _ & _ & Q)]; [contradiction|]. cbv zeta in Q.
  set (nri := init_non_revocation_proof C rc accum rk omega (su_d C rnd) (su_tp C rnd)) in Q.
  pose (b0 := mkBuilder (pb_common (common_builder C commons)) [] [] [] : builder C).
  destruct (build_all_ok C LW items2 b0) as (ips2 & cs2 & tss2 & Eb3 & F2 & L2); [intros; apply Hi'; apply in_or_app; now right|].
  cbn [b0 pb_common pb_init pb_c_list pb_tau_list app] in Eb3. change (pb_common b0) with (pb_common (common_builder C commons)) in F2.
  set (ex := tau_as_list C (nr_tl nri)) in Q. set (exc := c_as_list C (nr_cl nri)) in Q.
  assert (b1 = shift ips1 cs1 (concat tss1) b0) as Q1 by (rewrite Eb; unfold shift, b0; cbn [pb_common pb_init pb_c_list pb_tau_list]; now rewrite !app_nil_r).
  assert (b2 = shift ips1 (cs1 ++ exc) (concat tss1 ++ ex) b0) as Q2 by (rewrite Q, Eb; unfold shift, b0; cbn [pb_common pb_init pb_c_list pb_tau_list]; now rewrite !app_nil_r).
  set (items := items1 ++ items2) in *. set (tss := tss1 ++ tss2). set (ips := ips1 ++ ips2).
  assert (length ips = length tss) as L by (unfold ips, tss; rewrite !app_length; congruence).
  assert (Forall2 (fun it '(ip, ts) => matched C (pb_common (common_builder C commons)) it ip ts) items (combine ips tss)) as F
    by (unfold items, ips, tss; rewrite combine_app by assumption; now apply Forall2_app).
  set (cl := (cs1 ++ exc) ++ cs2). set (tl := (concat tss1 ++ ex) ++ concat tss2).
  set (c := get_hash_as_int H (tl ++ cl ++ [bn_to_bytes nonce])).
  pose proof (challenge_bound H (tl ++ cl ++ [bn_to_bytes nonce]) Hh) as Bc. fold c in Bc.
  destruct (finalize_all C (pb_common (common_builder C commons)) c Bc items ips tss L F) as (sps & I1 & I2 & I5 & I3 & I4).
  destruct (common_verifier_shape C (map fst commons)) as [W1 W2].
  pose proof (expect_all_ok C items (common_verifier C (map fst commons)) Hi') as Ev. rewrite W1 in Ev. cbn [app] in Ev.
  pose (x := fun a => match items with it :: _ => value_of (it_vals it) a | [] => 0 end).
  destruct (I4 x (vf_common (common_verifier C (map fst commons))) []) as (st' & E & _ & _).
  { intros a Ha. apply (W2 a) in Ha. destruct (common_builder_get C commons a Ha) as [d Hd]. exists d. split; [exact Hd|].
    intros v Hv. now apply (W2 a) in Hv. }
  { intros a it Ha Hit. apply (W2 a) in Ha. destruct (Hco a Ha) as [y Hy]. destruct (Hy it Hit) as (Nr & cv & Ecv & Ey).
    split; [exact Nr|]. exists cv. split; [exact Ecv|]. rewrite Ey. unfold x. destruct items as [|it0 its]; [destruct Hit|].
    destruct (Hy it0 ltac:(now left)) as (_ & cv0 & Ecv0 & Ey0). unfold value_of. rewrite Ecv0. now symmetry. }
  cbn [app] in E.
  exists (shift ips1 (cs1 ++ exc) (concat tss1 ++ ex) (mkBuilder (pb_common (common_builder C commons)) ips2 cs2 (concat tss2))).
  eexists. exists (mkProof sps c cl). eexists. eexists. exists (shift ips1 cs1 (concat tss1) (mkBuilder (pb_common (common_builder C commons)) ips2 cs2 (concat tss2))).
  split; [rewrite Q2, build_all_shift, Eb3; reflexivity|].
  split; [unfold builder_finalize, shift; cbn [pb_tau_list pb_c_list pb_init]; fold tl cl c; change (ips1 ++ ips2) with ips; rewrite I1; reflexivity|].
  split; [exact Ev|].
  split.
  { unfold verify, check_verify_params. cbn [vf_creds vf_common pf_proofs pf_c_hash pf_c_list]. rewrite map_length, I2, Nat.eqb_refl, I3.
    cbn [negb]. rewrite E. cbn [rbind]. reflexivity. }
  split; [unfold items; rewrite (build_all_app C items1 items2 _ _ Eb1), Q1, build_all_shift, Eb3; reflexivity|].
  cbn [shift pb_tau_list pb_c_list]. fold cl tl. replace (concat tss1 ++ concat tss2) with (concat tss) by (unfold tss; now rewrite concat_app).
  intros Ec. apply Z.eqb_eq in Ec. split.
  - intros Es. rewrite !concat_app in Es. apply app_inv_tail in Es. apply (f_equal (@length Z)) in Es. unfold tl, tss in Es. rewrite !concat_app, !app_length in Es.
    assert (length (concat ex) <> 0%nat); [|lia]. unfold ex, tau_as_list. cbn [concat]. rewrite app_length. specialize (Henc (ta1 (nr_tl nri))).
    destruct (enc1 (ta1 (nr_tl nri))); [contradiction|]. cbn [length]. lia.
  - unfold c, get_hash_as_int in Ec. rewrite !bn_from_bytes_val in Ec. unfold bn_hash_array in Ec.
    symmetry. apply (val_be_inj 256) in Ec; [exact Ec|lia|apply Hh|apply Hh|now rewrite !(proj1 (Hh _))].
Qed.
Print Assumptions C92_refuted_failed_add_harmless.

(** *** concrete case: a refused request about a false predicate, with a non-revocation part *)
Definition ex_rc92 : rcred T257 := mkRCred m0 f0 f0 (mkWitSig m0 m0 m0) m0 1 f0.
Definition ex_rk92 : rpk T257 := mkRPK m0 m0 m0 m0 m0 m0 m0 m0 m0 m0 m0.
Example C92_ex : forall (b1 : builder T257) sg, exists b2 e,
  builder_add T257 b1 (mkSubReq [] [mkPred "name" GE 1000]) ["name"] ["master_secret"] (mkCSig sg (Some ex_rc92)) ex_vals (mkCPK ex_pk1 (Some ex_rk92)) (Some m0) (Some m0) ex_rnd
    = (b2, Err e) /\ b2 <> b1 /\ (forall P : cG1 T257, enc1 P <> []).
Proof.
  intros b1 sg. unfold builder_add. change (builder_check ex_vals _ _ _) with (Ok tt : res unit). cbn [cs_r cp_r cp_p cs_p].
  set (nri := init_non_revocation_proof T257 _ _ _ _ _ _). generalize (Some (group_element_to_bignum T257 (x_m2 (nr_tp nri)))) as m2. intros m2.
  assert (exists e, init_primary_proof (pb_common b1) ex_pk1 sg ex_vals ["name"] ["master_secret"] (mkSubReq [] [mkPred "name" GE 1000]) m2 (su_eq T257 ex_rnd) (su_ne T257 ex_rnd) = Err e) as (e & ->).
  { unfold init_primary_proof. destruct (init_eq_proof _ _ _ _ _ _ _ _) as [ei|e]; [|exists e; reflexivity]. exists InvalidStructure. reflexivity. }
  eexists. exists e. split; [reflexivity|]. split.
  - intros Q. apply (f_equal (fun b : builder T257 => length (pb_tau_list b))) in Q. cbn [pb_tau_list] in Q. rewrite app_length in Q. cbn [tau_as_list length] in Q. lia.
  - intros P. discriminate.
Qed.

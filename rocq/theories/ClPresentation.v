(** A presentation made by the library's prover from presentable credentials is
    accepted by the library's verifier, for any number of credentials (C28). *)
From Verif Require Import Base BnModel BnProofs UMod Fermat StrMap HelpersModel HelpersSpec HelpersProofs ClModel ClSpec ClLib ClKey ClIssue ClBlind
  ClPresent ClPred Alg ClRevModel ClRevSpec ClNonRevoc ClRevMore ClProofModel ClPresSpec ClPrimary.
Open Scope string_scope.
Open Scope list_scope.
Open Scope Z_scope.

Lemma pred_compare_refl p : pred_compare p p = Eq.
Proof. unfold pred_compare. now rewrite scmp_refl, !Z.compare_refl. Qed.
Lemma preds_eqb_refl l : preds_eqb l l = true.
Proof. induction l as [|p l IH]; cbn [preds_eqb]; [reflexivity|]. unfold pred_eqb. now rewrite pred_compare_refl. Qed.
Lemma pred_eqb_eq p q : pred_eqb p q = true <-> p = q.
Proof.
  split; [|intros ->; unfold pred_eqb; now rewrite pred_compare_refl].
  unfold pred_eqb, pred_compare. destruct p as [a t v], q as [a' t' v']. cbn [p_attr p_type p_value].
  destruct (String.compare a a') eqn:E; try discriminate. apply scmp_eq in E. subst.
  destruct (Z.compare (ptype_rank t) (ptype_rank t')) eqn:E2; try discriminate. apply Z.compare_eq in E2.
  destruct (Z.compare v v') eqn:E3; try discriminate. apply Z.compare_eq in E3. subst.
  intros _. f_equal. destruct t, t'; cbn in E2; congruence.
Qed.
Lemma preds_eqb_eq : forall a b, preds_eqb a b = true <-> a = b.
Proof.
  induction a as [|x a IH]; intros [|y b]; cbn [preds_eqb]; split; try discriminate; try reflexivity.
  - intros E. apply andb_prop in E. destruct E as [E1 E2]. apply pred_eqb_eq in E1. apply IH in E2. now subst.
  - intros E. inversion E; subst. apply andb_true_intro. split; [now apply pred_eqb_eq|now apply IH].
Qed.
Lemma ss_of_sorted s : ssorted s -> ss_of_list s = s.
Proof. intros Hs. apply sorted_ext; [apply ss_of_list_sorted|assumption|]. intros x. apply ss_of_list_in. Qed.
Lemma length0_iff {A} (l : list A) : Nat.eqb (length l) 0 = true <-> (forall x, ~ In x l).
Proof.
  destruct l as [|a l]; cbn [length Nat.eqb]; split; try discriminate; try (intros; reflexivity).
  - intros _ x [].
  - intros Hn. exfalso. apply (Hn a). now left.
Qed.

Lemma challenge_bound H nums : hash32 H -> 0 <= get_hash_as_int H nums < 2 ^ 256.
Proof.
  intros Hh. unfold get_hash_as_int. destruct (Hh (concat nums)) as [L F].
  replace (bn_hash_array H nums) with (H (concat nums)) by reflexivity.
  rewrite bn_from_bytes_val. pose proof (val_be_bound 256 _ ltac:(lia) F) as B. rewrite L in B. exact B.
Qed.

Lemma builder_check_ok Q pk sg vals schema non_schema req : presentable_for Q pk sg vals schema non_schema req ->
  builder_check vals req schema non_schema = Ok tt.
Proof.
  intros P. unfold builder_check.
  assert (ss_eqb (ss_union non_schema schema) (ss_of_list (sm_keys vals)) = true) as ->.
  { apply ss_eqb_set; [apply ss_union_sorted, (pr_non_schema P)|apply ss_of_list_sorted|].
    intros x. rewrite ss_union_in, ss_of_list_in, (pr_attrs P). tauto. }
  assert (Nat.eqb (length (ss_diff (rq_revealed req) (ss_of_list (sm_keys vals)))) 0 = true) as ->.
  { apply length0_iff. intros x. rewrite ss_diff_in, ss_of_list_in, (pr_attrs P). intros [Hx Hn]. apply Hn. left.
    now apply (pr_revealed P). }
  assert (Nat.eqb (length (ss_diff (predicate_attrs req) (ss_of_list (sm_keys vals)))) 0 = true) as ->.
  { apply length0_iff. intros x. unfold predicate_attrs. rewrite ss_diff_in, !ss_of_list_in, (pr_attrs P), in_map_iff.
    intros [(p & <- & Hp) Hn]. apply Hn. left. now apply (pr_preds P). }
  assert (Nat.eqb (length (ss_inter (predicate_attrs req) (rq_revealed req))) 0 = true) as ->.
  { apply length0_iff. intros x. unfold predicate_attrs. rewrite ss_inter_in, ss_of_list_in, in_map_iff.
    intros [(p & <- & Hp) Hn]. now apply (pr_preds P) in Hn. }
  reflexivity.
Qed.

Section Pres.
Variable C : curve.
Hypothesis LW : curve_laws C.
Variable H : list Z -> list Z.

(** ** common attributes *)
(** verifier state [st] agrees with the prover's blindings [cm] and values [x] under challenge [c] *)
Definition agrees (c : Z) (cm : smap Z) (x : string -> Z) (st : smap (option Z)) : Prop :=
  forall a, In a (sm_keys st) -> exists d, sm_get a cm = Some d /\ forall v, sm_get a st = Some (Some v) -> v = c * x a + d.

Lemma common_loop_ok c cm x m : forall names st, agrees c cm x st -> (forall a, In a names -> In a (sm_keys st)) ->
  (forall a d, In a names -> sm_get a cm = Some d -> sm_get a m = Some (c * x a + d)) ->
  exists st', common_loop m names st = (st', Ok tt) /\ agrees c cm x st' /\ (forall a, In a (sm_keys st') <-> In a (sm_keys st)).
Proof.
  induction names as [|a names IH]; intros st A Hk Hm; cbn [common_loop]; [exists st; repeat split; auto|].
  destruct (A a (Hk a ltac:(now left))) as (d & Hd & Hv). rewrite (Hm a d ltac:(now left) Hd).
  assert (forall b, In b names -> In b (sm_keys st)) as Hk' by (intros; apply Hk; now right).
  assert (forall b d0, In b names -> sm_get b cm = Some d0 -> sm_get b m = Some (c * x b + d0)) as Hm' by (intros; apply Hm; [now right|assumption]).
  destruct (sm_get a st) as [[v|]|] eqn:E.
  - rewrite (Hv v eq_refl), Z.eqb_refl. now apply IH.
  - set (st1 := hm_insert a (Some (c * x a + d)) st).
    assert (forall b, In b (sm_keys st1) <-> In b (sm_keys st)) as Ek.
    { intros b. unfold st1. rewrite hm_insert_keys. split; [intros [->|?]; [apply Hk; now left|assumption]|auto]. }
    destruct (IH st1) as (st' & E1 & A' & K').
    + intros b Hb. destruct (A b (proj1 (Ek b) Hb)) as (d' & Hd' & Hv'). exists d'. split; [assumption|].
      intros v. unfold st1. rewrite sm_get_hm_insert. destruct (String.eqb b a) eqn:Eb; [|now apply Hv'].
      apply String.eqb_eq in Eb. subst b. intros Q. congruence.
    + intros b Hb. apply Ek. now apply Hk'.
    + exact Hm'.
    + exists st'. split; [exact E1|]. split; [exact A'|]. intros b. now rewrite K', Ek.
  - now apply IH.
Qed.

(** ** one credential *)
Definition vcred_of (it : item C) : vcred C := mkVCred (it_pk it) (it_req it) (it_schema it) (it_non_schema it) (it_z it) (it_accum it).

(** the revealed values and the responses of the common attributes in a sub proof *)
Definition shows (c : Z) (cm : smap Z) (it : item C) (sp : subproof C) : Prop :=
  ep_revealed (pp_eq (sp_p sp)) = map (fun k => (k, val_of (it_vals it) k)) (rq_revealed (it_req it)) /\
  forall a d cv, sm_get a cm = Some d -> ~ In a (rq_revealed (it_req it)) -> sm_get a (it_vals it) = Some cv ->
    response C sp a = Some (c * cv_value cv + d).
(** the prover's initialised proof [ip] and verifier entry of an item belong together *)
Definition matched (cm : smap Z) (it : item C) (ip : initproof C) (ts : list (list Z)) : Prop :=
  forall c, 0 <= c < 2 ^ 256 -> exists sp, finalize_one C c ip = Ok sp /\ check_one_params C sp (vcred_of it) = Ok tt /\
    shows c cm it sp /\
    forall x st, agrees c cm x st ->
      (forall a, In a (sm_keys st) -> ~ In a (rq_revealed (it_req it)) /\ exists cv, sm_get a (it_vals it) = Some cv /\ cv_value cv = x a) ->
      exists st', verify_one C c st sp (vcred_of it) = (st', Ok ts) /\ agrees c cm x st' /\ (forall a, In a (sm_keys st') <-> In a (sm_keys st)).

Lemma builder_add_ok b it : item_ok_for C predicate_provable it -> exists ip cs ts,
  builder_add C b (it_req it) (it_schema it) (it_non_schema it) (it_sig it) (it_vals it) (it_pk it) (it_accum it) (it_omega it) (it_rnd it)
   = (mkBuilder (pb_common b) (pb_init b ++ [ip]) (pb_c_list b ++ cs) (pb_tau_list b ++ ts), Ok tt) /\ matched (pb_common b) it ip ts.
Proof.
  intros [V P R Rn]. unfold builder_add. rewrite (builder_check_ok _ _ _ _ _ _ _ P).
  set (nr := match cs_r (it_sig it) with Some rc => _ | None => _ end).
  set (m2_t := match nr with Some n => _ | None => _ end).
  destruct (primary_complete (cp_p (it_pk it)) V (cs_p (it_sig it)) (it_vals it) (it_schema it) (it_non_schema it) (it_req it) P (pb_common b) m2_t
              (su_eq C (it_rnd it)) (su_ne C (it_rnd it)) Rn) as (ip & Eip & _ & Hc).
  rewrite Eip.
  set (ip0 := mkInitProof ip nr (it_vals it) (it_req it) (it_schema it) (it_non_schema it)).
  exists ip0, (match nr with Some n => c_as_list C (nr_cl n) | None => [] end ++ pinit_c_list ip),
     (match nr with Some n => tau_as_list C (nr_tl n) | None => [] end ++ pinit_tau_list ip).
  split.
  { destruct nr; cbn [pb_common pb_init pb_c_list pb_tau_list]; [now rewrite !app_assoc|]. reflexivity. }
  intros c Bc. destruct (Hc c ltac:(lia)) as (pf & tp & Ef & Ev & Et & Er & Ep & Em & _).
  assert (exists nrp, match nr with Some n => let! x := finalize_non_revocation_proof C n c in Ok (Some x) | None => Ok None end = Ok nrp /\
     match nrp, cp_r (it_pk it), it_accum it, it_z it with
            | Some nrp, Some rk, Some accum, Some z =>
                let! t := verify_non_revocation_proof C rk accum z c nrp in Ok (tau_as_list C t)
            | _, _, _, _ => Ok []
            end = Ok (match nr with Some n => tau_as_list C (nr_tl n) | None => [] end)) as (nrp & F1 & F2).
  { unfold revocation_ok in R. subst nr. clear - R Bc LW.
    destruct (cs_r (it_sig it)) as [rc|]; [|exists None; auto].
    destruct (it_accum it) as [accum|]; [|exists None; auto].
    destruct (cp_r (it_pk it)) as [rk|]; [|exists None; auto].
    destruct (it_omega it) as [omega|]; [|exists None; auto].
    destruct R as (z & Ez & RV). rewrite Ez.
    destruct (nonrevoc_complete_total C LW rk z accum omega rc (su_d C (it_rnd it)) (su_tp C (it_rnd it)) c RV Bc) as (pr & Q1 & _ & Q2).
    exists (Some pr). rewrite Q1. cbn [rbind]. split; [reflexivity|]. rewrite Q2. reflexivity. }
  assert (forall a d cv, sm_get a (pb_common b) = Some d -> ~ In a (rq_revealed (it_req it)) -> sm_get a (it_vals it) = Some cv ->
    sm_get a (ep_m (pp_eq pf)) = Some (c * cv_value cv + d)) as Eresp.
  { intros a d cv Hd Nr Ecv. rewrite Em. unfold m_response.
    assert (ss_mem a (unrevealed (it_non_schema it) (it_schema it) (it_req it)) = true) as ->.
    { apply ss_mem_in. unfold unrevealed. rewrite ss_diff_in, ss_union_in. split; [|exact Nr].
      apply or_comm, (pr_attrs P). apply sm_get_keys. eauto. }
    rewrite Hd. unfold val_of. rewrite Ecv. reflexivity. }
  exists (mkSubProof pf nrp). split; [|split; [|split]].
  - unfold finalize_one. cbn [ip0 in_r in_p in_vals in_req in_schema in_non_schema]. rewrite F1. cbn [rbind]. rewrite Ef. reflexivity.
  - unfold check_one_params. cbn [sp_p vcred_of vc_req]. rewrite Er, Ep.
    replace (sm_keys (map (fun k => (k, val_of (it_vals it) k)) (rq_revealed (it_req it)))) with (rq_revealed (it_req it)).
    2:{ unfold sm_keys. rewrite map_map. cbn [fst]. symmetry. apply map_id. }
    rewrite (ss_of_sorted _ (pr_revealed_sorted P)), (pr_preds_sorted P).
    assert (ss_eqb (rq_revealed (it_req it)) (rq_revealed (it_req it)) = true) as -> by now apply ss_eqb_eq.
    now rewrite preds_eqb_refl.
  - split; [exact Er|exact Eresp].
  - intros x st A Hcm. unfold verify_one. cbn [sp_r sp_p vcred_of vc_pk vc_accum vc_z vc_schema vc_non_schema vc_req]. rewrite F2.
    destruct (common_loop_ok c (pb_common b) x (ep_m (pp_eq pf)) (sm_keys st) st A ltac:(auto)) as (st' & E1 & A' & K').
    { intros a d Ha Hd. destruct (Hcm a Ha) as (Nr & cv & Ecv & Ex). rewrite <- Ex. now apply Eresp. }
    rewrite E1. rewrite Ev. cbn [rbind]. exists st'. split; [now rewrite Et|auto].
Qed.

(** ** all credentials *)
Lemma build_all_ok : forall items b, (forall it, In it items -> item_ok_for C predicate_provable it) -> exists ips cs tss,
  build_all C b items = (mkBuilder (pb_common b) (pb_init b ++ ips) (pb_c_list b ++ cs) (pb_tau_list b ++ concat tss), Ok tt) /\
  Forall2 (fun it '(ip, ts) => matched (pb_common b) it ip ts) items (combine ips tss) /\ length ips = length tss.
Proof.
  induction items as [|it items IH]; intros b Hi; cbn [build_all].
  { exists [], [], []. cbn [concat combine]. rewrite !app_nil_r. destruct b; repeat split; constructor. }
  destruct (builder_add_ok b it (Hi it ltac:(now left))) as (ip & cs & ts & E & M). rewrite E.
  destruct (IH (mkBuilder (pb_common b) (pb_init b ++ [ip]) (pb_c_list b ++ cs) (pb_tau_list b ++ ts)) ltac:(intros; apply Hi; now right))
    as (ips & cs' & tss & E' & F & L).
  exists (ip :: ips), (cs ++ cs'), (ts :: tss). cbn [pb_common pb_init pb_c_list pb_tau_list] in E', F. rewrite E'.
  split; [|split]; [|cbn [combine]; constructor; assumption|cbn [length]; congruence].
  cbn [concat]. now rewrite <- !app_assoc.
Qed.

Lemma verifier_add_ok v it : item_ok_for C predicate_provable it ->
  verifier_add C v (it_req it) (it_schema it) (it_non_schema it) (it_pk it) (it_z it) (it_accum it) =
  (mkVerifier (vf_creds v ++ [vcred_of it]) (vf_common v), Ok tt).
Proof.
  intros [_ P _ _]. unfold verifier_add.
  assert (Nat.eqb (length (ss_diff (rq_revealed (it_req it)) (it_schema it))) 0 = true) as ->.
  { apply length0_iff. intros x. rewrite ss_diff_in. intros [Hx Hn]. apply Hn. now apply (pr_revealed P). }
  assert (Nat.eqb (length (ss_diff (predicate_attrs (it_req it)) (it_schema it))) 0 = true) as ->.
  { apply length0_iff. intros x. unfold predicate_attrs. rewrite ss_diff_in, !ss_of_list_in, in_map_iff.
    intros [(p & <- & Hp) Hn]. apply Hn. now apply (pr_preds P). }
  reflexivity.
Qed.
Lemma expect_all_ok : forall items v, (forall it, In it items -> item_ok_for C predicate_provable it) ->
  expect_all C v items = (mkVerifier (vf_creds v ++ map vcred_of items) (vf_common v), Ok tt).
Proof.
  induction items as [|it items IH]; intros v Hi; cbn [expect_all map]; [rewrite app_nil_r; now destruct v|].
  rewrite verifier_add_ok by (apply Hi; now left). rewrite IH by (intros; apply Hi; now right).
  cbn [vf_creds vf_common]. now rewrite <- app_assoc.
Qed.

Lemma finalize_all cm c : 0 <= c < 2 ^ 256 -> forall items ips tss, length ips = length tss ->
  Forall2 (fun it '(ip, ts) => matched cm it ip ts) items (combine ips tss) ->
  exists sps, rmap (finalize_one C c) ips = Ok sps /\ length sps = length items /\ Forall2 (shows c cm) items sps /\
    rfold (fun _ '(sp, vc) => check_one_params C sp vc) (combine sps (map vcred_of items)) tt = Ok tt /\
    forall x st tau, agrees c cm x st ->
      (forall a it, In a (sm_keys st) -> In it items -> ~ In a (rq_revealed (it_req it)) /\ exists cv, sm_get a (it_vals it) = Some cv /\ cv_value cv = x a) ->
      exists st', verify_loop C c st (combine sps (map vcred_of items)) tau = (st', Ok (tau ++ concat tss)) /\ agrees c cm x st' /\
        (forall a, In a (sm_keys st') <-> In a (sm_keys st)).
Proof.
  intros Bc. induction items as [|it items IH]; intros ips tss L F.
  { inversion F as [E|]. destruct ips, tss; try discriminate. exists []. cbn. repeat split; [constructor|]. intros x st tau A _. exists st. rewrite app_nil_r. tauto. }
  destruct ips as [|ip ips], tss as [|ts tss]; cbn [combine] in F; inversion F as [|? ? ? ? M F']; subst; try discriminate.
  destruct (M c Bc) as (sp & E1 & E2 & E4 & E3). destruct (IH ips tss ltac:(cbn in L; lia) F') as (sps & I1 & I2 & I5 & I3 & I4).
  exists (sp :: sps). cbn [rmap]. rewrite E1. cbn [rbind]. rewrite I1. cbn [rbind length map combine rfold]. rewrite I2, E2. cbn [rbind].
  repeat split; auto. intros x st tau A Hcm. cbn [verify_loop].
  destruct (E3 x st A) as (st1 & Ev & A1 & K1); [intros a Ha; apply Hcm; [assumption|now left]|]. rewrite Ev.
  destruct (I4 x st1 (tau ++ ts) A1) as (st2 & Ev2 & A2 & K2).
  { intros a it' Ha Hi. apply Hcm; [now apply K1|now right]. }
  rewrite Ev2. exists st2. cbn [concat]. rewrite <- app_assoc. repeat split; auto; intros Ha; [apply K1, K2|apply K2, K1]; assumption.
Qed.

Lemma common_builder_get commons : forall a, In a (map fst commons) -> exists d, sm_get a (pb_common (common_builder C commons)) = Some d.
Proof.
  unfold common_builder. generalize (builder_new C) as b.
  assert (forall l b a, (exists d, sm_get a (pb_common b) = Some d) \/ In a (map fst l) ->
     exists d, sm_get a (pb_common (fold_left (fun b '(a, d) => builder_add_common C b a d) l b)) = Some d) as G.
  { induction l as [|[k d] l IH]; [intros b a [Hb|[]]; exact Hb|].
    intros b a [Hb|[<-|Hi]]; cbn [fold_left]; apply IH.
    - left. destruct Hb as [d' Hb]. cbn [builder_add_common pb_common]. rewrite sm_get_hm_insert. destruct (String.eqb a k); eauto.
    - left. cbn [builder_add_common pb_common fst]. rewrite sm_get_hm_insert, String.eqb_refl. eauto.
    - now right. }
  intros b a Ha. apply G. now right.
Qed.
Lemma common_builder_shape commons : pb_init (common_builder C commons) = [] /\ pb_c_list (common_builder C commons) = [] /\
  pb_tau_list (common_builder C commons) = [].
Proof.
  unfold common_builder. assert (forall l b, pb_init b = [] /\ pb_c_list b = [] /\ pb_tau_list b = [] ->
    let b' := fold_left (fun b '(a, d) => builder_add_common C b a d) l b in pb_init b' = [] /\ pb_c_list b' = [] /\ pb_tau_list b' = []) as G.
  { induction l as [|[k d] l IH]; intros b Hb; cbn [fold_left]; [exact Hb|]. apply IH. exact Hb. }
  apply G. repeat split.
Qed.
Lemma common_verifier_shape names : vf_creds (common_verifier C names) = [] /\
  forall a, (In a (sm_keys (vf_common (common_verifier C names))) <-> In a names) /\
    (forall v, sm_get a (vf_common (common_verifier C names)) = Some (Some v) -> False).
Proof.
  unfold common_verifier.
  assert (forall l v, vf_creds v = [] -> (forall a w, sm_get a (vf_common v) = Some (Some w) -> False) ->
    let v' := fold_left (fun v a => verifier_add_common C v a) l v in vf_creds v' = [] /\
    forall a, (In a (sm_keys (vf_common v')) <-> In a l \/ In a (sm_keys (vf_common v))) /\ (forall w, sm_get a (vf_common v') = Some (Some w) -> False)) as G.
  { induction l as [|k l IH]; intros v Hv Hs; cbn [fold_left].
    - split; [assumption|]. intros a. split; [cbn [In]; tauto|apply Hs].
    - destruct (IH (verifier_add_common C v k)) as [G1 G2].
      + exact Hv.
      + intros a w. cbn [verifier_add_common vf_common]. rewrite sm_get_hm_insert. destruct (String.eqb a k); [discriminate|apply Hs].
      + split; [exact G1|]. intros a. destruct (G2 a) as [G3 G4]. split; [|exact G4]. rewrite G3.
        cbn [verifier_add_common vf_common In]. rewrite hm_insert_keys. intuition. }
  destruct (G names (verifier_new C) eq_refl) as [G1 G2]; [intros a w; discriminate|].
  split; [exact G1|]. intros a. destruct (G2 a) as [G3 G4]. split; [rewrite G3; cbn; tauto|exact G4].
Qed.

Lemma presentation_ok commons items nonce : hash32 H -> (forall it, In it items -> item_ok_for C predicate_provable it) -> common_ok C (map fst commons) items ->
  exists b v pf v', build_all C (common_builder C commons) items = (b, Ok tt) /\
    expect_all C (common_verifier C (map fst commons)) items = (v, Ok tt) /\
    builder_finalize C H b nonce = Ok pf /\ verify C H v pf nonce = (v', Ok true) /\ 0 <= pf_c_hash pf < 2 ^ 256 /\
    Forall2 (shows (pf_c_hash pf) (pb_common (common_builder C commons))) items (pf_proofs pf) /\
    v = mkVerifier (map vcred_of items) (vf_common (common_verifier C (map fst commons))).
Proof.
  intros Hh Hi Hco. destruct (build_all_ok items (common_builder C commons) Hi) as (ips & cs & tss & Eb & F & L).
  destruct (common_builder_shape commons) as (S1 & S2 & S3). rewrite S1, S2, S3 in Eb. cbn [app] in Eb.
  destruct (common_verifier_shape (map fst commons)) as [W1 W2].
  pose proof (expect_all_ok items (common_verifier C (map fst commons)) Hi) as Ev. rewrite W1 in Ev. cbn [app] in Ev.
  eexists. eexists. set (c := get_hash_as_int H (concat tss ++ cs ++ [bn_to_bytes nonce])).
  pose proof (challenge_bound H (concat tss ++ cs ++ [bn_to_bytes nonce]) Hh) as Bc. fold c in Bc.
  destruct (finalize_all (pb_common (common_builder C commons)) c Bc items ips tss L F) as (sps & I1 & I2 & I5 & I3 & I4).
  pose (x := fun a => match items with it :: _ => val_of (it_vals it) a | [] => 0 end).
  destruct (I4 x (vf_common (common_verifier C (map fst commons))) []) as (st' & E & _ & _).
  { intros a Ha. apply (W2 a) in Ha. destruct (common_builder_get commons a Ha) as [d Hd]. exists d. split; [exact Hd|].
    intros v Hv. now apply (W2 a) in Hv. }
  { intros a it Ha Hit. apply (W2 a) in Ha. destruct (Hco a Ha) as [y Hy]. destruct (Hy it Hit) as (Nr & cv & Ecv & Ey).
    split; [exact Nr|]. exists cv. split; [exact Ecv|]. rewrite Ey. unfold x. destruct items as [|it0 items]; [destruct Hit|].
    destruct (Hy it0 ltac:(now left)) as (_ & cv0 & Ecv0 & Ey0). unfold val_of. rewrite Ecv0. now symmetry. }
  cbn [app] in E.
  exists (mkProof sps c cs). eexists. split; [exact Eb|]. split; [exact Ev|]. split; [|split; [|split; [exact Bc|split; [exact I5|reflexivity]]]].
  - unfold builder_finalize. cbn [pb_tau_list pb_c_list pb_init]. fold c. rewrite I1. reflexivity.
  - unfold verify, check_verify_params. cbn [vf_creds vf_common pf_proofs pf_c_hash pf_c_list]. rewrite map_length, I2, Nat.eqb_refl, I3.
    cbn [negb]. rewrite E. cbn [rbind]. fold c. rewrite Z.eqb_refl. reflexivity.
Qed.
End Pres.

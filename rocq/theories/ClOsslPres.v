(** Agreement of whole presentations over the two backends. *)
From Coq Require Import String Znumtheory.
From Verif Require Import Base BnModel BnProofs BnOsslModel BnOsslLib HelpersModel StrMap ClModel ClSpec ClLib Alg ClRevModel ClProofModel ClPresSpec ClOsslModel ClOsslLib ClOsslCl ClOsslSpec.
Local Open Scope string_scope.
Local Open Scope list_scope.
Local Open Scope Z_scope.

Section Pres.
Variable inv : Z -> Z -> res Z.
Hypothesis Hinv : mod_inverse_ok inv.
Variable H : list Z -> list Z.
Variable C : curve.

Lemma o_common_loop_eq m : forall names st, o_common_loop m names st = common_loop m names st.
Proof.
  induction names as [|a names IH]; intros st; cbn [o_common_loop common_loop]; [reflexivity|].
  destruct (sm_get a m) as [x|]; [|reflexivity]. destruct (sm_get a st) as [[v|]|]; rewrite ?ob_eqb_eq, ?IH; reflexivity.
Qed.

Lemma o_verify_one_eq c_hash st sp vc : c_hash <> 0 -> valid_pk (cp_p (vc_pk vc)) ->
  0 <= ep_a_prime (pp_eq (sp_p sp)) -> Forall (fun ne => t_nonneg (np_t ne)) (pp_ne (sp_p sp)) ->
  o_verify_one inv C c_hash st sp vc = verify_one C c_hash st sp vc.
Proof.
  intros Hc Hpk Ha Ht. unfold o_verify_one, verify_one. cbv zeta.
  destruct (match sp_r sp with Some _ => _ | None => _ end) as [t1|e]; [|reflexivity].
  rewrite o_common_loop_eq. destruct (common_loop _ _ _) as [st' [u|e]]; [|reflexivity]. f_equal.
  destruct (agree_verify_primary inv Hinv H (fun _ => true) (cp_p (vc_pk vc)) Hpk c_hash (sp_p sp) (vc_schema vc) (vc_non_schema vc) (vc_req vc) Ha Ht Hc) as [E P].
  rewrite E. destruct (verify_primary_proof _ _ _ _ _ _) as [t2|e]; cbn [rbind]; [|reflexivity].
  rewrite (bytes_map' _ Hpk t2) by (now apply P). reflexivity.
Qed.

Lemma o_verify_loop_eq c_hash : c_hash <> 0 -> forall l st tau,
  (forall sp vc, In (sp, vc) l -> valid_pk (cp_p (vc_pk vc)) /\ 0 <= ep_a_prime (pp_eq (sp_p sp)) /\ Forall (fun ne => t_nonneg (np_t ne)) (pp_ne (sp_p sp))) ->
  o_verify_loop inv C c_hash st l tau = verify_loop C c_hash st l tau.
Proof.
  intros Hc. induction l as [|[sp vc] l IH]; intros st tau Hl; cbn [o_verify_loop verify_loop]; [reflexivity|].
  destruct (Hl sp vc (or_introl eq_refl)) as (H1 & H2 & H3). rewrite o_verify_one_eq by assumption.
  destruct (verify_one _ _ _ _ _) as [st' [t|e]]; [|reflexivity]. apply IH. intros; apply Hl; now right.
Qed.

Lemma o_verify_eq v pf nonce : (forall vc, In vc (vf_creds v) -> valid_pk (cp_p (vc_pk vc))) -> nonneg_proof C pf ->
  pf_c_hash pf <> 0 -> nonce <> 0 -> o_verify inv H C v pf nonce = verify C H v pf nonce.
Proof.
  intros Hv Hp Hc Hn. unfold o_verify, verify. destruct (check_verify_params C (vf_creds v) pf); [|reflexivity].
  rewrite (o_verify_loop_eq _ Hc).
  - destruct (verify_loop _ _ _ _ _) as [st r]. f_equal. destruct r; cbn [rbind]; [|reflexivity]. cbv zeta. rewrite ob_eqb_eq, o_hash_eq, (ob_to_bytes_eq nonce Hn). reflexivity.
  - intros sp vc Hin. pose proof (in_combine_l _ _ _ _ Hin) as H1. pose proof (in_combine_r _ _ _ _ Hin) as H2.
    split; [now apply Hv|]. destruct (Hp sp H1) as [A B]. split; [exact A|]. apply Forall_forall. intros ne Hne. exact (B ne Hne).
Qed.

Lemma o_verify_zero v pf v' : (forall vc, In vc (vf_creds v) -> valid_pk (cp_p (vc_pk vc))) -> nonneg_proof C pf ->
  pf_c_hash pf <> 0 -> verify C H v pf 0 = (v', Ok true) ->
  exists l, pf_c_hash pf = bn_from_bytes (H (l ++ [0])) /\ o_verify inv H C v pf 0 = (v', Ok (bn_from_bytes (H l) =? pf_c_hash pf)).
Proof.
  intros Hv Hp Hc. unfold o_verify, verify. destruct (check_verify_params C (vf_creds v) pf); [|discriminate].
  rewrite (o_verify_loop_eq _ Hc).
  - destruct (verify_loop _ _ _ _ _) as [st [tau|e]]; cbn [rbind]; [|discriminate]. cbv zeta. intros E. injection E as <- E.
    apply Z.eqb_eq in E. exists (concat (tau ++ pf_c_list pf)). split.
    + rewrite <- E. unfold get_hash_as_int, bn_hash_array. do 2 f_equal. rewrite app_assoc, (concat_app _ [bn_to_bytes 0]). reflexivity.
    + rewrite ob_eqb_eq. unfold o_get_hash_as_int, ob_hash_array. rewrite app_assoc, (concat_app _ [ob_to_bytes 0]). cbn [concat ob_to_bytes bn2bin Z.eqb]. rewrite !app_nil_r. reflexivity.
  - intros sp vc Hin. pose proof (in_combine_l _ _ _ _ Hin) as H1. pose proof (in_combine_r _ _ _ _ Hin) as H2.
    split; [now apply Hv|]. destruct (Hp sp H1) as [A B]. split; [exact A|]. apply Forall_forall. intros ne Hne. exact (B ne Hne).
Qed.

(** prover *)
Definition in_nonneg (ip : initproof C) : Prop :=
  0 <= ei_a_prime (pi_eq (in_p ip)) /\ Forall (fun ne => t_nonneg (ni_t ne)) (pi_ne (in_p ip)).

Lemma o_builder_add_eq b req schema non_schema sg vals pk accum omega rnd : valid_pk (cp_p pk) -> ui (pk_n (cp_p pk)) (sg_a (cs_p sg)) ->
  o_builder_add inv C b req schema non_schema sg vals pk accum omega rnd = builder_add C b req schema non_schema sg vals pk accum omega rnd
  /\ (Forall in_nonneg (pb_init b) -> Forall in_nonneg (pb_init (fst (builder_add C b req schema non_schema sg vals pk accum omega rnd)))).
Proof.
  intros Hpk Ha. unfold o_builder_add, builder_add. destruct (builder_check _ _ _ _) as [u|e]; [|now split].
  cbv zeta. set (m2 := match match cs_r sg with Some _ => _ | None => _ end with Some _ => _ | None => None end).
  destruct (agree_init_primary inv Hinv (cp_p pk) Hpk (pb_common b) (cs_p sg) vals schema non_schema req m2 (su_eq C rnd) (su_ne C rnd) Ha) as [E P].
  rewrite E. destruct (init_primary_proof _ _ _ _ _ _ _ _ _ _) as [ip|e].
  - pose proof (P ip eq_refl) as U. destruct (pinit_lists_eq _ Hpk ip U) as [-> ->]. split; [reflexivity|]. cbn [fst pb_init].
    intros F. apply Forall_app. split.
    + destruct (match cs_r sg with Some _ => _ | None => _ end); exact F.
    + constructor; [|constructor]. destruct U as (U1 & _ & U3). split; cbn [in_p]; [apply U1|]. eapply Forall_impl; [|exact U3]. cbv beta. tauto.
  - split; [reflexivity|]. cbn [fst]. destruct (match cs_r sg with Some _ => _ | None => _ end); auto.
Qed.

Lemma o_build_all_eq items : (forall it, In it items -> valid_pk (cp_p (it_pk it)) /\ ui (pk_n (cp_p (it_pk it))) (sg_a (cs_p (it_sig it)))) ->
  forall b, o_build_all inv C b items = build_all C b items /\ (Forall in_nonneg (pb_init b) -> Forall in_nonneg (pb_init (fst (build_all C b items)))).
Proof.
  induction items as [|it items IH]; intros Hi b; cbn [o_build_all build_all]; [now split|].
  destruct (Hi it (or_introl eq_refl)) as [H1 H2].
  destruct (o_builder_add_eq b (it_req it) (it_schema it) (it_non_schema it) (it_sig it) (it_vals it) (it_pk it) (it_accum it) (it_omega it) (it_rnd it) H1 H2) as [-> F].
  destruct (builder_add _ _ _ _ _ _ _ _ _ _ _) as [b' [u|e]]; cbn [fst] in F; [|split; auto].
  destruct (IH (fun it' Hit => Hi it' (or_intror Hit)) b') as [E G]. split; auto.
Qed.

Lemma o_finalize_one_eq ch ip : o_finalize_one C ch ip = finalize_one C ch ip.
Proof. reflexivity. Qed.
Lemma o_builder_finalize_eq b nonce : nonce <> 0 -> o_builder_finalize H C b nonce = builder_finalize C H b nonce.
Proof. intros Hn. unfold o_builder_finalize, builder_finalize. rewrite (ob_to_bytes_eq nonce Hn). reflexivity. Qed.

Lemma finalize_nonneg b nonce pf : Forall in_nonneg (pb_init b) -> builder_finalize C H b nonce = Ok pf -> nonneg_proof C pf.
Proof.
  intros F. unfold builder_finalize. cbv zeta. intros E. apply rbind_ok in E as (ps & E & E'). injection E' as <-. unfold nonneg_proof. cbn [pf_proofs].
  intros sp Hin. revert E. generalize (get_hash_as_int H (pb_tau_list b ++ pb_c_list b ++ [bn_to_bytes nonce])) as ch. intros ch E.
  assert (X : exists ip, In ip (pb_init b) /\ finalize_one C ch ip = Ok sp).
  { clear F. revert ps E Hin. induction (pb_init b) as [|ip l IH]; intros ps E Hin; cbn [rmap] in E; [injection E as <-; destruct Hin|].
    apply rbind_ok in E as (y & Ey & E). apply rbind_ok in E as (ys & Eys & E). injection E as <-. destruct Hin as [<-|Hin]; [exists ip; split; [now left|exact Ey]|].
    destruct (IH ys Eys Hin) as (ip' & A & B). exists ip'. split; [now right|exact B]. }
  destruct X as (ip & Hip & Es). rewrite Forall_forall in F. destruct (F ip Hip) as [A B].
  unfold finalize_one in Es. apply rbind_ok in Es as (nr & _ & Es). apply rbind_ok in Es as (pp & Epp & Es). injection Es as <-. cbn [sp_p].
  unfold finalize_primary_proof in Epp. apply rbind_ok in Epp as (eq & Eeq & Epp). apply rbind_ok in Epp as (nes & Enes & Epp). injection Epp as <-. cbn [pp_eq pp_ne].
  split.
  - unfold finalize_eq_proof in Eeq. cbv zeta in Eeq. apply rbind_ok in Eeq as (? & _ & Eeq). apply rbind_ok in Eeq as (? & _ & Eeq). injection Eeq as <-. exact A.
  - intros ne Hne. clear - B Enes Hne. revert nes Enes Hne. induction (pi_ne (in_p ip)) as [|i l IH]; intros nes E Hne; cbn [rmap] in E; [injection E as <-; destruct Hne|].
    apply rbind_ok in E as (y & Ey & E). apply rbind_ok in E as (ys & Eys & E). injection E as <-. inversion B as [|? ? B1 B2]; subst. destruct Hne as [<-|Hne]; [|now apply (IH B2 ys)].
    unfold finalize_ne_proof in Ey. apply rbind_ok in Ey as ([[u r] ur] & _ & Ey). apply rbind_ok in Ey as (rd & _ & Ey). cbv zeta in Ey. apply rbind_ok in Ey as (mj & _ & Ey).
    injection Ey as <-. exact B1.
Qed.

Lemma expect_all_pks : forall items v0 v, (forall it, In it items -> valid_pk (cp_p (it_pk it))) -> (forall vc, In vc (vf_creds v0) -> valid_pk (cp_p (vc_pk vc))) ->
  expect_all C v0 items = (v, Ok tt) -> forall vc, In vc (vf_creds v) -> valid_pk (cp_p (vc_pk vc)).
Proof.
  induction items as [|it items IH]; intros v0 v Hi H0 E; cbn [expect_all] in E; [now injection E as <-|].
  destruct (verifier_add _ _ _ _ _ _ _) as [v1 [u|e]] eqn:Ev; [|discriminate]. apply (IH v1 v); [intros; apply Hi; now right| |exact E].
  unfold verifier_add in Ev. destruct (negb _); [discriminate|]. destruct (negb _); [discriminate|]. injection Ev as <-. cbn [vf_creds].
  intros vc Hin. apply in_app_or in Hin as [Hin|[<-|[]]]; [now apply H0|]. cbn [vc_pk]. apply Hi. now left.
Qed.
Lemma common_verifier_creds l : vf_creds (common_verifier C l) = [].
Proof.
  unfold common_verifier. assert (Z0 : forall l (w : verifier C), vf_creds (fold_left (fun v a => verifier_add_common C v a) l w) = vf_creds w).
  { clear. induction l as [|a l IH]; intros w; cbn [fold_left]; [reflexivity|]. rewrite IH. reflexivity. }
  now rewrite Z0.
Qed.
Lemma common_builder_init l : pb_init (common_builder C l) = [].
Proof.
  unfold common_builder. assert (Z0 : forall l (w : builder C), pb_init (fold_left (fun b '(a, d) => builder_add_common C b a d) l w) = pb_init w).
  { clear. induction l as [|[a d] l IH]; intros w; cbn [fold_left]; [reflexivity|]. rewrite IH. reflexivity. }
  now rewrite Z0.
Qed.
End Pres.

(** Exact characterisation of [ProofVerifier::verify] (C29, C33). *)
From Verif Require Import Base BnModel BnProofs StrMap HelpersModel ClModel ClSpec Alg ClRevModel ClProofModel ClPresSpec ClPresentation.
Open Scope string_scope.
Open Scope list_scope.
Open Scope Z_scope.

(** ** sets of predicates *)
Lemma pred_compare_eq p q : pred_compare p q = Eq <-> p = q.
Proof.
  rewrite <- pred_eqb_eq. unfold pred_eqb. destruct (pred_compare p q); split; congruence.
Qed.
Lemma pset_insert_in p x : forall s, In x (pset_insert p s) <-> x = p \/ In x s.
Proof.
  induction s as [|q s IH]; cbn [pset_insert In]; [intuition|].
  destruct (pred_compare p q) eqn:E; cbn [In]; [apply pred_compare_eq in E; subst; intuition|intuition|rewrite IH; intuition].
Qed.
Lemma pset_of_list_in l x : In x (pset_of_list l) <-> In x l.
Proof.
  unfold pset_of_list. assert (forall l s, In x (fold_left (fun s p => pset_insert p s) l s) <-> In x l \/ In x s) as G.
  { induction l0 as [|p l0 IH]; intros s; cbn [fold_left In]; [tauto|]. rewrite IH, pset_insert_in. intuition. }
  rewrite G. cbn [In]. tauto.
Qed.
Definition plt a b := pred_compare a b = Lt.
Lemma scmp_anti a b : String.compare a b = CompOpp (String.compare b a).
Proof. apply String.compare_antisym. Qed.
Lemma pred_compare_anti a b : pred_compare a b = CompOpp (pred_compare b a).
Proof.
  unfold pred_compare. rewrite (scmp_anti (p_attr a)), (Z.compare_antisym (ptype_rank (p_type b))), (Z.compare_antisym (p_value b)).
  destruct (String.compare (p_attr b) (p_attr a)); cbn [CompOpp]; try reflexivity.
  destruct (Z.compare (ptype_rank (p_type b)) (ptype_rank (p_type a))); cbn [CompOpp]; try reflexivity.
Qed.
Lemma plt_trans a b c : plt a b -> plt b c -> plt a c.
Proof.
  unfold plt, pred_compare.
  destruct (String.compare (p_attr a) (p_attr b)) eqn:E1; try discriminate;
  destruct (String.compare (p_attr b) (p_attr c)) eqn:E2; try discriminate.
  - apply scmp_eq in E1, E2. rewrite E1, E2, scmp_refl.
    destruct (Z.compare (ptype_rank (p_type a)) (ptype_rank (p_type b))) eqn:F1; try discriminate;
    destruct (Z.compare (ptype_rank (p_type b)) (ptype_rank (p_type c))) eqn:F2; try discriminate.
    + apply Z.compare_eq in F1, F2. rewrite F1, F2, Z.compare_refl. rewrite !Z.compare_lt_iff. lia.
    + apply Z.compare_eq in F1. rewrite F1, F2. reflexivity.
    + apply Z.compare_eq in F2. rewrite <- F2, F1. reflexivity.
    + replace (ptype_rank (p_type a) ?= ptype_rank (p_type c)) with Lt; [reflexivity|]. symmetry. rewrite Z.compare_lt_iff in *. lia.
  - apply scmp_eq in E1. rewrite E1, E2. reflexivity.
  - apply scmp_eq in E2. rewrite <- E2, E1. reflexivity.
  - intros _ _. pose proof (slt_trans _ _ _ E1 E2) as E. unfold slt in E. now rewrite E.
Qed.
Lemma plt_irrefl a : ~ plt a a.
Proof. unfold plt. now rewrite pred_compare_refl. Qed.
Fixpoint psorted (l : list predicate) : Prop := match l with [] => True | a :: r => (forall b, In b r -> plt a b) /\ psorted r end.
Lemma pset_insert_sorted p : forall s, psorted s -> psorted (pset_insert p s).
Proof.
  induction s as [|q s IH]; cbn [pset_insert psorted]; [intros _; split; [intros b []|exact I]|].
  intros [Hq Hs]. destruct (pred_compare p q) eqn:E; cbn [psorted].
  - auto.
  - split; [|auto]. intros b [<-|Hb]; [exact E|]. apply (plt_trans p q b); [exact E|auto].
  - split; [|auto]. intros b Hb. apply pset_insert_in in Hb as [->|Hb]; [|auto]. unfold plt. rewrite pred_compare_anti, E. reflexivity.
Qed.
Lemma pset_of_list_sorted l : psorted (pset_of_list l).
Proof.
  unfold pset_of_list. assert (forall l s, psorted s -> psorted (fold_left (fun s p => pset_insert p s) l s)) as G.
  { induction l0 as [|p l0 IH]; intros s Hs; cbn [fold_left]; [assumption|]. apply IH. now apply pset_insert_sorted. }
  apply G. exact I.
Qed.
Lemma psorted_ext : forall a b, psorted a -> psorted b -> (forall x, In x a <-> In x b) -> a = b.
Proof.
  induction a as [|x a IH]; intros [|y b] Ha Hb E; [reflexivity|exfalso; apply (E y); now left|exfalso; apply (E x); now left|].
  destruct Ha as [Ha1 Ha2], Hb as [Hb1 Hb2].
  assert (x = y) as ->.
  { pose proof (proj1 (E x) ltac:(now left)) as [->|Hx]; [reflexivity|].
    pose proof (proj2 (E y) ltac:(now left)) as [->|Hy]; [reflexivity|].
    exfalso. apply (plt_irrefl x). eapply plt_trans; [apply Ha1, Hy|apply Hb1, Hx]. }
  f_equal. apply IH; auto. intros z. split; intros Hz.
  - destruct (proj1 (E z) ltac:(now right)) as [->|Q]; [|assumption]. exfalso. now apply (plt_irrefl z), Ha1.
  - destruct (proj2 (E z) ltac:(now right)) as [->|Q]; [|assumption]. exfalso. now apply (plt_irrefl z), Hb1.
Qed.

Section Verify.
Variable C : curve.
Variable H : list Z -> list Z.

Lemma check_one_iff sp vc : wf_req (vc_req vc) -> (check_one_params C sp vc = Ok tt <-> answers C sp (vc_req vc)).
Proof.
  intros [W1 W2]. unfold check_one_params, answers.
  set (a := ss_of_list _). set (b := pset_of_list (map _ _)).
  assert (ss_eqb a (rq_revealed (vc_req vc)) = true <-> (forall k, In k (sm_keys (ep_revealed (pp_eq (sp_p sp)))) <-> In k (rq_revealed (vc_req vc)))) as E1.
  { rewrite ss_eqb_set; [|apply ss_of_list_sorted|assumption]. unfold a. split; intros E k; specialize (E k); rewrite ss_of_list_in in *; exact E. }
  assert (preds_eqb b (rq_predicates (vc_req vc)) = true <-> (forall p, In p (map np_predicate (pp_ne (sp_p sp))) <-> In p (rq_predicates (vc_req vc)))) as E2.
  { rewrite preds_eqb_eq. unfold b. split.
    - intros <- p. now rewrite pset_of_list_in.
    - intros E. rewrite <- W2. apply psorted_ext; try apply pset_of_list_sorted. intros x. rewrite !pset_of_list_in. apply E. }
  destruct (ss_eqb a _); cbn [negb].
  - destruct (preds_eqb b _); cbn [negb]; split; try discriminate; intros; try reflexivity; try (split; [now apply E1|now apply E2]).
    destruct H0 as [_ Q]. apply E2 in Q. discriminate.
  - split; [discriminate|]. intros [Q _]. apply E1 in Q. discriminate.
Qed.

Lemma common_loop_iff m : forall names st, (forall a, In a names -> In a (sm_keys st)) ->
  ((exists st', common_loop m names st = (st', Ok tt)) <->
   forall a, In a names -> exists h, sm_get a m = Some h /\ forall w, sm_get a st = Some (Some w) -> w = h) /\
  (forall st', common_loop m names st = (st', Ok tt) ->
     forall a, sm_get a st' = if ss_mem a names then Some (sm_get a m) else sm_get a st).
Proof.
  induction names as [|a names IH]; intros st Hk; cbn [common_loop].
  { split; [split; [intros _ a []|eauto]|]. intros st' E b. injection E as <-. reflexivity. }
  assert (forall b, In b names -> In b (sm_keys st)) as Hk' by (intros; apply Hk; now right).
  destruct (sm_get a m) as [h|] eqn:Em.
  2:{ split; [|discriminate]. split; [intros [st' E]; discriminate|]. intros Q. destruct (Q a ltac:(now left)) as (h & E & _). congruence. }
  destruct (proj1 (sm_get_keys a st) (Hk a ltac:(now left))) as [[v|] Est]; rewrite Est.
  - destruct (Z.eqb_spec v h) as [->|N].
    + destruct (IH st Hk') as [I1 I2]. split.
      * rewrite I1. split.
        -- intros Q b [<-|Hb]; [|now apply Q]. exists h. split; [assumption|]. intros w Hw. congruence.
        -- intros Q b Hb. apply Q. now right.
      * intros st' E b. rewrite (I2 st' E b). unfold ss_mem. cbn [existsb]. destruct (String.eqb_spec b a) as [->|]; [|reflexivity].
        cbn [orb]. rewrite Em, Est. destruct (existsb _ names); reflexivity.
    + split; [|discriminate]. split; [intros [st' E]; discriminate|]. intros Q. destruct (Q a ltac:(now left)) as (h' & E & Q'). exfalso. apply N.
      rewrite (Q' v Est). congruence.
  - set (st1 := hm_insert a (Some h) st).
    destruct (IH st1) as [I1 I2].
    { intros b Hb. unfold st1. rewrite hm_insert_keys. right. now apply Hk'. }
    assert (forall b, sm_get b st1 = if String.eqb b a then Some (Some h) else sm_get b st) as G by (intros; apply sm_get_hm_insert).
    split.
    + rewrite I1. split.
      * intros Q b [<-|Hb].
        -- exists h. split; [assumption|]. intros w Hw. congruence.
        -- destruct (Q b Hb) as (h' & E & Q'). exists h'. split; [assumption|]. intros w Hw. apply Q'. rewrite G.
           destruct (String.eqb_spec b a) as [->|]; [congruence|assumption].
      * intros Q b Hb. destruct (Q b ltac:(now right)) as (h' & E & Q'). exists h'. split; [assumption|]. intros w. rewrite G.
        destruct (String.eqb_spec b a) as [->|]; [intros Hw; congruence|apply Q'].
    + intros st' E b. rewrite (I2 st' E b). unfold ss_mem. cbn [existsb]. rewrite G.
      destruct (String.eqb_spec b a) as [->|]; [|reflexivity]. cbn [orb]. rewrite Em. destruct (existsb _ names); reflexivity.
Qed.

Lemma common_loop_keys m : forall names st st' r, (forall a, In a names -> In a (sm_keys st)) -> common_loop m names st = (st', r) ->
  forall a, In a (sm_keys st') <-> In a (sm_keys st).
Proof.
  induction names as [|a names IH]; intros st st' r Hk E b; cbn [common_loop] in E; [injection E as <- <-; tauto|].
  assert (forall b, In b names -> In b (sm_keys st)) as Hk' by (intros; apply Hk; now right).
  destruct (sm_get a m) as [h|]; [|injection E as <- <-; tauto].
  destruct (sm_get a st) as [[v|]|].
  - destruct (v =? h); [|injection E as <- <-; tauto]. now apply (IH _ _ _ Hk' E).
  - rewrite (IH _ _ _ ltac:(intros; apply hm_insert_keys; right; now apply Hk') E b). rewrite hm_insert_keys. split; [|tauto].
    intros [->|Q]; [apply Hk; now left|assumption].
  - now apply (IH _ _ _ Hk' E).
Qed.

Definition loop_common (st : smap (option Z)) (sps : list (subproof C)) : Prop :=
  forall a, In a (sm_keys st) -> exists m, (forall sp, In sp sps -> response C sp a = Some m) /\ (forall w, sm_get a st = Some (Some w) -> w = m).

Lemma recomputed_split c sp vc : recomputed C c sp vc =
  let! t1 := match sp_r sp, cp_r (vc_pk vc), vc_accum vc, vc_z vc with
             | Some nrp, Some rk, Some accum, Some z => let! t := verify_non_revocation_proof C rk accum z c nrp in Ok (tau_as_list C t)
             | _, _, _, _ => Ok []
             end in
  let! t2 := verify_primary_proof (cp_p (vc_pk vc)) c (sp_p sp) (vc_schema vc) (vc_non_schema vc) (vc_req vc) in
  Ok (t1 ++ map bn_to_bytes t2).
Proof. reflexivity. Qed.

(** the state after the loop over sub proofs *)
Definition after (st : smap (option Z)) (sps : list (subproof C)) (a : string) : option (option Z) :=
  match sps with
  | [] => sm_get a st
  | sp :: _ => if ss_mem a (sm_keys st) then Some (response C sp a) else sm_get a st
  end.

Lemma verify_one_iff c st sp vc t : (exists st', verify_one C c st sp vc = (st', Ok t)) <-> loop_common st [sp] /\ recomputed C c sp vc = Ok t.
Proof.
  unfold verify_one, recomputed.
  destruct (match sp_r sp with Some nrp => _ | None => _ end) as [t1|e]; cbn [rbind]; [|split; [intros [st' E]; discriminate|intros [_ E]; discriminate]].
  destruct (common_loop_iff (ep_m (pp_eq (sp_p sp))) (sm_keys st) st ltac:(auto)) as [I1 _].
  assert ((exists st', common_loop (ep_m (pp_eq (sp_p sp))) (sm_keys st) st = (st', Ok tt)) <-> loop_common st [sp]) as I2.
  { rewrite I1. unfold loop_common, response. split; intros Q a Ha; destruct (Q a Ha) as (h & Q1 & Q2); exists h.
    - split; [intros sp' [<-|[]]; exact Q1|exact Q2].
    - split; [apply Q1; now left|exact Q2]. }
  destruct (common_loop _ _ st) as [st' [[]|e]] eqn:E.
  - split.
    + intros [st'' Q]. split; [apply I2; eauto|]. congruence.
    + intros [_ Q]. exists st'. now rewrite Q.
  - split; [intros [st'' Q]; discriminate|]. intros [Q _]. apply I2 in Q as [st'' Q]. discriminate.
Qed.
Lemma verify_one_state c st sp vc st' t : verify_one C c st sp vc = (st', Ok t) ->
  (forall a, sm_get a st' = after st [sp] a) /\ (forall a, In a (sm_keys st') <-> In a (sm_keys st)).
Proof.
  unfold verify_one. destruct (match sp_r sp with Some nrp => _ | None => _ end) as [t1|e]; [|discriminate].
  destruct (common_loop _ _ st) as [st1 [[]|e]] eqn:E; [|discriminate]. intros Q. assert (st1 = st') as -> by congruence. split.
  - intros a. refine (proj2 (common_loop_iff _ _ _ _) _ E a). auto.
  - refine (common_loop_keys _ _ _ _ _ _ E). auto.
Qed.

Lemma verify_loop_iff c : forall sps vcs st tau tau', length sps = length vcs ->
  ((exists st', verify_loop C c st (combine sps vcs) tau = (st', Ok tau')) <->
   loop_common st sps /\ exists tss, Forall2 (fun '(sp, vc) ts => recomputed C c sp vc = Ok ts) (combine sps vcs) tss /\ tau' = tau ++ concat tss) /\
  (forall st', verify_loop C c st (combine sps vcs) tau = (st', Ok tau') -> forall a, sm_get a st' = after st sps a).
Proof.
  induction sps as [|sp sps IH]; intros [|vc vcs] st tau tau' L; try discriminate; cbn [combine verify_loop].
  { split; [split|].
    - intros [st' E]. assert (tau = tau') as -> by congruence. split.
      + intros a Ha. apply sm_get_keys in Ha as [[v|] Hv]; [exists v|exists 0]; (split; [intros sp []|intros w Hw; congruence]).
      + exists []. split; [constructor|]. cbn. now rewrite app_nil_r.
    - intros [_ (tss & F & ->)]. inversion F; subst. cbn. rewrite app_nil_r. eauto.
    - intros st' E a. cbn [after]. congruence. }
  destruct (verify_one C c st sp vc) as [st1 [t|e]] eqn:E1.
  2:{ split; [|discriminate]. split; [intros [st' E]; discriminate|]. intros [Q (tss & F & ->)]. exfalso.
      inversion F as [|? ts ? ? F1 F2]; subst.
      assert (loop_common st [sp]) as Q1. { intros a Ha. destruct (Q a Ha) as (m & M1 & M2). exists m. split; [|exact M2]. intros sp' [<-|[]]. apply M1. now left. }
      destruct (proj2 (verify_one_iff c st sp vc ts) (conj Q1 F1)) as [st' E']. congruence. }
  destruct (proj1 (verify_one_iff c st sp vc t) (ex_intro _ _ E1)) as [Q1 R1].
  destruct (verify_one_state _ _ _ _ _ _ E1) as [S1 S2].
  destruct (IH vcs st1 (tau ++ t) tau' ltac:(cbn in L; lia)) as [I1 I2].
  split.
  - rewrite I1. split.
    + intros [Q (tss & F & ->)]. split.
      * intros a Ha. destruct (Q1 a Ha) as (m & M1 & M2). exists m. split; [|exact M2]. intros sp' [<-|Hs]; [apply M1; now left|].
        destruct (Q a (proj2 (S2 a) Ha)) as (m' & M1' & M2'). rewrite (M1' sp' Hs). f_equal. symmetry. apply M2'. rewrite S1. cbn [after].
        apply ss_mem_in in Ha. rewrite Ha. f_equal. apply M1. now left.
      * exists (t :: tss). split; [constructor; assumption|]. cbn [concat]. now rewrite app_assoc.
    + intros [Q (tss & F & ->)]. inversion F as [|? ts ? tss' F1 F2]; subst. split.
      * intros a Ha. apply S2 in Ha. destruct (Q a Ha) as (m & M1 & M2). exists m. split; [intros; apply M1; now right|].
        intros w. rewrite S1. cbn [after]. apply ss_mem_in in Ha. rewrite Ha. intros E. rewrite (M1 sp ltac:(now left)) in E. congruence.
      * exists tss'. split; [assumption|]. cbn [concat]. rewrite R1 in F1. assert (ts = t) as -> by congruence. now rewrite app_assoc.
  - intros st' E a. rewrite (I2 st' E a). destruct sps as [|sp' sps'].
    + cbn [after]. exact (S1 a).
    + cbn [after].
      destruct (ss_mem a (sm_keys st)) eqn:Ms.
      * assert (ss_mem a (sm_keys st1) = true) as -> by (apply ss_mem_in, S2, ss_mem_in, Ms).
        destruct (proj1 I1 (ex_intro _ _ E)) as [Q _]. apply ss_mem_in in Ms. destruct (Q a (proj2 (S2 a) Ms)) as (m' & M1' & M2').
        rewrite (M1' sp' ltac:(now left)). f_equal. destruct (Q1 a Ms) as (m & M1 & _). rewrite (M1 sp ltac:(now left)). f_equal. symmetry. apply M2'.
        rewrite S1. cbn [after]. apply ss_mem_in in Ms. rewrite Ms. f_equal. apply M1. now left.
      * assert (ss_mem a (sm_keys st1) = false) as ->.
        { destruct (ss_mem a (sm_keys st1)) eqn:M; [|reflexivity]. apply ss_mem_in, S2, ss_mem_in in M. congruence. }
        rewrite S1. cbn [after]. now rewrite Ms.
Qed.

Lemma rfold_check l : (forall x, In x l -> (fun '(sp, vc) => wf_req (vc_req vc)) x) ->
  (rfold (fun _ '(sp, vc) => check_one_params C sp vc) l tt = Ok tt <-> Forall (fun '(sp, vc) => answers C sp (vc_req vc)) l).
Proof.
  induction l as [|[sp vc] l IH]; intros W; cbn [rfold].
  - split; [constructor|reflexivity].
  - destruct (check_one_params C sp vc) as [[]|e] eqn:E; cbn [rbind].
    + rewrite IH by (intros; apply W; now right). split; intros Q; [constructor; [|assumption]|now inversion Q].
      apply (check_one_iff sp vc (W _ ltac:(now left))), E.
    + split; [discriminate|]. intros Q. inversion Q as [|? ? Q1 Q2]; subst. apply (check_one_iff sp vc (W _ ltac:(now left))) in Q1. congruence.
Qed.

Lemma verify_iff v pf nonce : (forall vc, In vc (vf_creds v) -> wf_req (vc_req vc)) ->
  ((exists v', verify C H v pf nonce = (v', Ok true)) <->
   length (pf_proofs pf) = length (vf_creds v) /\
   Forall (fun '(sp, vc) => answers C sp (vc_req vc)) (combine (pf_proofs pf) (vf_creds v)) /\
   (forall a, In a (sm_keys (vf_common v)) -> common_agrees C v (pf_proofs pf) a) /\
   exists tss, Forall2 (fun '(sp, vc) ts => recomputed C (pf_c_hash pf) sp vc = Ok ts) (combine (pf_proofs pf) (vf_creds v)) tss /\
     get_hash_as_int H (concat tss ++ pf_c_list pf ++ [bn_to_bytes nonce]) = pf_c_hash pf).
Proof.
  intros W. unfold verify, check_verify_params. destruct (Nat.eqb_spec (length (pf_proofs pf)) (length (vf_creds v))) as [L|L]; cbn [negb].
  2:{ split; [intros [v' E]; discriminate|intros [Q _]; congruence]. }
  assert (forall x, In x (combine (pf_proofs pf) (vf_creds v)) -> (fun '(sp, vc) => wf_req (vc_req vc)) x) as W'.
  { intros [sp vc] Hx. apply W. eapply in_combine_r. exact Hx. }
  pose proof (rfold_check _ W') as RC.
  destruct (rfold _ (combine (pf_proofs pf) (vf_creds v)) tt) as [[]|e].
  2:{ split; [intros [v' E]; discriminate|]. intros (_ & Q & _). apply RC in Q. discriminate. }
  assert (loop_common (vf_common v) (pf_proofs pf) <-> forall a, In a (sm_keys (vf_common v)) -> common_agrees C v (pf_proofs pf) a) as LC by reflexivity.
  destruct (verify_loop C (pf_c_hash pf) (vf_common v) (combine (pf_proofs pf) (vf_creds v)) []) as [st [tau|e]] eqn:E; cbn [rbind].
  - destruct (proj1 (proj1 (verify_loop_iff (pf_c_hash pf) _ _ (vf_common v) [] tau L)) (ex_intro _ _ E)) as [Q1 (tss & F & ->)]. cbn [app].
    split.
    + intros [v' Q]. split; [exact L|]. split; [now apply RC|]. split; [exact Q1|]. exists tss. split; [exact F|]. apply Z.eqb_eq. cbn [app] in Q. congruence.
    + intros (_ & _ & _ & tss' & F' & EH). assert (tss' = tss) as ->.
      { clear - F F'. revert tss F. induction F' as [|[sp vc] t l tss' E1 F1 IH]; intros tss F; inversion F; subst; [reflexivity|].
        f_equal; [congruence|now apply IH]. }
      rewrite EH, Z.eqb_refl. eauto.
  - split; [intros [v' Q]; discriminate|]. intros (_ & _ & Q1 & tss & F & _). exfalso.
    destruct (proj2 (proj1 (verify_loop_iff (pf_c_hash pf) (pf_proofs pf) (vf_creds v) (vf_common v) [] (concat tss) L))) as [st' E'].
    { split; [exact Q1|]. exists tss. split; [exact F|reflexivity]. }
    congruence.
Qed.
(** what an accepting run leaves behind *)
Lemma verify_state v pf nonce v' : verify C H v pf nonce = (v', Ok true) ->
  vf_creds v' = vf_creds v /\ (forall a, sm_get a (vf_common v') = after (vf_common v) (pf_proofs pf) a).
Proof.
  unfold verify, check_verify_params. destruct (Nat.eqb_spec (length (pf_proofs pf)) (length (vf_creds v))) as [L|L]; cbn [negb]; [|discriminate].
  destruct (rfold _ _ tt) as [[]|e]; [|discriminate].
  destruct (verify_loop C (pf_c_hash pf) (vf_common v) (combine (pf_proofs pf) (vf_creds v)) []) as [st [tau|e]] eqn:E; cbn [rbind]; [|discriminate].
  intros Q. assert (v' = mkVerifier (vf_creds v) st) as -> by congruence. cbn [vf_creds vf_common]. split; [reflexivity|].
  exact (proj2 (verify_loop_iff _ _ _ _ _ _ L) st E).
Qed.
(** an error of [verify] is never an acceptance: its only other results are Ok false and Err *)
Lemma verify_creds v pf nonce v' r : verify C H v pf nonce = (v', r) -> vf_creds v' = vf_creds v.
Proof.
  unfold verify. destruct (check_verify_params C (vf_creds v) pf) as [[]|e]; [|intros Q; congruence].
  destruct (verify_loop C _ _ _ _) as [st r']. intros Q. assert (v' = mkVerifier (vf_creds v) st) as -> by congruence. reflexivity.
Qed.
End Verify.

(** The R1CS proof of bulletproofs_amcl: honest proofs are accepted (C95). *)
From Coq Require Import String.
From Verif Require Import Base Alg Lin TranscriptModel IppModel IppLib IppSpec IppProps R1csModel R1csSpec R1csLib R1csProofModel R1csProofLib R1csProofSpec R1csProofComplete GadgetProps.
Import List ListNotations.
Open Scope list_scope.

Section Props.
Context {K : fieldOps} (HK : field_laws K) {M : modOps K} (HM : mod_laws M) (T : tcode M).
(** ** what the second phase leaves alone *)
Record inv (s0 s : pstate K) : Prop := {
  iv_L : firstn (length (p_aL s0)) (p_aL s) = p_aL s0;
  iv_R : firstn (length (p_aL s0)) (p_aR s) = p_aR s0;
  iv_O : firstn (length (p_aL s0)) (p_aO s) = p_aO s0;
  iv_lR : length (p_aR s) = length (p_aL s);
  iv_lO : length (p_aO s) = length (p_aL s);
  iv_v : p_v s = p_v s0;
  iv_p : forall i, p_pending s = Some i -> (length (p_aL s0) <= i < length (p_aL s))%nat }.
Definition keeps {A} (s0 : pstate K) (m : csm (pstate K) A) : Prop := forall s a s', inv s0 s -> m s = Ok (a, s') -> inv s0 s'.
Lemma inv_len s0 s : inv s0 s -> (length (p_aL s0) <= length (p_aL s))%nat.
Proof. intros [H _ _ _ _ _ _]. rewrite <- H at 1. rewrite firstn_length. lia. Qed.
Lemma firstn_snoc {A} n (l : list A) x : (n <= length l)%nat -> firstn n (l ++ [x]) = firstn n l.
Proof. intros H. rewrite firstn_app. replace (n - length l)%nat with 0%nat by lia. cbn [firstn]. apply app_nil_r. Qed.
Lemma keeps_alloc_vars s0 l r o : keeps s0 (p_alloc_vars l r o).
Proof.
  intros s a s' I E. pose proof (inv_len _ _ I) as N. destruct I as [I1 I2 I3 I4 I5 I6 I7]. unfold p_alloc_vars in E. apply (f_equal (fun r => match r with Ok (_, x) => x | _ => s end)) in E. subst s'.
  split; cbn [p_aL p_aR p_aO p_v p_pending]; rewrite ?app_length, ?I4, ?I5; rewrite ?firstn_snoc by lia; auto. intros i Hi. apply I7 in Hi. lia.
Qed.
Lemma keeps_constrain s0 l : keeps s0 (p_constrain l).
Proof. intros s a s' [I1 I2 I3 I4 I5 I6 I7] E. unfold p_constrain in E. apply (f_equal (fun r => match r with Ok (_, x) => x | _ => s end)) in E. subst s'. split; cbn [p_aL p_aR p_aO p_v p_pending]; auto. Qed.
Lemma keeps_bind {A B} s0 (m : csm (pstate K) A) (k : A -> csm (pstate K) B) : keeps s0 m -> (forall a, keeps s0 (k a)) -> keeps s0 (cbind m k).
Proof. intros H1 H2 s b s' I E. unfold cbind in E. apply rbind_ok in E. destruct E as ((a & s1) & E1 & E2). eapply H2; [eapply H1; eassumption|exact E2]. Qed.
Lemma keeps_ret {A} s0 (a : A) : keeps s0 (cret a).
Proof. intros s b s' I E. unfold cret in E. apply (f_equal (fun r => match r with Ok (_, x) => x | _ => s end)) in E. now subst s'. Qed.
Lemma keeps_multiply s0 l r : keeps s0 (p_multiply l r).
Proof.
  intros s a s' I E. unfold p_multiply in E. apply rbind_ok in E. destruct E as (x & _ & E). apply rbind_ok in E. destruct E as (y & _ & E). revert s a s' I E.
  apply keeps_bind; [apply keeps_alloc_vars|]. intros ((a & b) & c). apply keeps_bind; [apply keeps_constrain|intros _]. apply keeps_bind; [apply keeps_constrain|intros _]. apply keeps_ret.
Qed.
Lemma firstn_set_at {A} (l : list A) i x l' n : set_at i x l = Ok l' -> (n <= i)%nat -> firstn n l' = firstn n l.
Proof.
  revert i l' n. induction l as [|y l IH]; intros [|i] l' n E N; cbn [set_at] in E; try discriminate.
  - injection E as <-. replace n with 0%nat by lia. reflexivity.
  - apply rbind_ok in E. destruct E as (l2 & E1 & E2). injection E2 as <-. destruct n as [|n]; [reflexivity|]. cbn [firstn]. f_equal. apply (IH i); [exact E1|lia].
Qed.
Lemma set_at_length {A} (l : list A) i x l' : set_at i x l = Ok l' -> length l' = length l.
Proof.
  revert i l'. induction l as [|y l IH]; intros [|i] l' E; cbn [set_at] in E; try discriminate.
  - now injection E as <-.
  - apply rbind_ok in E. destruct E as (l2 & E1 & E2). injection E2 as <-. cbn [length]. f_equal. now apply (IH i).
Qed.
Lemma keeps_allocate s0 x : keeps s0 (p_allocate x).
Proof.
  intros s a s' I E. pose proof (inv_len _ _ I) as N. destruct I as [I1 I2 I3 I4 I5 I6 I7]. unfold p_allocate in E. destruct x as [x|]; [|discriminate]. destruct (p_pending s) as [i|] eqn:Ep.
  - specialize (I7 i eq_refl). apply rbind_ok in E. destruct E as (aR & E1 & E). apply rbind_ok in E. destruct E as (l & _ & E). apply rbind_ok in E. destruct E as (r & _ & E). apply rbind_ok in E. destruct E as (aO & E2 & E).
    apply (f_equal (fun r => match r with Ok (_, x) => x | _ => s end)) in E. subst s'.
    split; cbn [p_aL p_aR p_aO p_v p_pending]; auto; try discriminate.
    + rewrite (firstn_set_at _ _ _ _ _ E1) by lia. exact I2.
    + rewrite (firstn_set_at _ _ _ _ _ E2) by lia. exact I3.
    + rewrite (set_at_length _ _ _ _ E1). exact I4.
    + rewrite (set_at_length _ _ _ _ E2). exact I5.
  - apply (f_equal (fun r => match r with Ok (_, x) => x | _ => s end)) in E. subst s'.
    split; cbn [p_aL p_aR p_aO p_v p_pending]; rewrite ?app_length, ?I4, ?I5; rewrite ?firstn_snoc by lia; auto. intros i Hi. injection Hi as <-. cbn [length]. lia.
Qed.
Lemma keeps_allocate_multiplier s0 x : keeps s0 (p_allocate_multiplier x).
Proof. intros s a s' I E. unfold p_allocate_multiplier in E. destruct x as [[x y]|]; [|discriminate]. exact (keeps_alloc_vars s0 _ _ _ s a s' I E). Qed.
Lemma keeps_clear s0 : length (p_aR s0) = length (p_aL s0) -> length (p_aO s0) = length (p_aL s0) -> inv s0 (p_clear s0).
Proof. intros E1 E2. split; cbn [p_clear p_aL p_aR p_aO p_v p_pending]; auto; try discriminate; [apply firstn_all|rewrite <- E1; apply firstn_all|rewrite <- E2; apply firstn_all]. Qed.
(** ** both sides of the second phase stay together *)
Section Phase2.
Context (com : K -> K -> M) (s0 : pstate K).
Definition both {A : Type} (m : csm (pstate K * transcript) A) (m' : csm (vstate K M * transcript) A) : Prop :=
  forall ps vs tr a ps' tr', sim com ps vs -> inv s0 ps -> m (ps, tr) = Ok (a, (ps', tr')) -> exists vs', m' (vs, tr) = Ok (a, (vs', tr')) /\ sim com ps' vs' /\ inv s0 ps'.
Lemma both_cs {A : Type} (m : csm (pstate K) A) (m' : csm (vstate K M) A) : simM com eq m m' -> keeps s0 m -> both (on_cs m) (on_cs m').
Proof.
  intros S Kp ps vs tr a ps' tr' Hs Hi E. unfold on_cs in *. cbn [fst snd] in *. apply rbind_ok in E. destruct E as ((a1 & s1) & E1 & E2).
  assert (a1 = a /\ s1 = ps' /\ tr = tr') as (-> & -> & ->) by (now inversion E2). destruct (S _ _ Hs _ _ E1) as (b & vs' & E3 & <- & Hs'). rewrite E3. cbn [rbind]. exists vs'. split; [reflexivity|]. split; [exact Hs'|]. eapply Kp; eassumption.
Qed.
Lemma both_draw l : both (draw T l) (draw T l).
Proof.
  intros ps vs tr a ps' tr' Hs Hi E. unfold draw, challenge_scalar in *. cbn [fst snd] in *. assert (chal T tr l = a /\ ps = ps' /\ (tr ++ [Chal l]) = tr') as (<- & <- & <-) by (now inversion E). exists vs. auto.
Qed.
Lemma both_bind {A B : Type} (m : csm (pstate K * transcript) A) m' (k : A -> csm (pstate K * transcript) B) k' : both m m' -> (forall a, both (k a) (k' a)) -> both (cbind m k) (cbind m' k').
Proof.
  intros H1 H2 ps vs tr b ps' tr' Hs Hi E. unfold cbind in *. apply rbind_ok in E. destruct E as ((a & ps1 & tr1) & E1 & E2). destruct (H1 _ _ _ _ _ _ Hs Hi E1) as (vs1 & E3 & Hs1 & Hi1). rewrite E3. cbn [rbind]. exact (H2 a _ _ _ _ _ _ Hs1 Hi1 E2).
Qed.
Lemma both_circuit (c : @rcircuit K) : both (run_rprover T c) (run_rverifier T c).
Proof.
  induction c as [|l r k IH|x k IH|x k IH|l k IH|l k IH]; cbn [run_rprover run_rverifier].
  - intros ps vs tr a ps' tr' Hs Hi E. unfold cret in *. assert (a = tt /\ ps = ps' /\ tr = tr') as (-> & <- & <-) by (now inversion E). exists vs. auto.
  - apply both_bind; [|exact IH]. apply both_cs; [apply sim_multiply|apply keeps_multiply].
  - intros ps. generalize (pw (fst (ps, @nil event))). intros a0 vs tr. cbn [fst].
    apply (both_bind (on_cs (cs_allocate P (Some (x (pw ps))))) (on_cs (cs_allocate V None)) (fun v => run_rprover T (k v)) (fun v => run_rverifier T (k v))); [|exact IH]. apply both_cs; [apply sim_allocate|apply keeps_allocate].
  - intros ps vs tr. cbn [fst].
    apply (both_bind (on_cs (cs_allocate_multiplier P (Some (x (pw ps))))) (on_cs (cs_allocate_multiplier V None)) (fun v => run_rprover T (k v)) (fun v => run_rverifier T (k v))); [|exact IH]. apply both_cs; [apply sim_allocate_multiplier|apply keeps_allocate_multiplier].
  - apply both_bind; [|intros _; exact IH]. apply both_cs; [apply sim_constrain|apply keeps_constrain].
  - apply both_bind; [apply both_draw|exact IH].
Qed.
Lemma both_fold (rcs : list (@rcircuit K)) : forall ps vs tr ps' tr', sim com ps vs -> inv s0 ps ->
  rfold (fun st (cb : pcallback K) => let! (_, st') := cb st in Ok st') (map (run_rprover T) rcs) (ps, tr) = Ok (ps', tr') ->
  exists vs', rfold (fun st (cb : vcallback M) => let! (_, st') := cb st in Ok st') (map (run_rverifier T) rcs) (vs, tr) = Ok (vs', tr') /\ sim com ps' vs' /\ inv s0 ps'.
Proof.
  induction rcs as [|c rcs IH]; intros ps vs tr ps' tr' Hs Hi E; cbn [map rfold] in *.
  - assert (ps = ps' /\ tr = tr') as (<- & <-) by (now inversion E). exists vs. auto.
  - apply rbind_ok in E. destruct E as ((ps1 & tr1) & E1 & E2). apply rbind_ok in E1. destruct E1 as (([] & ps1' & tr1') & E1 & E3). assert (ps1' = ps1 /\ tr1' = tr1) as (-> & ->) by (now inversion E3).
    destruct (both_circuit c _ _ _ _ _ _ Hs Hi E1) as (vs1 & E4 & Hs1 & Hi1). rewrite E4. cbn [rbind]. exact (IH _ _ _ _ _ Hs1 Hi1 E2).
Qed.
End Phase2.
Lemma phase2_together (com : K -> K -> M) rcs ps vs tr ps' tr' : sim com ps vs ->
  p_randomize (map (run_rprover T) rcs) ps tr = Ok (ps', tr') ->
  exists vs', v_randomize (map (run_rverifier T) rcs) vs tr = Ok (vs', tr') /\ sim com ps' vs' /\ inv ps ps'.
Proof.
  intros Hs E. pose proof (keeps_clear ps (sm_R _ _ _ Hs) (sm_O _ _ _ Hs)) as Hi. apply sim_clear in Hs. unfold p_randomize, v_randomize in *. destruct rcs as [|c rcs]; cbn [map] in *.
  - assert (p_clear ps = ps' /\ r1cs_1phase_domain_sep tr = tr') as (<- & <-) by (now inversion E). eexists. split; [reflexivity|]. auto.
  - exact (both_fold com ps (c :: rcs) _ _ _ _ _ Hs Hi E).
Qed.

(** ** C95.  Any prover and verifier holding the same system (R1csSpec.v: [sim]), any second
    phase: if the prover's assignment satisfies the constraints at the end of the second
    phase, [prove] makes a proof and [verify] accepts it, whatever the random draws. *)
Theorem C95_complete : forall lg (g h : M) (rcs : list (@rcircuit K)) (ps : pstate K) (vs : vstate K M) (G H : list M) tr d r ps' tr',
  challenges_nonzero T -> sim (commit_elem g h) ps vs ->
  p_randomize (map (run_rprover T) rcs) ps (phase2_transcript T h ps G H d tr) = Ok (ps', tr') ->
  psat ps' -> scoped ps' ->
  let N := next_pow2 (length (p_aL ps')) in
  (N <= length G)%nat -> (N <= length H)%nat -> (Nat.log2_up (length (p_aL ps')) < 32)%nat -> log_exact lg N ->
  exists p tr'', prove T g h (map (run_rprover T) rcs) ps tr G H d = Ok (p, tr'') /\
    verify T lg (map (run_rverifier T) rcs) vs tr p g h G H r = Ok tt.
Proof.
  intros lg g h rcs ps vs G H tr d r ps' tr' HT Hs Ep Sat Sc N HG HH Hk Hlg. destruct (phase2_together (commit_elem g h) _ _ vs _ _ _ Hs Ep) as (vs' & Ev & Hs' & I).
  assert (after_phase2 g h ps ps' vs') as AP by (split; [exact Hs'|exact Sat|exact Sc|apply I|apply I|apply I|apply I]).
  pose proof (complete HK HM T lg g h _ _ ps vs G H tr d HT Hs ps' vs' tr' Ep Ev AP HG HH Hk Hlg r) as C.
  destruct (prove T g h (map (run_rprover T) rcs) ps tr G H d) as [[p tr'']|e]; [|contradiction]. exists p, tr''. auto.
Qed.

Lemma p_commits_sim (com : K -> K -> M) vb : forall ps vs, sim com ps vs -> sim com (p_commits vb ps) (v_commits (map (fun t => com (fst t) (snd t)) vb) vs).
Proof.
  induction vb as [|[v b] vb IH]; intros ps vs Hs; [exact Hs|]. cbn [map fst snd]. unfold p_commits, v_commits. cbn [fold_left fst snd]. apply IH, sim_commit, Hs.
Qed.
(** the whole protocol: both sides start afresh on the same transcript; the prover commits to
    values, runs a circuit and registers second-phase callbacks; the verifier is given the
    commitments and the proof and runs the same circuit *)
Theorem C95_end_to_end : forall lg (g h : M) (vb : list (K * K)) (c : @circuit K) (rcs : list (@rcircuit K)) (G H : list M) tr0 d r ps ps' tr',
  challenges_nonzero T ->
  run_prover c (p_commits vb p_new) = Ok (tt, ps) ->
  let tr := p_transcript T g h tr0 ps in
  p_randomize (map (run_rprover T) rcs) ps (phase2_transcript T h ps G H d tr) = Ok (ps', tr') ->
  psat ps' -> scoped ps' ->
  let N := next_pow2 (length (p_aL ps')) in
  (N <= length G)%nat -> (N <= length H)%nat -> (Nat.log2_up (length (p_aL ps')) < 32)%nat -> log_exact lg N ->
  exists p tr'' vs, prove T g h (map (run_rprover T) rcs) ps tr G H d = Ok (p, tr'') /\
    run_verifier c (v_commits (map (fun t => commit_elem g h (fst t) (snd t)) vb) v_new) = Ok (tt, vs) /\
    verify T lg (map (run_rverifier T) rcs) vs (v_transcript T tr0 vs) p g h G H r = Ok tt.
Proof.
  intros lg g h vb c rcs G H tr0 d r ps ps' tr' HT Ec tr Ep Sat Sc N HG HH Hk Hlg.
  pose proof (p_commits_sim (commit_elem g h) vb p_new v_new (sim_new _)) as S0.
  destruct (C79_same_system (commit_elem g h) c _ _ _ S0 Ec) as (vs & Ev & Hs).
  assert (v_transcript T tr0 vs = tr) as Et by (unfold v_transcript, tr, p_transcript; now rewrite (sm_V _ _ _ Hs)).
  destruct (C95_complete lg g h rcs ps vs G H tr d r ps' tr' HT Hs Ep Sat Sc HG HH Hk Hlg) as (p & tr'' & E1 & E2). exists p, tr'', vs. rewrite Et. auto.
Qed.
(** without a second phase: every prover whose assignment satisfies its system (this is the
    state every honest prove_* of the gadgets ends in, C80-C87) *)
Theorem C95_one_phase : forall lg (g h : M) (ps : pstate K) (vs : vstate K M) (G H : list M) tr d r,
  challenges_nonzero T -> pgood ps -> sim (commit_elem g h) ps vs ->
  let N := next_pow2 (length (p_aL ps)) in
  (N <= length G)%nat -> (N <= length H)%nat -> (Nat.log2_up (length (p_aL ps)) < 32)%nat -> log_exact lg N ->
  exists p tr', prove T g h [] ps tr G H d = Ok (p, tr') /\ verify T lg [] vs tr p g h G H r = Ok tt.
Proof.
  intros lg g h ps vs G H tr d r HT Hg Hs N HG HH Hk Hlg.
  apply (C95_complete lg g h [] ps vs G H tr d r (p_clear ps) _ HT Hs eq_refl); auto.
  - apply (pg_sat (p_clear ps)), clear_good, Hg.
  - intros l v c Hl Hv. pose proof (pg_valid _ Hg l Hl v c Hv) as V. destruct v; cbn [valid p_clear p_aL p_v] in *; tauto.
Qed.
End Props.

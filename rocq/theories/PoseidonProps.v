(** Knowledge of a Poseidon preimage: with the cube and the fifth-power S-box the circuit is the
    hash; with the inverse S-box it does not depend on the preimage. *)
From Verif Require Import Base Alg R1csModel R1csSpec R1csLib GadgetModel GadgetApiModel GadgetLib GadgetSim GadgetApiLib PoseidonLib.
Open Scope list_scope.
Open Scope Z_scope.
Open Scope cs_scope.

Section Props.
Context {K : fieldOps} (HK : field_laws K) (ZK : zops K).
Add Field Kf : (proj1 HK).
Context {Pt : Type} (com : K -> K -> Pt).
Notation PS := (pstate K).
Notation VS := (vstate K Pt).
(** the assignment gives openings of the verifier's commitments *)
Definition opens (w : @assignment K) (bl : nat -> K) (s : VS) : Prop := forall i c, nth_error (v_V s) i = Some c -> com (w (Committed i)) (bl i) = c.
(** the assignment opens the commitment of [v] with [r] made by the verifier, its [i]th, to another value *)
Definition reopens (w : @assignment K) (bl : nat -> K) (i : nat) (v r : K) : Prop := w (Committed i) <> v /\ com (w (Committed i)) (bl i) = com v r.

Lemma map_w_slots (w : @assignment K) base n : map w (slots base n) = map (fun i => w (Committed (base + i))) (seq 0 n).
Proof. unfold slots. rewrite map_map. revert base. induction n as [|n IH]; intros base; [reflexivity|]. cbn [seq map]. rewrite Nat.add_0_r. f_equal. rewrite IH, <- seq_shift, map_map. apply map_ext. intros i. do 2 f_equal. lia. Qed.
Lemma app_split (n : nat) {A} (l : list A) : (n <= length l)%nat -> length (firstn n l) = n.
Proof. intros H. rewrite firstn_length. lia. Qed.

Lemma F2_has_var (s s2 : PS) vs xs : (forall u y, hasv s u y -> hasv s2 u y) -> Forall2 (hasv s) vs xs -> Forall2 (has s2) (map lc_var vs) xs.
Proof. intros H F. induction F; cbn [map]; constructor; [apply (has_var HK), H; assumption|assumption]. Qed.

(** accepted commitments: the committed values hash to the image, or the assignment
    opens the verifier's own commitment to the capacity constant to another value *)
Theorem C85_poseidon_sound arity cap (image : K) p t comms (s s' : VS) w bl : t <> Inverse ->
  verify_poseidon_preimage ZK com arity cap image p t comms s = Ok (tt, s') -> vsat w s' -> opens w bl s' ->
  vsat w s /\ v_V s' = v_V s ++ firstn arity comms ++ [com (zof ZK cap) f0] /\
  (poseidon_hash ZK arity cap (map (fun i => w (Committed (length (v_V s) + i))) (seq 0 arity)) p t = Ok image \/ reopens w bl (length (v_V s) + arity) (zof ZK cap) f0).
Proof.
  intros N E HS HO. unfold verify_poseidon_preimage in E. unfold cbind at 1 in E. destruct (le_lt_dec arity (length comms)) as [L|L]; [|rewrite pop_commits_short in E by exact L; discriminate].
  rewrite pop_commits_eq in E by exact L. cbn [rbind] in E. unfold cbind at 1 in E.
  change (vc (com (zof ZK cap) f0) (vcs (firstn arity comms) s)) with (Ok (Committed (length (v_V (vcs (firstn arity comms) s))), vcs [com (zof ZK cap) f0] (vcs (firstn arity comms) s)) : res (var * VS)) in E. cbn [rbind] in E.
  assert (soundM w (poseidon_hash_gadget (@V K Pt) arity (slots (length (v_V s)) arity) (Committed (length (v_V (vcs (firstn arity comms) s)))) p t image)
    (fun _ => exists outs, poseidon_permutation (w (Committed (length (v_V (vcs (firstn arity comms) s)))) :: map w (slots (length (v_V s)) arity)) p t = Ok outs /\ idx outs 1 = Ok image)) as SD.
  { unfold poseidon_hash_gadget. eapply sound_bind; [apply (sound_hash HK w arity _ _ p t N)|]. intros h. eapply sound_weaken; [apply (sound_clws HK)|]. intros [] Eh (_ & outs & E1 & E2). exists outs. rewrite <- Eh, <- E2. split; [|reflexivity].
    rewrite <- E1, (lv_var HK), map_map. do 2 f_equal. apply map_ext. intros v. now rewrite (lv_var HK). }
  destruct (SD _ _ _ E) as [V1 Q]. destruct (Q HS) as (S0 & outs & E1 & E2). split; [exact S0|].
  assert (v_V s' = v_V s ++ firstn arity comms ++ [com (zof ZK cap) f0]) as EV by (rewrite V1; cbn [vcs v_V]; now rewrite <- app_assoc). split; [exact EV|].
  rewrite vcs_len, (app_split arity) in E1 by exact L.
  destruct (feq_dec _ HK (w (Committed (length (v_V s) + arity))) (zof ZK cap)) as [Ec|Nc].
  - left. unfold poseidon_hash. rewrite map_length, seq_length, Nat.eqb_refl. cbn [negb]. rewrite <- map_w_slots, <- Ec, E1. exact E2.
  - right. split; [exact Nc|]. apply HO. rewrite EV, app_assoc, nth_error_app2 by (rewrite app_length, (app_split arity) by exact L; lia).
    rewrite app_length, (app_split arity) by exact L. now rewrite Nat.sub_diag.
Qed.
(** an honest prover who knows a preimage *)
Theorem C85_poseidon_complete arity cap (preimage bls : list K) (image : K) p t rng (ps : PS) (vs : VS) : t <> Inverse ->
  poseidon_hash ZK arity cap preimage p t = Ok image -> length bls = arity -> pgood ps -> sim com ps vs ->
  exists ps' vs', prove_poseidon_preimage ZK com arity cap preimage (Some bls) image p t rng ps = Ok (map (fun vb => com (fst vb) (snd vb)) (combine preimage bls), ps') /\
    verify_poseidon_preimage ZK com arity cap image p t (map (fun vb => com (fst vb) (snd vb)) (combine preimage bls)) vs = Ok (tt, vs') /\
    pgood ps' /\ sim com ps' vs' /\ p_v ps' = p_v ps ++ preimage ++ [zof ZK cap].
Proof.
  intros N Hh Lb G HS. unfold poseidon_hash in Hh. destruct (Nat.eqb (length preimage) arity) eqn:EL; [|discriminate]. cbn [negb] in Hh. apply Nat.eqb_eq in EL. destruct (poseidon_permutation _ p t) as [outs|] eqn:Ep; [|discriminate]. cbn [rbind] in Hh.
  set (vbs := combine preimage bls). change (map (fun vb => com (fst vb) (snd vb)) vbs) with (map (commitment com) vbs).
  assert (length vbs = arity) as Lv by (unfold vbs; rewrite combine_length; lia).
  assert (map fst vbs = preimage) as Mf. { unfold vbs. clear - EL Lb. revert bls arity EL Lb. induction preimage as [|x l IH]; intros bls arity EL Lb; [reflexivity|]. destruct bls as [|b bls]; cbn in *; [lia|]. f_equal. apply (IH bls (arity - 1)%nat); lia. }
  pose proof (sim_pcs com [(zof ZK cap, f0)] _ _ (sim_pcs com vbs ps vs HS)) as S1. cbn [map] in S1.
  destruct (good_pcs vbs ps G) as (G1 & F1 & Fv). rewrite Lv, Mf in Fv. destruct (good_pc (zof ZK cap) f0 _ G1) as (G2 & Hc & F2). rewrite pcs_len, Lv in Hc.
  set (ps2 := pcs [(zof ZK cap, f0)] (pcs vbs ps)) in *.
  assert (Forall2 (has ps2) (map lc_var (slots (length (p_v ps)) arity)) preimage) as Fh.
  { exact (F2_has_var _ _ _ _ F2 Fv). }
  destruct (run_both com (poseidon_hash_gadget P arity (slots (length (p_v ps)) arity) (Committed (length (p_v ps) + arity)) p t image) (poseidon_hash_gadget V arity (slots (length (p_v ps)) arity) (Committed (length (p_v ps) + arity)) p t image)
     (fun _ s' => p_pending s' = p_pending ps2) _ _ S1) as ([] & ps' & vs' & E1 & E2 & G3 & S3 & X & _).
  { apply sim_hash_gadget. }
  { unfold poseidon_hash_gadget. eapply compl_bind; [apply (compl_hash HK ps2 arity _ _ preimage (zof ZK cap) outs image p t N G2 (has_var HK _ _ _ Hc) Fh EL Ep Hh)|]. intros h s1 Gs1 X1 (H1 & P1). eapply compl_weaken; [apply (compl_clws HK _ _ _ Gs1 H1)|]. intros [] s2 _ _ P2. congruence. }
  exists ps', vs'. split; [|split; [|split; [exact G3|split; [exact S3|]]]].
  - unfold prove_poseidon_preimage. unfold cbind at 1. unfold lift at 1, blindings_or. cbn [rbind]. unfold cbind at 1. unfold lift, check_lengths. rewrite EL, Lb, Nat.eqb_refl. cbn [negb orb rbind].
    fold vbs. unfold cbind at 1. rewrite commit_all_eq. cbn [rbind]. unfold cbind at 1. rewrite pc_eq. cbn [rbind]. rewrite pcs_len, Lv. fold ps2. unfold cbind at 1. rewrite E1. reflexivity.
  - unfold verify_poseidon_preimage. unfold cbind at 1. rewrite pop_commits_eq by (rewrite map_length; lia). cbn [rbind]. rewrite firstn_all2 by (rewrite map_length; lia). unfold cbind at 1.
    change (vc (com (zof ZK cap) f0) (vcs (map (commitment com) vbs) vs)) with (Ok (Committed (length (v_V (vcs (map (commitment com) vbs) vs))), vcs [com (zof ZK cap) f0] (vcs (map (commitment com) vbs) vs)) : res (var * VS)). cbn [rbind].
    rewrite vcs_len, map_length, Lv, (sim_length com _ _ HS). exact E2.
  - rewrite (pe_v _ _ X). unfold ps2. cbn [pcs p_v map fst]. rewrite Mf. now rewrite <- app_assoc.
Qed.

(** ** the inverse S-box *)
(** what a prover can do with a part of the verifier's circuit, no multiplier pending *)
Definition doable {A} (m : csm VS A) (Q : A -> PS -> Prop) : Prop :=
  forall ps vs, pgood ps -> p_pending ps = None -> sim com ps vs ->
  exists a ps' vs', m vs = Ok (a, vs') /\ pgood ps' /\ p_pending ps' = None /\ sim com ps' vs' /\ pext ps ps' /\ Q a ps'.
Lemma do_ret {A} (a : A) (Q : A -> PS -> Prop) : (forall s, Q a s) -> doable (cret a) Q.
Proof. intros H ps vs G N S. exists a, ps, vs. split; [reflexivity|]. auto using pext_refl. Qed.
(** the box: any non-zero value can be its output *)
Definition cheat_box (x : K) : csm PS var :=
  do! (vl, _) := cs_allocate_single P (Some (finv x)) in
  do! (vr, vo) := cs_allocate_single P (Some x) in
  run! is_nonzero_gadget P vl vr then
  match vo with None => cfail (Err Panic) | Some o => run! constrain_lc_with_scalar P (lc_var o) f1 then cret vr end.
Lemma sim_cheat x l k : simM com eq (cheat_box x) (synthesize_inverse V l k).
Proof.
  intros ps vs S a ps' E. unfold synthesize_inverse. change (cs_evaluate_lc V (lc_add l (lc_const k))) with (@cret VS _ (None : option K)). unfold cbind at 1. unfold cret at 1. cbn [rbind option_map].
  revert ps vs S a ps' E. unfold cheat_box. eapply sim_bind; [apply sim_allocate_single|]. intros [v1 o1] ? <-. eapply sim_bind; [apply sim_allocate_single|]. intros [v2 o2] ? <-.
  eapply sim_bind; [apply sim_nonzero|]. intros ? ? _. destruct o2; [|apply sim_fail]. eapply sim_bind; [apply sim_clws|]. intros ? ? _. now apply sim_ret.
Qed.
Lemma compl_cheat s x : x <> f0 -> pgood s -> p_pending s = None -> compl s (cheat_box x) (fun o s' => hasv s' o x /\ p_pending s' = None).
Proof.
  intros Nx G N. unfold cheat_box. cbn [cs_allocate_single P]. unfold p_allocate_single.
  eapply compl_bind. { eapply compl_bind; [apply (compl_allocate_left HK _ (finv x) G N)|]. intros v s1 G1 X1 (i & -> & P1 & H1). cbn [single_of]. apply (compl_ret s1 (MulL i, None) (fun r s' => exists i, r = (MulL i, None) /\ p_pending s' = Some i /\ hasv s' (MulL i) (finv x)) G1). eauto. }
  intros [v1 o1] s1 G1 X1 (i & E1 & P1 & H1). injection E1 as -> ->.
  eapply compl_bind. { eapply compl_bind; [apply (compl_allocate_right _ _ x _ G1 P1 H1)|]. intros v s2 G2 X2 (-> & P2 & H2 & H3). cbn [single_of]. apply (compl_ret s2 (MulR _, Some (MulO _)) (fun r s' => exists i, r = (MulR i, Some (MulO i)) /\ hasv s' (MulR i) x /\ hasv s' (MulO i) (fmul (finv x) x) /\ p_pending s' = None) G2). eauto 10. }
  intros [v2 o2] s2 G2 X2 (j & E2 & H2 & H3 & P2). injection E2 as -> ->. apply (hasv_ext _ _ _ _ X2) in H1.
  assert (fmul (finv x) x = f1) as Ef by (field; exact Nx).
  eapply compl_bind; [apply (compl_nonzero HK _ _ _ _ _ G2 H1 H2 Ef)|]. intros [] s3 G3 X3 P3. apply (hasv_ext _ _ _ _ X3) in H2, H3.
  eapply compl_bind; [apply (compl_clws HK _ _ _ G3)|]. { rewrite <- Ef. apply (has_var HK), H3. } intros [] s4 G4 X4 P4. apply (hasv_ext _ _ _ _ X4) in H2. apply compl_ret; [exact G4|]. split; [exact H2|congruence].
Qed.
Lemma do_box x l k : x <> f0 -> doable (synthesize_inverse V l k) (fun o s' => hasv s' o x).
Proof.
  intros Nx ps vs G N S. destruct (compl_cheat ps x Nx G N) as (o & ps' & E & G' & X & H & P'). destruct (sim_cheat x l k ps vs S o ps' E) as (o' & vs' & E' & <- & S'). exists o, ps', vs'. auto 10.
Qed.
(** the parameters have the sizes the rounds read *)
Definition wf_params (p : poseidon_params (K := K)) : Prop :=
  (po_width p * (po_fb p + po_pr p + po_fe p) <= length (po_keys p))%nat /\ length (po_mds p) = po_width p /\ Forall (fun row => length row = po_width p) (po_mds p).
Lemma idx_lt {A} (l : list A) i : (i < length l)%nat -> exists x, idx l i = Ok x.
Proof. intros H. unfold idx. destruct (nth_error l i) eqn:E; [eauto|]. apply nth_error_None in E. lia. Qed.
Lemma mds_ok p j i : wf_params p -> (j < po_width p)%nat -> (i < po_width p)%nat -> exists c, mds_at (po_mds p) j i = Ok c.
Proof.
  intros (_ & L & F) Hj Hi. unfold mds_at. destruct (idx_lt (po_mds p) j ltac:(lia)) as [row Er]. rewrite Er. cbn [rbind]. apply idx_lt. unfold idx in Er. destruct (nth_error (po_mds p) j) eqn:E; [|discriminate]. injection Er as ->.
  apply nth_error_In in E. rewrite Forall_forall in F. now rewrite (F _ E).
Qed.
Lemma rmap_total {A B} (f : A -> res B) l : (forall x, In x l -> exists y, f x = Ok y) -> exists ys, rmap f l = Ok ys.
Proof. induction l as [|a l IH]; intros H; [eexists; reflexivity|]. cbn [rmap]. destruct (H a) as [y ->]; [now left|]. destruct IH as [ys ->]; [intros; apply H; now right|]. eexists; reflexivity. Qed.
Lemma rfold_total {A S} (f : S -> A -> res S) l : (forall s x, In x l -> exists s', f s x = Ok s') -> forall s, exists s', rfold f l s = Ok s'.
Proof. induction l as [|a l IH]; intros H s; [eexists; reflexivity|]. cbn [rfold]. destruct (H s a) as [s1 ->]; [now left|]. cbn [rbind]. apply IH. intros; apply H; now right. Qed.
Lemma lin_lc_total p (outs : list (lc K)) : wf_params p -> length outs = po_width p -> exists next, lin_layer_lc (po_mds p) outs = Ok next /\ length next = po_width p.
Proof.
  intros W L. unfold lin_layer_lc. rewrite L. destruct (rmap_total (fun i => rfold (fun acc j => let! x := idx outs j in let! c := mds_at (po_mds p) j i in Ok (lc_add acc (lc_scale c x))) (seq 0 (po_width p)) []) (seq 0 (po_width p))) as [ys E].
  - intros i Hi. apply in_seq in Hi. apply rfold_total. intros acc j Hj. apply in_seq in Hj. destruct (idx_lt outs j ltac:(lia)) as [x ->]. destruct (mds_ok p j i W ltac:(lia) ltac:(lia)) as [c ->]. eexists; reflexivity.
  - exists ys. split; [exact E|]. apply rmap_length in E. now rewrite seq_length in E.
Qed.
Lemma do_full p (xs : list K) ins off : wf_params p -> Forall (fun x => x <> f0) xs -> length xs = po_width p -> length ins = po_width p -> (off + po_width p <= length (po_keys p))%nat ->
  doable (full_round_c V p Inverse (ins, off)) (fun st' s' => length (fst st') = po_width p /\ snd st' = (off + po_width p)%nat /\ forall ys, lin_layer (po_mds p) (po_width p) xs = Ok ys -> Forall2 (has s') (fst st') ys).
Proof.
  intros W Nz L Li Lk. unfold full_round_c.
  assert (forall zs k outs ws, (k + length zs = po_width p)%nat -> Forall (fun x => x <> f0) zs -> doable (cfold (fun i outs => cbind (lift (idx ins i)) (fun x => cbind (lift (idx (po_keys p) (off + i))) (fun k0 => cbind (synthesize_sbox V Inverse x k0) (fun o => cret (outs ++ [lc_var o]))))) (seq k (length zs)) outs)
     (fun outs' s' => length outs' = (length outs + length zs)%nat /\ forall s, pext s s' -> Forall2 (has s) outs ws -> Forall2 (has s') outs' (ws ++ zs))) as D.
  { induction zs as [|z zs IH]; intros k outs ws Hk Hz; cbn [length seq cfold].
    - apply do_ret. intros s. split; [lia|]. intros s0 X F. rewrite app_nil_r. eapply Forall2_has_ext; eauto.
    - inversion Hz as [|? ? Hz1 Hz2]; subst. cbn [length] in Hk. destruct (idx_lt ins k ltac:(lia)) as [l El]. destruct (idx_lt (po_keys p) (off + k) ltac:(lia)) as [key Ek].
      intros ps vs G N S. destruct (do_box z l key Hz1 ps vs G N S) as (o & ps1 & vs1 & E1 & G1 & N1 & S1 & X1 & H1).
      destruct (IH (Datatypes.S k) (outs ++ [lc_var o]) (ws ++ [z]) ltac:(lia) Hz2 ps1 vs1 G1 N1 S1) as (outs' & ps2 & vs2 & E2 & G2 & N2 & S2 & X2 & L2 & F2).
      exists outs', ps2, vs2. split; [|split; [exact G2|split; [exact N2|split; [exact S2|split; [eapply pext_trans; eauto|split]]]]].
      + unfold cbind at 1. rewrite El. unfold lift at 1. cbn [rbind]. unfold cbind at 1. cbn [rbind]. unfold cbind at 1. rewrite Ek. unfold lift at 1. cbn [rbind]. unfold cbind at 1. change (synthesize_sbox V Inverse l key vs) with (synthesize_inverse V l key vs). rewrite E1. cbn [rbind]. unfold cret at 1. cbn [rbind]. exact E2.
      + rewrite L2, app_length. cbn [length]. lia.
      + intros s X F. change (z :: zs) with ([z] ++ zs). rewrite app_assoc. apply (F2 ps2 (pext_refl ps2)). apply Forall2_app; [eapply Forall2_has_ext; eauto|]. constructor; [|constructor]. apply (has_var HK), (hasv_ext _ _ _ _ X2), H1. }
  intros ps vs G N S. destruct (D xs 0%nat [] [] ltac:(lia) Nz ps vs G N S) as (outs & ps1 & vs1 & E1 & G1 & N1 & S1 & X1 & L1 & F1). cbn [length app Nat.add] in *. rewrite L in E1, L1.
  specialize (F1 ps X1 (Forall2_nil _)). destruct (lin_lc_total p outs W L1) as (next & En & Ln).
  exists (next, (off + po_width p)%nat), ps1, vs1. split; [unfold cbind at 1; rewrite E1; cbn [rbind]; unfold cbind at 1; rewrite En; reflexivity|]. do 4 (split; [assumption|]). cbn [fst snd]. split; [exact Ln|]. split; [reflexivity|].
  intros ys Ey. rewrite <- L in Ey at 1. destruct (lin_layer_has HK ps1 _ _ _ _ F1 Ey) as (next' & En' & Fn). congruence.
Qed.
Lemma do_partial p ins off : wf_params p -> length ins = po_width p -> (off + po_width p <= length (po_keys p))%nat ->
  doable (partial_round_c V p Inverse (ins, off)) (fun st' s' => length (fst st') = po_width p /\ snd st' = (off + po_width p)%nat).
Proof.
  intros W Li Lk. unfold partial_round_c.
  assert (forall n k outs, (k + n = po_width p)%nat -> doable (cfold (fun i outs => cbind (lift (idx ins i)) (fun x => cbind (lift (idx (po_keys p) (off + i))) (fun k0 => if Nat.eqb i (po_width p - 1) then cbind (synthesize_sbox V Inverse x k0) (fun o => cret (outs ++ [lc_var o])) else cret (outs ++ [lc_add x (lc_const k0)])))) (seq k n) outs)
     (fun outs' s' => length outs' = (length outs + n)%nat)) as D.
  { induction n as [|n IH]; intros k outs Hk; cbn [seq cfold].
    - apply do_ret. intros s. lia.
    - destruct (idx_lt ins k ltac:(lia)) as [l El]. destruct (idx_lt (po_keys p) (off + k) ltac:(lia)) as [key Ek]. intros ps vs G N S.
      unfold cbind at 1. rewrite El. unfold lift at 1. unfold cbind at 1. cbn [rbind]. unfold cbind at 1. rewrite Ek. unfold lift at 1. cbn [rbind].
      destruct (Nat.eqb k (po_width p - 1)).
      + destruct (do_box f1 l key (f1_neq_0 _ HK) ps vs G N S) as (o & ps1 & vs1 & E1 & G1 & N1 & S1 & X1 & H1). destruct (IH (Datatypes.S k) (outs ++ [lc_var o]) ltac:(lia) ps1 vs1 G1 N1 S1) as (outs' & ps2 & vs2 & E2 & G2 & N2 & S2 & X2 & L2).
        exists outs', ps2, vs2. split; [unfold cbind at 1; change (synthesize_sbox V Inverse l key vs) with (synthesize_inverse V l key vs); rewrite E1; cbn [rbind]; unfold cret at 1; cbn [rbind]; exact E2|]. repeat (split; [assumption|]). split; [eapply pext_trans; eauto|]. rewrite L2, app_length. cbn [length]. lia.
      + destruct (IH (Datatypes.S k) (outs ++ [lc_add l (lc_const key)]) ltac:(lia) ps vs G N S) as (outs' & ps2 & vs2 & E2 & G2 & N2 & S2 & X2 & L2). exists outs', ps2, vs2. split; [unfold cret at 1; cbn [rbind]; exact E2|]. repeat (split; [assumption|]). rewrite L2, app_length. cbn [length]. lia. }
  intros ps vs G N S. destruct (D (po_width p) 0%nat [] ltac:(lia) ps vs G N S) as (outs & ps1 & vs1 & E1 & G1 & N1 & S1 & X1 & L1). cbn [length Nat.add] in L1.
  destruct (lin_lc_total p outs W L1) as (next & En & Ln). exists (map lc_simplify next, (off + po_width p)%nat), ps1, vs1. split; [unfold cbind at 1; rewrite E1; cbn [rbind]; unfold cbind at 1; rewrite En; reflexivity|]. repeat (split; [assumption|]). cbn [fst snd]. now rewrite map_length.
Qed.
Lemma do_rounds {X} (f : X -> csm VS X) (step : nat -> X -> PS -> Prop) n0 :
  (forall k x s, (k < n0)%nat -> step k x s -> forall ps vs, s = ps -> pgood ps -> p_pending ps = None -> sim com ps vs -> exists a ps' vs', f x vs = Ok (a, vs') /\ pgood ps' /\ p_pending ps' = None /\ sim com ps' vs' /\ pext ps ps' /\ step (S k) a ps') ->
  forall n k x ps vs, (k + n = n0)%nat -> step k x ps -> pgood ps -> p_pending ps = None -> sim com ps vs -> exists a ps' vs', rounds_c f n x vs = Ok (a, vs') /\ pgood ps' /\ p_pending ps' = None /\ sim com ps' vs' /\ pext ps ps' /\ step n0 a ps'.
Proof.
  intros H. induction n as [|n IH]; intros k x ps vs Hk Q G N HS; unfold rounds_c in *; cbn [repeat cfold].
  - exists x, ps, vs. replace n0 with k by lia. split; [reflexivity|]. auto using pext_refl.
  - destruct (H k x ps ltac:(lia) Q ps vs eq_refl G N HS) as (a & ps1 & vs1 & E1 & G1 & N1 & S1 & X1 & Q1). destruct (IH (S k) a ps1 vs1 ltac:(lia) Q1 G1 N1 S1) as (b & ps2 & vs2 & E2 & G2 & N2 & S2 & X2 & Q2).
    exists b, ps2, vs2. split; [unfold cbind at 1; rewrite E1; exact E2|]. repeat (split; [assumption|]). split; [eapply pext_trans; eauto|exact Q2].
Qed.
Lemma do_permutation p (xs ys : list K) ins ps vs : wf_params p -> Forall (fun x => x <> f0) xs -> length xs = po_width p -> lin_layer (po_mds p) (po_width p) xs = Ok ys -> length ins = po_width p -> (0 < po_fe p)%nat ->
  pgood ps -> p_pending ps = None -> sim com ps vs ->
  exists outs ps' vs', poseidon_permutation_constraints V ins p Inverse vs = Ok (outs, vs') /\ pgood ps' /\ p_pending ps' = None /\ sim com ps' vs' /\ pext ps ps' /\ Forall2 (has ps') outs ys.
Proof.
  intros W Nz L Ey Li Hfe G N HS. pose proof W as (Wk & _). set (w := po_width p) in *.
  destruct (do_rounds (full_round_c V p Inverse) (fun k st _ => length (fst st) = w /\ snd st = (k * w)%nat) (po_fb p)) with (n := po_fb p) (k := 0%nat) (x := (ins, 0%nat)) (ps := ps) (vs := vs) as (st1 & ps1 & vs1 & E1 & G1 & N1 & S1 & X1 & L1 & O1); try assumption; try lia; auto.
  { intros k [i o] s Hk (Lk & Ok) ps0 vs0 _ G0 N0 S0. cbn [fst snd] in *. destruct (do_full p xs i o W Nz L Lk ltac:(fold w; nia) ps0 vs0 G0 N0 S0) as (st & a & b & Ea & Ga & Na & Sa & Xa & La & Oa & _). exists st, a, b. do 5 (split; [assumption|]). split; [exact La|]. rewrite Oa, Ok. fold w. lia. }
  destruct st1 as [i1 o1]. cbn [fst snd] in *. subst o1.
  destruct (do_rounds (partial_round_c V p Inverse) (fun k st _ => length (fst st) = w /\ snd st = ((po_fb p + k) * w)%nat) (po_pr p)) with (n := po_pr p) (k := 0%nat) (x := (i1, (po_fb p * w)%nat)) (ps := ps1) (vs := vs1) as (st2 & ps2 & vs2 & E2 & G2 & N2 & S2 & X2 & L2 & O2); try assumption; try lia; [| |].
  { intros k [i o] s Hk (Lk & Ok) ps0 vs0 _ G0 N0 S0. cbn [fst snd] in *. destruct (do_partial p i o W Lk ltac:(fold w; nia) ps0 vs0 G0 N0 S0) as (st & a & b & Ea & Ga & Na & Sa & Xa & La & Oa). exists st, a, b. do 5 (split; [assumption|]). split; [exact La|]. rewrite Oa, Ok. fold w. lia. }
  { cbn [fst snd]. split; [exact L1|lia]. }
  destruct st2 as [i2 o2]. cbn [fst snd] in *. subst o2.
  destruct (do_rounds (full_round_c V p Inverse) (fun k st s => length (fst st) = w /\ snd st = ((po_fb p + po_pr p + k) * w)%nat /\ (k = 0%nat \/ Forall2 (has s) (fst st) ys)) (po_fe p)) with (n := po_fe p) (k := 0%nat) (x := (i2, ((po_fb p + po_pr p) * w)%nat)) (ps := ps2) (vs := vs2) as (st3 & ps3 & vs3 & E3 & G3 & N3 & S3 & X3 & L3 & O3 & F3); try assumption; try lia; [| |].
  { intros k [i o] s Hk (Lk & Ok & _) ps0 vs0 _ G0 N0 S0. cbn [fst snd] in *. destruct (do_full p xs i o W Nz L Lk ltac:(fold w; nia) ps0 vs0 G0 N0 S0) as (st & a & b & Ea & Ga & Na & Sa & Xa & La & Oa & Fa). exists st, a, b. do 5 (split; [assumption|]). split; [exact La|]. split; [rewrite Oa, Ok; fold w; lia|]. right. apply Fa, Ey. }
  { cbn [fst snd]. split; [exact L2|]. split; [lia|now left]. }
  destruct F3 as [F3|F3]; [lia|]. exists (fst st3), ps3, vs3. split.
  - unfold poseidon_permutation_constraints. fold w. rewrite Li, Nat.eqb_refl. cbn [negb]. unfold cbind at 1. rewrite E1. cbn [rbind]. unfold cbind at 1. rewrite E2. cbn [rbind]. unfold cbind at 1. rewrite E3. reflexivity.
  - repeat (split; [assumption|]). split; [eapply pext_trans; [exact X1|eapply pext_trans; eauto]|exact F3].
Qed.
(** whatever values are committed to, the verifier of a preimage under the inverse S-box accepts
    them for every image that is the linear layer's second output on some non-zero [xs] *)
Theorem C86_refuted_inverse_any_image arity cap p (xs ys : list K) (image : K) (preimage : list (K * K)) (ps : PS) (vs : VS) :
  wf_params p -> po_width p = S arity -> (0 < po_fe p)%nat -> length preimage = arity ->
  length xs = po_width p -> Forall (fun x => x <> f0) xs -> lin_layer (po_mds p) (po_width p) xs = Ok ys -> nth_error ys 1 = Some image ->
  pgood ps -> p_pending ps = None -> sim com ps vs ->
  exists ps' vs', verify_poseidon_preimage ZK com arity cap image p Inverse (map (fun vb => com (fst vb) (snd vb)) preimage) vs = Ok (tt, vs') /\
    pgood ps' /\ sim com ps' vs' /\ vsat (pw ps') vs' /\ p_v ps' = p_v ps ++ map fst preimage ++ [zof ZK cap].
Proof.
  intros W Hw Hfe Lp Lx Nz Ey Ei G N HS. pose proof (sim_pcs com [(zof ZK cap, f0)] _ _ (sim_pcs com preimage ps vs HS)) as S1. cbn [map] in S1.
  destruct (good_pcs preimage ps G) as (G1 & _). destruct (good_pc (zof ZK cap) f0 _ G1) as (G2 & _).
  destruct (do_permutation p xs ys (lc_var (Committed (length (p_v ps) + arity)) :: map lc_var (slots (length (p_v ps)) arity)) _ _ W Nz Lx Ey ltac:(cbn [length]; rewrite map_length; unfold slots; rewrite map_length, seq_length; lia) Hfe G2 N S1) as (outs & ps1 & vs1 & E1 & G3 & N3 & S3 & X3 & F3).
  destruct (Forall2_nth _ _ _ _ _ F3 Ei) as (o & Eo & Ho).
  destruct (run_both com (constrain_lc_with_scalar P o image) (constrain_lc_with_scalar V o image) _ _ _ S3 (sim_clws com o image) (compl_clws HK _ _ _ G3 Ho)) as ([] & ps' & vs' & _ & E2 & G4 & S4 & X4 & _).
  exists ps', vs'. split; [|split; [exact G4|split; [exact S4|split]]].
  - unfold verify_poseidon_preimage. change (map (fun vb => com (fst vb) (snd vb)) preimage) with (map (commitment com) preimage). unfold cbind at 1. rewrite pop_commits_eq by (rewrite map_length; lia). cbn [rbind]. rewrite firstn_all2 by (rewrite map_length; lia). unfold cbind at 1.
    change (vc (com (zof ZK cap) f0) (vcs (map (commitment com) preimage) vs)) with (Ok (Committed (length (v_V (vcs (map (commitment com) preimage) vs))), vcs [com (zof ZK cap) f0] (vcs (map (commitment com) preimage) vs)) : res (var * VS)). cbn [rbind].
    rewrite vcs_len, map_length, Lp, (sim_length com _ _ HS). unfold poseidon_hash_gadget, poseidon_hash_constraints. rewrite map_length. unfold slots at 1. rewrite map_length, seq_length, Nat.eqb_refl. cbn [negb].
    unfold cbind at 1. unfold cbind at 1. change [commitment com (zof ZK cap, f0)] with [com (zof ZK cap) f0] in E1. rewrite E1. cbn [rbind]. unfold lift, idx. rewrite Eo. cbn [rbind]. exact E2.
  - destruct S4 as [C1 C2 _ _ _ _ _]. unfold vsat. rewrite C1, C2. exact (pg_sat _ G4).
  - rewrite (pe_v _ _ X4), (pe_v _ _ X3). cbn [pcs p_v map fst]. now rewrite <- app_assoc.
Qed.
(** and with a multiplier half assigned when the gadget starts, it panics *)
Theorem C86_inverse_pending_panics arity cap p (image : K) comms (s : VS) : v_pending s <> None -> (0 < po_fb p)%nat -> verify_poseidon_preimage ZK com arity cap image p Inverse comms s = Err Panic.
Proof.
  intros N H. unfold verify_poseidon_preimage. unfold cbind at 1. destruct (le_lt_dec arity (length comms)) as [L|L]; [|now rewrite pop_commits_short by exact L]. rewrite pop_commits_eq by exact L. cbn [rbind]. unfold cbind at 1.
  change (vc (com (zof ZK cap) f0) (vcs (firstn arity comms) s)) with (Ok (Committed (length (v_V (vcs (firstn arity comms) s))), vcs [com (zof ZK cap) f0] (vcs (firstn arity comms) s)) : res (var * VS)). cbn [rbind].
  set (s1 := vcs [com (zof ZK cap) f0] (vcs (firstn arity comms) s)). assert (v_pending s1 <> None) as N1 by exact N. clearbody s1.
  unfold poseidon_hash_gadget, poseidon_hash_constraints. rewrite map_length. unfold slots at 1. rewrite map_length, seq_length, Nat.eqb_refl. cbn [negb].
  unfold cbind at 1. unfold cbind at 1. unfold poseidon_permutation_constraints. set (ins := _ :: map lc_var _). destruct (Nat.eqb (length ins) (po_width p)) eqn:EL; [|reflexivity]. cbn [negb]. apply Nat.eqb_eq in EL.
  unfold cbind at 1. destruct (po_fb p) as [|n]; [lia|]. unfold rounds_c. cbn [repeat cfold]. unfold cbind at 1. unfold full_round_c at 1. unfold cbind at 1.
  destruct (po_width p) as [|k] eqn:EW; [unfold ins in EL; discriminate|]. cbn [seq cfold]. unfold cbind at 1. unfold ins at 1. cbn [idx nth_error]. unfold lift at 1. unfold cbind at 1. cbn [rbind]. unfold cbind at 1. unfold lift at 1. destruct (idx (po_keys p) (0 + 0)) as [key|e] eqn:Ek.
  2:{ unfold idx in Ek. destruct (nth_error (po_keys p) (0 + 0)); [discriminate|]. injection Ek as <-. reflexivity. }
  cbn [rbind]. unfold cbind at 1. cbn [synthesize_sbox]. unfold synthesize_inverse. unfold cbind at 1. change (cs_evaluate_lc V (lc_add (lc_var (Committed (length (v_V (vcs (firstn arity comms) s))))) (lc_const key)) s1) with (Ok (None, s1) : res (option K * VS)). cbn [rbind option_map].
  unfold cbind at 1. cbn [cs_allocate_single V]. unfold v_allocate_single. unfold cbind at 1. unfold v_allocate at 1. destruct (v_pending s1) as [i|]; [|congruence]. cbn [rbind single_of]. unfold cret at 1. cbn [rbind].
  unfold cbind at 1. unfold cbind at 1. unfold v_allocate at 1. cbn [v_pending rbind single_of]. unfold cret at 1. cbn [rbind].
  unfold cbind at 1. match goal with |- context [is_nonzero_gadget V ?a ?b ?s] => destruct (is_nonzero_gadget V a b s) as [[? ?]|] eqn:EZ end; [reflexivity|]. unfold is_nonzero_gadget in EZ. cbn in EZ. discriminate.
Qed.
End Props.

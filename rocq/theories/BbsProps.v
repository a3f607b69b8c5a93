(** Properties C54-C60: BBS+ signatures, blind issuance and selective disclosure
    (libzmix/bbs).  The vocabulary ([good_key], [message_point], [bbs_equation],
    [nondegenerate_r], ...) is at the top of BbsLib.v. *)
From Verif Require Import Base BnModel NumTheory Alg Lin Fp ClRevModel ClRevSpec CurveInst BbsModel BbsLib.
Import List ListNotations.
Open Scope list_scope.
Open Scope Z_scope.

(** ** C54: signatures *)
Lemma smul_nonzero {K : fieldOps} {M : modOps K} (HK : field_laws K) (HM : mod_laws M) (x : K) (a : M) : x <> f0 -> a <> m0 -> smul x a <> m0.
Proof.
  intros Nx Na E. apply Na. rewrite <- (smul_1 _ _ HM a), <- (finv_mul_l _ HK x Nx), (smul_mul _ _ HM), E. apply (smul_0_r _ _ HM).
Qed.
Lemma finv_nonzero {K : fieldOps} (HK : field_laws K) (x : K) : x <> f0 -> finv x <> f0.
Proof.
  intros N E. apply (f1_neq_0 _ HK). rewrite <- (finv_mul_l _ HK x N), E. destruct HK as [[[] _ _ _] _].
  assert (forall a : K, fmul f0 a = f0) as Q.
  { intros a. assert (fadd (fmul f0 a) (fmul f0 a) = fmul f0 a) as W by (now rewrite <- Rdistr_l, Radd_0_l).
    transitivity (fadd (fadd (fmul f0 a) (fmul f0 a)) (fopp (fmul f0 a))); [rewrite <- Radd_assoc, Ropp_def, Radd_comm; now rewrite Radd_0_l|rewrite W; apply Ropp_def]. }
  apply Q.
Qed.
Lemma sig_new_eq (C : curve) g1 ms x (pk : bbs_pk C) e s : curve_laws C -> good_key pk -> x <> f0 -> (length ms <= message_count C pk)%nat -> fadd x e <> f0 ->
  sig_new C g1 ms x pk e s = Ok (mkBbsSig C (smul (finv (fadd x e)) (message_point g1 pk s (ms ++ repeat f0 (message_count C pk - length ms)))) e s).
Proof.
  intros LW G Nx L Nxe. unfold sig_new. rewrite (proj2 (Nat.ltb_ge _ _) L). unfold sk_validate. rewrite (proj2 (kzero_false C LW x) Nx). cbn [rbind].
  rewrite (proj2 (pk_validate_iff C LW pk) G). cbn [rbind]. unfold exp_inverse. rewrite (proj2 (kzero_false C LW _) Nxe). cbn [rbind].
  now rewrite (compute_b_eq C LW) by exact L.
Qed.
Lemma honest_equation (C : curve) g1 g2 (pk : bbs_pk C) x e s ms : curve_laws C -> bw _ pk = smul x g2 -> fadd x e <> f0 ->
  bbs_equation g1 g2 pk (mkBbsSig C (smul (finv (fadd x e)) (message_point g1 pk s ms)) e s) ms.
Proof.
  intros LW Ew Nxe. unfold bbs_equation. cbn [sa se ss]. rewrite Ew, <- (smul_add_l _ _ (cl_g2 C LW)), (p_smul_r C LW), (p_smul_l C LW).
  rewrite <- (smul_mul _ _ (cl_gt C LW)). destruct (cl_field C LW) as [FT EQ] eqn:E. rewrite (F_R FT).(Rmul_comm), (Finv_l FT) by exact Nxe. apply (smul_1 _ _ (cl_gt C LW)).
Qed.
Theorem C54_sign_then_verify : forall (C : curve) g1 g2 (pk : bbs_pk C) x ms e s, curve_laws C -> good_key pk -> bw _ pk = smul x g2 ->
  length ms = message_count C pk -> x <> f0 -> e <> f0 -> s <> f0 -> fadd x e <> f0 -> message_point g1 pk s ms <> m0 ->
  exists sig, sig_new C g1 ms x pk e s = Ok sig /\ sig_verify C g1 g2 sig ms pk = Ok true.
Proof.
  intros C g1 g2 pk x ms e s LW G Ew L Nx Ne Ns Nxe Nb. rewrite (sig_new_eq C g1 ms x pk e s LW G Nx) by (try assumption; lia).
  rewrite L, Nat.sub_diag, app_nil_r. eexists. split; [reflexivity|]. apply (sig_verify_true C LW). split; [exact L|]. split; [exact G|]. split.
  - cbn [sa se ss]. split; [|split; assumption]. apply (smul_nonzero (cl_field C LW) (cl_g1 C LW)); [|exact Nb]. apply (finv_nonzero (cl_field C LW)), Nxe.
  - now apply honest_equation.
Qed.
Print Assumptions C54_sign_then_verify.
(** every outcome of sign *)
Theorem C54_sign_outcomes : forall (C : curve) g1 (pk : bbs_pk C) x ms e s, curve_laws C ->
  ((message_count C pk < length ms)%nat -> sig_new C g1 ms x pk e s = Err (ZmixErr (ZCountMismatch (message_count C pk) (length ms)))) /\
  ((length ms <= message_count C pk)%nat ->
    (x = f0 -> sig_new C g1 ms x pk e s = Err (ZmixErr ZMalformedSecretKey)) /\
    (x <> f0 -> ~ good_key pk -> sig_new C g1 ms x pk e s = Err (ZmixErr ZMalformedPublicKey)) /\
    (x <> f0 -> good_key pk -> (sig_new C g1 ms x pk e s = Err Panic <-> fadd x e = f0) /\ (fadd x e <> f0 -> exists sig, sig_new C g1 ms x pk e s = Ok sig /\ se _ sig = e /\ ss _ sig = s))).
Proof.
  intros C g1 pk x ms e s LW. split.
  - intros L. unfold sig_new. now rewrite (proj2 (Nat.ltb_lt _ _) L).
  - intros L. split; [|split].
    + intros ->. unfold sig_new. rewrite (proj2 (Nat.ltb_ge _ _) L). unfold sk_validate. now rewrite (proj2 (kzero_iff C LW f0) eq_refl).
    + intros Nx NG. unfold sig_new. rewrite (proj2 (Nat.ltb_ge _ _) L). unfold sk_validate. rewrite (proj2 (kzero_false C LW x) Nx). cbn [rbind].
      destruct (pk_validate_cases C LW pk) as [[G _]|[_ ->]]; [contradiction|reflexivity].
    + intros Nx G. split.
      * destruct (feq_dec _ (cl_field C LW) (fadd x e) f0) as [E|N]; [|rewrite (sig_new_eq C g1 ms x pk e s LW G Nx L N); split; [discriminate|contradiction]].
        split; [auto|]. intros _. unfold sig_new. rewrite (proj2 (Nat.ltb_ge _ _) L). unfold sk_validate. rewrite (proj2 (kzero_false C LW x) Nx). cbn [rbind].
        rewrite (proj2 (pk_validate_iff C LW pk) G). cbn [rbind]. unfold exp_inverse. now rewrite (proj2 (kzero_iff C LW _) E).
      * intros N. rewrite (sig_new_eq C g1 ms x pk e s LW G Nx L N). eexists. split; [reflexivity|]. now split.
Qed.
Print Assumptions C54_sign_outcomes.
(** signing accepts fewer messages than the key has generators, verifying does not: the
    signature verifies only for the list padded with zeros *)
Theorem C54_short_message_list : forall (C : curve) g1 g2 (pk : bbs_pk C) x ms e s, curve_laws C -> good_key pk -> bw _ pk = smul x g2 ->
  let padded := ms ++ repeat f0 (message_count C pk - length ms) in
  (length ms < message_count C pk)%nat -> x <> f0 -> e <> f0 -> s <> f0 -> fadd x e <> f0 -> message_point g1 pk s padded <> m0 ->
  exists sig, sig_new C g1 ms x pk e s = Ok sig /\ sig_verify C g1 g2 sig ms pk = Err (ZmixErr (ZCountMismatch (message_count C pk) (length ms))) /\ sig_verify C g1 g2 sig padded pk = Ok true.
Proof.
  intros C g1 g2 pk x ms e s LW G Ew padded L Nx Ne Ns Nxe Nb. rewrite (sig_new_eq C g1 ms x pk e s LW G Nx) by (try assumption; lia). eexists. split; [reflexivity|]. split.
  - unfold sig_verify. rewrite (proj2 (Nat.eqb_neq (length ms) (message_count C pk))) by lia. reflexivity.
  - apply (sig_verify_true C LW). split; [unfold padded; rewrite app_length, repeat_length; lia|]. split; [exact G|]. split.
    + cbn [sa se ss]. split; [|split; assumption]. apply (smul_nonzero (cl_field C LW) (cl_g1 C LW)); [|exact Nb]. apply (finv_nonzero (cl_field C LW)), Nxe.
    + now apply honest_equation.
Qed.
Print Assumptions C54_short_message_list.
(** what verify decides *)
Theorem C54_verify_decision : forall (C : curve) g1 g2 (pk : bbs_pk C) sig ms, curve_laws C ->
  (sig_verify C g1 g2 sig ms pk = Ok true <->
   length ms = length (bh _ pk) /\ good_key pk /\ (sa _ sig <> m0 /\ se _ sig <> f0 /\ ss _ sig <> f0) /\ bbs_equation g1 g2 pk sig ms).
Proof. intros C g1 g2 pk sig ms LW. apply (sig_verify_true C LW). Qed.
Print Assumptions C54_verify_decision.
(** an accepted signature has the form the signer would give it: (x + e) a = b *)
Theorem C54_accepted_form : forall (C : curve) g1 g2 (pk : bbs_pk C) x sig ms, curve_laws C -> nondegenerate_r g2 -> bw _ pk = smul x g2 ->
  sig_verify C g1 g2 sig ms pk = Ok true -> smul (fadd x (se _ sig)) (sa _ sig) = message_point g1 pk (ss _ sig) ms.
Proof. intros C g1 g2 pk x sig ms LW N Ew E. apply (sig_verify_true C LW) in E. apply (bbs_equation_scalar C LW g1 g2 pk sig ms x N Ew), E. Qed.
Print Assumptions C54_accepted_form.
Lemma message_point_inj (C : curve) g1 (pk : bbs_pk C) s ms ms' : curve_laws C -> message_point g1 pk s ms = message_point g1 pk s ms' -> lin (bh _ pk) ms = lin (bh _ pk) ms'.
Proof. intros LW E. unfold message_point in E. now apply (madd_cancel _ _ (cl_g1 C LW)) in E. Qed.
(** one signature on two message lists: a linear relation between the generators *)
Theorem C54_message_binding : forall (C : curve) g1 g2 (pk : bbs_pk C) sig ms ms', curve_laws C -> nondegenerate_r g2 ->
  sig_verify C g1 g2 sig ms pk = Ok true -> sig_verify C g1 g2 sig ms' pk = Ok true -> lin (bh _ pk) (scaled_diff f1 ms ms') = m0.
Proof.
  intros C g1 g2 pk sig ms ms' LW N E E'. apply (sig_verify_true C LW) in E, E'. destruct E as (L & _ & _ & Q), E' as (L' & _ & _ & Q').
  unfold bbs_equation in Q, Q'. rewrite Q in Q'. apply (p_inj_l C LW) in Q'; [|exact N]. apply (message_point_inj C g1 pk _ _ _ LW) in Q'.
  rewrite (lin_scaled_diff (cl_field C LW) (cl_g1 C LW)) by (unfold message_count in *; congruence). rewrite Q'. unfold msub. rewrite (madd_opp _ _ (cl_g1 C LW)). apply (smul_0_r _ _ (cl_g1 C LW)).
Qed.
Print Assumptions C54_message_binding.

(** ** C55: blind issuance *)
Lemma filter_le {A} (f : A -> bool) l : (length (filter f l) <= length l)%nat.
Proof. induction l as [|x l IH]; [apply le_n|]. cbn [filter]. destruct (f x); cbn [length]; lia. Qed.
(** the messages with the indices selected by [sel] *)
Definition selected {K : Type} (sel : nat -> bool) (ms : list K) : list (nat * K) := filter (fun im => sel (fst im)) (combine (seq 0 (length ms)) ms).
Section Select.
Variable C : curve.
Hypothesis LW : curve_laws C.
Notation K := (cK C). Notation G1 := (cG1 C).
Add Field Kf55 : (proj1 (cl_field C LW)).
Lemma rmap_gens (pk : bbs_pk C) (sel : nat -> bool) (f : nat * K -> res G1) : (forall i m, (i < length (bh _ pk))%nat -> f (i, m) = gen_at C pk i) ->
  forall (ms : list K), length ms = length (bh _ pk) -> rmap f (selected sel ms) = Ok (gens_where C sel pk).
Proof.
  intros Hf. unfold selected, gens_where, message_count.
  enough (forall (ms : list K) (hs pre : list G1), bh C pk = pre ++ hs -> length ms = length hs ->
    rmap f (filter (fun im => sel (fst im)) (combine (seq (length pre) (length ms)) ms)) = Ok (map snd (filter (fun ih => sel (fst ih)) (combine (seq (length pre) (length hs)) hs)))) as Q.
  { intros ms L. now apply (Q ms (bh C pk) []). }
  induction ms as [|m ms IH]; intros [|h hs] pre E L; try discriminate; [reflexivity|]. cbn [length seq combine filter fst].
  assert (bh C pk = (pre ++ [h]) ++ hs) as E' by (now rewrite <- app_assoc).
  specialize (IH hs (pre ++ [h]) E' ltac:(cbn in L; congruence)). rewrite app_length, Nat.add_1_r in IH. destruct (sel (length pre)).
  - cbn [rmap map snd]. rewrite Hf by (rewrite E, app_length; cbn; lia). unfold gen_at. rewrite E, nth_error_app2, Nat.sub_diag by lia. cbn [nth_error rbind]. now rewrite IH.
  - exact IH.
Qed.
Lemma selected_length (sel : nat -> bool) (ms : list K) : forall (pk : bbs_pk C), length ms = length (bh _ pk) -> length (selected sel ms) = length (gens_where C sel pk).
Proof.
  intros pk. unfold selected, gens_where, message_count. rewrite map_length. generalize (bh C pk) as hs. generalize 0%nat as i. 
  induction ms as [|m ms IH]; intros i [|h hs] L; try discriminate; [reflexivity|]. cbn [length seq combine filter fst]. specialize (IH (S i) hs ltac:(cbn in L; congruence)).
  destruct (sel i); cbn [length]; congruence.
Qed.
Lemma lin_selected (sel : nat -> bool) (ms : list K) (pk : bbs_pk C) : length ms = length (bh _ pk) ->
  madd (lin (gens_where C sel pk) (map snd (selected sel ms))) (lin (gens_where C (fun i => negb (sel i)) pk) (map snd (selected (fun i => negb (sel i)) ms))) = lin (bh _ pk) ms.
Proof.
  unfold selected, gens_where, message_count. generalize (bh C pk) as hs. generalize 0%nat as i. pose proof (cl_field C LW) as HK. pose proof (cl_g1 C LW) as HM.
  induction ms as [|m ms IH]; intros i [|h hs] L; try discriminate; [cbn [length seq combine filter map]; rewrite !lin_nil_l; apply (madd_0_l _ _ HM)|]. cbn [length seq combine filter fst].
  rewrite lin_cons, <- (IH (S i) hs) by (cbn in L; congruence). destruct (sel i); cbn [negb map snd]; rewrite lin_cons; module_coefs HK HM; ring.
Qed.
Lemma gens_where_ext (f g : nat -> bool) (pk : bbs_pk C) : (forall i, (i < length (bh _ pk))%nat -> f i = g i) -> gens_where C f pk = gens_where C g pk.
Proof.
  intros E. unfold gens_where, message_count. f_equal. apply filter_ext_in. intros [i h] I. apply in_combine_l, in_seq in I. cbn [fst]. apply E. lia.
Qed.
Lemma contains_selected (sel : nat -> bool) (ms : list K) i : (i < length ms)%nat -> contains (map fst (selected sel ms)) i = sel i.
Proof.
  intros L. unfold contains. destruct (sel i) eqn:E.
  - apply existsb_exists. exists i. split; [|apply Nat.eqb_refl]. apply in_map_iff.
    destruct (nth_error ms i) as [m|] eqn:Em; [|apply nth_error_None in Em; lia]. exists (i, m). split; [reflexivity|]. apply filter_In. split; [|exact E].
    clear E L. assert (forall k, nth_error ms i = Some m -> In ((k + i)%nat, m) (combine (seq k (length ms)) ms)) as Q.
    { clear Em. revert i. induction ms as [|m' ms IH]; intros i k Em; [destruct i; discriminate|]. cbn [length seq combine]. destruct i as [|i].
      - cbn in Em. rewrite Nat.add_0_r. left. congruence.
      - right. rewrite Nat.add_succ_r, <- Nat.add_succ_l. now apply IH. }
    exact (Q 0%nat Em).
  - destruct (existsb _ _) eqn:Q; [|reflexivity]. exfalso. apply existsb_exists in Q. destruct Q as (j & I & Ej). apply Nat.eqb_eq in Ej. subst j.
    apply in_map_iff in I. destruct I as ((j & m) & Ej & I). cbn in Ej. subst j. apply filter_In in I. destruct I as (_ & I). cbn in I. congruence.
Qed.
End Select.

(** the whole issuance: the holder hides any set of messages, the issuer signs, the holder
    unblinds; the result is exactly the signature the issuer would have made knowing all
    messages, and it verifies *)
Theorem C55_blind_issuance : forall (C : curve) g1 g2 hash_fr encF (pk : bbs_pk C) x (ms : list (cK C)) (hide : nat -> bool) nonce blinding rs e s, curve_laws C -> good_key pk -> bw _ pk = smul x g2 ->
  length ms = length (bh _ pk) -> x <> f0 -> e <> f0 -> fadd s blinding <> f0 -> fadd x e <> f0 -> message_point g1 pk (fadd s blinding) ms <> m0 ->
  let hidden := selected hide ms in let known := selected (fun i => negb (hide i)) ms in
  exists ctx bsig sig,
    blind_context C hash_fr encF pk hidden nonce blinding rs = Ok (ctx, blinding) /\
    blind_sign C g1 hash_fr encF ctx known x pk nonce e s = Ok bsig /\
    complete_signature C g1 g2 pk ms bsig blinding = Ok sig /\
    sig_new C g1 ms x pk e (fadd s blinding) = Ok sig /\ sig_verify C g1 g2 sig ms pk = Ok true.
Proof.
  intros C g1 g2 hash_fr encF pk x ms hide nonce blinding rs e s LW G Ew L Nx Ne Ns Nxe Nb hidden known.
  set (hg := gens_where C hide pk). set (kg := gens_where C (fun i => negb (hide i)) pk).
  assert (length hidden = length hg) as Lh by (now apply (selected_length C)). assert (length known = length kg) as Lk by (now apply (selected_length C)).
  set (bases := bh0 C pk :: hg). set (secrets := blinding :: map snd hidden). set (bl := map rs (seq 0 (length bases))).
  assert (length bl = length bases) as Lbl by (unfold bl; now rewrite map_length, seq_length).
  assert (length secrets = length bases) as Ls by (unfold secrets, bases; cbn; now rewrite map_length, Lh).
  set (com := lin bases secrets).
  set (cv := hash_fr ((concat (map enc1 bases) ++ enc1 (lin bases bl)) ++ enc1 com ++ encF nonce)).
  set (ctx := mkBlindCtx C com cv (mkVcProof C (lin bases bl) (sub_scaled cv bl secrets))).
  assert (blind_context C hash_fr encF pk hidden nonce blinding rs = Ok (ctx, blinding)) as Ectx.
  { unfold blind_context. unfold hidden at 1.
    rewrite (rmap_gens C pk hide) by (try exact L; intros i m Li; cbn [fst]; now rewrite (proj2 (Nat.ltb_ge _ _)) by lia). cbn [rbind]. fold hg bases secrets bl.
    rewrite (msm_lin C LW), (vc_finish_combine C LW) by congruence. fold com. unfold vc_gen_challenge, vc_to_bytes. cbn [vc_bases vc_commitment]. fold cv.
    rewrite vc_gen_proof_eq by exact Ls. reflexivity. }
  assert (gens_where C (fun i => negb (contains (map fst known) i)) pk = hg) as Eg.
  { apply gens_where_ext. intros i Li. unfold known. rewrite (contains_selected C) by congruence. apply negb_involutive. }
  assert (blind_ctx_verify C hash_fr encF ctx (map fst known) pk nonce = Ok true) as Ev.
  { unfold blind_ctx_verify. rewrite Eg. fold bases. unfold vc_contribution, ctx. cbn [bc_proof bc_commitment bc_challenge vp_responses vp_commitment].
    rewrite length_sub_scaled by congruence. rewrite Lbl, Nat.eqb_refl. cbn [negb rbind]. rewrite (msm_lin C LW), (lin_app (cl_g1 C LW)) by (rewrite length_sub_scaled; congruence).
    rewrite lin_cons, lin_nil_l, (madd_0_r _ _ (cl_g1 C LW)). rewrite (schnorr_complete (cl_field C LW) (cl_g1 C LW) bases bl secrets cv com) by (try assumption; reflexivity).
    f_equal. rewrite app_assoc. fold cv. apply andb_true_iff. split.
    - apply (meqb_eq _ _ (cl_g1 C LW)). apply (madd_opp _ _ (cl_g1 C LW)).
    - apply (kzero_iff C LW). destruct (cl_field C LW) as [[[] _ _ _] _]. rewrite Rsub_def. apply Ropp_def. }
  assert (blind_sig_new C g1 com known x pk e s = Ok (mkBbsSig C (smul (finv (fadd x e)) (message_point g1 pk (fadd s blinding) ms)) e s)) as Eb.
  { unfold blind_sig_new. rewrite (proj2 (Nat.ltb_ge _ _)).
    2: { rewrite Lk. unfold kg, gens_where, message_count. rewrite map_length. etransitivity; [apply filter_le|]. rewrite combine_length. lia. }
    unfold sk_validate. rewrite (proj2 (kzero_false C LW x) Nx). cbn [rbind]. rewrite (proj2 (pk_validate_iff C LW pk) G). cbn [rbind].
    unfold known at 1. rewrite (rmap_gens C pk (fun i => negb (hide i))) by (try exact L; reflexivity). cbn [rbind]. fold kg. unfold exp_inverse. rewrite (proj2 (kzero_false C LW _) Nxe). cbn [rbind].
    do 2 f_equal. f_equal. rewrite (msm_lin C LW), !lin_cons. unfold com, bases, secrets, message_point. rewrite lin_cons, !(smul_1 _ _ (cl_g1 C LW)), (smul_add_l _ _ (cl_g1 C LW)).
    rewrite <- (lin_selected C LW hide ms pk L). fold hidden known hg kg. pose proof (cl_g1 C LW) as HM.
    generalize (lin hg (map snd hidden)) (lin kg (map snd known)) (smul blinding (bh0 C pk)) (smul s (bh0 C pk)). intros p q r t.
    rewrite !(madd_assoc _ _ HM). rewrite (madd_comm _ _ HM (madd r p) g1). rewrite !(madd_assoc _ _ HM). f_equal.
    rewrite <- !(madd_assoc _ _ HM). f_equal. rewrite (madd_comm _ _ HM p t), !(madd_assoc _ _ HM). f_equal. apply (madd_comm _ _ HM). }
  set (sig := mkBbsSig C (smul (finv (fadd x e)) (message_point g1 pk (fadd s blinding) ms)) e (fadd s blinding)).
  assert (sig_verify C g1 g2 sig ms pk = Ok true) as Vs.
  { apply (sig_verify_true C LW). split; [exact L|]. split; [exact G|]. split; [|now apply honest_equation].
    split; [|split; assumption]. cbn [sa sig]. apply (smul_nonzero (cl_field C LW) (cl_g1 C LW)); [|exact Nb]. apply (finv_nonzero (cl_field C LW)), Nxe. }
  exists ctx, (mkBbsSig C (sa C sig) e s), sig. split; [exact Ectx|]. split; [|split; [|split; [|exact Vs]]].
  - unfold blind_sign. rewrite Ev. cbn [rbind]. unfold ctx at 1. cbn [bc_commitment]. exact Eb.
  - unfold complete_signature. change (to_unblinded C (mkBbsSig C (sa C sig) e s) blinding) with sig. rewrite Vs. reflexivity.
  - rewrite (sig_new_eq C g1 ms x pk e _ LW G Nx) by (try assumption; unfold message_count; lia). unfold message_count. rewrite L, Nat.sub_diag, app_nil_r. reflexivity.
Qed.
Print Assumptions C55_blind_issuance.
(** what the issuer checks before signing blindly *)
Theorem C55_context_decision : forall (C : curve) hash_fr encF ctx known (pk : bbs_pk C) nonce, curve_laws C ->
  let bases := bh0 _ pk :: gens_where C (fun i => negb (contains known i)) pk in
  (blind_ctx_verify C hash_fr encF ctx known pk nonce = Ok true <->
   length (vp_responses _ (bc_proof _ ctx)) = length bases /\
   madd (lin bases (vp_responses _ (bc_proof _ ctx))) (smul (bc_challenge _ ctx) (bc_commitment _ ctx)) = vp_commitment _ (bc_proof _ ctx) /\
   bc_challenge _ ctx = hash_fr (concat (map enc1 bases) ++ enc1 (vp_commitment _ (bc_proof _ ctx)) ++ enc1 (bc_commitment _ ctx) ++ encF nonce)) /\
  (length (vp_responses _ (bc_proof _ ctx)) <> length bases ->
   blind_ctx_verify C hash_fr encF ctx known pk nonce = Err (ZmixErr (ZUnequalNoOfBasesExponents (length bases) (length (vp_responses _ (bc_proof _ ctx)))))).
Proof.
  intros C hash_fr encF ctx known pk nonce LW bases. unfold blind_ctx_verify. fold bases. unfold vc_contribution.
  destruct (length bases =? length (vp_responses C (bc_proof C ctx)))%nat eqn:E; cbn [negb rbind].
  - apply Nat.eqb_eq in E. split; [|congruence]. rewrite (msm_lin C LW), (lin_app (cl_g1 C LW)) by exact E. rewrite lin_cons, lin_nil_l, (madd_0_r _ _ (cl_g1 C LW)).
    set (pr := madd _ _). split.
    + intros Q. assert (meqb (msub pr (vp_commitment C (bc_proof C ctx))) m0 && kzero C (fsub (hash_fr (concat (map enc1 bases) ++ enc1 pr ++ enc1 (bc_commitment C ctx) ++ encF nonce)) (bc_challenge C ctx)) = true) as Q' by congruence.
      apply andb_true_iff in Q'. destruct Q' as (Q1 & Q2). apply (meqb_eq _ _ (cl_g1 C LW)) in Q1. apply (proj1 (msub_0 _ _ (cl_g1 C LW) _ _)) in Q1.
      apply (kzero_iff C LW), (fsub_eq0 _ (cl_field C LW)) in Q2. split; [congruence|]. split; [exact Q1|]. now rewrite <- Q1.
    + intros (_ & Q1 & Q2). f_equal. apply andb_true_iff. split.
      * apply (meqb_eq _ _ (cl_g1 C LW)), (msub_0 _ _ (cl_g1 C LW)), Q1.
      * apply (kzero_iff C LW). rewrite Q1, <- Q2. destruct (cl_field C LW) as [[[] _ _ _] _]. rewrite Rsub_def. apply Ropp_def.
  - apply Nat.eqb_neq in E. split; [|reflexivity]. split; [discriminate|]. intros (Q & _). congruence.
Qed.
Print Assumptions C55_context_decision.
(** special soundness: two accepted contexts for the same commitments and different
    challenges give an opening of the commitment over h0 and exactly the generators of the
    messages unknown to the issuer *)
Theorem C55_context_extract : forall (C : curve) hash_fr encF hash_fr' encF' ctx ctx' known (pk : bbs_pk C) nonce nonce', curve_laws C ->
  blind_ctx_verify C hash_fr encF ctx known pk nonce = Ok true -> blind_ctx_verify C hash_fr' encF' ctx' known pk nonce' = Ok true ->
  bc_commitment _ ctx = bc_commitment _ ctx' -> vp_commitment _ (bc_proof _ ctx) = vp_commitment _ (bc_proof _ ctx') -> bc_challenge _ ctx <> bc_challenge _ ctx' ->
  exists r ms, length ms = length (gens_where C (fun i => negb (contains known i)) pk) /\
    bc_commitment _ ctx = madd (smul r (bh0 _ pk)) (lin (gens_where C (fun i => negb (contains known i)) pk) ms).
Proof.
  intros C hash_fr encF hash_fr' encF' ctx ctx' known pk nonce nonce' LW V V' Ec Et Nc.
  apply (C55_context_decision C _ _ _ _ _ _ LW) in V, V'. destruct V as (L & Q & _), V' as (L' & Q' & _). rewrite <- Ec, <- Et in Q'.
  pose proof (schnorr_extract (cl_field C LW) (cl_g1 C LW) _ _ _ _ _ _ _ L L' Nc Q Q') as X.
  set (hs := gens_where C _ pk) in *. set (w := scaled_diff _ _ _) in X.
  assert (length w = length (bh0 C pk :: hs)) as Lw by (unfold w; rewrite length_scaled_diff; congruence).
  destruct w as [|r ms]; [discriminate|]. exists r, ms. split; [cbn in Lw; congruence|]. now rewrite <- X, lin_cons.
Qed.
Print Assumptions C55_context_extract.
(** the holder's index check is off by one: index = number of generators panics, larger ones
    are an error *)
Theorem C55_hidden_index : forall (C : curve) hash_fr encF (pk : bbs_pk C) pre i m post nonce r rs,
  (forall j v, In (j, v) pre -> (j < length (bh _ pk))%nat) ->
  ((length (bh _ pk) < i)%nat -> blind_context C hash_fr encF pk (pre ++ (i, m) :: post) nonce r rs = Err (ZmixErr (ZCountMismatch i (length (bh _ pk))))) /\
  (i = length (bh _ pk) -> blind_context C hash_fr encF pk (pre ++ (i, m) :: post) nonce r rs = Err Panic).
Proof.
  intros C hash_fr encF pk pre i m post nonce r rs Hp. unfold blind_context.
  set (f := fun im : nat * cK C => if (length (bh C pk) <? fst im)%nat then Err (ZmixErr (ZCountMismatch (fst im) (length (bh C pk)))) else gen_at C pk (fst im)).
  assert (forall e, f (i, m) = Err e -> rmap f (pre ++ (i, m) :: post) = Err e) as Q.
  { intros e E. induction pre as [|[j v] pre IH]; cbn [app rmap]; [now rewrite E|].
    unfold f at 1. cbn [fst]. specialize (Hp j v ltac:(now left)) as Lj. rewrite (proj2 (Nat.ltb_ge _ _)) by lia. unfold gen_at.
    destruct (nth_error (bh C pk) j) eqn:Ej; [|apply nth_error_None in Ej; lia]. cbn [rbind]. rewrite IH; [reflexivity|]. intros j' v' I. apply (Hp j' v'). now right. }
  split.
  - intros L. rewrite (Q (ZmixErr (ZCountMismatch i (length (bh C pk))))); [reflexivity|]. unfold f. cbn [fst]. now rewrite (proj2 (Nat.ltb_lt _ _) L).
  - intros ->. rewrite (Q Panic); [reflexivity|]. unfold f, gen_at. cbn [fst]. rewrite Nat.ltb_irrefl. now rewrite (proj2 (nth_error_None _ _) (le_n _)).
Qed.
Print Assumptions C55_hidden_index.
(** the issuer panics on a known message whose index is out of range *)
Theorem C55_known_index_out_of_range : forall (C : curve) g1 com (pk : bbs_pk C) x e s known i m, curve_laws C -> good_key pk -> x <> f0 ->
  (length known <= length (bh _ pk))%nat -> In (i, m) known -> (length (bh _ pk) <= i)%nat -> blind_sig_new C g1 com known x pk e s = Err Panic.
Proof.
  intros C g1 com pk x e s known i m LW G Nx L I Li. unfold blind_sig_new. rewrite (proj2 (Nat.ltb_ge _ _)) by exact L. unfold sk_validate. rewrite (proj2 (kzero_false C LW x) Nx). cbn [rbind].
  rewrite (proj2 (pk_validate_iff C LW pk) G). cbn [rbind].
  assert (rmap (fun im => gen_at C pk (fst im)) known = Err Panic) as ->; [|reflexivity]. clear L.
  induction known as [|[j v] known IH]; [destruct I|]. cbn [rmap fst]. unfold gen_at at 1. destruct (nth_error (bh C pk) j) eqn:Ej; [|reflexivity]. cbn [rbind].
  rewrite IH; [reflexivity|]. destruct I as [E|I]; [|exact I]. exfalso. assert (j = i) by congruence. subst j. rewrite (proj2 (nth_error_None _ _) Li) in Ej. discriminate.
Qed.
Print Assumptions C55_known_index_out_of_range.
(** complete_signature returns a signature exactly when the unblinded signature verifies *)
Theorem C55_complete_signature : forall (C : curve) g1 g2 (pk : bbs_pk C) ms bsig r sig,
  complete_signature C g1 g2 pk ms bsig r = Ok sig <-> sig = to_unblinded C bsig r /\ sig_verify C g1 g2 sig ms pk = Ok true.
Proof.
  intros C g1 g2 pk ms bsig r sig. unfold complete_signature. destruct (sig_verify C g1 g2 (to_unblinded C bsig r) ms pk) as [[|]|e] eqn:E; cbn [rbind]; split.
  - intros Q. assert (sig = to_unblinded C bsig r) as -> by congruence. now split.
  - intros (-> & _). reflexivity.
  - discriminate.
  - intros (-> & Q). congruence.
  - discriminate.
  - intros (-> & Q). congruence.
Qed.
Print Assumptions C55_complete_signature.

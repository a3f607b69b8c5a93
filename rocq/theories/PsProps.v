(** C65: proofs of knowledge of the values of a vector commitment;
    C66: PS signatures; C67: blind issuance of PS signatures. *)
From Verif Require Import Base BnModel Alg Lin ClRevModel ClRevSpec BbsModel BbsLib BbsProps BbsCodecModel BbsCodecProps PsModel PsLib.
Import List ListNotations.
Open Scope list_scope.
Open Scope Z_scope.

(** ** C65 *)
(** the prover commits to each generator in turn, giving a blinding or drawing one *)
Definition commit_run {K : fieldOps} {M : modOps K} (ops : list (M * option K * K)) : committing M :=
  fold_left (fun c (o : M * option K * K) => fst (commit c (fst (fst o)) (snd (fst o)) (snd o))) ops committing_new.
Definition used {K : fieldOps} {M : modOps K} (o : M * option K * K) : K := match snd (fst o) with Some b => b | None => snd o end.
Lemma commit_run_eq {K : fieldOps} {M : modOps K} (ops : list (M * option K * K)) : commit_run ops = mkCommitting (map (fun o => fst (fst o)) ops) (map used ops).
Proof.
  unfold commit_run. enough (forall c, fold_left (fun c (o : M * option K * K) => fst (commit c (fst (fst o)) (snd (fst o)) (snd o))) ops c =
    mkCommitting (cg_gens c ++ map (fun o => fst (fst o)) ops) (cg_blindings c ++ map used ops)) as Q by apply Q.
  induction ops as [|o ops IH]; intros c; [cbn; rewrite !app_nil_r; now destruct c|]. cbn [fold_left map]. rewrite IH. unfold commit. cbn [fst cg_gens cg_blindings]. now rewrite <- !app_assoc.
Qed.
(** the index returned by [commit] is the position of the pair that [get_index] returns *)
Theorem C65_commit_index : forall (K : fieldOps) (M : modOps K) (ops : list (M * option K * K)) g b r more,
  let c := commit_run ops in let i := snd (commit c g b r) in
  i = length ops /\ committing_get (commit_run (ops ++ [(g, b, r)] ++ more)) i = Ok (g, match b with Some x => x | None => r end) /\
  (forall j, (length ops <= j)%nat -> committing_get c j = Err (ZmixErr ZGeneralError)).
Proof.
  intros K M ops g b r more c i. subst c i. rewrite !commit_run_eq. unfold commit. cbn [snd cg_gens]. rewrite map_length. split; [reflexivity|]. split.
  - unfold committing_get. cbn [cg_gens cg_blindings]. rewrite map_length, app_length. cbn [app length].
    destruct (Nat.leb_spec (length ops + S (length more)) (length ops)) as [L|L]; [lia|]. rewrite !map_app.
    rewrite nth_error_app2, map_length, Nat.sub_diag by (rewrite map_length; lia). rewrite nth_error_app2, map_length, Nat.sub_diag by (rewrite map_length; lia). reflexivity.
  - intros j L. unfold committing_get. cbn [cg_gens]. rewrite map_length. apply Nat.leb_le in L. now rewrite L.
Qed.
(** honest proofs are accepted, for every challenge, and as complete proofs when the
    challenge is the hash of generators, commitments and nonce *)
Theorem C65_complete : forall (K : fieldOps) (M : modOps K) (enc : M -> list Z) hash_fr (ops : list (M * option K * K)) secrets nonce ch, field_laws K -> mod_laws M ->
  length secrets = length ops ->
  let gens := map (fun o => fst (fst o)) ops in let y := lin gens secrets in let c := finish (commit_run ops) in
  (exists p, gen_proof c ch secrets = Ok p /\ vproof_verify p gens y ch = Ok true) /\
  (let ch' := gen_challenge enc hash_fr c (enc y ++ nonce) in
   exists p, gen_proof c ch' secrets = Ok p /\ verify_complete_proof enc hash_fr p gens y ch' nonce = Ok true).
Proof.
  intros K M enc hash_fr ops secrets nonce ch HK HM L gens y c. subst c. rewrite commit_run_eq. unfold finish. cbn [cg_gens cg_blindings]. fold gens.
  assert (length gens = length ops) as Lg by apply map_length. assert (length (map used ops) = length gens) as Lu by (rewrite map_length; congruence).
  rewrite (multi_mul_lin HM).
  assert (forall ch, gen_proof (mkCommitted gens (map used ops) (lin gens (map used ops))) ch secrets = Ok (mkVProof (lin gens (map used ops)) (sub_scaled ch (map used ops) secrets))) as G.
  { intros ch'. rewrite gen_proof_eq; cbn [cd_blindings cd_gens cd_commitment]; [reflexivity|congruence|congruence]. }
  split.
  - eexists. split; [apply G|]. apply (vproof_verify_iff HM). cbn [vp_resp vp_com]. split; [rewrite length_sub_scaled; congruence|]. apply (schnorr_complete HK HM); try reflexivity; congruence.
  - eexists. split; [apply G|]. unfold verify_complete_proof. cbn [vp_resp vp_com]. rewrite length_sub_scaled by congruence. rewrite Lu, Nat.eqb_refl. cbn [negb].
    rewrite (multi_mul_lin HM), (lin_app HM) by (rewrite length_sub_scaled; congruence). rewrite lin_cons, lin_nil_l, (madd_0_r _ _ HM).
    rewrite (schnorr_complete HK HM gens (map used ops) secrets _ y) by (try reflexivity; congruence). f_equal. apply andb_true_intro. split.
    + apply (meqb_eq _ _ HM), (msub_0 _ _ HM). reflexivity.
    + apply (feqb_eq _ HK). unfold gen_challenge, committed_bytes. cbn [cd_gens cd_commitment]. rewrite <- !app_assoc.
      apply (fsub_diag HK).
Qed.
(** what a verifier decides *)
Theorem C65_decision : forall (K : fieldOps) (M : modOps K) (enc : M -> list Z) hash_fr (p : vproof M) bases y ch nonce, field_laws K -> mod_laws M ->
  (length bases <> length (vp_resp p) -> vproof_verify p bases y ch = Err (ZmixErr (ZUnequalNoOfBasesExponents (length bases) (length (vp_resp p)))) /\
     verify_complete_proof enc hash_fr p bases y ch nonce = Err (ZmixErr (ZUnequalNoOfBasesExponents (length bases) (length (vp_resp p))))) /\
  (length bases = length (vp_resp p) -> exists b b', vproof_verify p bases y ch = Ok b /\ verify_complete_proof enc hash_fr p bases y ch nonce = Ok b' /\
     (b = true <-> madd (lin bases (vp_resp p)) (smul ch y) = vp_com p) /\
     (b' = true <-> b = true /\ ch = hash_fr (concat (map enc bases) ++ enc (vp_com p) ++ enc y ++ nonce))).
Proof.
  intros K M enc hash_fr p bases y ch nonce HK HM. split.
  - intros N. unfold vproof_verify, verify_complete_proof. apply Nat.eqb_neq in N. rewrite N. auto.
  - intros L. unfold vproof_verify, verify_complete_proof. rewrite L, Nat.eqb_refl. cbn [negb]. do 2 eexists. split; [reflexivity|]. split; [reflexivity|].
    rewrite !(multi_mul_lin HM), !(lin_app HM) by exact L. rewrite lin_cons, lin_nil_l, (madd_0_r _ _ HM).
    rewrite (meqb_eq _ _ HM), (msub_0 _ _ HM). split; [reflexivity|]. rewrite andb_true_iff, (meqb_eq _ _ HM), (msub_0 _ _ HM), (feqb_eq _ HK).
    split; (intros (E & E'); split; [exact E|]); rewrite E in *.
    + apply (fsub_eq0 _ HK) in E'. congruence.
    + rewrite <- E'. apply (fsub_diag HK).
Qed.
(** special soundness: two accepted answers to one first message give the values *)
Theorem C65_special_soundness : forall (K : fieldOps) (M : modOps K) (p p' : vproof M) bases y ch ch', field_laws K -> mod_laws M ->
  vproof_verify p bases y ch = Ok true -> vproof_verify p' bases y ch' = Ok true -> vp_com p = vp_com p' -> ch <> ch' ->
  lin bases (scaled_diff (finv (fsub ch' ch)) (vp_resp p) (vp_resp p')) = y.
Proof.
  intros K M p p' bases y ch ch' HK HM V V' E N. apply (vproof_verify_iff HM) in V, V'. destruct V as (L & V), V' as (L' & V'). apply (schnorr_extract HK HM bases _ _ ch ch' y (vp_com p)); congruence.
Qed.
(** witness indistinguishability and zero knowledge: for every choice of secrets behind the
    commitment and every accepted transcript exactly one blinding vector yields it *)
Theorem C65_one_blinding_per_transcript : forall (K : fieldOps) (M : modOps K) (bases : list M) secrets y ch com resp, field_laws K -> mod_laws M ->
  length secrets = length bases -> lin bases secrets = y -> vproof_verify (mkVProof com resp) bases y ch = Ok true ->
  exists bl, length bl = length bases /\ gen_proof (finish (mkCommitting bases bl)) ch secrets = Ok (mkVProof com resp) /\
    forall bl', length bl' = length bases -> gen_proof (finish (mkCommitting bases bl')) ch secrets = Ok (mkVProof com resp) -> bl' = bl.
Proof.
  intros K M bases secrets y ch com resp HK HM L E V. apply (vproof_verify_iff HM) in V. cbn [vp_resp vp_com] in V. destruct V as (Lr & V).
  assert (forall bl, length bl = length bases -> gen_proof (finish (mkCommitting bases bl)) ch secrets = Ok (mkVProof (lin bases bl) (sub_scaled ch bl secrets))) as G.
  { intros bl Lb. rewrite gen_proof_eq; unfold finish; cbn [cd_blindings cd_gens cd_commitment cg_gens cg_blindings]; try congruence. now rewrite (multi_mul_lin HM). }
  exists (sub_scaled (fopp ch) resp secrets). assert (length (sub_scaled (fopp ch) resp secrets) = length bases) as Lb by (rewrite length_sub_scaled; congruence).
  split; [exact Lb|]. split.
  - rewrite G by exact Lb. rewrite (sub_scaled_inv HK) by congruence. rewrite (vc_unblind HK HM), E, <- V by congruence. reflexivity.
  - intros bl' Lb' G'. rewrite G in G' by exact Lb'. injection G' as _ E'. apply (sub_scaled_inj HK ch _ _ secrets); try congruence. rewrite (sub_scaled_inv HK) by congruence. exact E'.
Qed.

(** the byte form of a proof: any encoding with fixed sizes and a left inverse *)
Theorem C65_bytes : forall (K : fieldOps) (M : modOps K) (enc : M -> list Z) encF size szF dec decF (p : vproof M) junk,
  (forall x, length (enc x) = size) -> (forall x, dec (enc x) = Some x) -> (forall x, length (encF x) = szF) -> (forall x : K, decF (encF x) = Some x) ->
  fits32 (length (vp_resp p)) -> vproof_from_bytes size szF dec decF (vproof_to_bytes enc encF p ++ junk) = Ok p.
Proof.
  intros K M enc encF size szF dec decF p junk L1 D1 LF DF Fit. unfold vproof_from_bytes, vproof_to_bytes.
  assert (length (enc (vp_com p) ++ be32 (length (vp_resp p)) ++ concat (map encF (vp_resp p))) = (size + 4 + length (vp_resp p) * szF)%nat) as L.
  { rewrite !app_length, L1, length_be32, (length_concat_map encF szF) by exact LF. lia. }
  rewrite app_length, L. rewrite (proj2 (Nat.ltb_ge _ _)) by lia. rewrite <- !app_assoc.
  rewrite (firstn_app_exact _ _ size) by apply L1. rewrite D1. rewrite (skipn_app_exact _ _ size) by apply L1. rewrite (firstn_app_exact _ _ 4) by apply length_be32.
  match goal with |- context [Z.to_nat ?e] => replace (Z.to_nat e) with (length (vp_resp p)) end.
  2:{ pose proof (u32_be32 _ Fit) as Q. unfold u32_from_be in Q. symmetry. exact Q. }
  rewrite (proj2 (Nat.ltb_ge _ _)) by lia.
  assert (forall l rest, read_scalars szF decF (length l) (concat (map encF l) ++ rest) = Ok l) as R.
  { induction l as [|x l IH]; intros rest; [reflexivity|]. cbn [length read_scalars map concat]. rewrite <- app_assoc, app_length, LF.
    rewrite (proj2 (Nat.ltb_ge _ _)) by lia. rewrite (firstn_app_exact _ _ szF) by apply LF. rewrite DF, (skipn_app_exact _ _ szF) by apply LF. rewrite IH. reflexivity. }
  rewrite app_assoc, (skipn_app_exact _ _ (size + 4)) by (rewrite app_length, L1, length_be32; lia). rewrite R. destruct p; reflexivity.
Qed.
(** any other input is an error, never a panic *)
Theorem C65_bytes_no_panic : forall (K : fieldOps) (M : modOps K) size szF (dec : list Z -> option M) (decF : list Z -> option K) data, vproof_from_bytes size szF dec decF data <> Err Panic.
Proof.
  intros K M size szF dec decF data. unfold vproof_from_bytes. destruct (length data <? size + 4)%nat; [discriminate|]. destruct (dec (firstn size data)); [|discriminate].
  match goal with |- context [Z.to_nat ?e] => set (n := Z.to_nat e); clearbody n end. destruct (Nat.ltb_spec (length data) (size + 4 + n * szF)) as [L|L]; [discriminate|].
  enough (forall n data, (n * szF <= length data)%nat -> read_scalars szF decF n data <> Err Panic) as Q.
  { specialize (Q n (skipn (size + 4) data)). rewrite skipn_length in Q. destruct (read_scalars szF decF n (skipn (size + 4) data)); [discriminate|]. cbn [rbind]. intros E. apply Q; [lia|congruence]. }
  clear. induction n as [|n IH]; intros data L; [discriminate|]. cbn [read_scalars Nat.mul] in *. destruct (Nat.ltb_spec (length data) szF) as [L'|L']; [lia|].
  destruct (decF (firstn szF data)); [|discriminate]. specialize (IH (skipn szF data)). rewrite skipn_length in IH.
  destruct (read_scalars szF decF n (skipn szF data)); [discriminate|]. cbn [rbind]. intros E. apply IH; [lia|congruence].
Qed.

(** ** specification vocabulary for PS signatures *)
(** sum of y_i m_i *)
Fixpoint dot {K : fieldOps} (ys ms : list K) : K := match ys, ms with y :: ys', m :: ms' => fadd (fmul y m) (dot ys' ms') | _, _ => f0 end.
Section PsSpec.
Variable C : curve.
Notation K := (cK C). Notation SG := (cG1 C). Notation OG := (cG2 C).
(** the key a signer publishes for the secret x, y_1, ..., y_n *)
Definition ps_keypair (p : ps_params C) (sk : sigkey C) (vk : ps_verkey C) : Prop :=
  vk_X vk = smul (sk_x sk) (pp_gt p) /\ vk_Y vk = map (fun y => smul y (pp_gt p)) (sk_y sk).
(** x + sum of y_i m_i *)
Definition exponent (sk : sigkey C) (ms : list K) : K := fadd (sk_x sk) (dot (sk_y sk) ms).
End PsSpec.
Arguments ps_keypair {C}. Arguments exponent {C}.

Section PsFacts.
Variable C : curve.
Notation K := (cK C). Notation SG := (cG1 C). Notation OG := (cG2 C).
Hypothesis LW : curve_laws C.
Let HK := cl_field C LW. Let H1 := cl_g1 C LW. Let H2 := cl_g2 C LW. Let HT := cl_gt C LW.
Add Field Kp : (proj1 HK).
Lemma keygen_keypair n (p : ps_params C) x y : ps_keypair p (snd (keygen C n p x y)) (fst (keygen C n p x y)) /\ length (sk_y (snd (keygen C n p x y))) = n.
Proof. unfold keygen, ps_keypair. cbn [fst snd vk_X vk_Y sk_x sk_y]. split; [auto|]. now rewrite map_length, seq_length. Qed.
Lemma lin_dot (g : SG) : forall ys ms, lin (map (fun y => smul y g) ys) ms = smul (dot ys ms) g.
Proof.
  induction ys as [|y ys IH]; intros [|m ms]; cbn [map dot]; try (rewrite ?lin_nil_l, ?lin_nil_r; now rewrite (smul_0_l _ HK _ H1)).
  rewrite lin_cons, IH. module_coefs HK H1; ring.
Qed.
Lemma lin_dot2 (g : OG) : forall ys ms, lin (map (fun y => smul y g) ys) ms = smul (dot ys ms) g.
Proof.
  induction ys as [|y ys IH]; intros [|m ms]; cbn [map dot]; try (rewrite ?lin_nil_l, ?lin_nil_r; now rewrite (smul_0_l _ HK _ H2)).
  rewrite lin_cons, IH. module_coefs HK H2; ring.
Qed.
Lemma dot_app : forall (ys ms ys' ms' : list K), length ys = length ms -> dot (ys ++ ys') (ms ++ ms') = fadd (dot ys ms) (dot ys' ms').
Proof. induction ys as [|y ys IH]; intros [|m ms] ys' ms' L; try discriminate; cbn [app dot]; [ring|]. rewrite IH by (cbn in L; congruence). ring. Qed.
Lemma rfold_dot : forall (pre ys pm ms : list K) off acc, length pre = (off + length pm)%nat -> length ys = length ms ->
  rfold (fun exp i => match nth_error (pre ++ ys) (off + i), nth_error (pm ++ ms) i with Some y, Some m => Ok (fadd exp (fmul y m)) | _, _ => Err Panic end) (seq (length pm) (length ms)) acc
  = Ok (fadd acc (dot ys ms)).
Proof.
  intros pre ys. revert pre. induction ys as [|y ys IH]; intros pre pm ms off acc Lp L.
  - destruct ms; [|discriminate]. cbn [length seq rfold dot]. f_equal. ring.
  - destruct ms as [|m ms]; [discriminate|]. cbn [length seq rfold dot]. rewrite nth_error_app2 by lia. replace (off + length pm - length pre)%nat with O by lia.
    rewrite nth_error_app2, Nat.sub_diag by lia. cbn [nth_error rbind].
    specialize (IH (pre ++ [y]) (pm ++ [m]) ms off (fadd acc (fmul y m))). rewrite !app_length, <- !app_assoc in IH. cbn [app length] in IH. rewrite !Nat.add_1_r in IH.
    rewrite IH by (cbn in L; lia). f_equal. ring.
Qed.
Lemma sign_with_exp_eq messages sk u off g : (off + length messages)%nat = length (sk_y sk) ->
  sign_with_exp C messages sk u off g = Ok (smul u g, smul (fadd (sk_x sk) (dot (skipn off (sk_y sk)) messages)) (smul u g)).
Proof.
  intros L. unfold sign_with_exp. rewrite L, Nat.eqb_refl. cbn [negb].
  pose proof (rfold_dot (firstn off (sk_y sk)) (skipn off (sk_y sk)) [] messages off (sk_x sk)) as Q. cbn [app length] in Q.
  rewrite firstn_skipn in Q. rewrite Q; [reflexivity|rewrite firstn_length; lia|rewrite skipn_length; lia].
Qed.
Lemma ps_sign_eq messages sk p u : length messages = length (sk_y sk) -> ps_sign C messages sk p u = Ok (mkPsSig (smul u (pp_g p)) (smul (exponent sk messages) (smul u (pp_g p)))).
Proof. intros L. unfold ps_sign. rewrite L, Nat.eqb_refl. cbn [negb]. rewrite sign_with_exp_eq by exact L. reflexivity. Qed.
(** the pairing check in terms of the secret key *)
Lemma pair_check (a b : SG) (e : K) (gt : OG) : nondegenerate_r gt -> (meqb (madd (pair a (smul e gt)) (pair (mopp b) gt)) (m0 : cGT C) = true <-> b = smul e a).
Proof.
  intros N. rewrite (meqb_eq _ _ HT), (p_opp_l C LW). fold (msub (pair a (smul e gt)) (pair b gt)). rewrite (msub_0 _ _ HT), (p_smul_r C LW), <- (p_smul_l C LW). split.
  - intros E. symmetry. now apply (p_inj_l C LW _ _ gt).
  - now intros ->.
Qed.
Lemma pair_check_true (a : SG) (e : K) (gt : OG) : meqb (madd (pair a (smul e gt)) (pair (mopp (smul e a)) gt)) (m0 : cGT C) = true.
Proof. apply (meqb_eq _ _ HT). rewrite (p_opp_l C LW), (p_smul_r C LW), (p_smul_l C LW). apply (madd_opp _ _ HT). Qed.
Lemma y_m_eq (p : ps_params C) sk vk messages : ps_keypair p sk vk -> length messages = length (vk_Y vk) ->
  madd (vk_X vk) (multi_mul (firstn (length messages) (vk_Y vk)) messages) = smul (exponent sk messages) (pp_gt p).
Proof. intros (EX & EY) L. rewrite L, firstn_all, (multi_mul_lin H2), EX, EY, lin_dot2, <- (smul_add_l _ _ H2). reflexivity. Qed.
Lemma ps_verify_eq (p : ps_params C) sk vk s messages : ps_keypair p sk vk -> s_1 s <> m0 -> s_2 s <> m0 -> length messages = length (vk_Y vk) ->
  ps_verify C s messages vk p = Ok (meqb (madd (pair (s_1 s) (smul (exponent sk messages) (pp_gt p))) (pair (mopp (s_2 s)) (pp_gt p))) m0).
Proof.
  intros KP N1 N2 L. unfold ps_verify. rewrite (proj2 (meqb_neq _ _ H1 _ _) N1), (proj2 (meqb_neq _ _ H1 _ _) N2). cbn [orb]. unfold check_verkey_compat. rewrite L, Nat.eqb_refl. cbn [negb rbind].
  rewrite <- L, (y_m_eq p sk vk) by assumption. reflexivity.
Qed.
Lemma keypair_length (p : ps_params C) sk vk : ps_keypair p sk vk -> length (vk_Y vk) = length (sk_y sk).
Proof. intros (_ & ->). apply map_length. Qed.
End PsFacts.

(** ** C66 *)
(** signing: exactly one message per key component, and then the result is determined *)
Theorem C66_sign_outcomes : forall (C : curve) messages sk p u, curve_laws C ->
  (length messages <> length (sk_y sk) -> ps_sign C messages sk p u = Err (ZmixErr (ZUnsupportedNoOfMessages (length messages) (length (sk_y sk))))) /\
  (length messages = length (sk_y sk) -> ps_sign C messages sk p u = Ok (mkPsSig (smul u (pp_g p)) (smul (fmul u (exponent sk messages)) (pp_g p)))).
Proof.
  intros C messages sk p u LW. split; intros L.
  - unfold ps_sign. apply Nat.eqb_neq in L. now rewrite L.
  - rewrite (ps_sign_eq C LW) by exact L. f_equal. f_equal. rewrite <- (smul_mul _ _ (cl_g1 C LW)). apply f_equal2; [apply (fmul_comm (cl_field C LW))|reflexivity].
Qed.
(** a signature made with the matching key verifies, except with probability 2/q over the draw and the key *)
Theorem C66_sign_then_verify : forall (C : curve) messages sk vk p u, curve_laws C -> ps_keypair p sk vk -> length messages = length (sk_y sk) ->
  pp_g p <> m0 -> u <> f0 -> exponent sk messages <> f0 ->
  exists s, ps_sign C messages sk p u = Ok s /\ ps_verify C s messages vk p = Ok true.
Proof.
  intros C messages sk vk p u LW KP L Ng Nu Ne. eexists. split; [apply (ps_sign_eq C LW), L|]. pose proof (cl_field C LW) as HK. pose proof (cl_g1 C LW) as H1.
  assert (smul u (pp_g p) <> m0) as N1 by now apply (smul_nonzero HK H1).
  rewrite (ps_verify_eq C LW p sk vk); cbn [s_1 s_2]; [|exact KP|exact N1|now apply (smul_nonzero HK H1)|rewrite (keypair_length C p sk vk KP); exact L].
  now rewrite (pair_check_true C LW).
Qed.
(** what verification decides *)
Theorem C66_verify_decision : forall (C : curve) s messages sk vk p, curve_laws C -> ps_keypair p sk vk -> nondegenerate_r (pp_gt p) ->
  (ps_verify C s messages vk p = Ok true <->
     length messages = length (vk_Y vk) /\ s_1 s <> m0 /\ s_2 s <> m0 /\ s_2 s = smul (exponent sk messages) (s_1 s)) /\
  (s_1 s = m0 \/ s_2 s = m0 -> ps_verify C s messages vk p = Ok false) /\
  (s_1 s <> m0 -> s_2 s <> m0 -> length messages <> length (vk_Y vk) -> ps_verify C s messages vk p = Err (ZmixErr (ZUnsupportedNoOfMessages (length messages) (length (vk_Y vk))))).
Proof.
  intros C s messages sk vk p LW KP ND. pose proof (cl_g1 C LW) as H1.
  assert (s_1 s = m0 \/ s_2 s = m0 -> ps_verify C s messages vk p = Ok false) as Z.
  { intros Z. unfold ps_verify. destruct Z as [E|E]; rewrite E, (meqb_refl _ _ H1); [reflexivity|]. now rewrite orb_true_r. }
  assert (s_1 s <> m0 -> s_2 s <> m0 -> length messages <> length (vk_Y vk) -> ps_verify C s messages vk p = Err (ZmixErr (ZUnsupportedNoOfMessages (length messages) (length (vk_Y vk))))) as B.
  { intros N1 N2 L. unfold ps_verify. rewrite (proj2 (meqb_neq _ _ H1 _ _) N1), (proj2 (meqb_neq _ _ H1 _ _) N2). cbn [orb]. unfold check_verkey_compat. apply Nat.eqb_neq in L. now rewrite L. }
  split; [|auto]. split.
  - intros V. destruct (meq_dec _ _ H1 (s_1 s) m0) as [E1|N1]; [rewrite Z in V by auto; discriminate|]. destruct (meq_dec _ _ H1 (s_2 s) m0) as [E2|N2]; [rewrite Z in V by auto; discriminate|].
    destruct (Nat.eq_dec (length messages) (length (vk_Y vk))) as [L|L]; [|rewrite B in V by auto; discriminate]. rewrite (ps_verify_eq C LW p sk vk) in V by assumption. injection V as V. apply (pair_check C LW) in V; auto.
  - intros (L & N1 & N2 & E). rewrite (ps_verify_eq C LW p sk vk) by assumption. f_equal. now apply (pair_check C LW).
Qed.
(** one signature cannot be valid for two message vectors, up to a relation between the secret exponents *)
Theorem C66_message_binding : forall (C : curve) s ms ms' sk vk p, curve_laws C -> ps_keypair p sk vk -> nondegenerate_r (pp_gt p) ->
  ps_verify C s ms vk p = Ok true -> ps_verify C s ms' vk p = Ok true -> dot (sk_y sk) ms = dot (sk_y sk) ms'.
Proof.
  intros C s ms ms' sk vk p LW KP ND V V'. apply (C66_verify_decision C s ms sk vk p LW KP ND) in V. apply (C66_verify_decision C s ms' sk vk p LW KP ND) in V'.
  destruct V as (_ & N1 & _ & E), V' as (_ & _ & _ & E'). rewrite E in E'. apply (smul_inj_g (cl_field C LW) (cl_g1 C LW)) in E'; [|exact N1]. unfold exponent in E'.
  apply (madd_cancel (cK C) (self_mod (cK C)) (self_mod_laws _ (cl_field C LW)) (sk_x sk)). exact E'.
Qed.
(** signatures can be re-randomised, and not turned into signatures on other messages that way *)
Theorem C66_rerandomise : forall (C : curve) s ms sk vk p r, curve_laws C -> ps_keypair p sk vk -> nondegenerate_r (pp_gt p) -> r <> f0 ->
  (ps_verify C (mkPsSig (smul r (s_1 s)) (smul r (s_2 s))) ms vk p = Ok true <-> ps_verify C s ms vk p = Ok true).
Proof.
  intros C s ms sk vk p r LW KP ND Nr. pose proof (cl_field C LW) as HK. pose proof (cl_g1 C LW) as H1.
  rewrite !(proj1 (C66_verify_decision C _ ms sk vk p LW KP ND)). cbn [s_1 s_2].
  assert (forall x : cG1 C, smul r x = m0 <-> x = m0) as Z.
  { intros x. split; [|intros ->; apply (smul_0_r _ _ H1)]. intros E. destruct (meq_dec _ _ H1 x m0) as [Q|Q]; [exact Q|]. exfalso. now apply (smul_nonzero HK H1 r x). }
  rewrite !Z. rewrite <- (smul_mul _ _ H1). assert (smul (fmul (exponent sk ms) r) (s_1 s) = smul r (smul (exponent sk ms) (s_1 s))) as ->.
  { rewrite <- (smul_mul _ _ H1). f_equal. apply (fmul_comm HK). }
  enough (smul r (s_2 s) = smul r (smul (exponent sk ms) (s_1 s)) <-> s_2 s = smul (exponent sk ms) (s_1 s)) as -> by reflexivity.
  split; [|congruence]. apply (smul_cancel HK H1), Nr.
Qed.

(** ** C67: blind issuance *)
Section BlindFacts.
Variable C : curve.
Hypothesis LW : curve_laws C.
Let HK := cl_field C LW. Let H1 := cl_g1 C LW.
Add Field Kb : (proj1 HK).
Lemma blind_sign_eq com known sk p u : (length known < length (sk_y sk))%nat ->
  let off := (length (sk_y sk) - length known)%nat in
  ps_blind_sign C com known sk (blinding_key_new C sk p) p u = Ok (mkPsSig (smul u (pp_g p)) (smul u (madd (smul (fadd (sk_x sk) (dot (skipn off (sk_y sk)) known)) (pp_g p)) com))).
Proof.
  intros L off. unfold ps_blind_sign, check_blinding_compat, blinding_key_new. cbn [bk_Y]. rewrite map_length. destruct (Nat.leb_spec (length (sk_y sk)) (length known)) as [L'|L']; [lia|]. cbn [rbind].
  rewrite (sign_with_exp_eq C LW) by lia. cbn [rbind]. fold off. do 2 f_equal. module_coefs HK H1; ring.
Qed.
Lemma unblind_eq com known sk p u t : let off := (length (sk_y sk) - length known)%nat in
  ps_unblind C (mkPsSig (smul u (pp_g p)) (smul u (madd (smul (fadd (sk_x sk) (dot (skipn off (sk_y sk)) known)) (pp_g p)) com))) t
  = mkPsSig (smul u (pp_g p)) (smul u (madd (smul (fadd (sk_x sk) (dot (skipn off (sk_y sk)) known)) (pp_g p)) (msub com (smul t (pp_g p))))).
Proof. intros off. unfold ps_unblind. cbn [s_1 s_2]. f_equal. module_coefs HK H1; ring. Qed.
Lemma dot_split (ys cm known : list (cK C)) : (length cm + length known)%nat = length ys -> dot ys (cm ++ known) = fadd (dot (firstn (length cm) ys) cm) (dot (skipn (length cm) ys) known).
Proof. intros L. rewrite <- (firstn_skipn (length cm) ys) at 1. apply (dot_app C LW). rewrite firstn_length. lia. Qed.
Lemma lin_first (sk : sigkey C) (g : cG1 C) cm k : lin (firstn k (map (fun y => smul y g) (sk_y sk))) cm = smul (dot (firstn k (sk_y sk)) cm) g.
Proof. rewrite firstn_map. apply (lin_dot C LW). Qed.
Lemma Rdistr_l_swap (y x z : cK C) : fmul y (fadd x z) = fadd (fmul y x) (fmul y z).
Proof. ring. Qed.
Lemma four_swap (a b c d : cK C) : fadd (fadd a b) (fadd c d) = fadd (fadd a c) (fadd b d).
Proof. ring. Qed.
Lemma blind_shift (g : cG1 C) u t a b c x : smul u (madd (smul (fadd x c) g) (msub (madd (smul t g) (smul (fadd a b) g)) (smul t g))) = smul (fadd x (fadd a (fadd b c))) (smul u g).
Proof. module_coefs HK H1; ring. Qed.
Lemma fadd_assoc_k (x y z : cK C) : fadd x (fadd y z) = fadd (fadd x z) y.
Proof. ring. Qed.
End BlindFacts.
(** the holder commits to the first messages with a blinding, the signer adds the others:
    the unblinded signature is the one [Signature::new] makes with the same draw *)
Theorem C67_blind_issuance : forall (C : curve) committed_msgs known sk vk p t u, curve_laws C -> ps_keypair p sk vk ->
  (length committed_msgs + length known)%nat = length (sk_y sk) -> (0 < length committed_msgs)%nat ->
  let bk := blinding_key_new C sk p in
  let commitment := madd (smul t (pp_g p)) (lin (firstn (length committed_msgs) (bk_Y bk)) committed_msgs) in
  exists bs, ps_blind_sign C commitment known sk bk p u = Ok bs /\
    Ok (ps_unblind C bs t) = ps_sign C (committed_msgs ++ known) sk p u /\
    (pp_g p <> m0 -> u <> f0 -> exponent sk (committed_msgs ++ known) <> f0 -> ps_verify C (ps_unblind C bs t) (committed_msgs ++ known) vk p = Ok true).
Proof.
  intros C cm known sk vk p t u LW KP L Pos bk com. pose proof (cl_field C LW) as HK. pose proof (cl_g1 C LW) as H1.
  assert (Ok (ps_unblind C (mkPsSig (smul u (pp_g p)) (smul u (madd (smul (fadd (sk_x sk) (dot (skipn (length (sk_y sk) - length known) (sk_y sk)) known)) (pp_g p)) com))) t) = ps_sign C (cm ++ known) sk p u) as Q.
  { rewrite (unblind_eq C LW). rewrite (ps_sign_eq C LW) by (rewrite app_length; exact L). do 2 f_equal. unfold com, bk, blinding_key_new. cbn [bk_Y]. rewrite (lin_first C LW).
    replace (length (sk_y sk) - length known)%nat with (length cm) by lia. unfold exponent. rewrite (dot_split C LW) by exact L.
    rewrite (fadd_assoc_k C LW). rewrite <- (smul_mul _ _ H1), (fmul_comm HK), (smul_mul _ _ H1). f_equal. rewrite (smul_add_l _ _ H1 _ (dot _ cm)). f_equal.
    unfold msub. rewrite (madd_comm _ _ H1 (smul t _)), <- (madd_assoc _ _ H1), (madd_opp _ _ H1). apply (madd_0_r _ _ H1). }
  eexists. split; [apply (blind_sign_eq C LW); lia|]. split; [exact Q|]. intros Ng Nu Ne.
  destruct (C66_sign_then_verify C (cm ++ known) sk vk p u LW KP) as (s & E & V); try assumption; [now rewrite app_length|]. rewrite E in Q. injection Q as ->. exact V.
Qed.
(** the variant "as described in the paper" gives the same signatures *)
Theorem C67_paper_variant : forall (C : curve) commitment known sk p u, curve_laws C ->
  (length known < length (sk_y sk))%nat -> let bk := blinding_key_new C sk p in
  ps_blind_sign_paper C commitment known (bk_X bk) bk p u = ps_blind_sign C commitment known sk bk p u.
Proof.
  intros C com known sk p u LW L bk. unfold bk. rewrite (blind_sign_eq C LW) by exact L. unfold ps_blind_sign_paper, check_blinding_compat, blinding_key_new. cbn [bk_Y bk_X]. rewrite map_length.
  destruct (Nat.leb_spec (length (sk_y sk)) (length known)) as [L'|L']; [lia|]. cbn [rbind]. pose proof (cl_g1 C LW) as H1. do 4 f_equal.
  rewrite (multi_mul_lin H1), skipn_map, (lin_dot C LW). symmetry. apply (smul_add_l _ _ H1).
Qed.
(** at least one message must be committed; a key of the wrong length is an error *)
Theorem C67_errors : forall (C : curve) commitment known sk bk p u X,
  ((length (bk_Y bk) <= length known)%nat -> ps_blind_sign C commitment known sk bk p u = Err (ZmixErr (ZUnsupportedNoOfMessages (length known) (length (bk_Y bk)))) /\
     ps_blind_sign_paper C commitment known X bk p u = Err (ZmixErr (ZUnsupportedNoOfMessages (length known) (length (bk_Y bk))))) /\
  ((length known < length (bk_Y bk))%nat -> length (bk_Y bk) <> length (sk_y sk) -> ps_blind_sign C commitment known sk bk p u = Err (ZmixErr (ZUnsupportedNoOfMessages (length (bk_Y bk)) (length (sk_y sk))))).
Proof.
  intros C com known sk bk p u X. unfold ps_blind_sign, ps_blind_sign_paper, check_blinding_compat. split.
  - intros L. apply Nat.leb_le in L. rewrite L. auto.
  - intros L N. destruct (Nat.leb_spec (length (bk_Y bk)) (length known)) as [L'|L']; [lia|]. cbn [rbind]. unfold sign_with_exp.
    replace (length (bk_Y bk) - length known + length known)%nat with (length (bk_Y bk)) by lia. apply Nat.eqb_neq in N. rewrite N. reflexivity.
Qed.
(** with a verified proof of knowledge of the commitment over (g, Y_1, ..., Y_k), the
    extracted values are what the issued signature certifies together with the signer's
    known messages *)
Theorem C67_issuance_sound : forall (C : curve) (pf pf' : vproof (cG1 C)) commitment known sk vk p u ch ch', curve_laws C -> ps_keypair p sk vk ->
  (length known < length (sk_y sk))%nat -> pp_g p <> m0 -> u <> f0 ->
  let bk := blinding_key_new C sk p in let bases := pp_g p :: firstn (length (sk_y sk) - length known) (bk_Y bk) in
  vproof_verify pf bases commitment ch = Ok true -> vproof_verify pf' bases commitment ch' = Ok true -> vp_com pf = vp_com pf' -> ch <> ch' ->
  exists t cm bs, t :: cm = scaled_diff (finv (fsub ch' ch)) (vp_resp pf) (vp_resp pf') /\ length cm = (length (sk_y sk) - length known)%nat /\ ps_blind_sign C commitment known sk bk p u = Ok bs /\
    Ok (ps_unblind C bs t) = ps_sign C (cm ++ known) sk p u.
Proof.
  intros C pf pf' com known sk vk p u ch ch' LW KP L Ng Nu bk bases V V' E N. pose proof (cl_field C LW) as HK. pose proof (cl_g1 C LW) as H1.
  pose proof (C65_special_soundness _ _ pf pf' bases com ch ch' HK H1 V V' E N) as X.
  apply (vproof_verify_iff H1) in V, V'. destruct V as (Lv & _), V' as (Lv' & _).
  set (w := scaled_diff (finv (fsub ch' ch)) (vp_resp pf) (vp_resp pf')) in X. assert (length w = length bases) as Lw by (unfold w; rewrite length_scaled_diff; congruence).
  assert (length bases = S (length (sk_y sk) - length known)) as Lb.
  { unfold bases, bk, blinding_key_new. cbn [length bk_Y]. rewrite firstn_length, map_length. lia. }
  destruct w as [|t cm] eqn:Ew; [cbn in Lw; lia|]. cbn [length] in Lw. unfold bases in X. rewrite lin_cons in X.
  destruct (C67_blind_issuance C cm known sk vk p t u LW KP) as (bs & E1 & E2 & _); [lia|lia|].
  exists t, cm, bs. split; [symmetry; exact Ew|]. split; [lia|]. split; [|exact E2]. rewrite <- X. replace (length (sk_y sk) - length known)%nat with (length cm) by lia. exact E1.
Qed.
(** expected: the signer's messages are the ones certified.  Refuted when the signer does
    not itself verify a proof of knowledge: [BlindSignature::new] signs any group element,
    so a commitment that also involves Y_j of a known message j changes message j. *)
Theorem C67_refuted_known_messages_enforced : forall (C : curve) known sk vk p t u (d : list (cK C)), curve_laws C -> ps_keypair p sk vk ->
  (length known < length (sk_y sk))%nat -> length d = length (sk_y sk) ->
  let bk := blinding_key_new C sk p in let k := (length (sk_y sk) - length known)%nat in
  let commitment := madd (smul t (pp_g p)) (lin (bk_Y bk) d) in
  exists bs, ps_blind_sign C commitment known sk bk p u = Ok bs /\
    Ok (ps_unblind C bs t) = ps_sign C (firstn k d ++ add_lists (skipn k d) known) sk p u.
Proof.
  intros C known sk vk p t u d LW KP L Ld bk k com. pose proof (cl_field C LW) as HK. pose proof (cl_g1 C LW) as H1.
  eexists. split; [apply (blind_sign_eq C LW); exact L|]. rewrite (unblind_eq C LW). fold k.
  assert (length (firstn k d) = k) as Lf by (rewrite firstn_length; unfold k; lia). assert (length (skipn k d) = length known) as Ls by (rewrite skipn_length; unfold k; lia).
  assert (length (add_lists (skipn k d) known) = length known) as La by (unfold add_lists; rewrite map_length, combine_length; lia).
  rewrite (ps_sign_eq C LW) by (rewrite app_length; unfold k in *; lia). do 2 f_equal. unfold com, bk, blinding_key_new. cbn [bk_Y]. rewrite (lin_dot C LW).
  assert (forall ys a b : list (cK C), length a = length ys -> length b = length ys -> dot ys (add_lists a b) = fadd (dot ys a) (dot ys b)) as DA.
  { induction ys as [|y ys IH]; intros [|x a] [|z b] La' Lb'; try discriminate; cbn [add_lists dot combine map fst snd]; [symmetry; apply (proj1 HK)|]. fold (add_lists a b). rewrite IH by (cbn in *; congruence).
    rewrite (Rdistr_l_swap C LW). apply (four_swap C LW). }
  unfold exponent. rewrite (dot_split C LW) by (rewrite Lf, La; unfold k; lia). rewrite Lf, DA by (rewrite ?Ls, skipn_length; unfold k; lia).
  rewrite <- (firstn_skipn k d) at 1. rewrite (dot_split C LW) by (rewrite Lf, skipn_length; unfold k; lia). rewrite Lf.
  generalize (dot (firstn k (sk_y sk)) (firstn k d)), (dot (skipn k (sk_y sk)) (skipn k d)), (dot (skipn k (sk_y sk)) known), (sk_x sk). intros a b c x. apply (blind_shift C LW).
Qed.

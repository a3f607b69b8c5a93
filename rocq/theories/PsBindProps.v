(** Property C155: to what the challenge binds a PS disclosure proof. *)
From Verif Require Import Base BnModel NumTheory Alg Lin Fp ClRevModel ClRevSpec CurveInst BbsModel BbsLib BbsProps BbsCodecModel BbsCodecProps BbsExProps BbsBindProps PsModel PsLib PsProps PsPokProps PsExProps.
Import List ListNotations.
Open Scope list_scope.
Open Scope Z_scope.

(** ** specification vocabulary *)
(** sum m_i Y_i over the revealed messages *)
Definition revealed_point {C : curve} (vk : ps_verkey C) (revealed : list (nat * cK C)) : cG2 C :=
  fold_right (fun im acc => madd (smul (snd im) (nth (fst im) (vk_Y vk) m0)) acc) m0 revealed.
(** a neutral pairing value has a neutral argument *)
Definition nondegenerate_pairing (C : curve) : Prop := forall (a : cG1 C) (b : cG2 C), a <> m0 -> pair a b = (m0 : cGT C) -> b = m0.

(** ** lemmas *)
Lemma revealed_msum {C : curve} (vk : ps_verkey C) rv : msum (map (fun im => smul (snd im) (nth (fst im) (vk_Y vk) m0)) rv) = revealed_point vk rv.
Proof. unfold revealed_point. induction rv as [|im rv IH]; [reflexivity|]. cbn [map msum fold_right]. now rewrite <- IH. Qed.
Lemma two_challenges2 (C : curve) (LW : curve_laws C) (X y T : cG2 C) (c c' : cK C) : madd X (smul c y) = T -> madd X (smul c' y) = T -> c <> c' -> y = m0.
Proof.
  pose proof (cl_field C LW) as HK. pose proof (cl_g2 C LW) as H2. intros E E' N. destruct (meqb y m0) eqn:Ey; [now apply (meqb_eq _ _ H2)|]. apply (meqb_neq _ _ H2) in Ey. exfalso.
  apply N. apply (smul_inj_g HK H2 c c' y Ey). rewrite <- E' in E. now apply (madd_cancel _ _ H2) in E.
Qed.
Section Enc2.
Variable C : curve.
Hypothesis FE2 : fixed_encoding (enc2 (c := C)).
Lemma split_list2 (l l' : list (cG2 C)) r r' : length l = length l' -> concat (map enc2 l) ++ r = concat (map enc2 l') ++ r' -> l = l' /\ r = r'.
Proof. exact (split_list (flip C) FE2 l l' r r'). Qed.
Lemma concat_enc_length2 n (l : list (cG2 C)) : (forall x, length (enc2 (c := C) x) = n) -> length (concat (map (enc2 (c := C)) l)) = (n * length l)%nat.
Proof. exact (concat_enc_length (flip C) n l). Qed.
Lemma same_hidden (hs : list (cG2 C)) R R' : NoDup hs -> not_in_set R hs = not_in_set R' hs -> forall i, (i < length hs)%nat -> (In i R <-> In i R').
Proof.
  intros ND E i Li. destruct (nth_error hs i) as [h|] eqn:Eh; [|apply nth_error_None in Eh; lia]. unfold not_in_set in E.
  pose proof (gens_nodup_in (flip C) (fun j => negb (contains R j)) hs ND 0 i h Eh) as Q. pose proof (gens_nodup_in (flip C) (fun j => negb (contains R' j)) hs ND 0 i h Eh) as Q'.
  cbn beta in Q, Q'.
  assert (negb (contains R i) = true <-> negb (contains R' i) = true) as X.
  { change i with (0 + i)%nat. etransitivity; [symmetry; exact Q|]. etransitivity; [|exact Q'].
    change (In h (not_in_set R hs) <-> In h (not_in_set R' hs)). unfold not_in_set. now rewrite E. }
  rewrite !negb_true_iff in X. rewrite <- !contains_iff. destruct (contains R i), (contains R' i); try tauto.
  - assert (true = false) by (apply X; reflexivity). discriminate.
  - assert (true = false) by (apply X; reflexivity). discriminate.
Qed.
End Enc2.

(** ** theorems *)
(** an accepted proof is rejected, without an error, for every other challenge, unless J is
    neutral *)
Theorem C155_accepted_for_one_challenge : forall (C : curve) (p : ps_params C) vk pf revealed ch ch', curve_laws C ->
  ps_pok_verify C pf vk p revealed ch = Ok true -> ch <> ch' -> pf_J pf <> m0 -> ps_pok_verify C pf vk p revealed ch' = Ok false.
Proof.
  intros C p vk pf rv c c' LW V N NJ. apply (pok_verify_iff C LW) in V. destruct V as (N1 & N2 & L & _ & W & _). pose proof (cl_g1 C LW) as H1. pose proof (cl_g2 C LW) as H2.
  apply (vproof_verify_iff H2) in W. destruct W as (Lr & W).
  unfold ps_pok_verify. rewrite (proj2 (meqb_neq _ _ H1 _ _) N1), (proj2 (meqb_neq _ _ H1 _ _) N2). cbn [orb].
  destruct (Nat.ltb_spec (length (vk_Y vk) + 1) (length rv)) as [L'|_]; [lia|].
  destruct (vproof_verify (pf_vc pf) (pp_gt p :: not_in_set (map fst rv) (vk_Y vk)) (pf_J pf) c') as [[|]|e] eqn:E; [|reflexivity|].
  - exfalso. apply (vproof_verify_iff H2) in E. destruct E as (_ & E). apply NJ. exact (two_challenges2 C LW _ _ _ _ _ W E N).
  - exfalso. unfold vproof_verify in E. rewrite Lr, Nat.eqb_refl in E. discriminate.
Qed.
Print Assumptions C155_accepted_for_one_challenge.
(** the bytes hashed determine the randomised signature, J, the commitment of the Schnorr
    proof and the set of revealed indices *)
Theorem C155_bytes_bind : forall (C : curve) (p : ps_params C) vk (pf pf' : ps_pok_proof C) revealed revealed',
  fixed_encoding (enc1 (c := C)) -> fixed_encoding (enc2 (c := C)) -> NoDup (vk_Y vk) ->
  ps_challenge_bytes C pf revealed vk p = ps_challenge_bytes C pf' revealed' vk p ->
  pf_sig pf = pf_sig pf' /\ pf_J pf = pf_J pf' /\ vp_com (pf_vc pf) = vp_com (pf_vc pf') /\
  forall i, (i < length (vk_Y vk))%nat -> (In i revealed <-> In i revealed').
Proof.
  intros C p vk pf pf' R R' F1 F2 ND E. unfold ps_challenge_bytes, ps_sig_bytes in E. rewrite <- !app_assoc in E.
  destruct (split_fixed _ _ _ _ _ F1 E) as [S1 E1]. destruct (split_fixed _ _ _ _ _ F1 E1) as [S2 E2]. destruct (split_fixed _ _ _ _ _ F2 E2) as [SJ E3]. apply app_inv_head in E3.
  assert (length (not_in_set R (vk_Y vk)) = length (not_in_set R' (vk_Y vk))) as L.
  { pose proof F2 as (_ & n & Pn & Ln). apply (f_equal (@length Z)) in E3. rewrite !app_length, !(concat_enc_length2 C n) in E3 by exact Ln. rewrite !Ln in E3. nia. }
  destruct (split_list2 C F2 _ _ _ _ L E3) as [Eh E4].
  split; [destruct (pf_sig pf) as [a1 a2], (pf_sig pf') as [b1 b2]; cbn [s_1 s_2] in S1, S2; now subst|]. split; [exact SJ|]. split; [now apply (proj1 F2)|]. now apply same_hidden.
Qed.
Print Assumptions C155_bytes_bind.
(** unlike for BBS+ (C59), the randomised signature and J, which are hashed, fix the revealed
    part: two accepted presentations of them, for whatever challenges and indices, agree on
    the sum of the revealed messages times the generators *)
Theorem C155_revealed_part_fixed : forall (C : curve) (p : ps_params C) vk (pf pf' : ps_pok_proof C) revealed revealed' ch ch', curve_laws C -> nondegenerate_pairing C ->
  pf_sig pf = pf_sig pf' -> pf_J pf = pf_J pf' ->
  ps_pok_verify C pf vk p revealed ch = Ok true -> ps_pok_verify C pf' vk p revealed' ch' = Ok true ->
  revealed_point vk revealed = revealed_point vk revealed'.
Proof.
  intros C p vk pf pf' rv rv' c c' LW NDg ES EJ V V'. pose proof (cl_g2 C LW) as H2. pose proof (cl_gt C LW) as HT. apply (pok_verify_iff C LW) in V, V'. rewrite !revealed_msum in *.
  destruct V as (N1 & _ & _ & _ & _ & E), V' as (_ & _ & _ & _ & _ & E'). rewrite <- ES, <- EJ, <- E in E'. symmetry.
  apply (madd_cancel _ _ H2 (pf_J pf)). apply (madd_cancel _ _ H2 (vk_X vk)). rewrite !(madd_comm _ _ H2 (vk_X vk)).
  apply (msub_0 _ _ H2). apply (NDg (s_1 (pf_sig pf))); [exact N1|]. unfold msub.
  rewrite (p_add_r C LW), E', (mopp_smul _ (cl_field C LW) _ H2), (p_smul_r C LW), <- (mopp_smul _ (cl_field C LW) _ HT). apply (madd_opp _ _ HT).
Qed.
Print Assumptions C155_revealed_part_fixed.
(** so with one revealed message the message is fixed *)
Theorem C155_revealed_message_fixed : forall (C : curve) (p : ps_params C) vk (pf pf' : ps_pok_proof C) i m m' ch ch', curve_laws C -> nondegenerate_pairing C ->
  pf_sig pf = pf_sig pf' -> pf_J pf = pf_J pf' -> nth i (vk_Y vk) m0 <> m0 ->
  ps_pok_verify C pf vk p [(i, m)] ch = Ok true -> ps_pok_verify C pf' vk p [(i, m')] ch' = Ok true -> m = m'.
Proof.
  intros C p vk pf pf' i m m' c c' LW NDg ES EJ Ny V V'. pose proof (C155_revealed_part_fixed C p vk pf pf' _ _ c c' LW NDg ES EJ V V') as E. pose proof (cl_g2 C LW) as H2.
  unfold revealed_point in E. cbn [fold_right fst snd] in E. rewrite !(madd_0_r _ _ H2) in E. exact (smul_inj_g (cl_field C LW) H2 m m' _ Ny E).
Qed.
Print Assumptions C155_revealed_message_fixed.
(** concrete cases over the toy curve *)
Lemma T257_pairing : nondegenerate_pairing T257.
Proof.
  intros a b Na E. change (fmul (a : FpOps 257) (b : FpOps 257) = (f0 : FpOps 257)) in E. change (b = (f0 : FpOps 257)). apply (fmul_integral _ (FpOps_laws 257 prime_257)) in E. destruct E as [E|E]; [|exact E]. exfalso. apply Na. exact E.
Qed.
Lemma T257_enc2 : fixed_encoding (enc2 (c := T257)).
Proof. exact T257_enc1. Qed.
Example C155_ex : is_true (yaccept 50 [(1%nat, xk 30)]) = true /\ is_false (let! pf := yproof 50 in ps_pok_verify T257 pf yvk yp [(1%nat, xk 30)] (xk 51)) = true /\
  match yproof 50 with Ok pf => meqb (pf_J pf) m0 = false | Err _ => False end /\
  NoDup (map (@fpv 257) (vk_Y yvk)) /\ nondegenerate_pairing T257 /\ fixed_encoding (enc1 (c := T257)) /\ fixed_encoding (enc2 (c := T257)).
Proof.
  split; [vm_compute; reflexivity|]. split; [vm_compute; reflexivity|]. split; [vm_compute; reflexivity|]. split; [|split; [apply T257_pairing|split; [apply T257_enc1|apply T257_enc2]]].
  vm_compute. repeat constructor; cbn [In]; intros Q; repeat (destruct Q as [Q|Q]; [discriminate|]); exact Q.
Qed.

(** Properties C57-C60: what an accepted BBS+ disclosure proof does and does not prove, and
    what it hides. *)
From Verif Require Import Base BnModel NumTheory Alg Lin Fp ClRevModel ClRevSpec CurveInst BbsModel BbsLib BbsProps BbsPokProps.
Import List ListNotations.
Open Scope list_scope.
Open Scope Z_scope.

(** ** C57: special soundness *)
Lemma two_list {A} (l : list A) : length l = 2%nat -> exists a b, l = [a; b].
Proof. destruct l as [|a [|b [|c l]]]; intros E; try discriminate. now exists a, b. Qed.
Lemma cons2_list {A} (l : list A) n : length l = S (S n) -> exists a b t, l = a :: b :: t /\ length t = n.
Proof. destruct l as [|a [|b t]]; intros E; try discriminate. exists a, b, t. split; [reflexivity|]. cbn in E. congruence. Qed.
Lemma lookup_in (C : curve) i m (rv : list (nat * cK C)) : NoDup (map fst rv) -> In (i, m) rv -> lookup C i rv = Some m.
Proof.
  unfold lookup. induction rv as [|[j v] rv IH]; intros ND I; [destruct I|]. cbn [map fst] in ND. inversion ND as [|? ? NI ND']; subst. cbn [find fst]. destruct I as [E|I].
  - assert (j = i /\ v = m) as [-> ->] by (split; congruence). now rewrite Nat.eqb_refl.
  - destruct (Nat.eqb j i) eqn:Ej; [|now apply IH]. apply Nat.eqb_eq in Ej. subst j. exfalso. apply NI. apply in_map_iff. now exists (i, m).
Qed.
Section Sound.
Variable C : curve.
Hypothesis LW : curve_laws C.
Let HK := cl_field C LW. Let H1 := cl_g1 C LW. Let H2 := cl_g2 C LW. Let HT := cl_gt C LW.
Add Field Kf57 : (proj1 HK).
Lemma special_soundness : forall g1 g2 (pk : bbs_pk C) (pf pf' : pok_proof C) revealed c c',
  pok_verify C g1 g2 pf pk revealed c = Ok PSuccess -> pok_verify C g1 g2 pf' pk revealed c' = Ok PSuccess -> c <> c' -> NoDup (map fst revealed) ->
  pp_a_prime _ pf = pp_a_prime _ pf' -> pp_a_bar _ pf = pp_a_bar _ pf' -> pp_d _ pf = pp_d _ pf' ->
  vp_commitment _ (pp_vc1 _ pf) = vp_commitment _ (pp_vc1 _ pf') -> vp_commitment _ (pp_vc2 _ pf) = vp_commitment _ (pp_vc2 _ pf') ->
  let d1 := scaled_diff (finv (fsub c' c)) (vp_responses _ (pp_vc1 _ pf)) (vp_responses _ (pp_vc1 _ pf')) in
  let d2 := scaled_diff (finv (fsub c' c)) (vp_responses _ (pp_vc2 _ pf)) (vp_responses _ (pp_vc2 _ pf')) in
  exists x1 y1 xd y hidden, d1 = [x1; y1] /\ d2 = xd :: y :: hidden /\
    let ms := fill f0 (fun i => lookup C i revealed) 0 (length (bh _ pk)) hidden in
    let sig := mkBbsSig C (smul (fopp xd) (pp_a_prime _ pf)) (fopp x1) (fadd y (fmul (fopp xd) y1)) in
    length ms = length (bh _ pk) /\ (forall i m, In (i, m) revealed -> nth_error ms i = Some m) /\
    (xd <> f0 -> sa _ sig <> m0 /\ bbs_equation g1 g2 pk sig ms) /\
    (xd = f0 -> message_point g1 pk y ms = m0).
Proof.
  intros g1 g2 pk pf pf' rv c c' V V' Nc ND Ea Eb Ed E1 E2 d1 d2.
  apply (pok_verify_success C LW) in V, V'. destruct V as (G & R & Na & P & V1 & V2), V' as (_ & _ & _ & _ & V1' & V2').
  rewrite <- Ea, <- Eb, <- Ed in V1'. rewrite <- Ed in V2'.
  apply (vc_verify_iff C LW) in V1, V2, V1', V2'. destruct V1 as (L1 & V1), V2 as (L2 & V2), V1' as (L1' & V1'), V2' as (L2' & V2').
  rewrite <- E1 in V1'. rewrite <- E2 in V2'.
  pose proof (schnorr_extract HK H1 _ _ _ c c' _ _ L1 L1' Nc V1 V1') as X1.
  pose proof (schnorr_extract HK H1 _ _ _ c c' _ _ L2 L2' Nc V2 V2') as X2.
  set (k := finv (fsub c' c)) in *. fold d1 in X1. fold d2 in X2.
  assert (length d1 = 2%nat) as L3 by (unfold d1; rewrite length_scaled_diff by congruence; exact L1).
  assert (length d2 = S (S (length (hidg (fun i => lookup C i rv) 0 (bh C pk))))) as L4 by (unfold d2; rewrite length_scaled_diff by congruence; exact L2).
  destruct (two_list _ L3) as (x1 & y1 & Es1). destruct (cons2_list _ _ L4) as (xd & y & hv & Es2 & Lh). rewrite Es1 in X1. rewrite Es2 in X2. clear V1 V2 V1' V2' L1 L2 L1' L2' L3 L4 E1 E2.
  rewrite !lin_cons, lin_nil_l in X1. rewrite !lin_cons in X2.
  set (f := fun i => lookup C i rv) in *. set (ms := fill f0 f 0 (length (bh C pk)) hv).
  assert (lin (bh C pk) ms = madd (lin (hidg f 0 (bh C pk)) hv) (lin (map fst (disc f 0 (bh C pk))) (map snd (disc f 0 (bh C pk))))) as El by (now apply (lin_fill C LW)).
  set (H := lin (hidg f 0 (bh C pk)) hv) in *. set (D := lin (map fst _) (map snd _)) in *.
  assert (length ms = length (bh C pk)) as Lm by apply fill_length.
  assert (message_point g1 pk y ms = smul (fopp xd) (pp_d C pf)) as Em.
  { unfold message_point. rewrite El. 
    transitivity (msub (madd (smul y (bh0 C pk)) H) (mopp (madd g1 D))); [module_coefs HK H1; ring|].
    rewrite <- X2. module_coefs HK H1; ring. }
  exists x1, y1, xd, y, hv. split; [exact Es1|]. split; [exact Es2|]. split; [exact Lm|]. split; [|split].
  { intros i m I. apply fill_nth; [now apply (R i m)|]. now apply lookup_in. }
  2:{ intros Z. fold f. fold ms. rewrite Em, Z. assert (fopp f0 = (f0 : cK C)) as -> by ring. apply (smul_0_l _ HK _ H1). }
  intros NZ. set (r3 := fopp xd) in *. fold f. fold ms. split.
  - cbn [sa]. apply (smul_nonzero HK H1); [|exact Na]. unfold r3. intros Z. apply NZ. transitivity (fopp (fopp xd)); [ring|]. rewrite Z. ring.
  - unfold bbs_equation. cbn [sa se ss].
    assert (message_point g1 pk (fadd y (fmul r3 y1)) ms = madd (message_point g1 pk y ms) (smul (fmul r3 y1) (bh0 C pk))) as -> by (unfold message_point; module_coefs HK H1; ring).
    rewrite Em. assert (pp_d C pf = msub (msub (pp_a_bar C pf) (smul x1 (pp_a_prime C pf))) (smul y1 (bh0 C pk))) as ->.
    { transitivity (msub (pp_a_bar C pf) (msub (pp_a_bar C pf) (pp_d C pf))); [module_coefs HK H1; ring|]. rewrite <- X1. module_coefs HK H1; ring. }
    transitivity (pair (smul r3 (msub (pp_a_bar C pf) (smul x1 (pp_a_prime C pf)))) g2); [|f_equal; module_coefs HK H1; ring].
    rewrite (p_add_r C LW), !(p_smul_l C LW), (p_sub_l C LW), (p_smul_l C LW), (p_smul_r C LW), P. module_coefs HK HT; ring.
Qed.
End Sound.
(** two accepted answers to different challenges with the same first message: the scaled
    differences of the responses give the hidden messages and a signature on them and the revealed
    ones, or, if the first of them is zero, a linear relation between the generators *)
Theorem C57_special_soundness : forall (C : curve) g1 g2 (pk : bbs_pk C) (pf pf' : pok_proof C) revealed c c', curve_laws C ->
  pok_verify C g1 g2 pf pk revealed c = Ok PSuccess -> pok_verify C g1 g2 pf' pk revealed c' = Ok PSuccess -> c <> c' -> NoDup (map fst revealed) ->
  pp_a_prime _ pf = pp_a_prime _ pf' -> pp_a_bar _ pf = pp_a_bar _ pf' -> pp_d _ pf = pp_d _ pf' ->
  vp_commitment _ (pp_vc1 _ pf) = vp_commitment _ (pp_vc1 _ pf') -> vp_commitment _ (pp_vc2 _ pf) = vp_commitment _ (pp_vc2 _ pf') ->
  let d1 := scaled_diff (finv (fsub c' c)) (vp_responses _ (pp_vc1 _ pf)) (vp_responses _ (pp_vc1 _ pf')) in
  let d2 := scaled_diff (finv (fsub c' c)) (vp_responses _ (pp_vc2 _ pf)) (vp_responses _ (pp_vc2 _ pf')) in
  exists x1 y1 xd y hidden, d1 = [x1; y1] /\ d2 = xd :: y :: hidden /\
    let ms := fill f0 (fun i => lookup C i revealed) 0 (length (bh _ pk)) hidden in
    let sig := mkBbsSig C (smul (fopp xd) (pp_a_prime _ pf)) (fopp x1) (fadd y (fmul (fopp xd) y1)) in
    length ms = length (bh _ pk) /\ (forall i m, In (i, m) revealed -> nth_error ms i = Some m) /\
    (xd <> f0 -> sa _ sig <> m0 /\ bbs_equation g1 g2 pk sig ms) /\
    (xd = f0 -> message_point g1 pk y ms = m0).
Proof. intros C g1 g2 pk pf pf' rv c c' LW. now apply special_soundness. Qed.
Print Assumptions C57_special_soundness.

(** ** C58: the verifier's list of attributes to reveal is not enforced *)
Lemma request_ignored : forall (C : curve) g1 g2 hash_fr encF (pk : bbs_pk C) sig (ms : list (proof_message C)) (requested : list nat) r1 r2 rs1 rs2 nonce, curve_laws C ->
  length ms = length (bh _ pk) -> sig_verify C g1 g2 sig (map (get_message C) ms) pk = Ok true -> r1 <> f0 ->
  exists p c sp, pok_init C g1 g2 sig pk ms r1 r2 rs1 rs2 = Ok p /\ generate_signature_pok C p c = Ok sp /\
    verify_signature_pok C g1 g2 hash_fr encF (mkRequest C requested pk) sp nonce = Ok (revealed_values C ms).
Proof.
  intros C g1 g2 hash_fr encF pk sig ms R r1 r2 rs1 rs2 nonce LW L V N. set (p := init_state C g1 sig pk ms r1 r2 rs1 rs2).
  set (c := hash_fr (challenge_bytes C (mkPokProof C (ps_a_prime _ p) (ps_a_bar _ p) (ps_d _ p) (mkVcProof C (vc_commitment _ (ps_vc1 _ p)) []) (mkVcProof C (vc_commitment _ (ps_vc2 _ p)) [])) R pk ++ encF nonce)).
  destruct (init_verify C LW g1 g2 sig pk ms r1 r2 rs1 rs2 c L V N) as (pf & Eg & Ev & E1 & E2 & E3 & E4 & E5). fold p in Eg, E1, E2, E3, E4, E5.
  exists p, c, (mkSigProof C (reveals C 0 ms) pf). split; [now apply (pok_init_eq C LW)|]. split; [unfold generate_signature_pok; now rewrite Eg|].
  unfold verify_signature_pok. cbn [sp_proof sp_revealed pr_revealed pr_key].
  assert (hash_fr (challenge_bytes C pf R pk ++ encF nonce) = c) as ->.
  { unfold c. do 2 f_equal. unfold challenge_bytes. cbn [pp_a_prime pp_a_bar pp_d pp_vc1 pp_vc2 vp_commitment]. now rewrite E1, E2, E3, E4, E5. }
  rewrite Ev. cbn [rbind]. now rewrite reveals_values.
Qed.
(** whatever set of indices the verifier asked for, the holder of a valid signature decides
    which messages it reveals, and the verifier accepts *)
Theorem C58_refuted_request_enforced : forall (C : curve) g1 g2 hash_fr encF (pk : bbs_pk C) sig (ms : list (proof_message C)) (requested : list nat) r1 r2 rs1 rs2 nonce, curve_laws C ->
  length ms = length (bh _ pk) -> sig_verify C g1 g2 sig (map (get_message C) ms) pk = Ok true -> r1 <> f0 ->
  exists p c sp, pok_init C g1 g2 sig pk ms r1 r2 rs1 rs2 = Ok p /\ generate_signature_pok C p c = Ok sp /\
    verify_signature_pok C g1 g2 hash_fr encF (mkRequest C requested pk) sp nonce = Ok (revealed_values C ms).
Proof. exact request_ignored. Qed.
Print Assumptions C58_refuted_request_enforced.
(** in particular it can reveal nothing at all *)
Theorem C58_refuted_reveals_nothing : forall (C : curve) g1 g2 hash_fr encF (pk : bbs_pk C) sig (messages : list (cK C)) (requested : list nat) nonce, curve_laws C ->
  length messages = length (bh _ pk) -> sig_verify C g1 g2 sig messages pk = Ok true ->
  exists p c sp, pok_init C g1 g2 sig pk (map (HiddenSpecific C) messages) f1 f1 (fun _ => f1) (fun _ => f1) = Ok p /\ generate_signature_pok C p c = Ok sp /\
    sp_revealed _ sp = [] /\ verify_signature_pok C g1 g2 hash_fr encF (mkRequest C requested pk) sp nonce = Ok [].
Proof.
  intros C g1 g2 hash_fr encF pk sig messages R nonce LW L V. set (ms := map (HiddenSpecific C) messages).
  assert (map (get_message C) ms = messages) as Em by (unfold ms; rewrite map_map; cbn [get_message]; apply map_id).
  assert (revealed_values C ms = [] /\ forall i, reveals C i ms = []) as [Er Er'].
  { unfold ms. clear. split; [|intros i; revert i]; induction messages as [|m l IH]; try reflexivity; [exact IH|]. intros i. cbn [map reveals]. apply IH. }
  destruct (request_ignored C g1 g2 hash_fr encF pk sig ms R f1 f1 (fun _ => f1) (fun _ => f1) nonce LW) as (p & c & sp & E1 & E2 & E3).
  - unfold ms. now rewrite map_length.
  - now rewrite Em.
  - apply (f1_neq_0 _ (cl_field C LW)).
  - exists p, c, sp. rewrite Er in E3. split; [exact E1|]. split; [exact E2|]. split; [|exact E3]. rewrite (pok_init_eq C LW) in E1 by (try (unfold ms; now rewrite map_length); now rewrite Em).
    assert (p = init_state C g1 sig pk ms f1 f1 (fun _ => f1) (fun _ => f1)) as -> by congruence.
    unfold generate_signature_pok in E2. destruct (pok_gen_proof _ _ _) as [pf|] eqn:Eg; [|discriminate]. cbn [rbind] in E2.
    assert (sp = mkSigProof C (reveals C 0 ms) pf) as -> by (cbn [ps_revealed init_state] in E2; congruence). apply Er'.
Qed.
Print Assumptions C58_refuted_reveals_nothing.

(** ** C59: the revealed messages are not part of what is hashed *)
Section Update.
Variable C : curve.
Hypothesis LW : curve_laws C.
Let HK := cl_field C LW. Let H1 := cl_g1 C LW.
Add Field Kf59 : (proj1 HK).
Definition update_at (i : nat) (v : cK C) (rv : list (nat * cK C)) : list (nat * cK C) := map (fun im => if Nat.eqb (fst im) i then (i, v) else im) rv.
Lemma lookup_update i v rv j : lookup C j (update_at i v rv) = if Nat.eqb j i then match lookup C j rv with Some _ => Some v | None => None end else lookup C j rv.
Proof.
  unfold lookup, update_at. induction rv as [|[k m] rv IH]; [now destruct (Nat.eqb j i)|]. cbn [map find fst]. destruct (Nat.eqb k i) eqn:Ek.
  - apply Nat.eqb_eq in Ek. subst k. cbn [fst]. destruct (Nat.eqb i j) eqn:Ej; [apply Nat.eqb_eq in Ej; subst j; now rewrite Nat.eqb_refl|exact IH].
  - cbn [fst]. destruct (Nat.eqb k j) eqn:Ej; [|exact IH]. apply Nat.eqb_eq in Ej. subst k. now rewrite Ek.
Qed.
Lemma update_fst i v rv : map fst (update_at i v rv) = map fst rv.
Proof. unfold update_at. rewrite map_map. apply map_ext. intros [k m]. cbn [fst]. destruct (Nat.eqb k i) eqn:E; [apply Nat.eqb_eq in E; now subst|reflexivity]. Qed.
Lemma hidg_same {A V W} (f : nat -> option V) (g : nat -> option W) : (forall j, f j = None <-> g j = None) -> forall (hs : list A) i, hidg f i hs = hidg g i hs.
Proof.
  intros E. induction hs as [|h hs IH]; intros i; [reflexivity|]. cbn [hidg]. specialize (E i). rewrite IH. destruct (f i), (g i); try reflexivity; exfalso; [assert (@Some V v = None) by (now apply E)|assert (@Some W w = None) by (now apply E)]; discriminate.
Qed.
Lemma disc_update (f g : nat -> option (cK C)) i m v : f i = Some m -> g i = Some v -> (forall j, j <> i -> f j = g j) -> forall (hs : list (cG1 C)) k,
  lin (map fst (disc g k hs)) (map snd (disc g k hs)) =
  madd (lin (map fst (disc f k hs)) (map snd (disc f k hs))) (if (i <? k)%nat then m0 else match nth_error hs (i - k) with Some h => smul (fsub v m) h | None => m0 end).
Proof.
  intros Ef Eg E. induction hs as [|h hs IH]; intros k.
  - cbn [disc map]. rewrite !lin_nil_l. destruct (i <? k)%nat; [now rewrite (madd_0_l _ _ H1)|]. destruct (i - k)%nat; cbn [nth_error]; now rewrite (madd_0_l _ _ H1).
  - cbn [disc]. destruct (Nat.lt_trichotomy i k) as [Lt|[Eq|Gt]].
    + specialize (IH (S k)). rewrite (proj2 (Nat.ltb_lt i k)) by lia. rewrite (proj2 (Nat.ltb_lt i (S k))) in IH by lia. rewrite <- (E k) by lia.
      destruct (f k); cbn [map fst snd]; rewrite ?lin_cons, IH; module_coefs HK H1; ring.
    + subst k. specialize (IH (S i)). rewrite Nat.ltb_irrefl, Nat.sub_diag. rewrite (proj2 (Nat.ltb_lt i (S i))) in IH by lia. rewrite Ef, Eg. cbn [map fst snd nth_error]. rewrite !lin_cons, IH. module_coefs HK H1; ring.
    + specialize (IH (S k)). rewrite (proj2 (Nat.ltb_ge i k)) by lia. rewrite (proj2 (Nat.ltb_ge i (S k))) in IH by lia. rewrite <- (E k) by lia. replace (i - k)%nat with (S (i - S k)) by lia. cbn [nth_error].
      destruct (f k); cbn [map fst snd]; rewrite ?lin_cons, IH; module_coefs HK H1; ring.
Qed.
(** an accepted proof with one revealed value changed and the commitment moved accordingly *)
Lemma shift_accept g1 g2 (pk : bbs_pk C) pf rv c i m v h : pok_verify C g1 g2 pf pk rv c = Ok PSuccess -> lookup C i rv = Some m -> nth_error (bh _ pk) i = Some h ->
  pok_verify C g1 g2 (mkPokProof C (pp_a_prime _ pf) (pp_a_bar _ pf) (pp_d _ pf) (pp_vc1 _ pf)
    (mkVcProof C (madd (vp_commitment _ (pp_vc2 _ pf)) (smul (fmul c (fsub m v)) h)) (vp_responses _ (pp_vc2 _ pf)))) pk (update_at i v rv) c = Ok PSuccess.
Proof.
  intros V Em Eh. apply (pok_verify_success C LW) in V. destruct V as (G & R & Na & P & V1 & V2). apply (proj2 (pok_verify_success C LW g1 g2 _ _ _ _)). cbn [pp_a_prime pp_a_bar pp_d pp_vc1 pp_vc2].
  split; [exact G|]. split.
  { intros j w I. assert (In j (map fst (update_at i v rv))) as I' by (apply in_map_iff; now exists (j, w)). rewrite update_fst in I'. apply in_map_iff in I'. destruct I' as ([j' w'] & E & I'). cbn in E. subst j'. now apply (R j w'). }
  split; [exact Na|]. split; [exact P|]. split; [exact V1|]. apply (vc_verify_iff C LW) in V2. destruct V2 as (L2 & V2). apply (vc_verify_iff C LW). cbn [vp_responses vp_commitment].
  assert (hidg (fun j => lookup C j (update_at i v rv)) 0 (bh C pk) = hidg (fun j => lookup C j rv) 0 (bh C pk)) as ->.
  { apply hidg_same. intros j. rewrite lookup_update. destruct (Nat.eqb j i); [|tauto]. destruct (lookup C j rv); split; intros; congruence. }
  split; [exact L2|]. rewrite (disc_update (fun j => lookup C j rv) (fun j => lookup C j (update_at i v rv)) i m v).
  - rewrite Nat.sub_0_r, Eh. replace (i <? 0)%nat with false by (destruct i; reflexivity). rewrite <- V2. module_coefs HK H1; ring.
  - exact Em.
  - now rewrite lookup_update, Nat.eqb_refl, Em.
  - intros j Nj. rewrite lookup_update. now rewrite (proj2 (Nat.eqb_neq j i) Nj).
Qed.
End Update.
Lemma in_reveals (C : curve) (ms : list (proof_message C)) j m : In (j, m) (reveals C 0 ms) <-> nth_error ms j = Some (Revealed C m).
Proof.
  assert (forall l k, In (j, m) (reveals C k l) <-> (k <= j)%nat /\ nth_error l (j - k) = Some (Revealed C m)) as Q.
  { induction l as [|x l IH]; intros k.
    - cbn [reveals In]. split; [tauto|]. intros [_ E]. destruct (j - k)%nat; discriminate.
    - specialize (IH (S k)). destruct (Nat.eq_dec j k) as [E|N].
      + subst k. rewrite Nat.sub_diag. cbn [nth_error]. destruct x; cbn [reveals In]; rewrite IH; (split; [intros Q|intros Q]).
        * destruct Q as [Q|[Q _]]; [|lia]. split; [lia|congruence].
        * left. destruct Q. congruence.
        * destruct Q. lia.
        * destruct Q. discriminate.
        * destruct Q. lia.
        * destruct Q. discriminate.
      + assert (In (j, m) (reveals C k (x :: l)) <-> In (j, m) (reveals C (S k) l)) as ->. { destruct x; cbn [reveals In]; try tauto. split; [intros [E|I]; [congruence|exact I]|auto]. }
        rewrite IH. destruct (Nat.le_gt_cases k j) as [Le|Gt]; [|lia]. replace (j - k)%nat with (S (j - S k)) by lia. cbn [nth_error]. intuition lia. }
  rewrite Q, Nat.sub_0_r. intuition lia.
Qed.
(** the holder of a signature on a message m can present, at that index, a value different
    from m, and the verifier accepts and returns it: the holder runs the protocol, adds the
    generator of that index to the second commitment before hashing, answers the challenge c as
    usual and presents m - 1/c *)
Theorem C59_refuted_revealed_signed : forall (C : curve) g1 g2 hash_fr encF (pk : bbs_pk C) sig (ms : list (proof_message C)) i m h (requested : list nat) nonce r1 r2 rs1 rs2, curve_laws C ->
  length ms = length (bh _ pk) -> sig_verify C g1 g2 sig (map (get_message C) ms) pk = Ok true -> nth_error ms i = Some (Revealed C m) -> nth_error (bh _ pk) i = Some h -> r1 <> f0 ->
  exists p, pok_init C g1 g2 sig pk ms r1 r2 rs1 rs2 = Ok p /\
    let first resp1 resp2 := mkPokProof C (ps_a_prime _ p) (ps_a_bar _ p) (ps_d _ p) (mkVcProof C (vc_commitment _ (ps_vc1 _ p)) resp1) (mkVcProof C (madd (vc_commitment _ (ps_vc2 _ p)) h) resp2) in
    let c := hash_fr (challenge_bytes C (first [] []) requested pk ++ encF nonce) in
    c <> f0 ->
    exists pf, pok_gen_proof C p c = Ok pf /\
    let v := fsub m (finv c) in let sp := mkSigProof C (update_at C i v (reveals C 0 ms)) (first (vp_responses _ (pp_vc1 _ pf)) (vp_responses _ (pp_vc2 _ pf))) in
    v <> m /\ verify_signature_pok C g1 g2 hash_fr encF (mkRequest C requested pk) sp nonce = Ok (map snd (sp_revealed _ sp)) /\
    In (i, v) (sp_revealed _ sp) /\ map fst (sp_revealed _ sp) = revealed_indices C ms /\
    (forall j m', j <> i -> In (j, m') (sp_revealed _ sp) -> nth_error ms j = Some (Revealed C m')).
Proof.
  intros C g1 g2 hash_fr encF pk sig ms i m h R nonce r1 r2 rs1 rs2 LW L V Ei Eh Nr. pose proof (cl_field C LW) as HK. pose proof (cl_g1 C LW) as H1.
  set (p := init_state C g1 sig pk ms r1 r2 rs1 rs2). exists p. split; [now apply (pok_init_eq C LW)|]. intros first c Nc.
  set (t2 := madd (vc_commitment _ (ps_vc2 _ p)) h).
  destruct (init_verify C LW g1 g2 sig pk ms r1 r2 rs1 rs2 c L V Nr) as (pf & Eg & Ev & E1 & E2 & E3 & E4 & E5). fold p in Eg, E1, E2, E3, E4, E5.
  exists pf. split; [exact Eg|].
  intros v sp.
  assert (fmul c (fsub m v) = f1) as Ec.
  { unfold v. transitivity (fmul (finv c) c); [|now apply (finv_mul_l _ HK)]. destruct HK as [[HR _ _ _] _]. destruct HR. rewrite !Rsub_def.
    assert (fopp (fadd m (fopp (finv c))) = fadd (fopp m) (finv c)) as ->.
    { assert (forall a b : cK C, fadd a b = f0 -> b = fopp a) as U. { intros a b W. transitivity (fadd f0 b); [now rewrite Radd_0_l|]. rewrite <- (Ropp_def a). rewrite (Radd_comm a (fopp a)), <- Radd_assoc, W. rewrite Radd_comm. apply Radd_0_l. }
      symmetry. apply U. rewrite (Radd_comm (fopp m)). rewrite <- Radd_assoc, (Radd_assoc (fopp (finv c))), (Radd_comm (fopp (finv c))), Ropp_def, Radd_0_l. apply Ropp_def. }
    rewrite Radd_assoc, Ropp_def, Radd_0_l. apply Rmul_comm. }
  pose proof (shift_accept C LW g1 g2 pk pf (reveals C 0 ms) c i m v h Ev) as A. rewrite Ec, (smul_1 _ _ H1), E5 in A. fold t2 in A.
  assert (lookup C i (reveals C 0 ms) = Some m) as El by (rewrite lookup_reveals; unfold shown; cbn [Nat.ltb Nat.leb]; now rewrite Nat.sub_0_r, Ei).
  specialize (A El Eh). split.
  { intros Q. apply (f1_neq_0 _ HK). rewrite <- Ec, Q. pose proof HK as HK2. destruct HK2 as [[HR _ _ _] _]. assert (fsub m m = (f0 : cK C)) as -> by (destruct HR; now rewrite Rsub_def, Ropp_def).
    pose proof (cl_field C LW) as HK'. destruct (feq_dec _ HK' (fmul c f0) f0) as [Z|Z]; [exact Z|]. exfalso. apply Z.
    assert (fadd (fmul c f0) (fmul c f0) = fmul c f0) as W. { destruct HR. rewrite !(Rmul_comm c), <- Rdistr_l. now rewrite Radd_0_l. }
    destruct HR. transitivity (fadd (fadd (fmul c f0) (fmul c f0)) (fopp (fmul c f0))); [rewrite <- Radd_assoc, Ropp_def, Radd_comm; now rewrite Radd_0_l|rewrite W; apply Ropp_def]. }
  unfold sp. cbn [sp_revealed]. split; [|split; [|split]].
  - unfold verify_signature_pok. cbn [sp_proof sp_revealed pr_revealed pr_key].
    change (challenge_bytes C (first (vp_responses C (pp_vc1 C pf)) (vp_responses C (pp_vc2 C pf))) R pk) with (challenge_bytes C (first [] []) R pk). fold c.
    assert (pp_vc1 C pf = mkVcProof C (vc_commitment _ (ps_vc1 _ p)) (vp_responses C (pp_vc1 C pf))) as Et by (rewrite <- E4; now destruct (pp_vc1 C pf)).
    unfold first. rewrite <- Et, <- E1, <- E2, <- E3. fold t2. rewrite A. cbn [rbind]. reflexivity.
  - unfold update_at. apply in_map_iff. exists (i, m). cbn [fst]. rewrite Nat.eqb_refl. split; [reflexivity|]. now apply in_reveals.
  - now rewrite update_fst, reveals_indices.
  - intros j m' Nj I. unfold update_at in I. apply in_map_iff in I. destruct I as ([k w] & E & I). cbn [fst] in E. destruct (Nat.eqb k i) eqn:Ek.
    + exfalso. apply Nj. congruence.
    + apply in_reveals. congruence.
Qed.
Print Assumptions C59_refuted_revealed_signed.

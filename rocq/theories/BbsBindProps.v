(** Property C154: to what a BBS+ disclosure proof is bound by its challenge. *)
From Verif Require Import Base BnModel NumTheory Alg Lin Fp ClRevModel ClRevSpec CurveInst BbsModel BbsLib BbsProps BbsPokProps BbsExProps.
Import List ListNotations.
Open Scope list_scope.
Open Scope Z_scope.

(** ** specification vocabulary *)
(** two different inputs of a hash function with one output *)
Definition hash_collision {A} (h : list Z -> A) : Prop := exists a b : list Z, a <> b /\ h a = h b.
(** all values of an encoding have one length, at least 1, and different values different encodings *)
Definition fixed_encoding {A} (enc : A -> list Z) : Prop := (forall x y, enc x = enc y -> x = y) /\ exists n, (0 < n)%nat /\ forall x, length (enc x) = n.
(** an accepted proof without the relation on which the challenge acts: [Abar = d], and the
    point [g1 + sum m_i h_i] over the revealed messages is neutral *)
Definition degenerate (C : curve) (g1 : cG1 C) (pk : bbs_pk C) (revealed : list (nat * cK C)) (pf : pok_proof C) : Prop :=
  let shown := flat_map (fun ih => match lookup C (fst ih) revealed with Some m => [(snd ih, m)] | None => [] end) (combine (seq 0 (length (bh _ pk))) (bh _ pk)) in
  pp_a_bar _ pf = pp_d _ pf /\ madd g1 (fold_right (fun hm acc => madd (smul (snd hm) (fst hm)) acc) m0 shown) = m0.

(** ** lemmas *)
Lemma fold_lin (C : curve) (l : list (cG1 C * cK C)) : fold_right (fun hm acc => madd (smul (snd hm) (fst hm)) acc) m0 l = lin (map fst l) (map snd l).
Proof. induction l as [|[h m] l IH]; [cbn [fold_right map]; now rewrite lin_nil_l|]. cbn [fold_right map fst snd]. now rewrite lin_cons, IH. Qed.

Section Bind.
Variable C : curve.
Notation K := (cK C). Notation G1 := (cG1 C).
Hypothesis LW : curve_laws C.
Variables (g1 : G1) (g2 : cG2 C).
Let HK := cl_field C LW. Let H1 := cl_g1 C LW.
Add Field Kf154 : (proj1 HK).

Lemma two_challenges (X y T : G1) (c c' : K) : madd X (smul c y) = T -> madd X (smul c' y) = T -> c <> c' -> y = m0.
Proof.
  intros E E' N. destruct (meqb y m0) eqn:Ey; [now apply (meqb_eq _ _ H1)|]. apply (meqb_neq _ _ H1) in Ey. exfalso.
  assert (fsub c c' <> f0) as Nd by (intros Q; apply N; transitivity (fadd (fsub c c') c'); [ring|rewrite Q; ring]).
  apply (smul_nonzero HK H1 (fsub c c') y Nd Ey).
  transitivity (msub (madd X (smul c y)) (madd X (smul c' y))); [module_coefs HK H1; ring|]. rewrite E, E'. apply (madd_opp _ _ H1).
Qed.
Lemma opp_zero (x : G1) : mopp x = m0 -> x = m0.
Proof. intros E. transitivity (mopp (mopp x)); [module_coefs HK H1; ring|]. rewrite E. module_coefs HK H1; ring. Qed.
Lemma degenerate_lin pk rv pf : degenerate C g1 pk rv pf <->
  pp_a_bar _ pf = pp_d _ pf /\ madd g1 (lin (map fst (disc (fun i => lookup C i rv) 0 (bh _ pk))) (map snd (disc (fun i => lookup C i rv) 0 (bh _ pk)))) = m0.
Proof. unfold degenerate. rewrite fold_lin. pose proof (disclosed_lookup C rv pk) as Q. unfold message_count in Q. rewrite Q. tauto. Qed.
Lemma one_challenge pf pk rv c c' : pok_verify C g1 g2 pf pk rv c = Ok PSuccess -> pok_verify C g1 g2 pf pk rv c' = Ok PSuccess -> c <> c' -> degenerate C g1 pk rv pf.
Proof.
  intros V V' N. apply (pok_verify_success C LW) in V, V'. destruct V as (_ & _ & _ & _ & A & B). destruct V' as (_ & _ & _ & _ & A' & B').
  apply (vc_verify_iff C LW) in A, A', B, B'. destruct A as (_ & A), A' as (_ & A'), B as (_ & B), B' as (_ & B'). apply degenerate_lin. split.
  - apply (msub_0 _ _ H1). now apply (two_challenges _ _ _ _ _ A A').
  - apply opp_zero. now apply (two_challenges _ _ _ _ _ B B').
Qed.
Lemma other_challenge pf pk rv c c' : pok_verify C g1 g2 pf pk rv c = Ok PSuccess -> c <> c' -> pp_a_bar _ pf <> pp_d _ pf ->
  pok_verify C g1 g2 pf pk rv c' = Ok PBadHiddenMessage.
Proof.
  intros V N D. apply (pok_verify_success C LW) in V. destruct V as (G & R & Na & P & A & _). apply (vc_verify_iff C LW) in A. destruct A as (L & A).
  unfold pok_verify. rewrite (proj2 (pk_validate_iff C LW pk) G). cbn [rbind].
  destruct (existsb (fun im => (message_count C pk <=? fst im)%nat) rv) eqn:Er.
  { apply existsb_exists in Er. destruct Er as ([i m] & I & E). apply Nat.leb_le in E. cbn in E. specialize (R i m I). lia. }
  rewrite (proj2 (meqb_neq _ _ H1 _ _) Na). rewrite (p_opp_l C LW). fold (msub (pair (pp_a_prime C pf) (bw C pk)) (pair (pp_a_bar C pf) g2)).
  rewrite (proj2 (meqb_eq _ _ (cl_gt C LW) _ _)) by (now apply (msub_0 _ _ (cl_gt C LW))). cbn [negb].
  destruct (vc_verify C (pp_vc1 C pf) [pp_a_prime C pf; bh0 C pk] (msub (pp_a_bar C pf) (pp_d C pf)) c') as [[|]|e] eqn:E.
  - exfalso. apply (vc_verify_iff C LW) in E. destruct E as (_ & E). apply D, (msub_0 _ _ H1). now apply (two_challenges _ _ _ _ _ A E).
  - reflexivity.
  - exfalso. unfold vc_verify, vc_contribution in E. cbn [length] in L, E. rewrite L in E. cbn [Nat.eqb negb rbind] in E. discriminate.
Qed.
End Bind.

Section Bytes.
Variable C : curve.
Notation K := (cK C). Notation G1 := (cG1 C).
Variable hash_fr : list Z -> K.
Variable encF : K -> list Z.
Hypothesis FE1 : fixed_encoding (enc1 (c := C)).
Hypothesis FEF : fixed_encoding encF.
Lemma bytes_dec (a b : list Z) : {a = b} + {a <> b}.
Proof. apply list_eq_dec, Z.eq_dec. Qed.
Lemma hash_cases a b : hash_fr a = hash_fr b -> a = b \/ hash_collision hash_fr.
Proof. intros E. destruct (bytes_dec a b) as [Q|Q]; [now left|right; now exists a, b]. Qed.
Lemma split_fixed {A} (enc : A -> list Z) x y r r' : fixed_encoding enc -> enc x ++ r = enc y ++ r' -> x = y /\ r = r'.
Proof.
  intros (I & n & Pn & L) E. assert (enc x = enc y /\ r = r') as [Q1 Q2]; [|split; [now apply I|exact Q2]].
  split.
  - apply (f_equal (firstn n)) in E. rewrite !firstn_app, !L, Nat.sub_diag in E. cbn [firstn] in E. rewrite !app_nil_r in E.
    rewrite !firstn_all2 in E by (rewrite L; lia). exact E.
  - apply (f_equal (skipn n)) in E. rewrite !skipn_app, !L, Nat.sub_diag in E. cbn [skipn] in E. rewrite !skipn_all2 in E by (rewrite L; lia). exact E.
Qed.
Lemma split_list (l l' : list G1) r r' : length l = length l' -> concat (map enc1 l) ++ r = concat (map enc1 l') ++ r' -> l = l' /\ r = r'.
Proof.
  revert l'. induction l as [|a l IH]; intros [|b l'] L E; cbn [length] in L; try discriminate; [now split|]. cbn [map concat] in E. rewrite <- !app_assoc in E.
  destruct (split_fixed _ _ _ _ _ FE1 E) as [-> E']. destruct (IH l' ltac:(congruence) E') as [-> E'']. now split.
Qed.
Lemma concat_enc_length n (l : list G1) : (forall x, length (enc1 (c := C) x) = n) -> length (concat (map (enc1 (c := C)) l)) = (n * length l)%nat.
Proof. intros Q. induction l as [|a l IH]; cbn [map concat length]; [lia|]. rewrite app_length, Q, IH. lia. Qed.
Lemma gens_nodup_in (f : nat -> bool) (hs : list G1) : NoDup hs -> forall s i h, nth_error hs i = Some h ->
  (In h (map snd (filter (fun ih => f (fst ih)) (combine (seq s (length hs)) hs))) <-> f (s + i)%nat = true).
Proof.
  induction 1 as [|a hs Na ND IH]; intros s i h E; [destruct i; discriminate|]. cbn [length seq combine filter fst].
  assert (forall g, ~ In a (map snd (filter g (combine (seq (S s) (length hs)) hs)))) as Qa.
  { intros g I. apply in_map_iff in I. destruct I as ([k x] & Ex & I). cbn [snd] in Ex. subst x. apply filter_In in I. destruct I as (I & _). apply in_combine_r in I. now apply Na. }
  destruct i as [|i]; cbn [nth_error] in E.
  - assert (h = a) as -> by congruence. rewrite Nat.add_0_r. destruct (f s) eqn:Es.
    + split; [reflexivity|]. intros _. now left.
    + split; [|discriminate]. intros I. exfalso. now apply (Qa (fun ih => f (fst ih))).
  - specialize (IH (S s) i h E). rewrite Nat.add_succ_r, <- Nat.add_succ_l. destruct (f s) eqn:Es; [|exact IH]. cbn [map snd]. rewrite <- IH. split; [|now right].
    intros [->|I]; [|exact I]. exfalso. apply nth_error_In in E. now apply Na.
Qed.
Lemma contains_iff s i : contains s i = true <-> In i s.
Proof. unfold contains. rewrite existsb_exists. split; [intros (x & I & E); apply Nat.eqb_eq in E; now subst|intros I; exists i; split; [exact I|apply Nat.eqb_refl]]. Qed.
Lemma same_bytes pf (pk : bbs_pk C) R R' n n' : challenge_bytes C pf R pk ++ encF n = challenge_bytes C pf R' pk ++ encF n' ->
  n = n' /\ gens_where C (fun i => negb (contains R i)) pk = gens_where C (fun i => negb (contains R' i)) pk.
Proof.
  intros E. unfold challenge_bytes in E. rewrite <- !app_assoc in E. do 6 (apply app_inv_head in E).
  set (l := gens_where C _ pk) in E |- *. set (l' := gens_where C (fun i => negb (contains R' i)) pk) in E |- *.
  assert (length l = length l') as L.
  { destruct FE1 as (_ & k & Pk & Lk). destruct FEF as (_ & m & _ & Lm). apply (f_equal (@length Z)) in E. rewrite !app_length, !(concat_enc_length k) in E by exact Lk. rewrite !Lm in E. nia. }
  destruct (split_list _ _ _ _ L E) as [El E']. apply app_inv_head in E'. destruct FEF as (I & _). split; [now apply I|exact El].
Qed.
Lemma same_gens (pk : bbs_pk C) R R' : NoDup (bh _ pk) -> gens_where C (fun i => negb (contains R i)) pk = gens_where C (fun i => negb (contains R' i)) pk ->
  forall i, (i < length (bh _ pk))%nat -> (In i R <-> In i R').
Proof.
  intros ND E i Li. destruct (nth_error (bh C pk) i) as [h|] eqn:Eh; [|apply nth_error_None in Eh; lia]. unfold gens_where, message_count in E.
  pose proof (gens_nodup_in (fun j => negb (contains R j)) (bh C pk) ND 0 i h Eh) as Q. pose proof (gens_nodup_in (fun j => negb (contains R' j)) (bh C pk) ND 0 i h Eh) as Q'.
  cbn beta in Q, Q'. rewrite E in Q. rewrite Nat.add_0_l, negb_true_iff in Q, Q'. rewrite <- !contains_iff. destruct (contains R i), (contains R' i); try tauto.
  - assert (true = false) by (apply Q, Q'; reflexivity). discriminate.
  - assert (true = false) by (apply Q', Q; reflexivity). discriminate.
Qed.
Lemma pok_bytes_nonempty p : pok_to_bytes C p <> [].
Proof.
  destruct FE1 as (_ & n & P & L). intros E. apply (f_equal (@length Z)) in E. unfold pok_to_bytes in E. rewrite app_length, L in E. cbn [length] in E. lia.
Qed.
End Bytes.

(** ** theorems *)
(** an accepted proof is rejected for every other challenge; unless [Abar = d], as having bad
    hidden messages *)
Theorem C154_accepted_for_one_challenge : forall (C : curve) g1 g2 (pk : bbs_pk C) revealed pf c c', curve_laws C ->
  pok_verify C g1 g2 pf pk revealed c = Ok PSuccess -> c <> c' ->
  (pp_a_bar _ pf <> pp_d _ pf -> pok_verify C g1 g2 pf pk revealed c' = Ok PBadHiddenMessage) /\
  (pok_verify C g1 g2 pf pk revealed c' = Ok PSuccess -> degenerate C g1 pk revealed pf).
Proof.
  intros C g1 g2 pk rv pf c c' LW V N. split; [intros D; now apply (other_challenge C LW g1 g2 pf pk rv c)|]. intros V'. now apply (one_challenge C LW g1 g2 pf pk rv c c').
Qed.
Print Assumptions C154_accepted_for_one_challenge.
(** a proof accepted for two requests under one key was made for one nonce, and the requests
    name the same indices *)
Theorem C154_bound_to_nonce_and_request : forall (C : curve) g1 g2 hash_fr encF (pk : bbs_pk C) requested requested' (sp : sig_proof C) nonce nonce' out out', curve_laws C ->
  fixed_encoding (enc1 (c := C)) -> fixed_encoding encF -> NoDup (bh _ pk) ->
  verify_signature_pok C g1 g2 hash_fr encF (mkRequest C requested pk) sp nonce = Ok out ->
  verify_signature_pok C g1 g2 hash_fr encF (mkRequest C requested' pk) sp nonce' = Ok out' ->
  (nonce = nonce' /\ forall i, (i < length (bh _ pk))%nat -> (In i requested <-> In i requested')) \/
  hash_collision hash_fr \/ degenerate C g1 pk (sp_revealed _ sp) (sp_proof _ sp).
Proof.
  intros C g1 g2 hash_fr encF pk R R' sp n n' out out' LW FE1 FEF ND V V'. unfold verify_signature_pok in V, V'. cbn [pr_revealed pr_key] in V, V'.
  set (b := challenge_bytes C (sp_proof C sp) R pk ++ encF n) in V. set (b' := challenge_bytes C (sp_proof C sp) R' pk ++ encF n') in V'.
  destruct (pok_verify C g1 g2 (sp_proof C sp) pk (sp_revealed C sp) (hash_fr b)) as [[]|] eqn:E; cbn [rbind] in V; try discriminate.
  destruct (pok_verify C g1 g2 (sp_proof C sp) pk (sp_revealed C sp) (hash_fr b')) as [[]|] eqn:E'; cbn [rbind] in V'; try discriminate.
  destruct (feqb (hash_fr b) (hash_fr b')) eqn:F.
  - apply (feqb_eq _ (cl_field C LW)) in F. destruct (hash_cases C hash_fr _ _ F) as [Eb|Col]; [|now right; left].
    left. destruct (same_bytes C encF FE1 FEF _ _ _ _ _ _ Eb) as [En Eg]. split; [exact En|]. now apply same_gens.
  - apply (feqb_neq _ (cl_field C LW)) in F. right; right. now apply (one_challenge C LW g1 g2 _ _ _ _ _ E E').
Qed.
Print Assumptions C154_bound_to_nonce_and_request.
(** the challenge made by a prover determines the nonce and the bytes of the claims together *)
Theorem C154_challenge_binds_claims : forall (C : curve) hash_fr encF (poks : list (pok_sig C)) claims claims' nonce nonce', fixed_encoding encF ->
  prover_challenge C hash_fr encF poks (Some claims) nonce = prover_challenge C hash_fr encF poks (Some claims') nonce' ->
  (nonce = nonce' /\ concat claims = concat claims') \/ hash_collision hash_fr.
Proof.
  intros C hash_fr encF poks cl cl' n n' FEF E. unfold prover_challenge in E. destruct (hash_cases C hash_fr _ _ E) as [Eb|]; [left|now right].
  apply app_inv_head in Eb. now apply (split_fixed encF).
Qed.
Print Assumptions C154_challenge_binds_claims.
(** refuted: that each claim is bound; where one ends and the next begins is not hashed *)
Theorem C154_refuted_claims_separate : forall (C : curve) hash_fr encF (poks : list (pok_sig C)) proofs requests (before after a b : list (list Z)) nonce, concat a = concat b ->
  prover_challenge C hash_fr encF poks (Some (before ++ a ++ after)) nonce = prover_challenge C hash_fr encF poks (Some (before ++ b ++ after)) nonce /\
  verifier_challenge C hash_fr encF proofs requests nonce (Some (before ++ a ++ after)) = verifier_challenge C hash_fr encF proofs requests nonce (Some (before ++ b ++ after)).
Proof. intros C hash_fr encF poks proofs requests before after a b nonce E. unfold prover_challenge, verifier_challenge. now rewrite !concat_app, E. Qed.
Print Assumptions C154_refuted_claims_separate.
(** refuted: that [verify_signature_pok] checks what [create_challenge_hash] and
    [generate_signature_pok] make.  With a nonempty claim or another proof in the challenge
    every honest proof is refused *)
Theorem C154_refuted_joint_and_claims_verify : forall (C : curve) g1 g2 hash_fr encF (pk : bbs_pk C) sig (ms : list (proof_message C)) r1 r2 rs1 rs2 nonce before after claims p, curve_laws C ->
  fixed_encoding (enc1 (c := C)) ->
  length ms = length (bh _ pk) -> sig_verify C g1 g2 sig (map (get_message C) ms) pk = Ok true -> r1 <> f0 ->
  let rq := mkRequest C (revealed_indices C ms) pk in
  commit_signature_pok C g1 g2 rq ms sig r1 r2 rs1 rs2 = Ok p -> ps_a_bar _ p <> ps_d _ p ->
  before ++ after <> [] \/ concat claims <> [] ->
  hash_collision hash_fr \/
  exists sp, generate_signature_pok C p (prover_challenge C hash_fr encF (before ++ p :: after) (Some claims) nonce) = Ok sp /\
    verify_signature_pok C g1 g2 hash_fr encF rq sp nonce = Err (ZmixErr (ZInvalidProof 2)).
Proof.
  intros C g1 g2 hash_fr encF pk sig ms r1 r2 rs1 rs2 n before after claims p LW FE1 L V N rq Ep D Ne.
  set (c := prover_challenge C hash_fr encF (before ++ p :: after) (Some claims) n).
  assert (p = init_state C g1 sig pk ms r1 r2 rs1 rs2) as Es.
  { unfold commit_signature_pok in Ep. cbn [rq pr_key] in Ep. rewrite (pok_init_eq C LW) in Ep by assumption. congruence. }
  destruct (init_verify C LW g1 g2 sig pk ms r1 r2 rs1 rs2 c L V N) as (pf & Eg & Ev & E1 & E2 & E3 & E4 & E5).
  pose proof (bytes_agree C g1 sig pk ms r1 r2 rs1 rs2 pf E1 E2 E3 E4 E5) as Eb. rewrite <- Es in Eg, E1, E2, E3, E4, E5, Eb. rewrite reveals_indices in Eb.
  set (c' := hash_fr (pok_to_bytes C p ++ encF n)).
  destruct (feqb c c') eqn:F.
  - left. apply (feqb_eq _ (cl_field C LW)) in F. unfold c, c', prover_challenge in F. destruct (hash_cases C hash_fr _ _ F) as [Q|Q]; [|exact Q]. exfalso.
    apply (f_equal (@length Z)) in Q. rewrite map_app, concat_app in Q. cbn [map concat] in Q. rewrite !app_length in Q.
    assert (length (concat claims) = 0%nat /\ length (concat (map (pok_to_bytes C) before)) = 0%nat /\ length (concat (map (pok_to_bytes C) after)) = 0%nat) as (Z1 & Z2 & Z3) by lia.
    destruct Ne as [Ne|Ne]; [|now apply length_zero_iff_nil in Z1].
    apply length_zero_iff_nil in Z2, Z3. destruct before as [|q before].
    + destruct after as [|q after]; [now apply Ne|]. cbn [map concat] in Z3. apply app_eq_nil in Z3. now apply (pok_bytes_nonempty C FE1 q).
    + cbn [map concat] in Z2. apply app_eq_nil in Z2. now apply (pok_bytes_nonempty C FE1 q).
  - right. apply (feqb_neq _ (cl_field C LW)) in F. exists (mkSigProof C (ps_revealed C p) pf). split; [unfold generate_signature_pok; fold c; now rewrite Eg|].
    unfold verify_signature_pok. cbn [sp_proof sp_revealed rq pr_revealed pr_key]. rewrite Eb. fold c'.
    assert (ps_revealed C p = reveals C 0 ms) as -> by (now rewrite Es).
    rewrite (other_challenge C LW g1 g2 pf pk (reveals C 0 ms) c c' Ev F) by congruence. reflexivity.
Qed.
Print Assumptions C154_refuted_joint_and_claims_verify.
(** a concrete case: the honest proof of the toy key with a claim [1], and jointly with itself *)
Lemma T257_enc1 : fixed_encoding (enc1 (c := T257)).
Proof. split; [|exists 1%nat; split; [lia|reflexivity]]. intros x y E. cbn [enc1 T257 toy_curve] in E. apply (f_equal (@hd Z 0)) in E. cbn [hd] in E. transitivity (fp 257 (@fpv 257 x)); [symmetry; apply fp_fpv|]. rewrite E. apply fp_fpv. Qed.
Example C154_ex : match pok_init T257 xg1 xg2 xsig xpk xdisc (xk 5) (xk 6) xrs xrs with
  | Ok p => (match generate_signature_pok T257 p (prover_challenge T257 xh xencF [p] (Some [[1]]) (xk 44)) with
             | Ok sp => verify_signature_pok T257 xg1 xg2 xh xencF (mkRequest T257 [0%nat] xpk) sp (xk 44) = Err (ZmixErr (ZInvalidProof 2))
             | Err _ => False end) /\
            (match generate_signature_pok T257 p (prover_challenge T257 xh xencF [p; p] None (xk 44)) with
             | Ok sp => verify_signature_pok T257 xg1 xg2 xh xencF (mkRequest T257 [0%nat] xpk) sp (xk 44) = Err (ZmixErr (ZInvalidProof 2))
             | Err _ => False end) /\ meqb (ps_a_bar _ p) (ps_d _ p) = false
  | Err _ => False end /\ fixed_encoding (enc1 (c := T257)).
Proof. split; [|apply T257_enc1]. vm_compute. repeat split. Qed.

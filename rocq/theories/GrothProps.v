(** Groth1 and Groth2 signatures (C97-C101).  Each statement comes twice: for Groth1
    (messages in G1, keys in G2) and for Groth2 (the other way round). *)
From Verif Require BnProps.
From Verif Require Import Base BnModel Alg Lin ClRevModel ClRevSpec BbsModel BbsLib BbsProps PsModel PsLib GrothModel DelegModel GrothSpec GrothLib.
Import List ListNotations.
Open Scope list_scope.
Open Scope Z_scope.

Section Batch.
Variable C : curve.
Hypothesis LW : curve_laws C.
Notation K := (cK C). Notation G1 := (cG1 C). Notation G2 := (cG2 C). Notation GT := (cGT C).
Let HK := cl_field C LW.
Let H1 := cl_g1 C LW.
Let H2 := cl_g2 C LW.
Let HT := cl_gt C LW.
Add Field KfGP : (proj1 HK).

Definition rs1 (p : params1 C) vk (s : sig1 C) msgs : list GT := res0_1 C p vk s :: map (res_1 C p vk s msgs) (seq 0 (length msgs)).
Definition rs2 (p : params2 C) vk (s : sig2 C) msgs : list GT := res0_2 C p vk s :: map (res_2 C p vk s msgs) (seq 0 (length msgs)).
Lemma rs1_length p vk s msgs : length (rs1 p vk s msgs) = S (length msgs).
Proof. unfold rs1. cbn [length]. now rewrite map_length, seq_length. Qed.
Lemma rs2_length p vk s msgs : length (rs2 p vk s msgs) = S (length msgs).
Proof. unfold rs2. cbn [length]. now rewrite map_length, seq_length. Qed.
Lemma valid_rs1 (p : params1 C) vk s msgs : (length msgs <= length (p1_y p))%nat -> (length msgs <= length (s1_T s))%nat -> (valid1 p vk s msgs <-> forall c, In c (rs1 p vk s msgs) -> c = m0).
Proof. intros. apply (valid_residuals HT pair); assumption. Qed.
Lemma valid_rs2 (p : params2 C) vk s msgs : (length msgs <= length (p2_y p))%nat -> (length msgs <= length (s2_T s))%nat -> (valid2 p vk s msgs <-> forall c, In c (rs2 p vk s msgs) -> c = m0).
Proof. intros. apply (valid_residuals HT (fun m w => pair w m)); assumption. Qed.
Lemma msum_nth_powers (r : K) (f : nat -> GT) n : r <> f0 -> forall k,
  msum (map (fun i => smul (fpow r (i + 1)) (f i)) (seq k n)) = smul (fpow r (k + 1)) (meval (map f (seq k n)) r).
Proof.
  intros Nr. induction n as [|n IH]; intros k; cbn [seq map msum meval]; [now rewrite (smul_0_r _ _ HT)|].
  rewrite IH. replace (S k + 1)%nat with (S (k + 1)) by lia. cbn [fpow]. module_coefs HK HT; ring.
Qed.
Lemma msum_zero (f : nat -> GT) (g : nat -> K) l : (forall i, In i l -> f i = m0) -> msum (map (fun i => smul (g i) (f i)) l) = m0.
Proof.
  induction l as [|a l IH]; intros H; [reflexivity|]. cbn [map msum]. rewrite (H a) by now left. rewrite IH by (intros; apply H; now right).
  rewrite (smul_0_r _ _ HT). apply (madd_0_l _ _ HT).
Qed.
Lemma batch1_value (s : sig1 C) msgs vk p r : params1_ok p -> (length msgs <= length (p1_y p))%nat -> (length msgs <= length (s1_T s))%nat -> r <> f0 ->
  verify_batch1 s msgs vk p r = Ok (is_one (meval (rs1 p vk s msgs) r)).
Proof.
  intros N L1 L2 Nr. unfold verify_batch1. rewrite (proj2 (Nat.ltb_ge _ _) L1).
  destruct (prepare1_eq C LW (powers r (length msgs + 1)) 0 s msgs vk p N L1 L2) as (pairs & E & V); [rewrite powers_length; lia|].
  rewrite E. cbn [rbind]. rewrite V. cbn [Nat.eqb Nat.add]. do 2 f_equal. unfold rs1. cbn [meval].
  rewrite (map_ext_in _ (fun i => smul (fpow r (i + 1)) (res_1 C p vk s msgs i))).
  2:{ intros i Hi. apply in_seq in Hi. rewrite (powers_nth HK) by lia. now rewrite (proj2 (feqb_neq _ HK r f0) Nr). }
  rewrite msum_nth_powers by exact Nr. cbn [Nat.add fpow]. module_coefs HK HT; ring.
Qed.
Lemma batch2_value (s : sig2 C) msgs vk p r : params2_ok p -> (length msgs <= length (p2_y p))%nat -> (length msgs <= length (s2_T s))%nat -> r <> f0 ->
  verify_batch2 s msgs vk p r = Ok (is_one (meval (rs2 p vk s msgs) r)).
Proof.
  intros N L1 L2 Nr. unfold verify_batch2. rewrite (proj2 (Nat.ltb_ge _ _) L1).
  destruct (prepare2_eq C LW (powers r (length msgs + 1)) 0 s msgs vk p N L1 L2) as (pairs & E & V); [rewrite powers_length; lia..|].
  rewrite E. cbn [rbind]. rewrite V. cbn [Nat.eqb]. do 2 f_equal. unfold rs2. cbn [meval].
  rewrite (map_ext_in _ (fun i => smul (fpow r (i + 1)) (res_2 C p vk s msgs i))).
  2:{ intros i Hi. apply in_seq in Hi. rewrite (powers_nth HK) by lia. now rewrite (proj2 (feqb_neq _ HK r f0) Nr). }
  rewrite msum_nth_powers by exact Nr. cbn [Nat.add fpow]. module_coefs HK HT; ring.
Qed.
Lemma batch1_complete (s : sig1 C) msgs vk p r : params1_ok p -> valid1 p vk s msgs -> verify_batch1 s msgs vk p r = Ok true.
Proof.
  intros N V0. pose proof V0 as [L1 L2 _ _]. unfold verify_batch1. rewrite (proj2 (Nat.ltb_ge _ _) L1).
  destruct (prepare1_eq C LW (powers r (length msgs + 1)) 0 s msgs vk p N L1 L2) as (pairs & E & V); [rewrite powers_length; lia|].
  rewrite E. cbn [rbind]. rewrite V. pose proof (proj1 (valid_rs1 p vk s msgs L1 L2) V0) as V1; clear V0; rename V1 into V0.
  assert (res0_1 C p vk s = m0) as -> by (apply V0; now left). rewrite msum_zero by (intros i Hi; apply V0; right; now apply in_map).
  f_equal. apply (meqb_eq _ _ HT). module_coefs HK HT; ring.
Qed.
Lemma batch2_complete (s : sig2 C) msgs vk p r : params2_ok p -> valid2 p vk s msgs -> verify_batch2 s msgs vk p r = Ok true.
Proof.
  intros N V0. pose proof V0 as [L1 L2 _ _]. unfold verify_batch2. rewrite (proj2 (Nat.ltb_ge _ _) L1).
  destruct (prepare2_eq C LW (powers r (length msgs + 1)) 0 s msgs vk p N L1 L2) as (pairs & E & V); [rewrite powers_length; lia..|].
  rewrite E. cbn [rbind]. rewrite V. pose proof (proj1 (valid_rs2 p vk s msgs L1 L2) V0) as V1; clear V0; rename V1 into V0.
  assert (res0_2 C p vk s = m0) as -> by (apply V0; now left). rewrite msum_zero by (intros i Hi; apply V0; right; now apply in_map).
  f_equal. apply (meqb_eq _ _ HT). module_coefs HK HT; ring.
Qed.
Lemma rmap_panic {A B} (f : A -> res B) l x : In x l -> f x = Err Panic -> (forall y e, In y l -> f y = Err e -> e = Panic) -> rmap f l = Err Panic.
Proof.
  induction l as [|a l IH]; intros I E P; [destruct I|]. cbn [rmap]. destruct (f a) as [b|e] eqn:Ea; cbn [rbind].
  - destruct I as [->|I]; [congruence|]. rewrite IH; [reflexivity|exact I|exact E|]. intros y e' Iy. apply P. now right.
  - f_equal. apply (P a); [now left|exact Ea].
Qed.
Lemma at_panic {A} (l : list A) i e : at_ l i = Err e -> e = Panic.
Proof. unfold at_. destruct (nth_error l i); [discriminate|]. congruence. Qed.
Lemma batch1_short (s : sig1 C) msgs vk p r : params1_ok p -> (length msgs <= length (p1_y p))%nat -> (length (s1_T s) < length msgs)%nat ->
  verify_batch1 s msgs vk p r = Err Panic.
Proof.
  intros N L1 L2. unfold verify_batch1. rewrite (proj2 (Nat.ltb_ge _ _) L1). unfold prepare1.
  rewrite (at_ok (p1_y p) 0 m0) by (unfold params1_ok in N; destruct (p1_y p); [contradiction|cbn; lia]). cbn [rbind Nat.eqb].
  rewrite (rmap_panic _ _ (length (s1_T s))); [reflexivity|apply in_seq; lia| |].
  - rewrite (at_ok _ _ f0) by (rewrite powers_length; lia). rewrite (at_ok msgs _ m0), (at_ok (p1_y p) _ m0) by lia. rewrite (at_err (s1_T s)) by lia. reflexivity.
  - intros i e Hi Q. apply in_seq in Hi. rewrite (at_ok _ _ f0) in Q by (rewrite powers_length; lia). rewrite (at_ok msgs _ m0), (at_ok (p1_y p) _ m0) in Q by lia. cbn [rbind] in Q.
    destruct (at_ (s1_T s) i) eqn:E; cbn [rbind] in Q; [discriminate|]. injection Q as <-. eapply at_panic; eauto.
Qed.
Lemma batch2_short (s : sig2 C) msgs vk p r : params2_ok p -> (length msgs <= length (p2_y p))%nat -> (length (s2_T s) < length msgs)%nat ->
  verify_batch2 s msgs vk p r = Err Panic.
Proof.
  intros N L1 L2. unfold verify_batch2. rewrite (proj2 (Nat.ltb_ge _ _) L1). unfold prepare2. cbn [rbind Nat.eqb].
  rewrite (at_ok (p2_y p) 0 m0) by (unfold params2_ok in N; destruct (p2_y p); [contradiction|cbn; lia]). cbn [rbind].
  rewrite (rmap_panic _ _ (length (s2_T s))); [reflexivity|apply in_seq; lia| |].
  - rewrite (at_ok _ _ f0) by (rewrite powers_length; lia). rewrite (at_ok msgs _ m0), (at_ok (p2_y p) _ m0) by lia. rewrite (at_err (s2_T s)) by lia. reflexivity.
  - intros i e Hi Q. apply in_seq in Hi. rewrite (at_ok _ _ f0) in Q by (rewrite powers_length; lia). rewrite (at_ok msgs _ m0), (at_ok (p2_y p) _ m0) in Q by lia. cbn [rbind] in Q.
    destruct (at_ (s2_T s) i) eqn:E; cbn [rbind] in Q; [discriminate|]. injection Q as <-. eapply at_panic; eauto.
Qed.
(** few draws accept an invalid signature *)
Lemma batch1_sound (s : sig1 C) msgs vk p rs : params1_ok p -> ~ valid1 p vk s msgs -> NoDup rs ->
  (forall r, In r rs -> r <> f0 /\ verify_batch1 s msgs vk p r = Ok true) -> (length rs <= length msgs)%nat.
Proof.
  intros N NV ND R. destruct (Nat.le_gt_cases (length msgs) (length (p1_y p))) as [L1|L1].
  2:{ destruct rs as [|r rs]; [cbn; lia|]. destruct (R r (or_introl eq_refl)) as (_ & Q). unfold verify_batch1 in Q. rewrite (proj2 (Nat.ltb_lt _ _) L1) in Q. discriminate. }
  destruct (Nat.le_gt_cases (length msgs) (length (s1_T s))) as [L2|L2].
  2:{ destruct rs as [|r rs]; [cbn; lia|]. destruct (R r (or_introl eq_refl)) as (_ & Q). rewrite batch1_short in Q by assumption. discriminate. }
  destruct (Nat.le_gt_cases (length rs) (length msgs)) as [L|L]; [exact L|]. exfalso. apply NV. apply (valid_rs1 p vk s msgs L1 L2).
  apply (mroots HK HT (S (length msgs)) _ rs); [apply rs1_length|exact ND|lia|].
  intros r Hr. destruct (R r Hr) as (Nr & Q). rewrite batch1_value in Q by assumption. apply (meqb_eq _ _ HT). unfold is_one in Q. congruence.
Qed.
Lemma batch2_sound (s : sig2 C) msgs vk p rs : params2_ok p -> ~ valid2 p vk s msgs -> NoDup rs ->
  (forall r, In r rs -> r <> f0 /\ verify_batch2 s msgs vk p r = Ok true) -> (length rs <= length msgs)%nat.
Proof.
  intros N NV ND R. destruct (Nat.le_gt_cases (length msgs) (length (p2_y p))) as [L1|L1].
  2:{ destruct rs as [|r rs]; [cbn; lia|]. destruct (R r (or_introl eq_refl)) as (_ & Q). unfold verify_batch2 in Q. rewrite (proj2 (Nat.ltb_lt _ _) L1) in Q. discriminate. }
  destruct (Nat.le_gt_cases (length msgs) (length (s2_T s))) as [L2|L2].
  2:{ destruct rs as [|r rs]; [cbn; lia|]. destruct (R r (or_introl eq_refl)) as (_ & Q). rewrite batch2_short in Q by assumption. discriminate. }
  destruct (Nat.le_gt_cases (length rs) (length msgs)) as [L|L]; [exact L|]. exfalso. apply NV. apply (valid_rs2 p vk s msgs L1 L2).
  apply (mroots HK HT (S (length msgs)) _ rs); [apply rs2_length|exact ND|lia|].
  intros r Hr. destruct (R r Hr) as (Nr & Q). rewrite batch2_value in Q by assumption. apply (meqb_eq _ _ HT). unfold is_one in Q. congruence.
Qed.
Lemma valid_firstn {M W : modOps K} (e : M -> W -> GT) gs gr y V R S_ T (msgs : list M) k : groth_valid e gs gr y V R S_ T msgs -> groth_valid e gs gr y V R S_ T (firstn k msgs).
Proof.
  intros [L1 L2 F E]. split; [rewrite firstn_length; lia|rewrite firstn_length; lia|exact F|].
  intros i Hi. rewrite firstn_length in Hi. rewrite E by lia. f_equal. f_equal. rewrite <- (firstn_skipn k msgs) at 1. rewrite app_nth1; [reflexivity|rewrite firstn_length; lia].
Qed.
Lemma sign1_valid msgs sk p r s : params1_ok p -> r <> f0 -> sign1 msgs sk p r = Ok s -> valid1 (C := C) p (smul sk (p1_g2 p)) s msgs.
Proof.
  intros N Nr E. unfold sign1 in E. apply rbind_ok in E as (((R & S_) & T) & E & Q). assert (s = mkSig1 R S_ T) as -> by congruence.
  apply (groth_new_valid HK HT pair (bil1 C LW) _ _ _ _ _ r); assumption.
Qed.
Lemma sign2_valid msgs sk p r s : params2_ok p -> r <> f0 -> sign2 msgs sk p r = Ok s -> valid2 (C := C) p (smul sk (p2_g1 p)) s msgs.
Proof.
  intros N Nr E. unfold sign2 in E. apply rbind_ok in E as (((R & S_) & T) & E & Q). assert (s = mkSig2 R S_ T) as -> by congruence.
  apply (groth_new_valid HK HT (fun m w => pair w m) (bil2 C LW) _ _ _ _ _ r); assumption.
Qed.
Lemma sign1_ok msgs sk (p : params1 C) r : params1_ok p -> (length msgs <= length (p1_y p))%nat -> exists s, sign1 msgs sk p r = Ok s /\ length (s1_T s) = length msgs.
Proof. intros N L. unfold sign1. rewrite groth_new_eq by assumption. cbn [rbind]. eexists. split; [reflexivity|]. cbn [s1_T]. now rewrite map_length, seq_length. Qed.
Lemma sign2_ok msgs sk (p : params2 C) r : params2_ok p -> (length msgs <= length (p2_y p))%nat -> exists s, sign2 msgs sk p r = Ok s /\ length (s2_T s) = length msgs.
Proof. intros N L. unfold sign2. rewrite groth_new_eq by assumption. cbn [rbind]. eexists. split; [reflexivity|]. cbn [s2_T]. now rewrite map_length, seq_length. Qed.
End Batch.

(** ** C97: signing, verifying, randomising *)
(** A signature on at most as many messages as there are bases is made and verifies, under the
    key of the signer, with both verification functions and for every draw of the batch one. *)
Theorem C97_sign_then_verify_1 : forall (C : curve) (p : params1 C) (msgs : list (cG1 C)) (sk r : cK C), curve_laws C -> params1_ok p ->
  (length msgs <= length (p1_y p))%nat -> r <> f0 ->
  exists s, sign1 msgs sk p r = Ok s /\ let vk := snd (keygen1 p sk) in
    verify1 s msgs vk p = Ok true /\ forall r', verify_batch1 s msgs vk p r' = Ok true.
Proof.
  intros C p msgs sk r LW N L Nr. destruct (sign1_ok C msgs sk p r N L) as (s & E & _). exists s. split; [exact E|].
  pose proof (sign1_valid C LW msgs sk p r s N Nr E) as V. cbn [keygen1 snd]. split; [now apply (verify1_iff C LW)|]. intros r'. now apply (batch1_complete C LW).
Qed.
Theorem C97_sign_then_verify_2 : forall (C : curve) (p : params2 C) (msgs : list (cG2 C)) (sk r : cK C), curve_laws C -> params2_ok p ->
  (length msgs <= length (p2_y p))%nat -> r <> f0 ->
  exists s, sign2 msgs sk p r = Ok s /\ let vk := snd (keygen2 p sk) in
    verify2 s msgs vk p = Ok true /\ forall r', verify_batch2 s msgs vk p r' = Ok true.
Proof.
  intros C p msgs sk r LW N L Nr. destruct (sign2_ok C msgs sk p r N L) as (s & E & _). exists s. split; [exact E|].
  pose proof (sign2_valid C LW msgs sk p r s N Nr E) as V. cbn [keygen2 snd]. split; [now apply (verify2_iff C LW)|]. intros r'. now apply (batch2_complete C LW).
Qed.
(** The verifier accepts exactly the signatures satisfying the pairing equations. *)
Theorem C97_accepts_exactly_1 : forall (C : curve) (p : params1 C) s msgs vk, curve_laws C -> params1_ok p ->
  (verify1 s msgs vk p = Ok true <-> valid1 p vk s msgs).
Proof. intros. now apply verify1_iff. Qed.
Theorem C97_accepts_exactly_2 : forall (C : curve) (p : params2 C) s msgs vk, curve_laws C -> params2_ok p ->
  (verify2 s msgs vk p = Ok true <-> valid2 p vk s msgs).
Proof. intros. now apply verify2_iff. Qed.
(** Randomising with a non-zero factor neither makes nor destroys validity. *)
Theorem C97_randomize_1 : forall (C : curve) (p : params1 C) s msgs vk r', curve_laws C -> params1_ok p -> r' <> f0 ->
  (verify1 (randomize1 s r') msgs vk p = Ok true <-> verify1 s msgs vk p = Ok true) /\
  s1_R (randomize1 s r') = smul r' (s1_R s).
Proof.
  intros C p s msgs vk r' LW N Nr. split; [|reflexivity]. rewrite !(verify1_iff C LW) by exact N. unfold valid1, randomize1, groth_randomize. cbn [s1_R s1_S s1_T]. split.
  - apply (randomize_back (cl_field C LW) (cl_gt C LW) pair (bil1 C LW)); exact Nr.
  - apply (randomize_valid (cl_field C LW) (cl_gt C LW) pair (bil1 C LW)); exact Nr.
Qed.
Theorem C97_randomize_2 : forall (C : curve) (p : params2 C) s msgs vk r', curve_laws C -> params2_ok p -> r' <> f0 ->
  (verify2 (randomize2 s r') msgs vk p = Ok true <-> verify2 s msgs vk p = Ok true) /\
  s2_R (randomize2 s r') = smul r' (s2_R s).
Proof.
  intros C p s msgs vk r' LW N Nr. split; [|reflexivity]. rewrite !(verify2_iff C LW) by exact N. unfold valid2, randomize2, groth_randomize. cbn [s2_R s2_S s2_T]. split.
  - apply (randomize_back (cl_field C LW) (cl_gt C LW) (fun m w => pair w m) (bil2 C LW)); exact Nr.
  - apply (randomize_valid (cl_field C LW) (cl_gt C LW) (fun m w => pair w m) (bil2 C LW)); exact Nr.
Qed.
(** More messages than bases: an error with the two numbers, everywhere. *)
Theorem C97_too_many : forall (C : curve), 
  (forall (p : params1 C) msgs sk r s vk, (length (p1_y p) < length msgs)%nat ->
     sign1 msgs sk p r = Err (DelgErr (DUnsupportedNoOfMessages (length (p1_y p)) (length msgs))) /\ verify1 s msgs vk p = Err (DelgErr (DUnsupportedNoOfMessages (length (p1_y p)) (length msgs))) /\
     verify_batch1 s msgs vk p r = Err (DelgErr (DUnsupportedNoOfMessages (length (p1_y p)) (length msgs)))) /\
  (forall (p : params2 C) msgs sk r s vk, (length (p2_y p) < length msgs)%nat ->
     sign2 msgs sk p r = Err (DelgErr (DUnsupportedNoOfMessages (length (p2_y p)) (length msgs))) /\
     verify2 s msgs vk p = Err (DelgErr (DUnsupportedNoOfMessages (length (p2_y p)) (length msgs))) /\
     verify_batch2 s msgs vk p r = Err (DelgErr (DUnsupportedNoOfMessages (length (p2_y p)) (length msgs)))).
Proof.
  intros C. split; intros p msgs sk r s vk L; apply Nat.ltb_lt in L; unfold sign1, sign2, groth_new, verify1, verify2, verify_batch1, verify_batch2; rewrite L; auto.
Qed.

(** ** C98: the batched check *)
(** A valid signature passes for every draw; an invalid one passes for at most as many
    non-zero draws as there are messages. *)
Theorem C98_batch_complete : forall (C : curve), curve_laws C ->
  (forall (p : params1 C) s msgs vk r, params1_ok p -> verify1 s msgs vk p = Ok true -> verify_batch1 s msgs vk p r = Ok true) /\
  (forall (p : params2 C) s msgs vk r, params2_ok p -> verify2 s msgs vk p = Ok true -> verify_batch2 s msgs vk p r = Ok true).
Proof.
  intros C LW. split; intros p s msgs vk r N V.
  - apply (batch1_complete C LW); [exact N|]. now apply (verify1_iff C LW).
  - apply (batch2_complete C LW); [exact N|]. now apply (verify2_iff C LW).
Qed.
Theorem C98_batch_sound_1 : forall (C : curve) (p : params1 C) s msgs vk rs, curve_laws C -> params1_ok p ->
  verify1 s msgs vk p <> Ok true -> NoDup rs -> (forall r, In r rs -> r <> f0 /\ verify_batch1 s msgs vk p r = Ok true) ->
  (length rs <= length msgs)%nat.
Proof. intros C p s msgs vk rs LW N NV. apply (batch1_sound C LW s msgs vk p rs N). intros V. apply NV. now apply (verify1_iff C LW). Qed.
Theorem C98_batch_sound_2 : forall (C : curve) (p : params2 C) s msgs vk rs, curve_laws C -> params2_ok p ->
  verify2 s msgs vk p <> Ok true -> NoDup rs -> (forall r, In r rs -> r <> f0 /\ verify_batch2 s msgs vk p r = Ok true) ->
  (length rs <= length msgs)%nat.
Proof. intros C p s msgs vk rs LW N NV. apply (batch2_sound C LW s msgs vk p rs N). intros V. apply NV. now apply (verify2_iff C LW). Qed.

(** ** C99: what a signature binds *)
(** One signature, one key, two accepted lists of the same length: the same list. *)
Theorem C99_binds_messages_1 : forall (C : curve) (p : params1 C) s msgs msgs' vk, curve_laws C -> params1_ok p -> nondegenerate_r (p1_g2 p) ->
  verify1 s msgs vk p = Ok true -> verify1 s msgs' vk p = Ok true -> length msgs = length msgs' -> msgs = msgs'.
Proof.
  intros C p s msgs msgs' vk LW N ND V V' L. apply (verify1_iff C LW) in V; [|exact N]. apply (verify1_iff C LW) in V'; [|exact N].
  destruct V as [_ _ _ E]. destruct V' as [_ _ _ E']. apply nth_ext with (d := m0) (d' := m0); [exact L|]. intros i Hi.
  apply (p_inj_l C LW _ _ (p1_g2 p) ND). apply (madd_cancel _ _ (cl_gt C LW) (pair (nth i (p1_y p) m0) vk)).
  rewrite !(madd_comm _ _ (cl_gt C LW) (pair (nth i (p1_y p) m0) vk)). rewrite <- E by lia. rewrite <- E' by lia. reflexivity.
Qed.
Theorem C99_binds_messages_2 : forall (C : curve) (p : params2 C) s msgs msgs' vk, curve_laws C -> params2_ok p -> (forall a : cG2 C, pair (p2_g1 p) a = m0 -> a = m0) ->
  verify2 s msgs vk p = Ok true -> verify2 s msgs' vk p = Ok true -> length msgs = length msgs' -> msgs = msgs'.
Proof.
  intros C p s msgs msgs' vk LW N ND V V' L. apply (verify2_iff C LW) in V; [|exact N]. apply (verify2_iff C LW) in V'; [|exact N].
  destruct V as [_ _ _ E]. destruct V' as [_ _ _ E']. cbn beta in E, E'. apply nth_ext with (d := m0) (d' := m0); [exact L|]. intros i Hi.
  apply (msub_0 _ _ (cl_g2 C LW)). apply ND. unfold msub. rewrite (p_add_r C LW), (pair_opp_r C LW). apply (msub_0 _ _ (cl_gt C LW)).
  apply (madd_cancel _ _ (cl_gt C LW) (pair vk (nth i (p2_y p) m0))). rewrite !(madd_comm _ _ (cl_gt C LW) (pair vk (nth i (p2_y p) m0))). rewrite <- E by lia. rewrite <- E' by lia. reflexivity.
Qed.
(** It does not bind the number of messages: every prefix of a signed list, down to the empty
    list, is accepted with the same signature. *)
Theorem C99_refuted_binds_length : forall (C : curve), curve_laws C ->
  (forall (p : params1 C) s msgs vk k, params1_ok p -> verify1 s msgs vk p = Ok true ->
     verify1 s (firstn k msgs) vk p = Ok true /\ forall r, verify_batch1 s (firstn k msgs) vk p r = Ok true) /\
  (forall (p : params2 C) s msgs vk k, params2_ok p -> verify2 s msgs vk p = Ok true ->
     verify2 s (firstn k msgs) vk p = Ok true /\ forall r, verify_batch2 s (firstn k msgs) vk p r = Ok true).
Proof.
  intros C LW. split; intros p s msgs vk k N V.
  - apply (verify1_iff C LW) in V; [|exact N]. apply (valid_firstn C pair _ _ _ _ _ _ _ _ k) in V.
    split; [now apply (verify1_iff C LW)|]. intros r. now apply (batch1_complete C LW).
  - apply (verify2_iff C LW) in V; [|exact N]. apply (valid_firstn C (fun m w => pair w m) _ _ _ _ _ _ _ _ k) in V.
    split; [now apply (verify2_iff C LW)|]. intros r. now apply (batch2_complete C LW).
Qed.
(** A received signature with fewer T values than messages panics the batched verifier; with
    enough of them no verification panics. *)
Theorem C99_refuted_short_signature_error : forall (C : curve),
  (forall (p : params1 C) s msgs vk r, params1_ok p -> (length msgs <= length (p1_y p))%nat -> (length (s1_T s) < length msgs)%nat -> verify_batch1 s msgs vk p r = Err Panic) /\
  (forall (p : params2 C) s msgs vk r, params2_ok p -> (length msgs <= length (p2_y p))%nat -> (length (s2_T s) < length msgs)%nat -> verify_batch2 s msgs vk p r = Err Panic).
Proof. intros C. split; intros; [now apply batch1_short|now apply batch2_short]. Qed.
Theorem C99_decides : forall (C : curve), curve_laws C ->
  (forall (p : params1 C) s msgs vk r, params1_ok p -> (length msgs <= length (p1_y p))%nat -> (length msgs <= length (s1_T s))%nat ->
     exists b b', verify1 s msgs vk p = Ok b /\ verify_batch1 s msgs vk p r = Ok b') /\
  (forall (p : params2 C) s msgs vk r, params2_ok p -> (length msgs <= length (p2_y p))%nat -> (length msgs <= length (s2_T s))%nat ->
     exists b b', verify2 s msgs vk p = Ok b /\ verify_batch2 s msgs vk p r = Ok b').
Proof.
  intros C LW. split; intros p s msgs vk r N L1 L2.
  - destruct (prepare1_eq C LW (powers r (length msgs + 1)) 0 s msgs vk p N L1 L2) as (pairs & E & _); [rewrite powers_length; lia|].
    assert (exists b, verify1 s msgs vk p = Ok b) as (b & Eb).
    { unfold verify1. rewrite (proj2 (Nat.ltb_ge _ _) L1). rewrite (at_ok (p1_y p) 0 m0) by (unfold params1_ok in N; destruct (p1_y p); [contradiction|cbn; lia]). cbn [rbind].
      destruct (negb _); [eauto|]. erewrite check_all_bool; [eauto|]. intros i Hi. apply in_seq in Hi.
      rewrite (at_ok msgs i m0), (at_ok (p1_y p) i m0), (at_ok (s1_T s) i m0) by lia. cbn [rbind]. reflexivity. }
    exists b. eexists. split; [exact Eb|]. unfold verify_batch1. rewrite (proj2 (Nat.ltb_ge _ _) L1), E. reflexivity.
  - destruct (prepare2_eq C LW (powers r (length msgs + 1)) 0 s msgs vk p N L1 L2) as (pairs & E & _); [rewrite powers_length; lia..|].
    assert (exists b, verify2 s msgs vk p = Ok b) as (b & Eb).
    { unfold verify2. rewrite (proj2 (Nat.ltb_ge _ _) L1). rewrite (at_ok (p2_y p) 0 m0) by (unfold params2_ok in N; destruct (p2_y p); [contradiction|cbn; lia]). cbn [rbind].
      destruct (negb _); [eauto|]. erewrite check_all_bool; [eauto|]. intros i Hi. apply in_seq in Hi.
      rewrite (at_ok msgs i m0), (at_ok (p2_y p) i m0), (at_ok (s2_T s) i m0) by lia. cbn [rbind]. reflexivity. }
    exists b. eexists. split; [exact Eb|]. unfold verify_batch2. rewrite (proj2 (Nat.ltb_ge _ _) L1), E. reflexivity.
Qed.

(** ** C100: public parameters *)
(** Parameters are determined by the label: Groth1 and Groth2 parameters of one label share
    their generators, [count] bases are produced, and asking for fewer gives a prefix. *)
Theorem C100_setup : forall (C : curve) h1 h2 n m label, (n <= m)%nat ->
  let p := @setup1 C h1 h2 m label in let q := @setup2 C h1 h2 m label in
  p1_g1 p = p2_g1 q /\ p1_g2 p = p2_g2 q /\ length (p1_y p) = m /\ length (p2_y q) = m /\
  p1_y (@setup1 C h1 h2 n label) = firstn n (p1_y p) /\ p2_y (@setup2 C h1 h2 n label) = firstn n (p2_y q) /\
  p1_g1 (@setup1 C h1 h2 n label) = p1_g1 p /\ p1_g2 (@setup1 C h1 h2 n label) = p1_g2 p.
Proof.
  intros C h1 h2 n m label L p q. unfold p, q, setup1, setup2. cbn [p1_g1 p1_g2 p1_y p2_g1 p2_g2 p2_y]. rewrite !map_length, !seq_length.
  assert (forall k a b, (a <= b)%nat -> firstn a (seq k b) = seq k a) as Q.
  { intros k a. revert k. induction a as [|a IH]; intros k b Hb; [reflexivity|]. destruct b as [|b]; [lia|]. cbn [seq firstn]. f_equal. apply IH. lia. }
  rewrite !firstn_map, (Q 0%nat n m L). repeat split; reflexivity.
Qed.

(** The strings hashed are pairwise distinct: two bases of the same parameters, or a base and a
    generator, can only coincide by a collision of the hash. *)
Theorem C100_bases_separate : forall (C : curve) h1 h2 n label i j, (i < n)%nat -> (j < n)%nat ->
  let p := @setup1 C h1 h2 n label in let q := @setup2 C h1 h2 n label in
  let collision {A} (h : list Z -> A) := exists a b, a <> b /\ h a = h b in
  (i <> j -> nth_error (p1_y p) i = nth_error (p1_y p) j -> collision h1) /\
  (i <> j -> nth_error (p2_y q) i = nth_error (p2_y q) j -> collision h2) /\
  (nth_error (p1_y p) i = Some (p1_g1 p) -> collision h1) /\ (nth_error (p2_y q) i = Some (p2_g2 q) -> collision h2).
Proof.
  intros C h1 h2 n label i j Hi Hj p q coll.
  assert (forall (A : Type) (h : list Z -> A) k, (k < n)%nat -> nth_error (map (fun i => h (label ++ str_y ++ bn_to_dec (Z.of_nat i))) (seq 0 n)) k = Some (h (label ++ str_y ++ bn_to_dec (Z.of_nat k)))) as N.
  { intros A h k Hk. rewrite nth_error_map, (nth_error_nth' (seq 0 n) 0%nat) by (rewrite seq_length; exact Hk). rewrite seq_nth by exact Hk. reflexivity. }
  assert (forall a b, a <> b -> label ++ str_y ++ bn_to_dec (Z.of_nat a) <> label ++ str_y ++ bn_to_dec (Z.of_nat b)) as NE.
  { intros a b H E. apply app_inv_head, app_inv_head in E. apply H. apply Nat2Z.inj.
    pose proof (proj1 (BnProps.C06_dec_hex_roundtrip (Z.of_nat a))) as A. rewrite E, (proj1 (BnProps.C06_dec_hex_roundtrip (Z.of_nat b))) in A. injection A. auto. }
  assert (forall a s, s = str_g1 \/ s = str_g2 -> label ++ str_y ++ bn_to_dec (Z.of_nat a) <> label ++ s) as NG.
  { intros a s H E. apply app_inv_head in E. destruct H as [-> | ->]; discriminate E. }
  unfold p, q, setup1, setup2, coll. cbn [p1_g1 p1_g2 p1_y p2_g1 p2_g2 p2_y]. rewrite !N by assumption.
  split; [|split; [|split]].
  - intros H E. injection E as E. eexists _, _. split; [|exact E]. now apply NE.
  - intros H E. injection E as E. eexists _, _. split; [|exact E]. now apply NE.
  - intros E. injection E as E. eexists _, _. split; [|exact E]. apply NG. auto.
  - intros E. injection E as E. eexists _, _. split; [|exact E]. apply NG. auto.
Qed.

(** ** C101: proof of knowledge of the signing key *)
Section KeyPok.
Variable C : curve.
Hypothesis LW : curve_laws C.
Let HK := cl_field C LW.
Add Field KfKP : (proj1 HK).
Context (M : modOps (cK C)) (HM : mod_laws M).
Lemma key_pok_complete (g : M) sk bl ch : exists pf, key_pok_finish (C := C) (key_pok_start (C := C) g bl) sk ch = Ok pf /\ key_pok_verify (C := C) g pf (smul sk g) ch = Ok true.
Proof.
  unfold key_pok_finish, key_pok_start. cbn [commit committing_new fst cg_gens cg_blindings app length finish].
  rewrite gen_proof_eq by reflexivity. eexists. split; [reflexivity|]. unfold key_pok_verify.
  rewrite (proj2 (vproof_verify_iff HM _ _ _ _)); [reflexivity|]. split; [reflexivity|]. cbn [vp_resp vp_com cd_blindings cd_commitment cg_blindings cg_gens sub_scaled combine map fst snd app].
  unfold finish. cbn [cd_blindings cd_commitment cg_blindings cg_gens app combine map fst snd]. rewrite (multi_mul_lin HM). unfold sub_scaled. cbn [combine map fst snd]. rewrite !lin_cons, !lin_nil_l. module_coefs HK HM; ring.
Qed.
Lemma key_pok_sound (g vk : M) pf pf' ch ch' : vp_com pf = vp_com pf' -> ch <> ch' -> key_pok_verify (C := C) g pf vk ch = Ok true -> key_pok_verify (C := C) g pf' vk ch' = Ok true ->
  exists r r', vp_resp pf = [r] /\ vp_resp pf' = [r'] /\ vk = smul (fdiv (fsub r' r) (fsub ch ch')) g.
Proof.
  intros E N V V'.
  assert (forall p c, key_pok_verify (C := C) g p vk c = Ok true -> vproof_verify p [g] vk c = Ok true) as Q.
  { intros p c. unfold key_pok_verify. destruct (vproof_verify p [g] vk c) as [b|[ ]]; try discriminate. intros; assumption. }
  apply Q in V, V'. apply (vproof_verify_iff HM) in V as (L & V). apply (vproof_verify_iff HM) in V' as (L' & V').
  destruct (vp_resp pf) as [|r [|? ?]]; try discriminate. destruct (vp_resp pf') as [|r' [|? ?]]; try discriminate.
  exists r, r'. split; [reflexivity|]. split; [reflexivity|].
  rewrite lin_cons, lin_nil_l, (madd_0_r _ _ HM) in V, V'. rewrite E, <- V' in V.
  assert (fsub ch ch' <> f0) as Nc by now apply (fsub_neq0 _ HK).
  assert (smul (fsub ch ch') vk = smul (fsub r' r) g) as A.
  { transitivity (msub (madd (smul r g) (smul ch vk)) (madd (smul r g) (smul ch' vk))); [module_coefs HK HM; ring|]. rewrite V. module_coefs HK HM; ring. }
  transitivity (smul (finv (fsub ch ch')) (smul (fsub ch ch') vk)); [module_coefs HK HM; field; exact Nc|]. rewrite A. module_coefs HK HM; field; exact Nc.
Qed.
End KeyPok.
(** An honest prover is accepted for every blinding and challenge. *)
Theorem C101_key_proof_complete : forall (C : curve) (sk bl ch : cK C), curve_laws C ->
  (forall p : params1 C, let g := p1_g2 p in exists pf, key_pok_finish (key_pok_start g bl) sk ch = Ok pf /\ key_pok_verify g pf (snd (keygen1 p sk)) ch = Ok true) /\
  (forall p : params2 C, let g := p2_g1 p in exists pf, key_pok_finish (key_pok_start g bl) sk ch = Ok pf /\ key_pok_verify g pf (snd (keygen2 p sk)) ch = Ok true).
Proof. intros C sk bl ch LW. split; intros p g; apply (key_pok_complete C LW); [apply (cl_g2 C LW)|apply (cl_g1 C LW)]. Qed.
(** Two accepted proofs with one commitment and different challenges give the signing key. *)
Theorem C101_key_proof_sound : forall (C : curve) (M : modOps (cK C)) (g vk : M) pf pf' ch ch', curve_laws C -> mod_laws M ->
  vp_com pf = vp_com pf' -> ch <> ch' -> key_pok_verify (C := C) g pf vk ch = Ok true -> key_pok_verify (C := C) g pf' vk ch' = Ok true ->
  exists r r', vp_resp pf = [r] /\ vp_resp pf' = [r'] /\ vk = smul (fdiv (fsub r' r) (fsub ch ch')) g.
Proof. intros C M g vk pf pf' ch ch' LW HM. now apply key_pok_sound. Qed.
(** A proof with another number of responses than one is an error, not a panic. *)
Theorem C101_malformed : forall (C : curve) (M : modOps (cK C)) (g vk : M) pf ch, length (vp_resp pf) <> 1%nat ->
  key_pok_verify (C := C) g pf vk ch = Err (DelgErr DPoKVCError).
Proof.
  intros C M g vk pf ch N. unfold key_pok_verify, vproof_verify. cbn [length]. destruct (1 =? length (vp_resp pf))%nat eqn:E; [|reflexivity].
  apply Nat.eqb_eq in E. congruence.
Qed.

Print Assumptions C97_sign_then_verify_1. Print Assumptions C97_sign_then_verify_2. Print Assumptions C97_accepts_exactly_1. Print Assumptions C97_accepts_exactly_2.
Print Assumptions C97_randomize_1. Print Assumptions C97_randomize_2. Print Assumptions C97_too_many. Print Assumptions C98_batch_complete. Print Assumptions C98_batch_sound_1.
Print Assumptions C98_batch_sound_2. Print Assumptions C99_binds_messages_1. Print Assumptions C99_binds_messages_2. Print Assumptions C99_refuted_binds_length.
Print Assumptions C99_refuted_short_signature_error. Print Assumptions C99_decides. Print Assumptions C100_setup. Print Assumptions C101_key_proof_complete.
Print Assumptions C101_key_proof_sound. Print Assumptions C101_malformed.

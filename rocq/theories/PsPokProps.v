(** C68-C71: proofs of knowledge of a PS signature with selective disclosure. *)
From Verif Require Import Base BnModel Alg Lin ClRevModel ClRevSpec BbsModel BbsLib BbsProps BbsCodecModel BbsCodecProps PsModel PsLib PsProps.
Import List ListNotations.
From Coq Require Import Permutation.
Open Scope list_scope.
Open Scope Z_scope.

(** the revealed indices are a set of positions of the message list *)
Definition index_set (revealed : list nat) (n : nat) : Prop := NoDup revealed /\ Forall (fun i => (i < n)%nat) revealed.
(** the revealed messages handed to the verifier: the chosen indices, each with its message *)
Definition reveals {K} (revealed : list nat) (ms : list K) (rv : list (nat * K)) : Prop :=
  NoDup (map fst rv) /\ forall i m, In (i, m) rv <-> In i revealed /\ nth_error ms i = Some m.
(** the blindings used for t and the hidden messages *)
Definition blindings_of {K} (b : option (list K)) (hidden : nat) (rs : nat -> K) : list K :=
  match b with Some l => rs 0%nat :: l | None => map rs (seq 0 (S hidden)) end.
Definition good_blindings {K} (b : option (list K)) (hidden : nat) : Prop := match b with Some l => length l = hidden | None => True end.

Section Facts.
Variable C : curve.
Notation K := (cK C). Notation SG := (cG1 C). Notation OG := (cG2 C).
Hypothesis LW : curve_laws C.
Let HK := cl_field C LW. Let H1 := cl_g1 C LW. Let H2 := cl_g2 C LW. Let HT := cl_gt C LW.
Add Field Kp : (proj1 HK).

Lemma hid_sel_length {A} rv (l : list A) : forall i, (length (hid rv i l) + length (sel rv i l))%nat = length l.
Proof. induction l as [|x l IH]; intros i; [reflexivity|]. cbn [hid sel]. specialize (IH (S i)). destruct (existsb (Nat.eqb i) rv); cbn [length]; lia. Qed.
Lemma sel_length {A} rv (l : list A) : index_set rv (length l) -> length (sel rv 0 l) = length rv.
Proof.
  intros (ND & F). rewrite <- (map_length fst). apply Permutation_length, NoDup_Permutation; [|exact ND|].
  - assert (forall (l : list A) i, NoDup (map fst (sel rv i l))) as Q; [|apply Q]. clear. induction l as [|x l IH]; intros i; [constructor|]. cbn [sel]. destruct (existsb _ rv); [|apply IH].
    cbn [map fst]. constructor; [|apply IH]. rewrite in_map_iff. intros ((j & y) & E & I). cbn [fst] in E. subst j. apply sel_in in I. lia.
  - intros i. rewrite in_map_iff. split.
    + intros ((j & y) & E & I). cbn [fst] in E. subst j. apply sel_in in I. tauto.
    + intros I. rewrite Forall_forall in F. pose proof (F i I) as Li. destruct (nth_error l i) as [y|] eqn:E; [|apply nth_error_None in E; lia].
      exists (i, y). split; [reflexivity|]. apply sel_in. rewrite Nat.sub_0_r. split; [lia|auto].
Qed.
Lemma hidden_length {A} rv (l : list A) : index_set rv (length l) -> length (not_in_set rv l) = (length l - length rv)%nat.
Proof. intros I. rewrite not_in_set_hid. pose proof (hid_sel_length rv l 0). rewrite (sel_length rv l I) in H. lia. Qed.
Lemma commit_all_eq : forall bases bl rs i c, (length bases <= length bl)%nat ->
  commit_all C c bases bl rs i = Ok (mkCommitting (cg_gens c ++ bases) (cg_blindings c ++ map (fun ib => match snd ib with Some b => b | None => rs (fst ib) end) (combine (seq i (length bases)) bl))).
Proof.
  induction bases as [|b bases IH]; intros bl rs i c L; [cbn; rewrite !app_nil_r; now destruct c|]. destruct bl as [|o bl]; [cbn in L; lia|].
  cbn [commit_all length seq combine map fst snd]. rewrite IH by (cbn in L; lia). unfold commit. cbn [fst cg_gens cg_blindings]. now rewrite <- !app_assoc.
Qed.
Lemma used_blindings (b : option (list K)) n rs : good_blindings b n -> let bl := None :: match b with Some l => map Some l | None => repeat None n end in
  length bl = S n /\ map (fun ib => match snd ib with Some x => x | None => rs (fst ib) end) (combine (seq 0 (S n)) bl) = blindings_of b n rs.
Proof.
  intros G bl. unfold bl, blindings_of, good_blindings in *. destruct b as [l|].
  - split; [cbn; now rewrite map_length, G|]. cbn [seq combine map fst snd]. f_equal. rewrite <- G.
    generalize 1%nat. clear. induction l as [|x l IH]; intros i; [reflexivity|]. cbn [length seq map combine snd fst]. now rewrite IH.
  - split; [cbn; now rewrite repeat_length|]. cbn [seq combine map fst snd]. f_equal. clear. generalize 1%nat. induction n as [|n IH]; intros i; [reflexivity|]. cbn [repeat seq combine map snd fst]. now rewrite IH.
Qed.
Lemma blindings_length b n (rs : nat -> K) : good_blindings b n -> length (blindings_of b n rs) = S n.
Proof. intros G. unfold blindings_of, good_blindings in *. destruct b; [cbn; now rewrite G|]. now rewrite map_length, seq_length. Qed.
Definition pok_state (sig : ps_sig C) (vk : ps_verkey C) (p : ps_params C) (ms : list K) b revealed r t rs : ps_pok C :=
  let bases := pp_gt p :: not_in_set revealed (vk_Y vk) in let ex := t :: not_in_set revealed ms in
  let bl := blindings_of b (length ms - length revealed) rs in
  mkPsPok ex (mkPsSig (smul r (s_1 sig)) (smul r (madd (s_2 sig) (smul t (s_1 sig))))) (lin bases ex) (mkCommitted bases bl (lin bases bl)).
Lemma index_set_check revealed n : Forall (fun i => (i < n)%nat) revealed -> existsb (fun i => (n <=? i)%nat) revealed = false.
Proof. induction 1 as [|i l Q F IH]; [reflexivity|]. cbn [existsb]. destruct (Nat.leb_spec n i); [lia|exact IH]. Qed.
Lemma pok_init_eq sig vk p (ms : list K) b revealed r t rs : index_set revealed (length ms) -> length ms = length (vk_Y vk) -> good_blindings b (length ms - length revealed) ->
  ps_pok_init C sig vk p ms b revealed r t rs = Ok (pok_state sig vk p ms b revealed r t rs).
Proof.
  intros I L G. unfold ps_pok_init. rewrite (index_set_check _ _ (proj2 I)). unfold check_verkey_compat. rewrite L, Nat.eqb_refl. cbn [negb rbind]. rewrite <- L.
  assert (match b with Some b0 => if negb (length ms - length revealed =? length b0)%nat then Err (ZmixErr ZGeneralError) else Ok (map Some b0) | None => Ok (repeat None (length ms - length revealed)) end
    = Ok (match b with Some l => map Some l | None => repeat None (length ms - length revealed) end)) as ->.
  { unfold good_blindings in G. destruct b as [l|]; [|reflexivity]. now rewrite G, Nat.eqb_refl. }
  cbn [rbind]. destruct (used_blindings b (length ms - length revealed) rs G) as (Lb & Eb).
  assert (length (not_in_set revealed (vk_Y vk)) = (length ms - length revealed)%nat) as Lh by (rewrite hidden_length; [congruence|]; rewrite <- L; exact I).
  rewrite commit_all_eq by (rewrite Lb; cbn [length]; lia). cbn [rbind]. unfold finish. cbn [committing_new cg_gens cg_blindings app]. cbn [length]. rewrite Lh, Eb, !(multi_mul_lin H2). reflexivity.
Qed.
Definition pok_final (st : ps_pok C) (ch : K) : ps_pok_proof C := mkPsPokProof (pk_sig st) (pk_J st) (mkVProof (cd_commitment (pk_vc st)) (sub_scaled ch (cd_blindings (pk_vc st)) (pk_secrets st))).
Lemma pok_gen_eq sig vk p (ms : list K) b revealed r t rs ch : index_set revealed (length ms) -> length ms = length (vk_Y vk) -> good_blindings b (length ms - length revealed) ->
  ps_pok_gen C (pok_state sig vk p ms b revealed r t rs) ch = Ok (pok_final (pok_state sig vk p ms b revealed r t rs) ch).
Proof.
  intros I L G. unfold ps_pok_gen. rewrite gen_proof_eq; cbn [pok_state pk_vc pk_secrets cd_blindings cd_gens].
  - reflexivity.
  - rewrite blindings_length by exact G. cbn [length]. f_equal. rewrite (hidden_length revealed (vk_Y vk)) by (rewrite <- L; exact I). congruence.
  - cbn [length]. f_equal. rewrite !not_in_set_hid. apply hid_length, L.
Qed.
Lemma challenge_agrees sig vk p (ms : list K) b revealed revealed' r t rs ch : (forall i, In i revealed <-> In i revealed') ->
  ps_pok_bytes C (pok_state sig vk p ms b revealed r t rs) = ps_challenge_bytes C (pok_final (pok_state sig vk p ms b revealed r t rs) ch) revealed' vk p.
Proof.
  intros E. unfold ps_pok_bytes, ps_challenge_bytes, committed_bytes. cbn [pok_state pok_final pk_sig pk_J pk_vc cd_gens cd_commitment pf_sig pf_J pf_vc vp_com map concat].
  rewrite !not_in_set_hid, (hid_ext revealed revealed' (vk_Y vk) E). now rewrite <- !app_assoc.
Qed.
(** the pairing equation of a PS signature *)
Definition ps_equation (p : ps_params C) (vk : ps_verkey C) (s : ps_sig C) (ms : list K) : Prop :=
  pair (s_1 s) (madd (vk_X vk) (lin (vk_Y vk) ms)) = pair (s_2 s) (pp_gt p).
Lemma ps_verify_iff p vk s ms : ps_verify C s ms vk p = Ok true <-> s_1 s <> m0 /\ s_2 s <> m0 /\ length ms = length (vk_Y vk) /\ ps_equation p vk s ms.
Proof.
  unfold ps_verify, ps_equation. destruct (meqb (s_1 s) m0) eqn:E1; cbn [orb].
  { apply (meqb_eq _ _ H1) in E1. split; [discriminate|tauto]. }
  destruct (meqb (s_2 s) m0) eqn:E2; cbn [orb].
  { apply (meqb_eq _ _ H1) in E2. split; [discriminate|tauto]. }
  apply (meqb_neq _ _ H1) in E1, E2. unfold check_verkey_compat. destruct (Nat.eqb_spec (length ms) (length (vk_Y vk))) as [L|L]; cbn [negb rbind].
  2:{ split; [discriminate|tauto]. }
  rewrite L, firstn_all, (multi_mul_lin H2), (p_opp_l C LW). fold (msub (pair (s_1 s) (madd (vk_X vk) (lin (vk_Y vk) ms))) (pair (s_2 s) (pp_gt p))).
  split.
  - intros V. injection V as V. apply (meqb_eq _ _ HT) in V. apply (proj1 (msub_0 _ _ HT _ _)) in V. auto.
  - intros (_ & _ & _ & V). f_equal. now apply (meqb_eq _ _ HT), (msub_0 _ _ HT).
Qed.
(** what the verifier of a disclosure checks *)
Lemma pok_verify_iff pf vk p rv ch : ps_pok_verify C pf vk p rv ch = Ok true <->
  s_1 (pf_sig pf) <> m0 /\ s_2 (pf_sig pf) <> m0 /\ (length rv <= length (vk_Y vk) + 1)%nat /\ Forall (fun im => (fst im < length (vk_Y vk))%nat) rv /\
  vproof_verify (pf_vc pf) (pp_gt p :: not_in_set (map fst rv) (vk_Y vk)) (pf_J pf) ch = Ok true /\
  pair (s_1 (pf_sig pf)) (madd (madd (pf_J pf) (msum (map (fun im => smul (snd im) (nth (fst im) (vk_Y vk) m0)) rv))) (vk_X vk)) = pair (s_2 (pf_sig pf)) (pp_gt p).
Proof.
  unfold ps_pok_verify. destruct (meqb (s_1 (pf_sig pf)) m0) eqn:E1; cbn [orb].
  { apply (meqb_eq _ _ H1) in E1. split; [discriminate|tauto]. }
  destruct (meqb (s_2 (pf_sig pf)) m0) eqn:E2; cbn [orb].
  { apply (meqb_eq _ _ H1) in E2. split; [discriminate|tauto]. }
  apply (meqb_neq _ _ H1) in E1, E2. destruct (Nat.ltb_spec (length (vk_Y vk) + 1) (length rv)) as [L|L].
  { split; [discriminate|]. intros (_ & _ & L' & _). lia. }
  destruct (vproof_verify (pf_vc pf) _ (pf_J pf) ch) as [[|]|e] eqn:V.
  2:{ split; [discriminate|]. intros (_ & _ & _ & _ & Q & _). discriminate. }
  2:{ split; [destruct e; discriminate|]. intros (_ & _ & _ & _ & Q & _). discriminate. }
  destruct (Forall_dec (fun im : nat * K => (fst im < length (vk_Y vk))%nat) (fun im => lt_dec _ _) rv) as [F|F].
  - assert (match rv with [] => Ok (pf_J pf) | _ => let! b := rmap (fun im => match nth_error (vk_Y vk) (fst im) with Some y => Ok y | None => Err Panic end) rv in Ok (madd (pf_J pf) (multi_mul b (map snd rv))) end
      = Ok (madd (pf_J pf) (msum (map (fun im => smul (snd im) (nth (fst im) (vk_Y vk) m0)) rv)))) as ->.
    { destruct rv as [|x rv']; [cbn [map msum]; now rewrite (madd_0_r _ _ H2)|]. rewrite (rmap_nth _ _ F). cbn [rbind]. now rewrite (multi_mul_lin H2), lin_pairs. }
    cbn [rbind]. rewrite (p_opp_l C LW). fold (msub (pair (s_1 (pf_sig pf)) (madd (madd (pf_J pf) (msum (map (fun im => smul (snd im) (nth (fst im) (vk_Y vk) m0)) rv))) (vk_X vk))) (pair (s_2 (pf_sig pf)) (pp_gt p))).
    split.
    + intros Q. injection Q as Q. apply (meqb_eq _ _ HT) in Q. apply (proj1 (msub_0 _ _ HT _ _)) in Q. repeat (split; [assumption || reflexivity|]). exact Q.
    + intros (_ & _ & _ & _ & _ & Q). f_equal. now apply (meqb_eq _ _ HT), (msub_0 _ _ HT).
  - split; [|intros (_ & _ & _ & F' & _); contradiction]. destruct rv as [|x rv']; [exfalso; apply F; constructor|]. rewrite (rmap_nth_panic _ _ F). discriminate.
Qed.
Lemma reveals_map revealed (ms : list K) rv : index_set revealed (length ms) -> reveals revealed ms rv -> (forall i, In i (map fst rv) <-> In i revealed) /\ length rv = length revealed.
Proof.
  intros (ND & F) (ND' & R). assert (forall i, In i (map fst rv) <-> In i revealed) as Q.
  { intros i. rewrite in_map_iff. split; [intros ((j & m) & E & I); cbn in E; subst j; now apply R in I|]. intros I. rewrite Forall_forall in F. pose proof (F i I). destruct (nth_error ms i) as [m|] eqn:E; [|apply nth_error_None in E; lia].
    exists (i, m). split; [reflexivity|]. apply R. auto. }
  split; [exact Q|]. rewrite <- (map_length fst). apply Permutation_length, NoDup_Permutation; assumption.
Qed.
Lemma total_commitment p vk (ms : list K) revealed rv t : index_set revealed (length ms) -> length ms = length (vk_Y vk) -> reveals revealed ms rv ->
  madd (madd (lin (pp_gt p :: not_in_set revealed (vk_Y vk)) (t :: not_in_set revealed ms)) (msum (map (fun im => smul (snd im) (nth (fst im) (vk_Y vk) m0)) rv))) (vk_X vk)
  = madd (smul t (pp_gt p)) (madd (vk_X vk) (lin (vk_Y vk) ms)).
Proof.
  intros I L R. destruct (reveals_map _ _ _ I R) as (Q & _). destruct R as (ND & R).
  rewrite (lin_split HK H2 (vk_Y vk) ms rv) by (try (intros i m Hi; now apply R in Hi); congruence).
  rewrite lin_cons, !not_in_set_hid. rewrite (hid_ext (map fst rv) revealed (vk_Y vk) Q), (hid_ext (map fst rv) revealed ms Q).
  match goal with |- context [msum ?l] => generalize (msum l) end. match goal with |- context [lin ?a ?b] => generalize (lin a b) end. intros A B.
  module_coefs HK H2; ring.
Qed.
Lemma final_equation p vk sig (ms : list K) r t : ps_equation p vk sig ms ->
  pair (smul r (s_1 sig)) (madd (smul t (pp_gt p)) (madd (vk_X vk) (lin (vk_Y vk) ms))) = pair (smul r (madd (s_2 sig) (smul t (s_1 sig)))) (pp_gt p).
Proof. unfold ps_equation. intros E. rewrite (p_add_r C LW), !(p_smul_l C LW), (p_add_l C LW), E, !(p_smul_r C LW), !(p_smul_l C LW). module_coefs HK HT; ring. Qed.
Lemma pok_complete p vk sig (ms : list K) b revealed rv r t rs ch : ps_verify C sig ms vk p = Ok true -> index_set revealed (length ms) -> good_blindings b (length ms - length revealed) -> reveals revealed ms rv ->
  r <> f0 -> madd (s_2 sig) (smul t (s_1 sig)) <> m0 ->
  ps_pok_verify C (pok_final (pok_state sig vk p ms b revealed r t rs) ch) vk p rv ch = Ok true.
Proof.
  intros V I G R Nr Nt. apply ps_verify_iff in V. destruct V as (N1 & N2 & L & E). destruct (reveals_map _ _ _ I R) as (Q & Lr).
  assert (length (not_in_set revealed (vk_Y vk)) = length (not_in_set revealed ms)) as Lh by (rewrite !not_in_set_hid; apply hid_length; congruence).
  apply pok_verify_iff. cbn [pok_final pok_state pf_sig pf_J pf_vc pk_sig pk_J pk_vc pk_secrets cd_commitment cd_blindings s_1 s_2].
  split; [now apply (smul_nonzero HK H1)|]. split; [now apply (smul_nonzero HK H1)|].
  assert (length rv <= length ms)%nat as Lm by (rewrite Lr; pose proof (sel_length revealed ms I); pose proof (hid_sel_length revealed ms 0); lia).
  split; [lia|]. split.
  { apply Forall_forall. intros (i & m) Im. cbn [fst]. apply (in_map fst), Q in Im. destruct I as (_ & F). rewrite Forall_forall in F. rewrite <- L. now apply F. }
  split.
  - apply (vproof_verify_iff H2). cbn [vp_resp vp_com]. rewrite !not_in_set_hid, (hid_ext (map fst rv) revealed (vk_Y vk) Q), <- !not_in_set_hid.
    assert (length (blindings_of b (length ms - length revealed) rs) = length (pp_gt p :: not_in_set revealed (vk_Y vk))) as Lb.
    { rewrite blindings_length by exact G. cbn [length]. now rewrite Lh, hidden_length by exact I. }
    assert (length (t :: not_in_set revealed ms) = length (pp_gt p :: not_in_set revealed (vk_Y vk))) as Le by (cbn [length]; congruence).
    split; [rewrite length_sub_scaled; congruence|]. apply (schnorr_complete HK H2); try assumption. reflexivity.
  - rewrite (total_commitment p vk ms revealed rv t I L R). now apply final_equation.
Qed.
End Facts.

Section Facts2.
Variable C : curve.
Hypothesis LW : curve_laws C.
Let HK := cl_field C LW. Let H1 := cl_g1 C LW. Let H2 := cl_g2 C LW. Let HT := cl_gt C LW.
Add Field Kp2 : (proj1 HK).
Lemma sub_scaled_msg (b ch m m' : cK C) : ch <> f0 -> fsub b (fmul ch m) = fsub b (fmul ch m') -> m = m'.
Proof.
  intros N E. assert (fmul ch (fsub m m') = f0) as Q by (transitivity (fsub (fsub b (fmul ch m')) (fsub b (fmul ch m))); [ring|rewrite E; ring]).
  apply (fmul_integral _ HK) in Q. destruct Q as [Q|Q]; [contradiction|]. now apply (fsub_eq0 _ HK).
Qed.
Lemma unblind_pair (a : cG1 C) (X A B : cG2 C) t (gt : cG2 C) :
  pair a (madd X (madd A B)) = msub (pair a (madd (madd (madd (smul t gt) A) B) X)) (pair a (smul t gt)).
Proof. rewrite !(p_add_r C LW). module_coefs HK HT; ring. Qed.
Lemma unblind_back (a b : cG1 C) t e : msub b (smul t a) = smul e a -> b = smul (fadd t e) a.
Proof. intros E. rewrite (smul_add_l _ _ H1), <- E. module_coefs HK H1; ring. Qed.
Lemma shift_t (t a b : cK C) : fadd t a = fadd (fsub (fadd t a) b) b.
Proof. ring. Qed.
Lemma shift_t2 (t a b : cK C) : fadd b (fsub (fadd t a) b) = fadd a t.
Proof. ring. Qed.
Lemma cancel2 (a a' b x : cG2 C) : madd (madd a b) x = madd (madd a' b) x -> a = a'.
Proof.
  intros E. apply (madd_cancel _ _ H2 (madd b x)). rewrite !(madd_comm _ _ H2 (madd b x)), !(madd_assoc _ _ H2). exact E.
Qed.
Lemma same_sigma2 (a a' : cG1 C) r r' e e' t t' : smul r a = smul r' a' -> fadd e' t' = fadd e t ->
  smul r' (madd (smul e' a') (smul t' a')) = smul r (madd (smul e a) (smul t a)).
Proof.
  intros E Q. rewrite <- !(smul_add_l _ _ H1), Q, <- !(smul_mul _ _ H1). rewrite (fmul_comm HK r'), (fmul_comm HK r), !(smul_mul _ _ H1). now rewrite E.
Qed.
End Facts2.
(** ** C68: selective disclosure works *)
Theorem C68_disclosure_complete : forall (C : curve) (p : ps_params C) vk sig (ms : list (cK C)) blindings revealed r t rs, curve_laws C ->
  ps_verify C sig ms vk p = Ok true -> index_set revealed (length ms) -> good_blindings blindings (length ms - length revealed) -> r <> f0 -> madd (s_2 sig) (smul t (s_1 sig)) <> m0 ->
  exists st, ps_pok_init C sig vk p ms blindings revealed r t rs = Ok st /\
    forall ch, exists pf, ps_pok_gen C st ch = Ok pf /\
      (forall revealed', (forall i, In i revealed <-> In i revealed') -> ps_challenge_bytes C pf revealed' vk p = ps_pok_bytes C st) /\
      (forall rv, reveals revealed ms rv -> ps_pok_verify C pf vk p rv ch = Ok true).
Proof.
  intros C p vk sig ms b revealed r t rs LW V I G Nr Nt. pose proof (proj1 (ps_verify_iff C LW p vk sig ms) V) as (_ & _ & L & _).
  exists (pok_state C sig vk p ms b revealed r t rs). split; [now apply (pok_init_eq C LW)|]. intros ch. eexists. split; [now apply (pok_gen_eq C)|]. split.
  - intros revealed' E. symmetry. now apply challenge_agrees.
  - intros rv R. apply (pok_complete C LW); try assumption.
Qed.
(** the response for the k-th hidden message, when the caller supplied its blinding *)
Theorem C68_response_of_hidden : forall (C : curve) (p : ps_params C) vk sig (ms : list (cK C)) bl revealed r t rs st ch pf k b m, curve_laws C ->
  index_set revealed (length ms) -> ps_pok_init C sig vk p ms (Some bl) revealed r t rs = Ok st -> ps_pok_gen C st ch = Ok pf ->
  nth_error bl k = Some b -> nth_error (not_in_set revealed ms) k = Some m -> ps_resp C pf k = Ok (fsub b (fmul ch m)).
Proof.
  intros C p vk sig ms bl revealed r t rs st ch pf k b m LW I Ei Eg Eb Em.
  assert (length ms = length (vk_Y vk)) as L.
  { unfold ps_pok_init in Ei. rewrite (index_set_check _ _ (proj2 I)) in Ei. unfold check_verkey_compat in Ei. destruct (Nat.eqb_spec (length ms) (length (vk_Y vk))) as [L|L]; [exact L|discriminate]. }
  assert (length bl = (length ms - length revealed)%nat) as G.
  { unfold ps_pok_init in Ei. rewrite (index_set_check _ _ (proj2 I)) in Ei. unfold check_verkey_compat in Ei. rewrite L, Nat.eqb_refl in Ei. cbn [negb rbind] in Ei. rewrite <- L in Ei.
    destruct (Nat.eqb_spec (length ms - length revealed) (length bl)) as [Q|Q]; [congruence|discriminate]. }
  rewrite (pok_init_eq C LW) in Ei by assumption. injection Ei as <-. rewrite (pok_gen_eq C) in Eg by assumption. injection Eg as <-.
  unfold ps_resp. cbn [pok_final pok_state pf_vc vp_resp pk_vc pk_secrets cd_blindings blindings_of]. unfold sub_scaled. cbn [combine map fst snd length]. rewrite map_length, combine_length.
  assert (k < length bl)%nat as Lk by (apply nth_error_Some; congruence). assert (k < length (not_in_set revealed ms))%nat as Lk' by (apply nth_error_Some; congruence).
  destruct (Nat.ltb_spec (S (Nat.min (length bl) (length (not_in_set revealed ms)))) 1) as [Q|Q]; [lia|].
  destruct (Nat.leb_spec (S (Nat.min (length bl) (length (not_in_set revealed ms))) - 1) k) as [Q'|Q']; [lia|]. cbn [Nat.add nth_error].
  assert (nth_error (combine bl (not_in_set revealed ms)) k = Some (b, m)) as Ec.
  { clear - Eb Em. revert Eb Em. generalize (not_in_set revealed ms). intros l. revert l k. induction bl as [|x bl IH]; intros [|y l] [|k] Eb Em; try discriminate; cbn in *; [congruence|]. now apply IH. }
  rewrite (map_nth_error _ _ _ Ec). reflexivity.
Qed.
(** equality of hidden messages across proofs: with one blinding and one challenge, the
    responses are equal exactly if the messages are *)
Theorem C68_equal_responses : forall (C : curve) (p p' : ps_params C) vk vk' sig sig' (ms ms' : list (cK C)) bl bl' revealed revealed' r t rs r' t' rs' st st' ch pf pf' k k' b m m', curve_laws C ->
  index_set revealed (length ms) -> ps_pok_init C sig vk p ms (Some bl) revealed r t rs = Ok st -> ps_pok_gen C st ch = Ok pf ->
  index_set revealed' (length ms') -> ps_pok_init C sig' vk' p' ms' (Some bl') revealed' r' t' rs' = Ok st' -> ps_pok_gen C st' ch = Ok pf' ->
  nth_error bl k = Some b -> nth_error (not_in_set revealed ms) k = Some m -> nth_error bl' k' = Some b -> nth_error (not_in_set revealed' ms') k' = Some m' -> ch <> f0 ->
  (ps_resp C pf k = ps_resp C pf' k' <-> m = m').
Proof.
  intros C p p' vk vk' sig sig' ms ms' bl bl' revealed revealed' r t rs r' t' rs' st st' ch pf pf' k k' b m m' LW I Ei Eg I' Ei' Eg' Eb Em Eb' Em' Nc.
  rewrite (C68_response_of_hidden C p vk sig ms bl revealed r t rs st ch pf k b m) by assumption. rewrite (C68_response_of_hidden C p' vk' sig' ms' bl' revealed' r' t' rs' st' ch pf' k' b m') by assumption.
  split; [|congruence]. intros E. injection E as E. pose proof (cl_field C LW) as HK. apply (sub_scaled_msg C LW b ch); assumption.
Qed.
(** malformed requests are errors *)
Theorem C68_errors : forall (C : curve) (p : ps_params C) vk sig (ms : list (cK C)) bl revealed r t rs, 
  ((exists i, In i revealed /\ (length ms <= i)%nat) -> ps_pok_init C sig vk p ms bl revealed r t rs = Err (ZmixErr ZGeneralError)) /\
  (index_set revealed (length ms) -> length ms <> length (vk_Y vk) -> ps_pok_init C sig vk p ms bl revealed r t rs = Err (ZmixErr (ZUnsupportedNoOfMessages (length ms) (length (vk_Y vk))))) /\
  (index_set revealed (length ms) -> length ms = length (vk_Y vk) -> forall b, bl = Some b -> length b <> (length ms - length revealed)%nat -> ps_pok_init C sig vk p ms bl revealed r t rs = Err (ZmixErr ZGeneralError)).
Proof.
  intros C p vk sig ms bl revealed r t rs. unfold ps_pok_init. split; [|split].
  - intros (i & I & L). destruct (existsb _ revealed) eqn:E; [reflexivity|]. exfalso. assert (existsb (fun i => (length ms <=? i)%nat) revealed = true); [|congruence]. apply existsb_exists. exists i. split; [exact I|now apply Nat.leb_le].
  - intros I L. rewrite (index_set_check _ _ (proj2 I)). unfold check_verkey_compat. apply Nat.eqb_neq in L. now rewrite L.
  - intros I L b -> N. rewrite (index_set_check _ _ (proj2 I)). unfold check_verkey_compat. rewrite L, Nat.eqb_refl. cbn [negb rbind]. rewrite <- L.
    destruct (Nat.eqb_spec (length ms - length revealed) (length b)) as [Q|Q]; [congruence|reflexivity].
Qed.

(** ** C69: what an accepted disclosure proves *)
Theorem C69_special_soundness : forall (C : curve) (p : ps_params C) vk (pf pf' : ps_pok_proof C) rv ch ch', curve_laws C -> NoDup (map fst rv) ->
  ps_pok_verify C pf vk p rv ch = Ok true -> ps_pok_verify C pf' vk p rv ch' = Ok true -> pf_J pf = pf_J pf' -> vp_com (pf_vc pf) = vp_com (pf_vc pf') -> ch <> ch' ->
  exists t hidden, t :: hidden = scaled_diff (finv (fsub ch' ch)) (vp_resp (pf_vc pf)) (vp_resp (pf_vc pf')) /\ let ms := merge rv (length (vk_Y vk)) hidden in length ms = length (vk_Y vk) /\ (forall i m, In (i, m) rv -> nth_error ms i = Some m) /\
    let s := ps_unblind C (pf_sig pf) t in
    pair (s_1 s) (madd (vk_X vk) (lin (vk_Y vk) ms)) = pair (s_2 s) (pp_gt p) /\
    (s_2 s <> m0 -> ps_verify C s ms vk p = Ok true).
Proof.
  intros C p vk pf pf' rv ch ch' LW ND V V' EJ EC N. pose proof (cl_field C LW) as HK. pose proof (cl_g1 C LW) as H1. pose proof (cl_g2 C LW) as H2. pose proof (cl_gt C LW) as HT.
  apply (pok_verify_iff C LW) in V, V'. destruct V as (N1 & N2 & _ & F & W & E), V' as (_ & _ & _ & _ & W' & _). rewrite <- EJ in W'.
  pose proof (C65_special_soundness _ _ _ _ _ _ _ _ HK H2 W W' EC N) as X. apply (vproof_verify_iff H2) in W, W'. destruct W as (Lw & _), W' as (Lw' & _).
  set (w := scaled_diff (finv (fsub ch' ch)) (vp_resp (pf_vc pf)) (vp_resp (pf_vc pf'))) in X. assert (length w = length (pp_gt p :: not_in_set (map fst rv) (vk_Y vk))) as L by (unfold w; rewrite length_scaled_diff; congruence).
  destruct w as [|t hv] eqn:Ew; [discriminate|]. cbn [length] in L. injection L as L. rewrite lin_cons in X.
  set (ms := merge rv (length (vk_Y vk)) hv). assert (length ms = length (vk_Y vk)) as Lm by apply merge_length.
  assert (forall i m, In (i, m) rv -> nth_error ms i = Some m) as R.
  { intros i m I. apply merge_revealed; [exact ND|exact I|]. rewrite Forall_forall in F. exact (F _ I). }
  exists t, hv. split; [symmetry; exact Ew|]. fold ms. split; [exact Lm|]. split; [exact R|]. intros s.
  assert (pair (s_1 s) (madd (vk_X vk) (lin (vk_Y vk) ms)) = pair (s_2 s) (pp_gt p)) as Q.
  { unfold s, ps_unblind. cbn [s_1 s_2]. rewrite (p_sub_l C LW), <- E, (p_smul_l C LW), <- (p_smul_r C LW), <- X.
    rewrite (lin_split HK H2 (vk_Y vk) ms rv) by (try exact R; congruence). unfold ms. rewrite (hid_merge rv (vk_Y vk) hv L). fold ms.
    match goal with |- context [msum ?l] => generalize (msum l) end. match goal with |- context [lin ?a ?b] => generalize (lin a b) end. intros A B.
    apply (unblind_pair C LW). }
  split; [exact Q|]. intros Ns. apply (ps_verify_iff C LW). split; [exact N1|]. split; [exact Ns|]. split; [exact Lm|exact Q].
Qed.
(** in terms of the signer's secret: the unblinded signature is one on messages that agree
    with everything revealed *)
Theorem C69_signed_messages : forall (C : curve) (p : ps_params C) sk vk (pf pf' : ps_pok_proof C) rv ch ch', curve_laws C -> ps_keypair p sk vk -> nondegenerate_r (pp_gt p) -> NoDup (map fst rv) ->
  ps_pok_verify C pf vk p rv ch = Ok true -> ps_pok_verify C pf' vk p rv ch' = Ok true -> pf_J pf = pf_J pf' -> vp_com (pf_vc pf) = vp_com (pf_vc pf') -> ch <> ch' ->
  exists t hidden, t :: hidden = scaled_diff (finv (fsub ch' ch)) (vp_resp (pf_vc pf)) (vp_resp (pf_vc pf')) /\ let ms := merge rv (length (vk_Y vk)) hidden in length ms = length (sk_y sk) /\ (forall i m, In (i, m) rv -> nth_error ms i = Some m) /\ s_1 (pf_sig pf) <> m0 /\
    s_2 (pf_sig pf) = smul (fadd t (exponent sk ms)) (s_1 (pf_sig pf)).
Proof.
  intros C p sk vk pf pf' rv ch ch' LW KP NDg ND V V' EJ EC N. pose proof (proj1 (pok_verify_iff C LW _ _ _ _ _) V) as (N1 & _).
  destruct (C69_special_soundness C p vk pf pf' rv ch ch' LW ND V V' EJ EC N) as (t & hv & Ew & L & R & Q & _).
  exists t, hv. split; [exact Ew|]. set (ms := merge rv (length (vk_Y vk)) hv) in *. split; [rewrite L; apply (keypair_length C p sk vk KP)|]. split; [exact R|]. split; [exact N1|].
  cbn [ps_unblind s_1 s_2] in Q. destruct KP as (EX & EY). rewrite EX, EY, (lin_dot2 C LW), <- (smul_add_l _ _ (cl_g2 C LW)), (p_smul_r C LW), <- (p_smul_l C LW) in Q.
  apply (p_inj_l C LW _ _ _ NDg) in Q. fold (exponent sk ms) in Q. apply (unblind_back C LW). symmetry. exact Q.
Qed.

(** ** C70: a disclosure reveals nothing else *)
Lemma agree_hid {K} (ms ms' : list K) revealed rv : index_set revealed (length ms) -> length ms = length ms' -> (forall i, In i revealed -> nth_error ms i = nth_error ms' i) -> reveals revealed ms rv -> reveals revealed ms' rv.
Proof. intros I L A (ND & R). split; [exact ND|]. intros i m. rewrite R. split; intros (Ii & E); (split; [exact Ii|]); [rewrite <- A|rewrite A]; assumption. Qed.
Lemma reveals_exists {K} (ms : list K) revealed : index_set revealed (length ms) -> exists rv, reveals revealed ms rv.
Proof.
  intros (ND & F). exists (sel revealed 0 ms). split.
  - assert (forall (l : list K) i, NoDup (map fst (sel revealed i l))) as Q; [|apply Q]. clear. induction l as [|x l IH]; intros i; [constructor|]. cbn [sel]. destruct (existsb _ revealed); [|apply IH].
    cbn [map fst]. constructor; [|apply IH]. rewrite in_map_iff. intros ((j & y) & E & I). cbn [fst] in E. subst j. apply sel_in in I. lia.
  - intros i m. rewrite sel_in, Nat.sub_0_r. split; [tauto|]. intros (I & E). split; [lia|auto].
Qed.
(** any two signatures on message vectors that agree at the revealed positions: every proof
    made from the first is also made from the second, with other randomness *)
Theorem C70_indistinguishable : forall (C : curve) (p : ps_params C) sk vk sig sig' (ms ms' : list (cK C)) revealed r t rs st ch pf, curve_laws C -> one_dimensional C -> ps_keypair p sk vk -> nondegenerate_r (pp_gt p) ->
  ps_verify C sig ms vk p = Ok true -> ps_verify C sig' ms' vk p = Ok true -> index_set revealed (length ms) -> (forall i, In i revealed -> nth_error ms i = nth_error ms' i) ->
  ps_pok_init C sig vk p ms None revealed r t rs = Ok st -> ps_pok_gen C st ch = Ok pf ->
  exists r' t' rs' st', ps_pok_init C sig' vk p ms' None revealed r' t' rs' = Ok st' /\ ps_pok_gen C st' ch = Ok pf /\ ps_pok_bytes C st' = ps_pok_bytes C st.
Proof.
  intros C p sk vk sig sig' ms ms' revealed r t rs st ch pf LW OD KP NDg V V' I A Ei Eg. pose proof (cl_field C LW) as HK. pose proof (cl_g1 C LW) as H1. pose proof (cl_g2 C LW) as H2.
  pose proof (proj1 (C66_verify_decision C sig ms sk vk p LW KP NDg)) as D. apply D in V. destruct V as (L & N1 & _ & E). clear D.
  pose proof (proj1 (C66_verify_decision C sig' ms' sk vk p LW KP NDg)) as D. apply D in V'. destruct V' as (L' & N1' & _ & E'). clear D.
  assert (index_set revealed (length ms')) as I' by (rewrite L', <- L; exact I). assert (length ms' = length ms) as Lm by congruence.
  rewrite (pok_init_eq C LW sig vk p ms None revealed r t rs I L Logic.I) in Ei. injection Ei as <-. rewrite (pok_gen_eq C sig vk p ms None revealed r t rs ch I L Logic.I) in Eg. injection Eg as <-.
  destruct (OD (s_1 sig') (smul r (s_1 sig)) N1') as (r' & Er).
  set (t' := fsub (fadd t (exponent sk ms)) (exponent sk ms')).
  set (bases := pp_gt p :: not_in_set revealed (vk_Y vk)). set (ex := t :: not_in_set revealed ms). set (ex' := t' :: not_in_set revealed ms').
  destruct (reveals_exists ms revealed I) as (rv & R). pose proof (agree_hid ms ms' revealed rv I (eq_sym Lm) A R) as R'.
  assert (lin bases ex = lin bases ex') as EJ.
  { pose proof (total_commitment C LW p vk ms revealed rv t I L R) as T. pose proof (total_commitment C LW p vk ms' revealed rv t' I' L' R') as T'.
    destruct KP as (EX & EY). rewrite EX, EY, (lin_dot2 C LW) in T. rewrite EX, EY, (lin_dot2 C LW) in T'. unfold bases, ex, ex'. rewrite EY.
    revert T T'. match goal with |- context [msum ?l] => generalize (msum l) end. intros B T T'.
    assert (madd (smul t (pp_gt p)) (madd (smul (sk_x sk) (pp_gt p)) (smul (dot (sk_y sk) ms) (pp_gt p))) = madd (smul t' (pp_gt p)) (madd (smul (sk_x sk) (pp_gt p)) (smul (dot (sk_y sk) ms') (pp_gt p)))) as Q.
    { rewrite <- !(smul_add_l _ _ H2). fold (exponent sk ms). fold (exponent sk ms'). f_equal. unfold t'. apply (shift_t C LW). }
    rewrite <- T, <- T' in Q. apply (cancel2 C LW) in Q. exact Q. }
  assert (length (blindings_of None (length ms - length revealed) rs) = length bases) as Lb.
  { rewrite (blindings_length C) by exact Logic.I. unfold bases. cbn [length]. f_equal. rewrite (hidden_length revealed (vk_Y vk)) by (rewrite <- L; exact I). congruence. }
  assert (length ex = length bases) as Le by (unfold ex, bases; cbn [length]; f_equal; rewrite !not_in_set_hid; now apply hid_length).
  assert (length ex' = length bases) as Le' by (unfold ex', bases; cbn [length]; f_equal; rewrite !not_in_set_hid; now apply hid_length).
  destruct (vc_reblind HK H2 bases (blindings_of None (length ms - length revealed) rs) ex ex' ch Lb Le Le' EJ) as (Lbl & Er1 & Er2).
  set (bl' := sub_scaled (fopp ch) (sub_scaled ch (blindings_of None (length ms - length revealed) rs) ex) ex') in *.
  exists r', t', (fun k => nth k bl' f0), (pok_state C sig' vk p ms' None revealed r' t' (fun k => nth k bl' f0)).
  split; [apply (pok_init_eq C LW); [exact I'|exact L'|exact Logic.I]|].
  assert (blindings_of None (length ms' - length revealed) (fun k => nth k bl' f0) = bl') as Eb.
  { unfold blindings_of. replace (S (length ms' - length revealed)) with (length bl'); [apply nth_seq_map_g|]. rewrite Lbl, <- Lb, (blindings_length C) by exact Logic.I. now rewrite Lm. }
  assert (mkPsSig (smul r' (s_1 sig')) (smul r' (madd (s_2 sig') (smul t' (s_1 sig')))) = mkPsSig (smul r (s_1 sig)) (smul r (madd (s_2 sig) (smul t (s_1 sig))))) as Es.
  { rewrite <- Er. f_equal. rewrite E, E'. apply (same_sigma2 C LW); [exact Er|]. unfold t'. apply (shift_t2 C LW). }
  split.
  - rewrite (pok_gen_eq C) by (try exact Logic.I; assumption). f_equal. unfold pok_final, pok_state. cbn [pk_sig pk_J pk_vc pk_secrets cd_commitment cd_blindings]. rewrite Es, Eb. fold bases. fold ex. fold ex'. now rewrite EJ, Er1, Er2.
  - unfold ps_pok_bytes, committed_bytes, pok_state. cbn [pk_sig pk_J pk_vc cd_gens cd_commitment]. rewrite Es, Eb. fold bases. fold ex. fold ex'. now rewrite EJ, Er2.
Qed.
(** and the randomness is determined by the proof: so equally many choices of randomness
    lead to it from either signature *)
Theorem C70_one_randomness_per_proof : forall (C : curve) (p : ps_params C) vk sig (ms : list (cK C)) revealed r t rs r' t' rs' st st' ch pf, curve_laws C ->
  ps_verify C sig ms vk p = Ok true -> index_set revealed (length ms) -> pp_gt p <> m0 ->
  ps_pok_init C sig vk p ms None revealed r t rs = Ok st -> ps_pok_gen C st ch = Ok pf -> ps_pok_init C sig vk p ms None revealed r' t' rs' = Ok st' -> ps_pok_gen C st' ch = Ok pf ->
  r = r' /\ t = t' /\ (forall k, (k <= length ms - length revealed)%nat -> rs k = rs' k).
Proof.
  intros C p vk sig ms revealed r t rs r' t' rs' st st' ch pf LW V I Ng Ei Eg Ei' Eg'. pose proof (cl_field C LW) as HK. pose proof (cl_g1 C LW) as H1. pose proof (cl_g2 C LW) as H2.
  apply (ps_verify_iff C LW) in V. destruct V as (N1 & _ & L & _).
  rewrite (pok_init_eq C LW sig vk p ms None revealed r t rs I L Logic.I) in Ei. injection Ei as <-. rewrite (pok_gen_eq C sig vk p ms None revealed r t rs ch I L Logic.I) in Eg.
  rewrite (pok_init_eq C LW sig vk p ms None revealed r' t' rs' I L Logic.I) in Ei'. injection Ei' as <-. rewrite (pok_gen_eq C sig vk p ms None revealed r' t' rs' ch I L Logic.I) in Eg'.
  rewrite <- Eg' in Eg. unfold pok_final, pok_state in Eg. cbn [pk_sig pk_J pk_vc pk_secrets cd_commitment cd_blindings] in Eg.
  assert (forall A (x y : A), Ok x = Ok y -> x = y) as OkI by congruence. apply OkI in Eg.
  pose proof (f_equal (fun q => s_1 (pf_sig q)) Eg) as E1. pose proof (f_equal pf_J Eg) as EJ. pose proof (f_equal (fun q => vp_resp (pf_vc q)) Eg) as Er. cbn [pf_sig pf_J pf_vc s_1 vp_resp] in E1, EJ, Er.
  apply (smul_inj_g HK H1) in E1; [|exact N1]. rewrite !lin_cons in EJ.
  rewrite (madd_comm _ _ H2 (smul t _)), (madd_comm _ _ H2 (smul t' _)) in EJ. apply (madd_cancel _ _ H2) in EJ. apply (smul_inj_g HK H2) in EJ; [|exact Ng]. subst t'.
  split; [exact E1|]. split; [reflexivity|]. intros k Lk.
  assert (length (not_in_set revealed ms) = (length ms - length revealed)%nat) as Lh by now apply (hidden_length).
  apply (sub_scaled_inj HK) in Er; [|cbn [blindings_of]; rewrite map_length, seq_length; cbn [length]; congruence|cbn [blindings_of]; rewrite map_length, seq_length; cbn [length]; congruence].
  cbn [blindings_of] in Er. assert (forall n i, map rs (seq i n) = map rs' (seq i n) -> forall k, (i <= k < i + n)%nat -> rs k = rs' k) as Q.
  { induction n as [|n IH]; intros i Em j Lj; [lia|]. cbn [seq map] in Em. injection Em as E0 Em. destruct (Nat.eq_dec j i) as [->|Nj]; [exact E0|]. apply (IH (S i) Em). lia. }
  apply (Q _ _ Er). lia.
Qed.

(** ** C71: problems *)
(** expected: a proof survives its own byte form.  Refuted for the proofs inside signature
    proofs: [impl_PoK_VC!] is given the size of the wrong group (pok_sig.rs:14-22), and
    decoding a point rejects other lengths, so no input at all is accepted *)
Theorem C71_refuted_other_group_bytes : forall (K : fieldOps) (M : modOps K) size_signature_group size_other_group szF (dec : list Z -> option M) (decF : list Z -> option K) data,
  size_signature_group <> size_other_group -> (forall b, length b <> size_other_group -> dec b = None) ->
  vproof_from_bytes size_signature_group szF dec decF data = Err (ZmixErr ZGeneralError).
Proof.
  intros K M s1 s2 szF dec decF data N D. unfold vproof_from_bytes. destruct (Nat.ltb_spec (length data) (s1 + 4)) as [L|L]; [reflexivity|]. rewrite D; [reflexivity|]. rewrite firstn_length. lia.
Qed.
(** expected: an index of a revealed message that the key does not have is an error, as in
    [init].  Refuted: adding such an index to an accepted proof panics *)
Theorem C71_refuted_index_checked : forall (C : curve) (p : ps_params C) vk pf rv ch i m, curve_laws C -> ps_pok_verify C pf vk p rv ch = Ok true -> (length (vk_Y vk) <= i)%nat ->
  ps_pok_verify C pf vk p (rv ++ [(i, m)]) ch = Err Panic.
Proof.
  intros C p vk pf rv ch i m LW V Li. pose proof (proj1 (pok_verify_iff C LW _ _ _ _ _) V) as (N1 & N2 & _ & _ & W & _). pose proof (cl_g1 C LW) as H1.
  unfold ps_pok_verify. rewrite (proj2 (meqb_neq _ _ H1 _ _) N1), (proj2 (meqb_neq _ _ H1 _ _) N2). cbn [orb]. destruct (_ <? _)%nat; [reflexivity|].
  assert (not_in_set (map fst (rv ++ [(i, m)])) (vk_Y vk) = not_in_set (map fst rv) (vk_Y vk)) as ->.
  { rewrite !not_in_set_hid, map_app. cbn [map fst]. assert (forall (l : list (cG2 C)) j, (j + length l <= i)%nat -> hid (map fst rv ++ [i]) j l = hid (map fst rv) j l) as Q; [|apply Q; lia].
    clear. induction l as [|x l IH]; intros j L; [reflexivity|]. cbn [hid length] in *. rewrite existsb_app. cbn [existsb]. rewrite (proj2 (Nat.eqb_neq j i)) by lia. rewrite !orb_false_r, IH by lia. reflexivity. }
  rewrite W. destruct (rv ++ [(i, m)]) as [|x l] eqn:El; [now destruct rv|]. rewrite <- El. rewrite rmap_nth_panic; [reflexivity|].
  rewrite Forall_app. intros (_ & F). inversion F as [|? ? Q]; subst. cbn [fst] in Q. lia.
Qed.
(** expected: asking for a response is total.  Refuted for decoded proofs without responses; accepted
    proofs have at least one *)
Theorem C71_refuted_response_total : forall (C : curve) sig J com i, ps_resp C (mkPsPokProof sig J (mkVProof com [])) i = Err Panic.
Proof. reflexivity. Qed.
Theorem C71_accepted_proof_has_responses : forall (C : curve) (p : ps_params C) vk pf rv ch i, curve_laws C -> ps_pok_verify C pf vk p rv ch = Ok true -> ps_resp C pf i <> Err Panic.
Proof.
  intros C p vk pf rv ch i LW V. apply (pok_verify_iff C LW) in V. destruct V as (_ & _ & _ & _ & W & _). apply (vproof_verify_iff (cl_g2 C LW)) in W. destruct W as (L & _). cbn [length] in L.
  unfold ps_resp. rewrite L. destruct (Nat.ltb_spec (S (length (not_in_set (map fst rv) (vk_Y vk)))) 1) as [Q|Q]; [lia|]. destruct (Nat.leb_spec (S (length (not_in_set (map fst rv) (vk_Y vk))) - 1) i) as [Q'|Q']; [discriminate|].
  destruct (nth_error (vp_resp (pf_vc pf)) (1 + i)) eqn:E; [discriminate|]. apply nth_error_None in E. lia.
Qed.

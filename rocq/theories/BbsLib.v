(** Specification vocabulary and lemmas for the BBS+ properties (C54-C62). *)
From Verif Require Import Base BnModel Alg Lin ClRevModel ClRevSpec BbsModel.
Import List ListNotations.
Open Scope list_scope.
Open Scope Z_scope.

(** ** specification vocabulary *)
Section Spec.
Variable C : curve.
Notation K := (cK C). Notation G1 := (cG1 C). Notation G2 := (cG2 C). Notation GT := (cGT C).
(** no generator of the key is the neutral element *)
Definition good_key (pk : bbs_pk C) : Prop := bh0 _ pk <> m0 /\ bw _ pk <> m0 /\ Forall (fun h => h <> m0) (bh _ pk).
(** g1 + s h0 + sum m_i h_i *)
Definition message_point (g1 : G1) (pk : bbs_pk C) (s : K) (ms : list K) : G1 := madd (madd g1 (smul s (bh0 _ pk))) (lin (bh _ pk) ms).
(** the verification equation of a BBS+ signature *)
Definition bbs_equation (g1 : G1) (g2 : G2) (pk : bbs_pk C) (sig : bbs_sig C) (ms : list K) : Prop :=
  pair (sa _ sig) (madd (bw _ pk) (smul (se _ sig) g2)) = pair (message_point g1 pk (ss _ sig) ms) g2.
(** the generator of G2 pairs to 1 only with the neutral element *)
Definition nondegenerate_r (g2 : G2) : Prop := forall a : G1, pair a g2 = (m0 : GT) -> a = m0.
(** G1 is cyclic of prime order: every non-neutral element generates it *)
Definition one_dimensional : Prop := forall a b : G1, a <> m0 -> exists r : K, b = smul r a.
End Spec.
Arguments good_key {C}. Arguments message_point {C}. Arguments bbs_equation {C}. Arguments nondegenerate_r {C}.

(** the values of a message list with hidden positions; [f i = Some m] if index i is revealed as m *)
Section Fill.
Context {A V : Type}.
Fixpoint hidg (f : nat -> option V) (i : nat) (hs : list A) : list A :=
  match hs with [] => [] | h :: hs' => match f i with Some _ => hidg f (S i) hs' | None => h :: hidg f (S i) hs' end end.
Fixpoint disc (f : nat -> option V) (i : nat) (hs : list A) : list (A * V) :=
  match hs with [] => [] | h :: hs' => match f i with Some m => (h, m) :: disc f (S i) hs' | None => disc f (S i) hs' end end.
Fixpoint fill (dflt : V) (f : nat -> option V) (i n : nat) (hv : list V) : list V :=
  match n with
  | O => []
  | S n' => match f i with
            | Some m => m :: fill dflt f (S i) n' hv
            | None => match hv with [] => dflt :: fill dflt f (S i) n' [] | v :: hv' => v :: fill dflt f (S i) n' hv' end
            end
  end.
Lemma fill_length d f : forall n i hv, length (fill d f i n hv) = n.
Proof. induction n as [|n IH]; intros i hv; [reflexivity|]. cbn [fill]. destruct (f i); [cbn; now rewrite IH|]. destruct hv; cbn; now rewrite IH. Qed.
Lemma fill_nth d f m : forall n i hv j, (j < n)%nat -> f (i + j)%nat = Some m -> nth_error (fill d f i n hv) j = Some m.
Proof.
  induction n as [|n IH]; intros i hv j L E; [lia|]. cbn [fill]. destruct j as [|j].
  - rewrite Nat.add_0_r in E. now rewrite E.
  - rewrite Nat.add_succ_r, <- Nat.add_succ_l in E. destruct (f i); [apply IH; [lia|exact E]|]. destruct hv; apply IH; try lia; exact E.
Qed.
Lemma hidg_filter (f : nat -> option V) : forall (hs : list A) i,
  map snd (filter (fun ih => negb (match f (fst ih) with Some _ => true | None => false end)) (combine (seq i (length hs)) hs)) = hidg f i hs.
Proof. induction hs as [|h hs IH]; intros i; [reflexivity|]. cbn [length seq combine filter fst hidg]. destruct (f i); cbn [negb map snd]; now rewrite IH. Qed.
Lemma disc_flat_map (f : nat -> option V) : forall (hs : list A) i,
  flat_map (fun ih => match f (fst ih) with Some m => [(snd ih, m)] | None => [] end) (combine (seq i (length hs)) hs) = disc f i hs.
Proof. induction hs as [|h hs IH]; intros i; [reflexivity|]. cbn [length seq combine flat_map fst snd disc]. rewrite IH. now destruct (f i). Qed.
Lemma hidg_ext (f g : nat -> option V) : forall (hs : list A) i, (forall j, (i <= j)%nat -> f j = g j) -> hidg f i hs = hidg g i hs.
Proof. induction hs as [|h hs IH]; intros i E; [reflexivity|]. cbn [hidg]. rewrite <- (E i) by lia. rewrite IH by (intros; apply E; lia). reflexivity. Qed.
Lemma disc_ext (f g : nat -> option V) : forall (hs : list A) i, (forall j, (i <= j)%nat -> f j = g j) -> disc f i hs = disc g i hs.
Proof. induction hs as [|h hs IH]; intros i E; [reflexivity|]. cbn [disc]. rewrite <- (E i) by lia. rewrite IH by (intros; apply E; lia). reflexivity. Qed.
End Fill.

Section Facts.
Variable C : curve.
Notation K := (cK C). Notation G1 := (cG1 C). Notation G2 := (cG2 C). Notation GT := (cGT C).
Hypothesis LW : curve_laws C.
Variables (g1 : G1) (g2 : G2).
Let HK := cl_field C LW. Let H1 := cl_g1 C LW. Let H2 := cl_g2 C LW. Let HT := cl_gt C LW.
Add Field Kf : (proj1 HK).

Lemma p_add_l (a b : G1) (c : G2) : pair (madd a b) c = madd (pair a c) (pair b c).
Proof. apply (cl_bilinear C LW). Qed.
Lemma p_add_r (a : G1) (b c : G2) : pair a (madd b c) = madd (pair a b) (pair a c).
Proof. apply (cl_bilinear C LW). Qed.
Lemma p_smul_l x (a : G1) (b : G2) : pair (smul x a) b = smul x (pair a b).
Proof. apply (cl_bilinear C LW). Qed.
Lemma p_smul_r x (a : G1) (b : G2) : pair a (smul x b) = smul x (pair a b).
Proof. apply (cl_bilinear C LW). Qed.
Lemma p_opp_l (a : G1) (b : G2) : pair (mopp a) b = mopp (pair a b).
Proof. now rewrite (mopp_smul _ HK _ H1), p_smul_l, <- (mopp_smul _ HK _ HT). Qed.
Lemma p_sub_l (a b : G1) (c : G2) : pair (msub a b) c = msub (pair a c) (pair b c).
Proof. unfold msub. now rewrite p_add_l, p_opp_l. Qed.
Lemma p_inj_l (a b : G1) (c : G2) : nondegenerate_r c -> pair a c = pair b c -> a = b.
Proof. intros N E. apply (msub_0 _ _ H1), N. rewrite p_sub_l, E. apply (madd_opp _ _ HT). Qed.

Lemma msm_lin bs ss : msm C bs ss = lin bs ss.
Proof. apply (lin_fold H1). Qed.
Lemma kzero_iff (x : K) : kzero C x = true <-> x = f0.
Proof. apply (feqb_eq _ HK). Qed.
Lemma kzero_false (x : K) : kzero C x = false <-> x <> f0.
Proof. apply (feqb_neq _ HK). Qed.

Lemma pk_validate_iff pk : pk_validate C pk = Ok tt <-> good_key pk.
Proof.
  unfold pk_validate, good_key. destruct (meqb (bh0 C pk) m0) eqn:E0; cbn [orb].
  { apply (meqb_eq _ _ H1) in E0. split; [discriminate|tauto]. }
  destruct (meqb (bw C pk) m0) eqn:Ew; cbn [orb].
  { apply (meqb_eq _ _ H2) in Ew. split; [discriminate|tauto]. }
  apply (meqb_neq _ _ H1) in E0. apply (meqb_neq _ _ H2) in Ew.
  destruct (existsb _ (bh C pk)) eqn:Eh.
  - split; [discriminate|]. intros (_ & _ & F). apply existsb_exists in Eh. destruct Eh as (x & I & E). apply (meqb_eq _ _ H1) in E. rewrite Forall_forall in F. exfalso. now apply (F x).
  - split; [|reflexivity]. intros _. split; [exact E0|]. split; [exact Ew|]. apply Forall_forall. intros x I E. subst x.
    assert (existsb (fun v : G1 => meqb v m0) (bh C pk) = true); [|congruence]. apply existsb_exists. exists m0. split; [exact I|]. now apply (meqb_eq _ _ H1).
Qed.
Lemma pk_validate_cases pk : (good_key pk /\ pk_validate C pk = Ok tt) \/ (~ good_key pk /\ pk_validate C pk = Err (ZmixErr ZMalformedPublicKey)).
Proof.
  pose proof (pk_validate_iff pk) as Q. destruct (pk_validate C pk) as [[]|e] eqn:E.
  - left. split; [now apply Q|reflexivity].
  - right. split; [intros G; apply Q in G; discriminate|]. unfold pk_validate in E. destruct (_ || _ || _); congruence.
Qed.
Lemma sig_validate_iff sig : sig_validate C sig = Ok tt <-> sa _ sig <> m0 /\ se _ sig <> f0 /\ ss _ sig <> f0.
Proof.
  unfold sig_validate. destruct (meqb (sa C sig) m0) eqn:E1; cbn [orb].
  { apply (meqb_eq _ _ H1) in E1. split; [discriminate|tauto]. }
  apply (meqb_neq _ _ H1) in E1. destruct (kzero C (se C sig)) eqn:E2; cbn [orb].
  { apply kzero_iff in E2. split; [discriminate|tauto]. }
  apply kzero_false in E2. destruct (kzero C (ss C sig)) eqn:E3.
  { apply kzero_iff in E3. split; [discriminate|tauto]. }
  apply kzero_false in E3. split; [auto|reflexivity].
Qed.
Lemma sig_validate_cases sig : sig_validate C sig = Ok tt \/ sig_validate C sig = Err (ZmixErr ZMalformedSignature).
Proof. unfold sig_validate. destruct (_ || _ || _); auto. Qed.

Lemma get_b_eq s ms pk : length ms = message_count C pk -> get_b C g1 s ms pk = Ok (message_point g1 pk s ms).
Proof.
  intros L. unfold get_b. rewrite L, Nat.ltb_irrefl, <- L, firstn_all, msm_lin, !lin_cons, (smul_1 _ _ H1), (madd_assoc _ _ H1). reflexivity.
Qed.
Lemma compute_b_eq s ms pk : (length ms <= message_count C pk)%nat ->
  compute_b C g1 s ms pk = message_point g1 pk s (ms ++ repeat f0 (message_count C pk - length ms)).
Proof.
  intros L. unfold compute_b. rewrite Nat.min_r by exact L. rewrite firstn_all, msm_lin, !lin_cons, (smul_1 _ _ H1), (madd_assoc _ _ H1). unfold message_point. f_equal.
  rewrite <- (firstn_skipn (length ms) (bh C pk)) at 2. rewrite (lin_app H1) by (rewrite firstn_length; unfold message_count in L; lia).
  now rewrite (lin_zero HK H1), (madd_0_r _ _ H1).
Qed.
Lemma sig_verify_eq sig ms pk : length ms = message_count C pk -> good_key pk -> sa _ sig <> m0 -> se _ sig <> f0 -> ss _ sig <> f0 ->
  exists b, sig_verify C g1 g2 sig ms pk = Ok b /\ (b = true <-> bbs_equation g1 g2 pk sig ms).
Proof.
  intros L G Na Ne Ns. unfold sig_verify. rewrite L, Nat.eqb_refl. cbn [negb]. rewrite (proj2 (pk_validate_iff pk) G). cbn [rbind].
  rewrite (proj2 (sig_validate_iff sig)) by auto. cbn [rbind]. rewrite get_b_eq by exact L. cbn [rbind]. eexists. split; [reflexivity|].
  rewrite (meqb_eq _ _ HT), p_opp_l. fold (msub (pair (sa C sig) (madd (smul (se C sig) g2) (bw C pk))) (pair (message_point g1 pk (ss C sig) ms) g2)).
  rewrite (msub_0 _ _ HT). unfold bbs_equation. now rewrite (madd_comm _ _ H2).
Qed.
Lemma sig_verify_true sig ms pk : sig_verify C g1 g2 sig ms pk = Ok true <->
  length ms = message_count C pk /\ good_key pk /\ (sa _ sig <> m0 /\ se _ sig <> f0 /\ ss _ sig <> f0) /\ bbs_equation g1 g2 pk sig ms.
Proof.
  split.
  - intros E. assert (length ms = message_count C pk) as L.
    { unfold sig_verify in E. destruct (length ms =? message_count C pk)%nat eqn:EL; [now apply Nat.eqb_eq|discriminate]. }
    assert (good_key pk) as G.
    { destruct (pk_validate_cases pk) as [[G _]|[_ Ev]]; [exact G|]. unfold sig_verify in E. rewrite L, Nat.eqb_refl, Ev in E. discriminate. }
    assert (sig_validate C sig = Ok tt) as V.
    { unfold sig_verify in E. rewrite L, Nat.eqb_refl, (proj2 (pk_validate_iff pk) G) in E. cbn [negb rbind] in E. destruct (sig_validate C sig) as [[]|]; [reflexivity|discriminate]. }
    apply sig_validate_iff in V. destruct V as (Na & Ne & Ns). split; [exact L|]. split; [exact G|]. split; [auto|].
    destruct (sig_verify_eq sig ms pk L G Na Ne Ns) as (b & Eb & I). rewrite Eb in E. apply I. congruence.
  - intros (L & G & (Na & Ne & Ns) & Q). destruct (sig_verify_eq sig ms pk L G Na Ne Ns) as (b & Eb & I). rewrite Eb. f_equal. now apply I.
Qed.
(** with the secret key known: a = b / (x + e) *)
Lemma bbs_equation_scalar pk sig ms x : nondegenerate_r g2 -> bw _ pk = smul x g2 ->
  (bbs_equation g1 g2 pk sig ms <-> smul (fadd x (se _ sig)) (sa _ sig) = message_point g1 pk (ss _ sig) ms).
Proof.
  intros N Ew. unfold bbs_equation. rewrite Ew, <- (smul_add_l _ _ H2), p_smul_r, <- p_smul_l. split.
  - apply p_inj_l, N.
  - now intros ->.
Qed.

(** ** vector commitments *)
Lemma vc_verify_iff p bases y c : vc_verify C p bases y c = Ok true <-> length (vp_responses _ p) = length bases /\ madd (lin bases (vp_responses _ p)) (smul c y) = vp_commitment _ p.
Proof.
  unfold vc_verify, vc_contribution. destruct (length bases =? length (vp_responses C p))%nat eqn:E; cbn [negb].
  - apply Nat.eqb_eq in E. cbn [rbind]. rewrite msm_lin, (lin_app H1) by exact E. rewrite lin_cons, lin_nil_l, (madd_0_r _ _ H1).
    split.
    + intros Q. split; [congruence|]. apply (msub_0 _ _ H1), (meqb_eq _ _ H1). congruence.
    + intros (_ & Q). f_equal. apply (meqb_eq _ _ H1), (msub_0 _ _ H1). exact Q.
  - apply Nat.eqb_neq in E. split; [discriminate|]. intros (Q & _). congruence.
Qed.
Lemma combine_split_fst {A B} : forall (l : list A) (l' : list B), length l = length l' -> map fst (combine l l') = l.
Proof. induction l as [|x l IH]; intros [|y l'] E; try discriminate; [reflexivity|]. cbn. now rewrite IH by (cbn in E; congruence). Qed.
Lemma combine_split_snd {A B} : forall (l : list A) (l' : list B), length l = length l' -> map snd (combine l l') = l'.
Proof. induction l as [|x l IH]; intros [|y l'] E; try discriminate; [reflexivity|]. cbn. now rewrite IH by (cbn in E; congruence). Qed.
Lemma vc_finish_combine bases bl : length bases = length bl -> vc_finish C (combine bases bl) = mkVcCommitted C bases bl (lin bases bl).
Proof. intros L. unfold vc_finish. now rewrite combine_split_fst, combine_split_snd, msm_lin. Qed.
Lemma vc_gen_proof_eq v c secrets : length secrets = length (vc_bases _ v) -> vc_gen_proof C v c secrets = Ok (mkVcProof C (vc_commitment _ v) (sub_scaled c (vc_blindings _ v) secrets)).
Proof. intros L. unfold vc_gen_proof. rewrite L, Nat.eqb_refl. reflexivity. Qed.
Lemma vc_complete bases bl secrets y c : length bl = length bases -> length secrets = length bases -> lin bases secrets = y ->
  vc_verify C (mkVcProof C (lin bases bl) (sub_scaled c bl secrets)) bases y c = Ok true.
Proof.
  intros L1 L2 E. apply vc_verify_iff. cbn [vp_responses vp_commitment]. split; [rewrite length_sub_scaled; congruence|].
  now apply (schnorr_complete HK H1).
Qed.

(** ** hidden and revealed messages *)
Lemma lin_fill (f : nat -> option K) : forall (hs : list G1) i hv, length hv = length (hidg f i hs) ->
  lin hs (fill f0 f i (length hs) hv) = madd (lin (hidg f i hs) hv) (lin (map fst (disc f i hs)) (map snd (disc f i hs))).
Proof.
  induction hs as [|h hs IH]; intros i hv L; [now rewrite lin_nil_l, (madd_0_l _ _ H1)|]. cbn [length fill hidg disc] in *. destruct (f i) as [m|].
  - cbn [map fst snd]. rewrite !lin_cons, IH by exact L. module_coefs HK H1; ring.
  - destruct hv as [|v hv]; [discriminate|]. rewrite !lin_cons, IH by (cbn in L; congruence). module_coefs HK H1; ring.
Qed.
Lemma length_disc_hidg (f : nat -> option K) : forall (hs : list G1) i, (length (hidg f i hs) + length (disc f i hs))%nat = length hs.
Proof. induction hs as [|h hs IH]; intros i; [reflexivity|]. cbn [hidg disc length]. specialize (IH (S i)). destruct (f i); cbn [length]; lia. Qed.

Definition is_hidden (m : proof_message C) : bool := match m with Revealed _ _ => false | _ => true end.
Fixpoint hidden_values (ms : list (proof_message C)) : list K :=
  match ms with [] => [] | m :: ms' => if is_hidden m then get_message C m :: hidden_values ms' else hidden_values ms' end.
Fixpoint reveals (i : nat) (ms : list (proof_message C)) : list (nat * K) :=
  match ms with [] => [] | m :: ms' => match m with Revealed _ v => (i, v) :: reveals (S i) ms' | _ => reveals (S i) ms' end end.
Fixpoint blinds (k : nat) (ms : list (proof_message C)) (rs : nat -> K) : list K :=
  match ms with
  | [] => []
  | Revealed _ _ :: ms' => blinds k ms' rs
  | HiddenSpecific _ _ :: ms' => rs k :: blinds (S k) ms' rs
  | HiddenExternal _ _ b :: ms' => b :: blinds (S k) ms' rs
  end.
(** which index is revealed, read off the message list *)
Definition shown (i : nat) (ms : list (proof_message C)) (j : nat) : option K :=
  if (j <? i)%nat then None else match nth_error ms (j - i) with Some (Revealed _ v) => Some v | _ => None end.
Lemma shown_0 i m ms : shown i (m :: ms) i = match m with Revealed _ v => Some v | _ => None end.
Proof. unfold shown. rewrite Nat.ltb_irrefl, Nat.sub_diag. reflexivity. Qed.
Lemma shown_S i m ms j : (S i <= j)%nat -> shown i (m :: ms) j = shown (S i) ms j.
Proof.
  intros L. unfold shown. rewrite (proj2 (Nat.ltb_ge j i)) by lia. rewrite (proj2 (Nat.ltb_ge j (S i))) by lia. replace (j - i)%nat with (S (j - S i))%nat by lia. reflexivity.
Qed.
Lemma lookup_reveals ms : forall i j, lookup C j (reveals i ms) = shown i ms j.
Proof.
  induction ms as [|m ms IH]; intros i j.
  - unfold shown, lookup. cbn [reveals find]. destruct (j <? i)%nat; [reflexivity|]. now destruct (j - i)%nat.
  - destruct (Nat.eq_dec j i) as [->|Nj].
    + rewrite shown_0. destruct m; cbn [reveals].
      * unfold lookup. cbn [find fst]. now rewrite Nat.eqb_refl.
      * rewrite IH. unfold shown. now rewrite (proj2 (Nat.ltb_lt i (S i))) by lia.
      * rewrite IH. unfold shown. now rewrite (proj2 (Nat.ltb_lt i (S i))) by lia.
    + assert (lookup C j (reveals i (m :: ms)) = lookup C j (reveals (S i) ms)) as ->.
      { destruct m; cbn [reveals]; try reflexivity. unfold lookup. cbn [find fst]. now rewrite (proj2 (Nat.eqb_neq i j)) by congruence. }
      rewrite IH. destruct (Nat.lt_ge_cases j i) as [Lt|Ge].
      * unfold shown. now rewrite (proj2 (Nat.ltb_lt j i)), (proj2 (Nat.ltb_lt j (S i))) by lia.
      * symmetry. apply shown_S. lia.
Qed.
Lemma hidden_gens_length ms : forall i (hs : list G1), length ms = length hs -> length (hidden_values ms) = length (hidg (shown i ms) i hs).
Proof.
  induction ms as [|m ms IH]; intros i [|h hs] L; try discriminate; [reflexivity|]. cbn [hidden_values hidg]. rewrite shown_0.
  rewrite (hidg_ext (shown i (m :: ms)) (shown (S i) ms)) by (intros; now apply shown_S). specialize (IH (S i) hs ltac:(cbn in L; congruence)).
  destruct m; cbn [is_hidden length]; congruence.
Qed.
Lemma blinds_length ms rs : forall k, length (blinds k ms rs) = length (hidden_values ms).
Proof. induction ms as [|m ms IH]; intros k; [reflexivity|]. destruct m; cbn [blinds hidden_values is_hidden length]; now rewrite ?IH. Qed.
Lemma fill_shown ms : forall i, fill f0 (shown i ms) i (length ms) (hidden_values ms) = map (get_message C) ms.
Proof.
  induction ms as [|m ms IH]; intros i; [reflexivity|]. cbn [length fill hidden_values map]. rewrite shown_0.
  assert (forall hv, fill f0 (shown i (m :: ms)) (S i) (length ms) hv = fill f0 (shown (S i) ms) (S i) (length ms) hv) as Q.
  { intros hv. assert (forall n k v, (S i <= k)%nat -> fill f0 (shown i (m :: ms)) k n v = fill f0 (shown (S i) ms) k n v) as Q; [|now apply Q].
    induction n as [|n IHn]; intros k v Lk; [reflexivity|]. cbn [fill]. rewrite shown_S by exact Lk. destruct (shown (S i) ms k); [now rewrite IHn by lia|]. destruct v; now rewrite IHn by lia. }
  destruct m; cbn [is_hidden get_message]; now rewrite Q, IH.
Qed.
Lemma hide_loop_eq rs : forall ms i (hs : list G1) cm se rv, length ms = length hs ->
  hide_loop C i hs ms rs (cm, se, rv) = (cm ++ combine (hidg (shown i ms) i hs) (blinds (length cm) ms rs), se ++ hidden_values ms, rv ++ reveals i ms).
Proof.
  induction ms as [|m ms IH]; intros i [|h hs] cm se rv L; try discriminate.
  - cbn. now rewrite !app_nil_r.
  - cbn [hide_loop hidg]. rewrite shown_0, (hidg_ext (shown i (m :: ms)) (shown (S i) ms)) by (intros; now apply shown_S).
    destruct m; rewrite IH by (cbn in L; congruence); cbn [hidden_values is_hidden blinds reveals get_message combine].
    + now rewrite <- app_assoc.
    + rewrite app_length. cbn [length]. rewrite Nat.add_1_r, <- !app_assoc. reflexivity.
    + rewrite app_length. cbn [length]. rewrite Nat.add_1_r, <- !app_assoc. reflexivity.
Qed.
Lemma gens_where_lookup rv pk : gens_where C (fun i => negb (match lookup C i rv with Some _ => true | None => false end)) pk = hidg (fun i => lookup C i rv) 0 (bh _ pk).
Proof. unfold gens_where, message_count. apply (hidg_filter (fun i => lookup C i rv)). Qed.
Lemma disclosed_lookup rv pk :
  flat_map (fun ih => match lookup C (fst ih) rv with Some m => [(snd ih, m)] | None => [] end) (combine (seq 0 (message_count C pk)) (bh C pk)) = disc (fun i => lookup C i rv) 0 (bh _ pk).
Proof. unfold message_count. apply (disc_flat_map (fun i => lookup C i rv)). Qed.
Lemma contains_lookup rv i : contains (map fst rv) i = match lookup C i rv with Some _ => true | None => false end.
Proof.
  unfold contains, lookup. induction rv as [|[j v] rv IH]; [reflexivity|]. cbn [map existsb fst find]. rewrite (Nat.eqb_sym j i). destruct (Nat.eqb i j); [reflexivity|exact IH].
Qed.

(** acceptance of a proof of knowledge of a signature *)
Lemma pok_verify_success p pk rv c : pok_verify C g1 g2 p pk rv c = Ok PSuccess <->
  good_key pk /\ (forall i m, In (i, m) rv -> (i < message_count C pk)%nat) /\ pp_a_prime _ p <> m0 /\
  pair (pp_a_prime _ p) (bw _ pk) = pair (pp_a_bar _ p) g2 /\
  vc_verify C (pp_vc1 _ p) [pp_a_prime _ p; bh0 _ pk] (msub (pp_a_bar _ p) (pp_d _ p)) c = Ok true /\
  vc_verify C (pp_vc2 _ p) (pp_d _ p :: bh0 _ pk :: hidg (fun i => lookup C i rv) 0 (bh _ pk))
    (mopp (madd g1 (lin (map fst (disc (fun i => lookup C i rv) 0 (bh _ pk))) (map snd (disc (fun i => lookup C i rv) 0 (bh _ pk)))))) c = Ok true.
Proof.
  unfold pok_verify. destruct (pk_validate_cases pk) as [[G ->]|[NG ->]]; cbn [rbind]; [|split; [discriminate|tauto]].
  destruct (existsb (fun im => (message_count C pk <=? fst im)%nat) rv) eqn:Er.
  { split; [discriminate|]. intros (_ & Q & _). apply existsb_exists in Er. destruct Er as ([i m] & I & E). apply Nat.leb_le in E. cbn in E. specialize (Q i m I). lia. }
  assert (forall i m, In (i, m) rv -> (i < message_count C pk)%nat) as Qr.
  { intros i m I. destruct (Nat.lt_ge_cases i (message_count C pk)) as [L|Ge]; [exact L|]. exfalso.
    assert (existsb (fun im : nat * K => (message_count C pk <=? fst im)%nat) rv = true); [|congruence]. apply existsb_exists. exists (i, m). split; [exact I|now apply Nat.leb_le]. }
  destruct (meqb (pp_a_prime C p) m0) eqn:Ea.
  { apply (meqb_eq _ _ H1) in Ea. split; [discriminate|tauto]. }
  apply (meqb_neq _ _ H1) in Ea. rewrite p_opp_l. fold (msub (pair (pp_a_prime C p) (bw C pk)) (pair (pp_a_bar C p) g2)).
  destruct (meqb (msub (pair (pp_a_prime C p) (bw C pk)) (pair (pp_a_bar C p) g2)) m0) eqn:Ep; cbn [negb].
  2: { apply (meqb_neq _ _ HT) in Ep. split; [discriminate|]. intros (_ & _ & _ & Q & _). exfalso. apply Ep, (msub_0 _ _ HT), Q. }
  apply (meqb_eq _ _ HT) in Ep. apply (proj1 (msub_0 _ _ HT _ _)) in Ep.
  destruct (vc_verify C (pp_vc1 C p) _ _ c) as [[|]|e] eqn:E1; cbn [rbind negb].
  2: { split; [discriminate|]. intros (_ & _ & _ & _ & Q & _). discriminate. }
  2: { split; [discriminate|]. intros (_ & _ & _ & _ & Q & _). discriminate. }
  rewrite gens_where_lookup, disclosed_lookup, msm_lin, lin_cons, (smul_1 _ _ H1).
  destruct (vc_verify C (pp_vc2 C p) _ _ c) as [[|]|e] eqn:E2; (split; [intros Q; try discriminate|intros (_ & _ & _ & _ & _ & Q); try discriminate; reflexivity]).
  split; [exact G|]. split; [exact Qr|]. split; [exact Ea|]. split; [exact Ep|]. split; reflexivity.
Qed.
End Facts.

(** Properties C149 and C150: what the responses of the CL protocol say about the secrets.
    C149: the masks of the blinded-secrets proof and of the predicate proofs are hardly
    longer than the secrets they mask.  C150: the masks of the equality proof are long
    enough: two valid credentials with the same revealed values give the same
    presentation, bit for bit, for suitable draws of the code's own sizes. *)
From Verif Require Import Base BnModel BnProofs UMod StrMap HelpersModel HelpersSpec HelpersProofs ClModel ClSpec ClLib ClKey ClIssue ClBlind ClPresent ClPred
  Alg Fp ClRevModel ClRevSpec ClProofModel ClPresSpec ClPrimary ClPresentation ClProps CurveInst ClProofProps ClHideSpec ClHideLib.
Open Scope string_scope.
Open Scope list_scope.
Open Scope Z_scope.

(** ** C150 *)
Section C150.
Variable C : curve.
Lemma Forall2_items {A B} (R : A -> B -> Prop) l l' : Forall2 R l l' -> forall x, In x l -> exists y, In (x, y) (combine l l').
Proof.
  induction 1 as [|a b l l' E F IH]; intros x Hx; [destruct Hx|]. cbn [combine]. destruct Hx as [<-|Hx]; [exists b; now left|].
  destruct (IH x Hx) as (y & Hy). exists y. now right.
Qed.
Lemma exchange_in items others rnds : length rnds = length items -> length others = length items -> forall it o, In (it, o) (combine items others) ->
  exists r, In (with_credential it o r) (exchange (C := C) items others rnds).
Proof.
  revert others rnds. induction items as [|i items IH]; intros [|o' others] [|r rnds] L1 L2 it o Hin; try discriminate; [destruct Hin|].
  cbn [combine] in Hin. cbn [exchange]. destruct Hin as [E|Hin].
  - injection E as <- <-. exists r. now left.
  - injection L1 as L1. injection L2 as L2. destruct (IH others rnds L1 L2 it o Hin) as (r' & Hr). exists r'. now right.
Qed.
Lemma Forall2_len {A B} (R : A -> B -> Prop) l l' : Forall2 R l l' -> length l = length l'.
Proof. induction 1; cbn [length]; congruence. Qed.
Lemma Forall2_combine {A B} (R : A -> B -> Prop) l l' : Forall2 R l l' -> forall x y, In (x, y) (combine l l') -> R x y.
Proof.
  induction 1 as [|a b l l' E F IH]; intros x y Hin; [destruct Hin|]. cbn [combine] in Hin. destruct Hin as [Q|Q]; [injection Q as <- <-; exact E|auto].
Qed.

Theorem C150_presentation_hides : forall (H : list Z -> list Z) commons (items : list (item C)) others nonce pf,
  hash32 H -> NoDup (map fst commons) ->
  Forall2 exchangeable items others ->
  common_ok C (map fst commons) items -> common_ok C (map fst commons) (exchange items others (map it_rnd items)) ->
  (forall a d, In (a, d) commons -> drawn 592 d) ->
  (forall it, In it items -> draws_ok (su_eq C (it_rnd it)) /\ er_r (su_eq C (it_rnd it)) + pk_n (cp_p (it_pk it)) <= 2 ^ 2128) ->
  session H commons items nonce pf -> Forall middle (pf_proofs pf) ->
  exists commons' rnds,
    map fst commons' = map fst commons /\ (forall a d, In (a, d) commons' -> drawn 592 d) /\
    length rnds = length items /\ (forall r, In r rnds -> draws_ok (su_eq C r)) /\
    session H commons' (exchange items others rnds) nonce pf.
Proof.
  intros H commons items others nonce pf H32 ND F K1 K2 Dc Di (b & Eb & Ef) Mid.
  pose proof (Forall2_len _ _ _ F) as Len.
  pose proof (finalize_init_mono C b H nonce pf Ef) as (Ec & Er & El).
  pose (c := pf_c_hash pf). assert (0 <= c < 2 ^ 256) as Bc by (unfold c; rewrite Ec; now apply challenge_bound).
  (* the responses in terms of secrets and draws *)
  assert (forall it, In it items -> mid C c (pb_common (common_builder C commons)) it) as Hm.
  { assert (session H commons items nonce pf) as Se by (exists b; split; assumption).
    pose proof (plain_responses C H commons items nonce pf Se) as PR.
    assert (Forall2 (fun it sp => exists V, sp = plain_proof C it V (pb_common (common_builder C commons)) (pf_c_hash pf)) items (pf_proofs pf)) as F2.
    { apply PR. intros it Hit. destruct (Forall2_items _ _ _ F it Hit) as (o & Ho). pose proof (Forall2_combine _ _ _ F it o Ho) as X.
      split; [exact (ex_ok1 C _ _ X)|]. split; [exact (ex_plain1 C _ _ X)|exact (ex_no_preds C _ _ X)]. }
    clear - F2 Mid. fold c in F2. revert Mid F2. generalize (pf_proofs pf). intros sps Mid F2. induction F2 as [|it sp l l' (V & E) F2 IH]; intros x Hx; [destruct Hx|].
    inversion Mid as [|? ? M1 M2]; subst. destruct Hx as [<-|Hx]; [eapply middle_mid; exact M1|now apply IH]. }
  (* the new masks of the common attributes *)
  pose (delta := fun a => match items, others with it :: _, o :: _ => value_of (it_vals it) a - value_of (snd o) a | _, _ => 0 end).
  pose (commons' := map (fun ad => (fst ad, snd ad + c * delta (fst ad))) commons).
  assert (map fst commons' = map fst commons) as EN by (unfold commons'; rewrite map_map; reflexivity).
  assert (forall a, sm_get a commons' = match sm_get a commons with Some d => Some (d + c * delta a) | None => None end) as G.
  { intros a. unfold commons'. clear. induction commons as [|[k d] l IH]; [reflexivity|]. cbn [map fst snd sm_get].
    destruct (String.eqb_spec a k) as [->|]; [reflexivity|exact IH]. }
  assert (forall it o a, In (it, o) (combine items others) -> In a (map fst commons) -> value_of (it_vals it) a - value_of (snd o) a = delta a) as Hd.
  { intros it o a Hin Ha. destruct (K1 a Ha) as (x & Hx). destruct (K2 a Ha) as (y & Hy).
    assert (forall it, In it items -> value_of (it_vals it) a = x) as Vx.
    { intros i Hi. destruct (Hx i Hi) as (_ & cv & Ev & Ex). unfold value_of. rewrite Ev. exact Ex. }
    assert (forall it o, In (it, o) (combine items others) -> value_of (snd o) a = y) as Vy.
    { intros i o' Hi. destruct (exchange_in items others (map it_rnd items) ltac:(now rewrite map_length) ltac:(lia) i o' Hi) as (r & Hr).
      destruct (Hy _ Hr) as (_ & cv & Ev & Ex). cbn [with_credential it_vals] in Ev. unfold value_of. rewrite Ev. exact Ex. }
    rewrite (Vx it) by (eapply in_combine_l; exact Hin). rewrite (Vy it o Hin). unfold delta.
    destruct items as [|it0 items']; [destruct Hin|]. destruct others as [|o0 others']; [destruct Hin|].
    rewrite (Vx it0) by now left. rewrite (Vy it0 o0) by now left. reflexivity. }
  assert (forall a, sm_get a commons = None <-> ~ In a (map fst commons)) as GN.
  { intros a. split; intros Q.
    - intros Hin. apply (sm_get_keys a commons) in Hin as (v & Hv). congruence.
    - destruct (sm_get a commons) as [v|] eqn:E; [|reflexivity]. exfalso. apply Q. apply (sm_get_keys a commons). eauto. }
  assert (forall a, sm_get a (pb_common (common_builder C commons)) = sm_get a commons) as CB1 by (intros; now apply common_builder_map).
  assert (forall a, sm_get a (pb_common (common_builder C commons')) = sm_get a commons') as CB2 by (intros; apply common_builder_map; now rewrite EN).
  destruct (swap_all C c (pb_common (common_builder C commons)) (pb_common (common_builder C commons')) (map fst commons) Bc) with (items := items) (others := others)
    as (rnds & Lr & Dr & St); [ | |exact F| | |].
  { intros a. rewrite CB1. apply GN. }
  { intros a. rewrite CB2, G. rewrite <- (GN a). destruct (sm_get a commons); [|tauto]. split; intros; discriminate. }
  { intros it Hit. split; [now apply Hm|now apply Di]. }
  { intros it o a d Hin Ha Ed. rewrite CB1 in Ed. rewrite CB2, G, Ed, (Hd it o a Hin Ha). reflexivity. }
  exists commons', rnds. split; [exact EN|]. split; [|split; [exact Lr|split]].
  - (* the masks of the common attributes keep their size *)
    intros a d' Hin. unfold commons' in Hin. apply in_map_iff in Hin as ([a0 d] & Q & Hin). injection Q as <- <-. cbn [fst snd].
    pose proof (Dc a0 d Hin) as Bd. destruct items as [|it0 items']; [unfold delta; rewrite Z.mul_0_r, Z.add_0_r; exact Bd|].
    destruct others as [|o0 others']; [discriminate|]. cbn [delta].
    inversion F as [|? ? ? ? X F']; subst.
    assert (In a0 (map fst commons)) as Ha by (change a0 with (fst (a0, d)); now apply in_map).
    destruct (Hm it0 (or_introl eq_refl)) as (_ & _ & _ & M4).
    destruct (K1 a0 Ha) as (x & Hx). destruct (Hx it0 (or_introl eq_refl)) as (Nr & cv & Ev & _).
    assert (In a0 (it_unrev C it0)) as Hu.
    { unfold it_unrev, unrevealed. apply ss_diff_in. split; [|exact Nr]. apply ss_union_in. 
      pose proof (pr_attrs (io_present _ _ _ (ex_ok1 C _ _ X))) as PA. assert (In a0 (sm_keys (it_vals it0))) as Hk by (apply (sm_get_keys a0); eauto).
      apply PA in Hk. tauto. }
    pose proof (M4 a0 Hu) as M. unfold eq_mt in M. rewrite CB1 in M.
    assert (sm_get a0 commons = Some d) as Ed.
    { clear - Hin ND. induction commons as [|[k v] l IH]; [destruct Hin|]. cbn [map fst] in ND. inversion ND as [|? ? Nk ND']; subst. cbn [sm_get].
      destruct Hin as [Q|Hin]; [injection Q as -> ->; now rewrite String.eqb_refl|].
      destruct (String.eqb_spec a0 k) as [->|]; [|now apply IH]. exfalso. apply Nk. change k with (fst (k, d)). now apply in_map. }
    rewrite Ed in M. destruct (ex_size2 C _ _ X) as [B1 _ _ _]. specialize (B1 a0). unfold drawn in B1 |- *.
    pose proof (small_c_mul c (value_of (snd o0) a0) 512 256 Bc ltac:(lia) eq_refl ltac:(lia)) as Q.
    cbn [fst]. unfold delta. rewrite Z.mul_sub_distr_l. lia.
  - rewrite Forall_forall in Dr. exact Dr.
  - destruct (common_builder_shape C commons) as (S1 & S2 & S3). destruct (common_builder_shape C commons') as (T1 & T2 & T3).
    destruct (St (common_builder C commons) (common_builder C commons') eq_refl eq_refl ltac:(congruence) ltac:(congruence)) as (ips & ips' & cs & ts & E1 & E2 & E3).
    rewrite Eb in E1. injection E1 as E1. rewrite S1 in E1. rewrite T1 in E2. cbn [app] in E1, E2. subst b. cbn [pb_init pb_c_list pb_tau_list] in *.
    eexists. split; [exact E2|]. unfold builder_finalize in Ef |- *. cbn [pb_init pb_c_list pb_tau_list] in Ef |- *.
    rewrite <- Ec in Ef |- *. fold c in Ef |- *. rewrite E3. exact Ef.
Qed.

Lemma mid_middle (it : item C) V common c : mid C c common it -> middle (plain_proof C it V common c).
Proof.
  intros (M1 & M2 & M3 & M4). constructor; unfold plain_proof; cbn [sp_p pp_eq ep_m2 ep_e ep_v the_eqproof]; try assumption.
  intros k x. unfold response. cbn [sp_p pp_eq the_eqproof ep_m].
  rewrite (sm_get_map (fun k => c * val_of (it_vals it) k + eq_mt common (su_eq C (it_rnd it)) k)).
  fold (it_unrev C it). destruct (ss_mem k (it_unrev C it)) eqn:E; [|discriminate]. intros Q. injection Q as <-. apply ss_mem_in in E. exact (M4 k E).
Qed.
(** the excluded draws are a part of at most 2^-77 of each range: all others put all
    responses in the middle, for every hash *)
Theorem C150_edges_rare : forall (H : list Z -> list Z) commons (items : list (item C)) nonce pf,
  hash32 H ->
  (forall it, In it items -> item_ok C it /\ cs_r (it_sig it) = None /\ rq_predicates (it_req it) = [] /\
     credential_sizes (cs_p (it_sig it)) (it_vals it) /\ middle_draws (pk_n (cp_p (it_pk it))) (su_eq C (it_rnd it))) ->
  NoDup (map fst commons) ->
  (forall a d, In (a, d) commons -> 2 ^ 512 <= d < 2 ^ 592 - 2 ^ 512) ->
  session H commons items nonce pf ->
  Forall middle (pf_proofs pf) /\
  forall it, In it items -> draws_ok (su_eq C (it_rnd it)) /\ er_r (su_eq C (it_rnd it)) + pk_n (cp_p (it_pk it)) <= 2 ^ 2128.
Proof.
  intros H commons items nonce pf H32 Hi ND Dc Se.
  assert (0 <= pf_c_hash pf < 2 ^ 256) as Bc.
  { destruct Se as (b & _ & Ef). apply finalize_init_mono in Ef as (-> & _). now apply challenge_bound. }
  split.
  - pose proof (plain_responses C H commons items nonce pf Se) as PR.
    assert (Forall2 (fun it sp => exists V, sp = plain_proof C it V (pb_common (common_builder C commons)) (pf_c_hash pf)) items (pf_proofs pf)) as F.
    { apply PR. intros it Hit. destruct (Hi it Hit) as (A & B & D & _). auto. }
    clear PR. revert Hi F. generalize (pf_proofs pf). generalize (pf_c_hash pf), Bc. clear Bc Se. intros c Bc sps Hi F.
    induction F as [|it sp l l' (V & ->) F IH]; [constructor|]. constructor; [|apply IH; intros; apply Hi; now right]. apply mid_middle.
    destruct (Hi it (or_introl eq_refl)) as (_ & _ & _ & [A1 A2 A3 A4] & [D1 D2 D3 D4 D5]). unfold drawn in *.
    assert (LARGE_E_START_VALUE = 2 ^ 596) as LE by reflexivity. unfold mid. rewrite LE.
    set (rnd := su_eq C (it_rnd it)) in *. set (sg := cs_p (it_sig it)) in *.
    assert (forall x, 0 <= x <= 2 ^ 256 -> 0 <= c * x <= 2 ^ 512) as Q by (intros; eapply small_c_mul; eauto; lia).
    split; [pose proof (Q (sg_m2 sg) ltac:(lia)); lia|]. split; [pose proof (small_c_mul c (sg_e sg - 2 ^ 596) 375 119 Bc ltac:(lia) eq_refl ltac:(lia)); lia|].
    split.
    + assert (0 <= pk_n (cp_p (it_pk it))) as Pn by (pose proof (vk_n _ V); lia).
      assert (0 <= sg_e sg * er_r rnd <= 2 ^ 2725) as E1.
      { split; [apply Z.mul_nonneg_nonneg; lia|]. transitivity (2 ^ 597 * 2 ^ 2128); [|rewrite <- Z.pow_add_r by lia; apply Z.pow_le_mono_r; lia].
        apply Z.mul_le_mono_nonneg; lia. }
      pose proof (small_c_mul c (sg_v sg) 2981 2725 Bc ltac:(lia) eq_refl ltac:(lia)) as E2.
      pose proof (small_c_mul c (sg_e sg * er_r rnd) 2981 2725 Bc E1 eq_refl ltac:(lia)) as E3.
      rewrite Z.mul_sub_distr_l. lia.
    + intros a _. pose proof (Q (value_of (it_vals it) a) ltac:(specialize (A1 a); lia)) as Qa.
      unfold eq_mt. rewrite (common_builder_map C commons ND a). destruct (sm_get a commons) as [d|] eqn:Ed.
      * assert (In (a, d) commons) as Hin.
        { clear - Ed. induction commons as [|[k v] l IH]; [discriminate|]. cbn [sm_get] in Ed. destruct (String.eqb_spec a k) as [->|]; [injection Ed as ->; now left|right; auto]. }
        specialize (Dc a d Hin). lia.
      * specialize (D5 a). lia.
  - intros it Hit. destruct (Hi it Hit) as (I & _ & _ & _ & [D1 D2 D3 D4 D5]). assert (0 <= pk_n (cp_p (it_pk it))) as Pn by (pose proof (vk_n _ (io_pk _ _ _ I)); lia).
    split; [|lia]. constructor; unfold drawn; [lia|lia|lia|lia|]. intros k. specialize (D5 k). lia.
Qed.
End C150.
Print Assumptions C150_presentation_hides.
Print Assumptions C150_edges_rare.

(** ** C149 *)
Lemma pinned_close bits c x s1 s2 : 0 < c -> pinned bits c x s1 -> pinned bits c x s2 -> Z.abs (s1 - s2) <= 2 ^ bits / c.
Proof. unfold pinned. lia. Qed.
Lemma blinded_v H pk bl v_prime nonce vals vt m_t r_t pr : new_blinded_correctness_proof H pk bl v_prime nonce vals vt m_t r_t = Ok pr ->
  bp_v_dash_cap pr = bp_c pr * v_prime + vt.
Proof.
  unfold new_blinded_correctness_proof. intros E. apply rbind_ok in E as (u0 & _ & E). apply rbind_ok in E as ([[[u vs] ms] rs] & _ & E).
  cbv zeta in E. apply rbind_ok in E as ([mc rc] & _ & E). injection E as <-. reflexivity.
Qed.
(** v' has 2128 bits and its mask 673: the blinded-secrets proof leaves at most 2^673/c + 1
    candidates for v' (about 2^417 for an ordinary challenge) *)
Theorem C149_refuted_blinding_hidden : forall H pk bl v_prime nonce vals vt m_t r_t pr,
  new_blinded_correctness_proof H pk bl v_prime nonce vals vt m_t r_t = Ok pr -> drawn 673 vt -> 0 < bp_c pr ->
  pinned 673 (bp_c pr) (bp_v_dash_cap pr) v_prime.
Proof. intros H pk bl v_prime nonce vals vt m_t r_t pr E D Hc. rewrite (blinded_v _ _ _ _ _ _ _ _ _ _ E). apply pinned_sum; [assumption|lia|assumption]. Qed.
Print Assumptions C149_refuted_blinding_hidden.
(** so two blindings further apart than that never give the same proof, for any draws *)
Theorem C149_refuted_blindings_exchangeable : forall H pk1 bl1 v1 n1 vals1 vt1 m1 r1 pk2 bl2 v2 n2 vals2 vt2 m2 r2 pr,
  new_blinded_correctness_proof H pk1 bl1 v1 n1 vals1 vt1 m1 r1 = Ok pr -> drawn 673 vt1 ->
  new_blinded_correctness_proof H pk2 bl2 v2 n2 vals2 vt2 m2 r2 = Ok pr -> drawn 673 vt2 -> 0 < bp_c pr ->
  Z.abs (v1 - v2) <= 2 ^ 673 / bp_c pr.
Proof.
  intros H pk1 bl1 v1 n1 vals1 vt1 m1 r1 pk2 bl2 v2 n2 vals2 vt2 m2 r2 pr E1 D1 E2 D2 Hc.
  eapply pinned_close; [exact Hc|eapply C149_refuted_blinding_hidden; eauto|eapply C149_refuted_blinding_hidden; eauto].
Qed.
Print Assumptions C149_refuted_blindings_exchangeable.

(** predicate proofs: every commitment T_i and T_DELTA is blinded by a number of 2128 bits
    that a response pins to a window of 2^672/c *)
Lemma fold_tilde_get (f : string -> Z) l : forall m0 i, In i l -> sm_get i (fold_left (fun m i => hm_insert i (f i) m) l m0) = Some (f i).
Proof.
  assert (forall l m0 i, (sm_get i m0 = Some (f i) \/ In i l) -> sm_get i (fold_left (fun m i => hm_insert i (f i) m) l m0) = Some (f i)) as G.
  { clear. induction l as [|k l IH]; intros m0 i Hi; cbn [fold_left]; [destruct Hi as [Q|[]]; exact Q|]. apply IH.
    destruct (String.eqb_spec i k) as [->|N].
    - left. rewrite sm_get_hm_insert, String.eqb_refl. reflexivity.
    - destruct Hi as [Q|[Q|Q]]; [left; rewrite sm_get_hm_insert|congruence|now right]. apply String.eqb_neq in N. now rewrite N. }
  intros m0 i Hi. apply G. now right.
Qed.
Definition blinding_names : list string := iter_keys ++ ["DELTA"].
Lemma init_ne_draws pk m_tilde vals p rnd ni : init_ne_proof pk m_tilde vals p rnd = Ok ni ->
  forall i, In i blinding_names -> sm_index i (ni_r ni) = Ok (nr_r rnd i) /\ sm_index i (ni_r_tilde ni) = Ok (nr_r_tilde rnd i).
Proof.
  unfold init_ne_proof. intros E. apply rbind_ok in E as (cv & _ & E). apply rbind_ok in E as (a & _ & E). cbv zeta in E.
  destruct (_ <? 0) in E; [discriminate|]. apply rbind_ok in E as ([[[u0 u1] u2] u3] & _ & E). cbv zeta in E.
  apply rbind_ok in E as ([[r t] cl] & Ef & E). apply rbind_ok in E as (td & _ & E). apply rbind_ok in E as (mj & _ & E). apply rbind_ok in E as (tau & _ & E).
  match type of E with Ok ?x = Ok ?y => assert (x = y) as <- by (revert E; generalize x; congruence) end. cbn [ni_r ni_r_tilde].
  assert (forall i, In i iter_keys -> sm_get i r = Some (nr_r rnd i)) as Hr.
  { unfold iter_keys in Ef. cbn [rfold] in Ef.
    repeat (let x := fresh in let Q := fresh in apply rbind_ok in Ef as ([[? ?] ?] & Q & Ef); 
            let Q1 := fresh in let Q2 := fresh in apply rbind_ok in Q as (? & Q1 & Q); cbv zeta in Q; apply rbind_ok in Q as (? & Q2 & Q); injection Q as <- <- <-).
    injection Ef as <- <- <-. intros i Hi. unfold iter_keys in Hi. cbn [In] in Hi.
    destruct Hi as [<-|[<-|[<-|[<-|[]]]]]; reflexivity. }
  intros i Hi. unfold blinding_names in Hi. apply in_app_iff in Hi. unfold sm_index, sm_get_or. rewrite !sm_get_hm_insert. destruct (String.eqb_spec i "DELTA") as [->|N]; [split; reflexivity|].
  destruct Hi as [Hi|[Q|[]]]; [|congruence]. rewrite (Hr i Hi), fold_tilde_get by assumption. split; reflexivity.
Qed.
Lemma finalize_ne_r c ni eq np : finalize_ne_proof c ni eq = Ok np ->
  forall i, In i blinding_names -> exists r t, sm_index i (ni_r ni) = Ok r /\ sm_index i (ni_r_tilde ni) = Ok t /\ sm_get i (np_r np) = Some (c * r + t).
Proof.
  unfold finalize_ne_proof. intros E. apply rbind_ok in E as ([[u r] up] & Ef & E). apply rbind_ok in E as (rd & Ed & E). cbv zeta in E.
  apply rbind_ok in E as (mj & _ & E). match type of E with Ok ?x = Ok ?y => assert (x = y) as <- by (revert E; generalize x; congruence) end. cbn [np_r].
  unfold iter_keys in Ef. cbn [rfold] in Ef.
  repeat (let Q := fresh in apply rbind_ok in Ef as ([[? ?] ?] & Q & Ef);
    apply rbind_ok in Q as (? & _ & Q); apply rbind_ok in Q as (? & _ & Q); 
    let Q1 := fresh "T" in let Q2 := fresh "T" in apply rbind_ok in Q as (? & Q1 & Q); apply rbind_ok in Q as (? & Q2 & Q); cbv zeta in Q;
    let Q3 := fresh "T" in let Q4 := fresh "T" in apply rbind_ok in Q as (? & Q3 & Q); apply rbind_ok in Q as (? & Q4 & Q); injection Q as <- <- <-).
  injection Ef as <- <- <-.
  repeat match goal with Q1 : ?x = Ok ?a, Q2 : ?x = Ok ?b |- _ => rewrite Q1 in Q2; injection Q2 as <- end.
  intros i Hi. unfold blinding_names, iter_keys in Hi. cbn [app In] in Hi. unfold bn_add, bn_mul.
  destruct Hi as [<-|[<-|[<-|[<-|[<-|[]]]]]]; do 2 eexists; (split; [eassumption|split; [eassumption|]]); reflexivity.
Qed.
Theorem C149_refuted_predicate_blinding_hidden : forall pk m_tilde vals p rnd ni c eq np i,
  init_ne_proof pk m_tilde vals p rnd = Ok ni -> finalize_ne_proof c ni eq = Ok np -> 0 < c ->
  In i blinding_names -> drawn 672 (nr_r_tilde rnd i) ->
  exists x, sm_get i (np_r np) = Some x /\ pinned 672 c x (nr_r rnd i).
Proof.
  intros pk m_tilde vals p rnd ni c eq np i E1 E2 Hc Hi D.
  destruct (init_ne_draws _ _ _ _ _ _ E1 i Hi) as [R1 R2]. destruct (finalize_ne_r _ _ _ _ E2 i Hi) as (r & t & Q1 & Q2 & Q3).
  rewrite R1 in Q1. rewrite R2 in Q2. injection Q1 as <-. injection Q2 as <-. eexists. split; [exact Q3|]. apply pinned_sum; [assumption|lia|assumption].
Qed.
Print Assumptions C149_refuted_predicate_blinding_hidden.

(** ** concrete cases *)
(** C149: a blinded-secrets proof and a predicate proof with a non-zero challenge *)
Example C149_ex_blinded : exists bl pr, generate_blinded_primary_factors ex_pk1 ex_vals 77777 = Ok bl /\
  new_blinded_correctness_proof (fun _ => repeat 255 32) ex_pk1 bl 77777 555 ex_vals 99999 (fun _ => 31) (fun _ => 37) = Ok pr /\ drawn 673 99999 /\ 0 < bp_c pr.
Proof.
  destruct C25_ex_hypotheses as (S & Hk & Ee & Eg). destruct C23_ex_issuer_key as (K & _ & V). revert Hk Eg K. generalize ex_pk1 ex_sk1. intros pk sk Hk Eg K.
  destruct (C25_issued_signature_valid (fun _ => repeat 255 32) ex_isp pk sk ex_vals [("name", Known 42)] [1;2] 77777 555 99999 (fun _ => 31) (fun _ => 37) 666 4242 [ex_e] ex_e 7 K S Hk eq_refl Ee ex_e_nonneg Eg)
    as (bl & pr & sg & sp & E1 & E2 & _).
  exists bl, pr. split; [assumption|]. split; [assumption|]. split; [unfold drawn; lia|].
  assert (bp_c pr = get_hash_as_int (fun _ => repeat 255 32) []) as ->.
  { unfold new_blinded_correctness_proof in E2. apply rbind_ok in E2 as (u0 & _ & E2). apply rbind_ok in E2 as ([[[u vs] ms] rs] & _ & E2).
    cbv zeta in E2. apply rbind_ok in E2 as ([mc rc] & _ & E2). injection E2 as <-. reflexivity. }
  vm_compute. reflexivity.
Qed.
Definition small_pk : ppk := mkPPK 77 4 [("master_secret", 64); ("name", 16)] 16 16.
Example C149_ex_predicate : exists ni np,
  init_ne_proof small_pk [("name", 5)] ex_vals (mkPred "name" GE 18) (mkNeRand (fun _ => 2 ^ 2000) (fun _ => 12) (fun _ => 13) 14) = Ok ni /\
  finalize_ne_proof 1000 ni (mkEqProof [] 0 0 0 [("name", 7)] 0) = Ok np /\ drawn 672 13 /\ In "DELTA" blinding_names.
Proof.
  exists (match init_ne_proof small_pk [("name", 5)] ex_vals (mkPred "name" GE 18) (mkNeRand (fun _ => 2 ^ 2000) (fun _ => 12) (fun _ => 13) 14) with Ok x => x | Err _ => mkNeInit [] [] [] [] [] [] 0 (mkPred "" GE 0) [] end).
  eexists. split; [vm_compute; reflexivity|]. split; [vm_compute; reflexivity|]. split; [unfold drawn; lia|]. cbn. tauto.
Qed.

(** C150: two credentials with the same name and different master secrets *)
Lemma pow77 x e : x ^ 15 mod 77 = 1 -> 0 <= e -> x ^ e mod 77 = x ^ (e mod 15) mod 77.
Proof.
  intros H1 He. rewrite (Z.div_mod e 15) at 1 by lia. rewrite Z.pow_add_r; [|pose proof (Z.div_pos e 15); lia|pose proof (Z.mod_pos_bound e 15); lia].
  rewrite Z.pow_mul_r by (try lia; apply Z.div_pos; lia). rewrite Z.mul_mod by lia. rewrite Zpow_facts.Zpower_mod by lia. rewrite H1.
  rewrite Z.pow_1_l by (apply Z.div_pos; lia). rewrite Z.mod_1_l by lia. rewrite Z.mul_1_l. apply Z.mod_mod. lia.
Qed.
Definition ex_sg1 : psig := mkPSig 666 23 (2 ^ 596 + 1) (2 ^ 2724).
Definition ex_sg2 : psig := mkPSig 777 60 (2 ^ 596 + 7) (2 ^ 2724 + 5).
Definition ex_vals2 : cred_values := [("master_secret", Hidden 999); ("name", Known 42)].
Lemma sign77 sg m : sg_a sg ^ 15 mod 77 = 1 -> 0 <= sg_e sg -> 0 <= sg_v sg -> 0 <= sg_m2 sg -> 0 <= m ->
  (sg_a sg ^ (sg_e sg mod 15) mod 77 * (4 ^ (sg_v sg mod 15) mod 77 * (16 ^ (sg_m2 sg mod 15) mod 77 * (64 ^ (m mod 15) mod 77 * (16 ^ 12 mod 77) mod 77) mod 77) mod 77)) mod 77 = 16 ->
  cl_signature small_pk sg [("master_secret", m); ("name", 42)].
Proof.
  intros HA He Hv Hm2 Hm E. unfold cl_signature, product_is_one, pos_part, neg_part. cbn [fold_right map fst snd small_pk pk_n pk_z pk_s pk_rctxt].
  change (base_of _ "master_secret") with 64. change (base_of _ "name") with 16. fold small_pk.
  assert (forall k, 0 <= k -> Z.max k 0 = k) as M1 by lia. assert (forall k, 0 <= k -> Z.max (- k) 0 = 0) as M2 by lia.
  change (Z.max (-1) 0) with 0. change (Z.max (- -1) 0) with 1. change (Z.max 42 0) with 42. change (Z.max (- (42)) 0) with 0.
  rewrite (M1 (sg_e sg)), (M1 (sg_v sg)), (M1 (sg_m2 sg)), (M1 m), (M2 (sg_e sg)), (M2 (sg_v sg)), (M2 (sg_m2 sg)), (M2 m) by assumption. rewrite !Z.pow_0_r, Z.pow_1_r, !Z.mul_1_l, Z.mul_1_r.
  change (base_of small_pk "master_secret") with 64. change (base_of small_pk "name") with 16.
  change (16 mod 77) with 16. etransitivity; [|exact E]. clear E.
  assert (forall a b a' b', a mod 77 = a' mod 77 -> b mod 77 = b' mod 77 -> (a * b) mod 77 = (a' * b') mod 77) as MM.
  { intros a b a' b' A B. rewrite (Z.mul_mod a b), (Z.mul_mod a' b') by lia. now rewrite A, B. }
  assert (forall x e, x ^ 15 mod 77 = 1 -> 0 <= e -> x ^ e mod 77 = (x ^ (e mod 15) mod 77) mod 77) as PP by (intros; rewrite Z.mod_mod by lia; now apply pow77).
  apply MM; [now apply PP|]. rewrite Z.mod_mod by lia. apply MM; [apply PP; [reflexivity|assumption]|]. rewrite Z.mod_mod by lia. apply MM; [apply PP; [reflexivity|assumption]|].
  rewrite Z.mod_mod by lia. apply MM; [apply PP; [reflexivity|assumption]|]. change 12 with (42 mod 15) at 1. apply PP; [reflexivity|lia].
Qed.
Lemma small_valid : valid_pk small_pk.
Proof.
  constructor; cbn [small_pk pk_n pk_s pk_z pk_rctxt pk_r]; [lia|split; [lia|reflexivity]|split; [lia|reflexivity]|split; [lia|reflexivity]|].
  intros k r. cbn [sm_get]. destruct (String.eqb k "master_secret"); [|destruct (String.eqb k "name"); [|discriminate]]; intros Q; injection Q as <-; split; (lia || reflexivity).
Qed.
Definition plain_rnd : subrand T257 :=
  mkSubRand T257 (mkEqRand (2 ^ 591) (2 ^ 2000) (2 ^ 455) (2 ^ 3059) (fun _ => 2 ^ 591)) (fun _ => mkNeRand (fun _ => 11) (fun _ => 12) (fun _ => 13) 14) ex_x0 ex_x0.
Definition plain_req : subreq := mkSubReq ["name"] [].
Definition plain_item (sg : psig) (vals : cred_values) : item T257 :=
  mkItem plain_req ["name"] ["master_secret"] (mkCSig sg None) vals (mkCPK small_pk None) None None None plain_rnd.
Lemma plain_ok sg m : unit_mod 77 (sg_a sg) -> 0 <= m -> cl_signature small_pk sg [("master_secret", m); ("name", 42)] ->
  item_ok T257 (plain_item sg [("master_secret", Hidden m); ("name", Known 42)]).
Proof.
  intros U Hm Sg. constructor; cbn [plain_item it_pk cp_p it_sig cs_p it_vals it_schema it_non_schema it_req it_rnd].
  - exact small_valid.
  - constructor.
    + cbn [ssorted]. split; [intros ? []|exact I].
    + cbn [ssorted]. split; [intros ? []|exact I].
    + cbn [ssorted rq_revealed plain_req]. split; [intros ? []|exact I].
    + reflexivity.
    + exact ex_sorted_pair.
    + intros k. cbn. tauto.
    + intros k Hk. exact Hk.
    + intros p [].
    + intros k. cbn. tauto.
    + exact U.
    + exact Sg.
  - exact I.
  - intros p [].
Qed.
Lemma plain_sizes sg m : 0 <= m < 2 ^ 256 -> drawn 256 (sg_m2 sg) -> 2 ^ 596 <= sg_e sg <= 2 ^ 596 + 2 ^ 119 -> drawn 2725 (sg_v sg) ->
  credential_sizes sg [("master_secret", Hidden m); ("name", Known 42)].
Proof.
  intros. constructor; try assumption. intros k. unfold value_of, drawn. cbn [sm_get]. destruct (String.eqb k "master_secret"); [cbn [cv_value]; assumption|].
  destruct (String.eqb k "name"); cbn [cv_value]; lia.
Qed.
Example C150_ex : exists pf,
  Forall2 exchangeable [plain_item ex_sg1 ex_vals] [(mkCSig ex_sg2 None, ex_vals2)] /\
  common_ok T257 ["master_secret"] [plain_item ex_sg1 ex_vals] /\
  common_ok T257 ["master_secret"] (exchange [plain_item ex_sg1 ex_vals] [(mkCSig ex_sg2 None, ex_vals2)] [plain_rnd]) /\
  (draws_ok (su_eq T257 plain_rnd) /\ er_r (su_eq T257 plain_rnd) + 77 <= 2 ^ 2128) /\
  session exH [("master_secret", 2 ^ 591)] [plain_item ex_sg1 ex_vals] 4711 pf /\ Forall middle (pf_proofs pf).
Proof.
  assert (cl_signature small_pk ex_sg1 [("master_secret", 12345); ("name", 42)]) as S1 by (apply sign77; first [lia|vm_compute; reflexivity|vm_compute; discriminate]).
  assert (cl_signature small_pk ex_sg2 [("master_secret", 999); ("name", 42)]) as S2 by (apply sign77; first [lia|vm_compute; reflexivity|vm_compute; discriminate]).
  assert (unit_mod 77 (sg_a ex_sg1)) as U1 by (split; [cbn; lia|reflexivity]).
  assert (unit_mod 77 (sg_a ex_sg2)) as U2 by (split; [cbn; lia|reflexivity]).
  pose proof (plain_ok ex_sg1 12345 U1 ltac:(lia) S1) as I1. pose proof (plain_ok ex_sg2 999 U2 ltac:(lia) S2) as I2.
  assert (credential_sizes ex_sg1 ex_vals) as Z1 by (apply plain_sizes; cbn [ex_sg1 sg_m2 sg_e sg_v]; unfold drawn; lia).
  assert (credential_sizes ex_sg2 ex_vals2) as Z2 by (apply plain_sizes; cbn [ex_sg2 sg_m2 sg_e sg_v]; unfold drawn; lia).
  assert (common_ok T257 ["master_secret"] [plain_item ex_sg1 ex_vals]) as K1.
  { intros a [<-|[]]. exists 12345. intros it [<-|[]]. split; [cbn; intuition discriminate|]. exists (Hidden 12345); split; reflexivity. }
  destruct (C28_presentation_accepted T257 exH [("master_secret", 2 ^ 591)] [plain_item ex_sg1 ex_vals] 4711 T257_laws C28_ex_hash) as (b & v & pf & v' & E1 & E2 & _).
  { intros it [<-|[]]. exact I1. }
  { exact K1. }
  exists pf. assert (session exH [("master_secret", 2 ^ 591)] [plain_item ex_sg1 ex_vals] 4711 pf) as Se by (exists b; split; assumption).
  destruct (C150_edges_rare T257 exH [("master_secret", 2 ^ 591)] [plain_item ex_sg1 ex_vals] 4711 pf C28_ex_hash) as (M & D).
  - intros it [<-|[]]. split; [exact I1|]. split; [reflexivity|]. split; [reflexivity|]. split; [exact Z1|].
    constructor; cbn [plain_item it_rnd plain_rnd su_eq er_m2_tilde er_r er_e_tilde er_v_tilde er_m it_pk cp_p small_pk pk_n]; try intros _; lia.
  - constructor; [intros []|constructor].
  - intros a d [Q|[]]. injection Q as _ <-. lia.
  - exact Se.
  - split; [|split; [exact K1|split; [|split; [|split; [exact Se|exact M]]]]].
    + constructor; [|constructor]. constructor.
      * exact I1.
      * exact I2.
      * reflexivity.
      * reflexivity.
      * reflexivity.
      * intros k [<-|[]]. reflexivity.
      * exact Z1.
      * exact Z2.
      * exists 13. split; [cbn; lia|reflexivity].
    + intros a [<-|[]]. exists 999. intros it [<-|[]]. split; [cbn; intuition discriminate|]. exists (Hidden 999); split; reflexivity.
    + exact (D _ (or_introl eq_refl)).
Qed.

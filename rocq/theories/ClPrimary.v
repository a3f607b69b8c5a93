(** A primary proof made from a presentable credential recomputes the prover's
    commitments (C26-C28). *)
From Verif Require Import Base BnModel BnProofs UMod Fermat StrMap HelpersModel HelpersSpec HelpersProofs ClModel ClSpec ClLib ClKey ClIssue ClBlind
  ClPresent ClPred Alg ClRevModel ClProofModel ClPresSpec.
Open Scope string_scope.
Open Scope list_scope.
Open Scope Z_scope.

Lemma rmap_exists {A B} (f : A -> res B) (R : A -> B -> Prop) : forall l, (forall x, In x l -> exists y, f x = Ok y /\ R x y) ->
  exists ys, rmap f l = Ok ys /\ Forall2 R l ys.
Proof.
  induction l as [|x l IH]; intros Hf; cbn [rmap]; [eauto|].
  destruct (Hf x ltac:(now left)) as (y & E & Rxy). rewrite E. cbn [rbind].
  destruct IH as (ys & E' & F); [intros; apply Hf; now right|]. rewrite E'. cbn [rbind]. eauto.
Qed.
Lemma rmap_exists2 {A B D} (f : B -> res D) (R : A -> B -> Prop) (Q : A -> B -> D -> Prop) : forall l ys, Forall2 R l ys ->
  (forall x y, In x l -> R x y -> exists z, f y = Ok z /\ Q x y z) ->
  exists zs, rmap f ys = Ok zs /\ Forall2 (fun xy z => Q (fst xy) (snd xy) z) (combine l ys) zs.
Proof.
  intros l ys F. induction F as [|x y l ys Rxy F IH]; intros Hf; cbn [rmap combine]; [eauto|].
  destruct (Hf x y ltac:(now left) Rxy) as (z & E & Qz). rewrite E. cbn [rbind].
  destruct IH as (zs & E' & F'); [intros; apply Hf; [now right|assumption]|]. rewrite E'. cbn [rbind]. eauto.
Qed.

Lemma satisfied_provable vals p : predicate_satisfied vals p -> predicate_provable vals p.
Proof.
  intros (cv & Ecv & Ia & Iv & Hh & Hd). exists cv. set (a := cv_value cv) in *.
  assert (is_i32 (true_delta (p_type p) a (p_value p))) as It.
  { unfold is_i32 in *. split; [|assumption]. destruct (p_type p); cbn [holds true_delta] in *; lia. }
  split; [exact Ecv|]. split; [exact Ia|]. split; [now apply get_delta_iff|].
  apply delta_prime_rel; auto. unfold is_i32 in *. destruct (p_type p); cbn [holds] in *; lia.
Qed.
Lemma presentable_weaken (Q1 Q2 : predicate -> Prop) pk sg vals schema non_schema req : (forall p, Q1 p -> Q2 p) ->
  presentable_for Q1 pk sg vals schema non_schema req -> presentable_for Q2 pk sg vals schema non_schema req.
Proof.
  intros HQ P. destruct P as [P1 P2 P3 P4 P5 P6 P7 P8 P9 P10 P11]. constructor; auto.
  intros p Hp. destruct (P8 p Hp) as (A & B & D). auto.
Qed.

Section Primary.
Variables (pk : ppk) (V : valid_pk pk) (sg : psig) (vals : cred_values) (schema non_schema : sset) (req : subreq).
Hypothesis P : presentable_for (predicate_provable vals) pk sg vals schema non_schema req.
Let Hs1 := pr_schema P.
Let Hs2 := pr_non_schema P.
Let Hs3 := pr_revealed_sorted P.
Let Hs4 := pr_vals P.
Let Hattrs := pr_attrs P.
Let Hpk := pr_bases P.
Let HA := pr_unit P.
Let Hsig : cl_signature pk sg (int_values vals) := pr_sig P.
Lemma Hrev' k : In k (rq_revealed req) -> In k (sm_keys vals).
Proof. intros Hk. apply Hattrs. left. now apply (pr_revealed P). Qed.

Variables (common : smap Z) (m2_t : option Z) (rnd : eqrand) (nrnd : predicate -> nerand).
Hypothesis Hrnd : forall p, In p (rq_predicates req) -> 0 <= nr_r (nrnd p) "DELTA" /\ 0 <= nr_r_tilde (nrnd p) "DELTA".

(** the response of attribute k to challenge c *)
Definition m_response (c : Z) (k : string) : option Z :=
  if ss_mem k (unrevealed non_schema schema req) then Some (c * val_of vals k + match sm_get k common with Some x => x | None => er_m rnd k end) else None.

Lemma pred_in_unrev p : In p (rq_predicates req) -> In (p_attr p) (unrevealed non_schema schema req).
Proof.
  intros Hp. destruct (pr_preds P p Hp) as (H1 & H2 & _).
  unfold unrevealed. rewrite ss_diff_in, ss_union_in. tauto.
Qed.

Lemma primary_complete : exists ip, init_primary_proof common pk sg vals schema non_schema req m2_t rnd nrnd = Ok ip /\
  ei_a_prime (pi_eq ip) = uv (uA' pk V sg rnd) /\
  forall c, 0 <= c -> exists pf ts, finalize_primary_proof ip c schema non_schema vals req = Ok pf /\
    verify_primary_proof pk c pf schema non_schema req = Ok ts /\
    map bn_to_bytes ts = pinit_tau_list ip /\
    ep_revealed (pp_eq pf) = map (fun k => (k, val_of vals k)) (rq_revealed req) /\
    map np_predicate (pp_ne pf) = rq_predicates req /\
    (forall k, sm_get k (ep_m (pp_eq pf)) = m_response c k) /\
    ep_a_prime (pp_eq pf) = uv (uA' pk V sg rnd).
Proof.
  pose proof (init_eq_u pk V sg vals schema non_schema req Hattrs Hpk HA common m2_t rnd) as Ei.
  set (ei := the_eqinit _ _ _ _ _ _ _ _ _) in Ei.
  unfold init_primary_proof. rewrite Ei. cbn [rbind].
  pose (R := fun p ni => ni_predicate ni = p /\ forall c eq, 0 <= c -> sm_get (p_attr p) (ep_m eq) = m_response c (p_attr p) ->
     exists np, finalize_ne_proof c ni eq = Ok np /\ verify_ne_predicate pk np c = Ok (ni_tau_list ni) /\ np_predicate np = p).
  assert (forall p, In p (rq_predicates req) -> exists ni, init_ne_proof pk (ei_m_tilde ei) vals p (nrnd p) = Ok ni /\ R p ni) as Hne.
  { intros p Hp. destruct (pr_preds P p Hp) as (H1 & H2 & cv & Ecv & Ia & Hd0 & Hrel).
    pose proof (pred_in_unrev p Hp) as Hu. destruct (Hrnd p Hp) as [R1 R2].
    set (a := cv_value cv) in *.
    assert (exists cv, sm_get (p_attr p) vals = Some cv /\ cv_value cv = a) as Hcv by eauto.
    pose proof (mt_get schema non_schema req common rnd (p_attr p) Hu) as Hmt.
    assert (val_of vals (p_attr p) = a) as Eval by (unfold val_of; now rewrite Ecv).
    destruct (four_squares_ok _ Hd0) as (u0 & u1 & u2 & u3 & Hfs & _ & _ & _ & _ & Hsum).
    pose proof (init_ne_u pk V vals p (nrnd p) (ei_m_tilde ei) _ a Hcv Ia Hmt Hd0 R2 u0 u1 u2 u3 Hfs) as Ein.
    eexists. split; [exact Ein|]. split; [reflexivity|]. intros c eq Hc Em.
    unfold m_response in Em. apply ss_mem_in in Hu. rewrite Hu, Eval in Em.
    eexists. split; [|split].
    - eapply finalize_ne_u. exact Em.
    - eapply verify_ne_u; eauto.
    - reflexivity. }
  destruct (rmap_exists _ R _ Hne) as (nis & En & FR). rewrite En. cbn [rbind].
  eexists. split; [reflexivity|]. split; [reflexivity|]. intros c Hc.
  pose proof (finalize_eq_u pk V sg vals schema non_schema req Hs2 Hs3 Hattrs Hrev' common m2_t rnd c) as Ef.
  pose proof (verify_eq_u pk V sg vals schema non_schema req Hs1 Hs2 Hs3 Hs4 Hattrs Hrev' Hpk HA Hsig common m2_t rnd c) as Ev.
  fold ei in Ef. set (pe := the_eqproof _ _ _ _ _ _ _ _ _ _ _) in Ef, Ev.
  assert (forall k, sm_get k (ep_m pe) = m_response c k) as Em.
  { intros k. unfold m_response. cbn [pe the_eqproof ep_m]. rewrite (sm_get_map (fun k => c * val_of vals k + eq_mt common rnd k)). reflexivity. }
  unfold finalize_primary_proof. cbn [pi_eq pi_ne]. rewrite Ef. cbn [rbind].
  destruct (rmap_exists2 (fun ne => finalize_ne_proof c ne pe) R (fun p ni np => verify_ne_predicate pk np c = Ok (ni_tau_list ni) /\ np_predicate np = p) _ _ FR)
    as (nps & Enp & FQ).
  { intros p ni _ [_ Hr]. destruct (Hr c pe Hc (Em _)) as (np & E1 & E2 & E3). eauto. }
  rewrite Enp. cbn [rbind]. eexists. exists (uv (uT pk V sg schema non_schema req common m2_t rnd) :: concat (map ni_tau_list nis)).
  split; [reflexivity|]. cbn [pp_eq pp_ne].
  assert (map np_predicate nps = rq_predicates req /\ rmap (fun ne => verify_ne_predicate pk ne c) nps = Ok (map ni_tau_list nis)) as [Ep Evp].
  { clear - FQ FR. revert nps FQ. induction FR as [|p ni ps nis' Rp F IH]; intros nps FQ; cbn [combine] in FQ; inversion FQ; subst; cbn [map rmap].
    - auto.
    - match goal with H : _ /\ _ |- _ => destruct H as [Q1 Q2] end. cbn [fst snd] in Q1, Q2.
      destruct (IH _ ltac:(eassumption)) as [I1 I2]. rewrite Q1, I2. cbn [rbind]. split; [congruence|reflexivity]. }
  split; [|split; [|split; [|split; [|split]]]]; auto.
  - unfold verify_primary_proof. cbn [pp_eq pp_ne]. rewrite Ev. cbn [rbind]. rewrite Evp. reflexivity.
  - unfold pinit_tau_list. cbn [pi_eq pi_ne map]. f_equal. now rewrite concat_map, map_map.
Qed.
End Primary.

(** C105-C106: verifying whole delegation chains (libzmix/src/signatures/delg_cred_cdd/issuer.rs). *)
From Verif Require Import Base BnModel Alg Lin ClRevModel ClRevSpec BbsModel BbsLib BbsProps PsModel PsLib GrothModel DelegModel GrothSpec GrothLib GrothProps DelegLib DelegProps.
Import List ListNotations.
Open Scope list_scope.
Open Scope Z_scope.

(** ** C105: verify_delegations *)
Section Counts.
Variable C : curve.
Lemma vc_counts (p1 : params1 C) (p2 : params2 C) c ev od : valid_chain p1 p2 c ev od -> right_counts C c ev od.
Proof.
  intros [NE B LE LO _ _]. pose proof (proj1 (balanced_counts C c) B) as (B1 & B2). split; [|split; lia].
  unfold chain_size. destruct (ch_odd c); [congruence|cbn [length]; lia].
Qed.
End Counts.
(** A valid chain is accepted, whatever is drawn for each level. *)
Theorem C105_complete : forall (C : curve) (p1 : params1 C) (p2 : params2 C) c ev od rs, curve_laws C -> params1_ok p1 -> params2_ok p2 ->
  valid_chain p1 p2 c ev od -> verify_delegations c ev od p1 p2 rs = Ok true.
Proof.
  intros C p1 p2 c ev od rs LW N1 N2 V. pose proof (vc_counts C _ _ _ _ _ V) as RC. destruct V as [_ B _ _ VO VE].
  apply (verify_delegations_iff C). split; [exact RC|]. split; [exact B|]. split; intros k l E.
  - destruct (VO k l E) as (A & D & F). split; [exact A|]. apply (link_verify1_iff C LW). split; [exact D|]. now apply (batch1_complete C LW).
  - destruct (VE k l E) as (A & D & F). split; [exact A|]. apply (link_verify2_iff C LW). split; [exact D|]. now apply (batch2_complete C LW).
Qed.
(** If every level's draw ranges over more non-zero values than the link has attributes and the
    chain is accepted for each of the combinations, then the chain is valid: each key on the way
    from the root is signed by the one before it. *)
Theorem C105_sound : forall (C : curve) (p1 : params1 C) (p2 : params2 C) c ev od (draws : nat -> list (cK C)), curve_laws C -> params1_ok p1 -> params2_ok p2 ->
  (forall i, NoDup (draws i) /\ ~ In f0 (draws i) /\ draws i <> []) ->
  (forall k l, nth_error (ch_odd c) k = Some l -> (length (l1_attrs l) < length (draws (2 * k + 1)%nat))%nat) ->
  (forall k l, nth_error (ch_even c) k = Some l -> (length (l2_attrs l) < length (draws (2 * k + 2)%nat))%nat) ->
  (forall rs, (forall i, In (rs i) (draws i)) -> verify_delegations c ev od p1 p2 rs = Ok true) ->
  valid_chain p1 p2 c ev od.
Proof.
  intros C p1 p2 c ev od draws LW N1 N2 D LO LE H.
  assert (forall i r, In r (draws i) -> exists rs, rs i = r /\ verify_delegations c ev od p1 p2 rs = Ok true) as Pick.
  { intros i r Hr. exists (fun j => if (j =? i)%nat then r else hd f0 (draws j)). split; [now rewrite Nat.eqb_refl|].
    apply H. intros j. destruct (Nat.eqb_spec j i) as [->|NE]; [exact Hr|]. destruct (D j) as (_ & _ & Ne). destruct (draws j); [congruence|now left]. }
  assert (exists rs, verify_delegations c ev od p1 p2 rs = Ok true) as (rs0 & Q0).
  { destruct (D 0%nat) as (_ & _ & Ne). destruct (draws 0%nat) as [|r l] eqn:E; [congruence|]. destruct (Pick 0%nat r) as (rs & _ & Q); [rewrite E; now left|eauto]. }
  apply (verify_delegations_iff C) in Q0 as (RC & B & QO & QE). destruct (counts_balanced C c ev od B RC) as (E1 & E2).
  split; [| exact B|exact E1|exact E2| |].
  - intros Q. destruct RC as (P & _). unfold balanced in B. unfold chain_size in P. rewrite Q in *. cbn [length] in *. lia.
  - intros k l Q. destruct (QO k l Q) as (A & F). split; [exact A|]. apply (link_verify1_iff C LW) in F as (F & _). split; [exact F|].
    destruct (D (2 * k + 1)%nat) as (ND & NZ & NE). destruct (proj1 (C103_link_sound C LW) p1 l (nth k od m0) (nth k ev m0) (draws (2 * k + 1)%nat) N1 ND NE) as (_ & [V|V]).
    + intros r Hr. split; [intros ->; contradiction|]. destruct (Pick _ r Hr) as (rs & <- & Qr). apply (verify_delegations_iff C) in Qr as (_ & _ & Qr & _). now apply Qr.
    + exact V.
    + specialize (LO k l Q). lia.
  - intros k l Q. destruct (QE k l Q) as (A & F). split; [exact A|]. apply (link_verify2_iff C LW) in F as (F & _). split; [exact F|].
    destruct (D (2 * k + 2)%nat) as (ND & NZ & NE). destruct (proj2 (C103_link_sound C LW) p2 l (nth (S k) ev m0) (nth k od m0) (draws (2 * k + 2)%nat) N2 ND NE) as (_ & [V|V]).
    + intros r Hr. split; [intros ->; contradiction|]. destruct (Pick _ r Hr) as (rs & <- & Qr). apply (verify_delegations_iff C) in Qr as (_ & _ & _ & Qr). now apply Qr.
    + exact V.
    + specialize (LE k l Q). lia.
Qed.
(** Accepted chains: the right number of keys, no level missing, levels 1..n, each link naming its
    delegatee (no draw needed for this part). *)
Theorem C105_shape : forall (C : curve) (p1 : params1 C) (p2 : params2 C) c ev od rs, curve_laws C -> verify_delegations c ev od p1 p2 rs = Ok true ->
  balanced c /\ ch_odd c <> [] /\ length ev = S (length (ch_even c)) /\ length od = length (ch_odd c) /\
  (forall k l, nth_error (ch_odd c) k = Some l -> l1_level l = 2 * Z.of_nat k + 1 /\ exists attrs, l1_attrs l = attrs ++ [nth k od m0]) /\
  (forall k l, nth_error (ch_even c) k = Some l -> l2_level l = 2 * Z.of_nat k + 2 /\ exists attrs, l2_attrs l = attrs ++ [nth (S k) ev m0]).
Proof.
  intros C p1 p2 c ev od rs LW H. apply (verify_delegations_iff C) in H as (RC & B & QO & QE). destruct (counts_balanced C c ev od B RC) as (E1 & E2).
  split; [exact B|]. split. { intros Q. destruct RC as (P & _). unfold balanced in B. unfold chain_size in P. rewrite Q in *. cbn [length] in *. lia. }
  split; [exact E1|]. split; [exact E2|]. split; intros k l Q.
  - destruct (QO k l Q) as (A & F). split; [exact A|]. now apply (link_verify1_iff C LW) in F as (F & _).
  - destruct (QE k l Q) as (A & F). split; [exact A|]. now apply (link_verify2_iff C LW) in F as (F & _).
Qed.
(** Both verification functions report an empty chain and a wrong number of keys. *)
Theorem C105_wrong_counts : forall (C : curve) (p1 : params1 C) (p2 : params2 C) c ev od rs r,
  ~ ((0 < chain_size c)%nat /\ length ev = S (chain_size c / 2) /\ length od = ((chain_size c + 1) / 2)%nat) ->
  exists e, verify_delegations c ev od p1 p2 rs = Err (DelgErr e) /\ verify_delegations_batched c ev od p1 p2 r = Err (DelgErr e).
Proof.
  intros C p1 p2 c ev od rs r N. unfold verify_delegations, verify_delegations_batched.
  assert (chain_validate c ev od <> Ok tt) as Q by (intros Q; apply (chain_validate_iff C) in Q; contradiction).
  assert (exists e, chain_validate c ev od = Err (DelgErr e)) as (e & ->).
  { revert Q. unfold chain_validate, derr. repeat (match goal with |- context[if ?b then _ else _] => destruct b end; [try congruence; eauto|]); try congruence; eauto. }
  cbn [rbind]. eauto.
Qed.
(** Refuted: "verifying a chain built with the API never panics".  Odd and even links are checked
    for gaps separately, so two even links without odd ones, or two odd links alone, can be built;
    verification then indexes out of range. *)
Theorem C105_refuted_no_panic : forall (C : curve) (p1 : params1 C) (p2 : params2 C) (l l' : link1 C) v0 v1 d rs r,
  l1_level l = 1 -> l1_level l' = 3 -> link_verify1 l d v0 p1 (rs 1%nat) = Ok true ->
  exists c, built c /\ verify_delegations c [v0; v1] [d] p1 p2 rs = Err Panic /\ verify_delegations_batched c [v0; v1] [d] p1 p2 r = Err Panic /\
    get_truncated c 2 = Err Panic.
Proof.
  intros C p1 p2 l l' v0 v1 d rs r E E' V. exists (mkChain [l; l'] []). split.
  { eapply built_odd with (c := mkChain [l] []) (l := l'); [eapply built_odd with (c := chain_new) (l := l); [constructor| |]| |].
    - rewrite E. lia.
    - unfold extend_with_odd. rewrite E. reflexivity.
    - rewrite E'. lia.
    - unfold extend_with_odd. cbn [ch_odd length Nat.sub at_ nth_error rbind]. unfold at_. cbn [nth_error rbind]. rewrite E, E'. reflexivity. }
  split; [|split].
  - unfold verify_delegations. cbn [chain_validate chain_size ch_odd ch_even length Nat.add Nat.eqb Nat.div Nat.divmod fst Nat.modulo Nat.sub snd negb rbind seq check_all at_ nth_error].
    unfold at_. cbn [nth_error rbind]. rewrite E. cbn [Z.of_nat Pos.of_succ_nat Z.eqb Pos.eqb negb]. rewrite V. reflexivity.
  - unfold verify_delegations_batched. reflexivity.
  - reflexivity.
Qed.

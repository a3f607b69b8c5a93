(** The Poseidon permutation gadget (all outputs constrained), and the number of blinding
    factors of the tree gadgets. *)
From Verif Require Import Base Alg R1csModel R1csSpec R1csLib GadgetModel GadgetApiModel GadgetLib GadgetSim GadgetApiLib PoseidonLib PoseidonProps.
Open Scope list_scope.
Open Scope Z_scope.
Open Scope cs_scope.

Section Props.
Context {K : fieldOps} (HK : field_laws K).
Add Field Kf : (proj1 HK).
Context {Pt : Type} (com : K -> K -> Pt).
Notation PS := (pstate K).
Notation VS := (vstate K Pt).

Lemma idx_lt {A} (l : list A) i x : idx l i = Ok x -> (i < length l)%nat.
Proof. unfold idx. destruct (nth_error l i) eqn:E; [|discriminate]. intros _. apply nth_error_Some. congruence. Qed.
Lemma idx_ext_list {A} (a b : list A) : length a = length b -> (forall i x, idx a i = Ok x -> idx b i = Ok x) -> a = b.
Proof.
  revert b. induction a as [|x a IH]; intros [|y b] L H; try discriminate; [reflexivity|]. f_equal.
  - specialize (H 0%nat x eq_refl). unfold idx in H. cbn in H. congruence.
  - apply IH; [cbn in L; lia|]. intros i z E. exact (H (S i) z E).
Qed.

Lemma rmap_seq_length {B} (f : nat -> res B) n ys : rmap f (seq 0 n) = Ok ys -> length ys = n.
Proof. intros E. apply rmap_length in E. now rewrite seq_length in E. Qed.
Lemma permutation_length (xs ys : list K) p t : poseidon_permutation xs p t = Ok ys -> length ys = po_width p.
Proof.
  unfold poseidon_permutation. destruct (Nat.eqb (length xs) (po_width p)) eqn:E; [|discriminate]. cbn [negb]. apply Nat.eqb_eq in E. intros H.
  assert (forall st st', full_round p t st = Ok st' -> length (fst st') = po_width p) as F.
  { intros [a o] st' Q. unfold full_round in Q. destruct (rmap _ _) as [sb|]; [|discriminate]. cbn [rbind] in Q. destruct (lin_layer _ _ _) as [nx|] eqn:El; [|discriminate]. cbn [rbind] in Q.
    assert (st' = (nx, (o + po_width p)%nat)) as -> by congruence. exact (rmap_seq_length _ _ _ El). }
  assert (forall st st', partial_round p t st = Ok st' -> length (fst st') = po_width p) as G.
  { intros [a o] st' Q. unfold partial_round in Q. destruct (rmap _ _) as [ad|]; [|discriminate]. cbn [rbind] in Q. destruct (Nat.eqb (po_width p) 0); [discriminate|]. destruct (idx ad _) as [la|]; [|discriminate]. cbn [rbind] in Q.
    destruct (lin_layer _ _ _) as [nx|] eqn:El; [|discriminate]. cbn [rbind] in Q. assert (st' = (nx, (o + po_width p)%nat)) as -> by congruence. exact (rmap_seq_length _ _ _ El). }
  assert (forall f : list K * nat -> res (list K * nat), (forall st st', f st = Ok st' -> length (fst st') = po_width p) -> forall n st st', length (fst st) = po_width p -> rounds f n st = Ok st' -> length (fst st') = po_width p) as R.
  { intros f Hf. unfold rounds. induction n as [|n IH]; intros st st' L Q; cbn [repeat rfold] in Q; [congruence|]. destruct (f st) as [s1|] eqn:E1; [|discriminate]. cbn [rbind] in Q. apply (IH s1); [eapply Hf; eassumption|exact Q]. }
  destruct (rounds (full_round p t) (po_fb p) _) as [s1|] eqn:E1; [|discriminate]. cbn [rbind] in H. destruct (rounds (partial_round p t) (po_pr p) _) as [s2|] eqn:E2; [|discriminate]. cbn [rbind] in H.
  destruct (rounds (full_round p t) (po_fe p) _) as [s3|] eqn:E3; [|discriminate]. cbn [rbind] in H. assert (ys = fst s3) as -> by congruence.
  eapply (R _ F); [|exact E3]. eapply (R _ G); [|exact E2]. eapply (R _ F); [|exact E1]. exact E.
Qed.

(** every assignment satisfying the verifier's constraints makes the gadget's output the
    permutation of its inputs: all positions, not only some *)
Theorem C85_permutation_sound (ins : list (aq K)) p t outs (s s' : VS) w : t <> Inverse -> (0 < po_width p)%nat ->
  poseidon_permutation_gadget V ins p t outs s = Ok (tt, s') -> vsat w s' ->
  vsat w s /\ poseidon_permutation (map (fun e => w (aq_var e)) ins) p t = Ok outs.
Proof.
  intros N W E HS.
  assert (soundM w (poseidon_permutation_gadget (@V K Pt) ins p t outs) (fun _ => poseidon_permutation (map (fun e => w (aq_var e)) ins) p t = Ok outs)) as SD.
  { unfold poseidon_permutation_gadget. destruct (Nat.eqb (length outs) (po_width p)) eqn:EL; [|apply sound_fail]. cbn [negb]. apply Nat.eqb_eq in EL.
    eapply sound_bind; [apply (sound_permutation HK w _ p t N W)|]. intros o.
    set (Inv := fun (d : list nat) (_ : unit) => forall i, In i d -> exists x, idx o i = Ok x /\ idx outs i = Ok (lc_value w x)).
    eapply sound_weaken.
    - apply (sound_fold w _ Inv) with (done := []); [|intros i []].
      intros d i []. eapply sound_bind; [apply sound_clift; intros x Ex; exact Ex|]. intros x. eapply sound_bind; [apply sound_clift; intros y Ey; exact Ey|]. intros y.
      eapply sound_weaken; [apply (sound_clws HK)|]. intros [] Ev Ey Ex I j Ij. apply in_app_or in Ij. destruct Ij as [Ij|[<-|[]]]; [now apply I|]. exists x. split; [exact Ex|]. now rewrite Ev.
    - intros [] I Ep. cbn [app] in I. rewrite map_map in Ep. rewrite (map_ext _ (fun e => w (aq_var e))) in Ep by (intros; apply (lv_var HK)). rewrite Ep. f_equal. symmetry.
      assert (length o = po_width p) as Lo by (apply permutation_length in Ep; now rewrite map_length in Ep).
      apply idx_ext_list; [rewrite map_length; congruence|]. intros i x Ei. destruct (I i) as (y & E1 & E2); [apply in_seq; apply idx_lt in Ei; lia|].
      rewrite E2 in Ei. unfold idx in *. rewrite nth_error_map. destruct (nth_error o i); [|discriminate]. cbn. congruence. }
  destruct (SD _ _ _ E) as [_ Q]. now apply Q.
Qed.
(** and the honest prover whose inputs permute to the outputs succeeds together with the verifier *)
Theorem C85_permutation_complete (ins ins' : list (aq K)) (xs outs : list K) p t (ps : PS) (vs : VS) : t <> Inverse -> (0 < po_width p)%nat ->
  poseidon_permutation xs p t = Ok outs -> pgood ps -> sim com ps vs -> Forall2 (fun a b => aq_var a = aq_var b) ins ins' -> Forall2 (hasv ps) (map aq_var ins) xs ->
  exists ps' vs', poseidon_permutation_gadget P ins p t outs ps = Ok (tt, ps') /\ poseidon_permutation_gadget V ins' p t outs vs = Ok (tt, vs') /\ pgood ps' /\ sim com ps' vs'.
Proof.
  intros N W E G S F Fh.
  assert (length outs = po_width p) as Lo by (eapply permutation_length; exact E).
  assert (simM com eq (poseidon_permutation_gadget P ins p t outs) (poseidon_permutation_gadget V ins' p t outs)) as M by (apply sim_permutation_gadget; exact F).
  assert (Forall2 (has ps) (map (fun e => lc_var (aq_var e)) ins) xs) as Fl.
  { rewrite <- (map_map aq_var lc_var). apply (F2_has_var HK ps ps); [auto|exact Fh]. }
  destruct (run_both com _ _ (fun _ s' => p_pending s' = p_pending ps) _ _ S M) as ([] & ps' & vs' & E1 & E2 & G' & S' & _).
  { unfold poseidon_permutation_gadget. rewrite Lo, Nat.eqb_refl. cbn [negb]. eapply compl_bind; [apply (compl_permutation HK ps _ xs outs p t N W G Fl E)|]. intros o s1 G1 X1 (H1 & P1).
    set (Inv := fun (_ : list nat) (_ : unit) (s' : PS) => Forall2 (has s') o outs /\ p_pending s' = p_pending ps).
    eapply compl_weaken; [apply (compl_fold _ Inv) with (done := []); [exact G1|split; assumption|]|intros [] s2 _ _ (_ & Q); exact Q].
    intros d i rest [] s2 _ G2 (I1 & I2) Ii. apply in_seq in Ii.
    destruct (nth_error outs i) as [y|] eqn:Ey; [|apply nth_error_None in Ey; lia]. assert (idx outs i = Ok y) as Iy by (unfold idx; now rewrite Ey).
    destruct (idx_F2 _ _ _ _ _ I1 Iy) as (x & Ix & Hx).
    eapply compl_bind; [apply (compl_clift _ _ x (fun x' s' => x' = x /\ s' = s2) G2 Ix); auto|]. intros x' s3 _ _ (-> & ->).
    eapply compl_bind; [apply (compl_clift _ _ y (fun x' s' => x' = y /\ s' = s2) G2 Iy); auto|]. intros y' s3 _ _ (-> & ->).
    eapply compl_weaken; [apply (compl_clws HK _ _ _ G2 Hx)|]. intros [] s3 G3 X3 P3. split; [|congruence]. eapply Forall2_has_ext; eassumption. }
  exists ps', vs'. auto.
Qed.
(** the tree gadgets take exactly one blinding factor (two if the leaf is hidden); another
    number is refused before anything is committed *)
Theorem C87_blinding_count ZK gadget arity cap p t (leaf index : K) (hide : bool) (bls : list K) nodes root rng rnd (ps : PS) :
  length bls <> (if hide then 2 else 1)%nat ->
  prove_leaf_inclusion ZK com gadget arity cap p t leaf index hide (Some bls) nodes root rng rnd ps = Err (BpErr BGadgetError).
Proof.
  intros L. unfold prove_leaf_inclusion, cbind at 1, lift at 1, merkle_blindings, blindings_or. cbn [rbind]. apply Nat.eqb_neq in L. now rewrite L.
Qed.
End Props.
Print Assumptions C85_permutation_sound.
Print Assumptions C85_permutation_complete.
Print Assumptions C87_blinding_count.

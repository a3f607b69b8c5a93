(** Every gadget builds the same system on the prover's side and on the verifier's. *)
From Verif Require Import Base Alg R1csModel R1csSpec R1csLib GadgetModel GadgetApiModel.
Open Scope list_scope.
Open Scope Z_scope.
Open Scope cs_scope.

Section Sim.
Context {K : fieldOps} (ZK : zops K) {Pt : Type} (com : K -> K -> Pt).
Notation simM R := (simM com R).
(** allocated quantities for the same variable *)
Definition same (a b : aq K) : Prop := aq_var a = aq_var b.

Lemma sim_lift_eq {A} (r : res A) : simM eq (fun s => let! x := r in Ok (x, s)) (fun s => let! x := r in Ok (x, s)).
Proof. apply sim_lift. intros x E. exists x. auto. Qed.
Lemma sim_clift {A} (r : res A) : simM eq (lift r) (lift r).
Proof. apply sim_lift_eq. Qed.
Lemma sim_eq_conv {A B} (R R' : A -> B -> Prop) m m' : simM R m m' -> (forall a b, R a b -> R' a b) -> simM R' m m'.
Proof. intros H H' ps vs S a ps' E. destruct (H ps vs S a ps' E) as (b & vs' & E1 & E2 & E3). exists b, vs'. auto. Qed.

Ltac s0 := first [ apply sim_constrain | apply sim_multiply | apply sim_allocate_multiplier | apply sim_clift | apply sim_lift_eq | apply sim_allocate_single | apply sim_alloc_vars ].
Ltac sb := eapply sim_bind; [s0|]; let a := fresh "a" in let b := fresh "b" in intros a b ?; subst b; repeat match goal with x : _ * _ |- _ => destruct x end.

Lemma sim_clws l c : simM eq (constrain_lc_with_scalar P l c) (constrain_lc_with_scalar V l c).
Proof. apply sim_constrain. Qed.
Lemma sim_bit a b : same a b -> simM eq (bit_gadget P a) (bit_gadget V b).
Proof. intros E. unfold bit_gadget. rewrite E. sb. sb. sb. apply sim_constrain. Qed.
Lemma sim_positive_step x y i acc : simM eq (positive_no_step ZK P x i acc) (positive_no_step ZK V y i acc).
Proof. unfold positive_no_step. destruct acc. sb. sb. sb. now apply sim_ret. Qed.
Lemma sim_fold_eq {A X} (f : X -> A -> csm (pstate K) A) (g : X -> A -> csm (vstate K Pt) A) xs a : (forall x a, simM eq (f x a) (g x a)) -> simM eq (cfold f xs a) (cfold g xs a).
Proof. intros H. apply sim_fold; [|reflexivity]. intros x a0 b <-. apply H. Qed.
Lemma sim_positive a b n : same a b -> simM eq (positive_no_gadget ZK P a n) (positive_no_gadget ZK V b n).
Proof.
  intros E. unfold positive_no_gadget. rewrite E. eapply sim_bind; [apply sim_fold_eq; intros; apply sim_positive_step|]. intros [l e] ? <-. apply sim_constrain.
Qed.
Lemma sim_bound v a b v' a' b' mx mn n : same v v' -> same a a' -> same b b' -> simM eq (bound_check_gadget ZK P v a b mx mn n) (bound_check_gadget ZK V v' a' b' mx mn n).
Proof.
  intros E1 E2 E3. unfold bound_check_gadget. rewrite E1, E2, E3. sb. sb. eapply sim_bind; [apply sim_clws|]. intros ? ? _. eapply sim_bind; [now apply sim_positive|]. intros ? ? _. now apply sim_positive.
Qed.
Lemma sim_nonzero x y : simM eq (is_nonzero_gadget P x y) (is_nonzero_gadget V x y).
Proof. unfold is_nonzero_gadget. sb. sb. sb. apply sim_constrain. Qed.
Lemma sim_vector_sum vs n : simM eq (vector_sum_constraints ZK P vs n) (vector_sum_constraints ZK V vs n).
Proof. apply sim_constrain. Qed.
Lemma sim_set_membership v dv set : simM eq (set_membership_gadget P v dv set) (set_membership_gadget V v dv set).
Proof.
  unfold set_membership_gadget. eapply sim_bind; [apply sim_fold_eq|]. 2:{ intros ? ? <-. apply sim_constrain. }
  intros [i s] p. unfold set_membership_step. sb. eapply sim_bind; [apply sim_clws|]. intros ? ? _. sb. now apply sim_ret.
Qed.
Lemma sim_set_non_membership v dv iv set : simM eq (set_non_membership_gadget P v dv iv set) (set_non_membership_gadget V v dv iv set).
Proof.
  unfold set_non_membership_gadget. apply sim_fold_eq. intros [i s] p. unfold set_non_membership_step. sb. eapply sim_bind; [apply sim_clws|]. intros ? ? _. sb. apply sim_nonzero.
Qed.
Lemma idx_map {A B} (f : A -> B) l i x : idx l i = Ok x -> idx (map f l) i = Ok (f x).
Proof. unfold idx. rewrite nth_error_map. destruct (nth_error l i); [|discriminate]. intros E. now injection E as <-. Qed.
Lemma sim_vector_product items ts ts' v v' : Forall2 same ts ts' -> same v v' -> simM eq (vector_product_gadget ZK P items ts v) (vector_product_gadget ZK V items ts' v').
Proof.
  intros F E. unfold vector_product_gadget. rewrite E. eapply sim_bind; [apply sim_fold_eq|]. 2:{ intros ? ? <-. apply sim_constrain. }
  intros [i s] l. unfold vector_product_step. rewrite E. cbn [fst snd].
  eapply sim_bind with (R := same).
  { apply sim_lift. intros x Hx. unfold idx in *. clear - F Hx. revert i Hx. induction F as [|a b l1 l2 H F IH]; intros [|i] Hx; cbn in *; try discriminate; [injection Hx as <-; eauto|]. now apply IH. }
  intros t t' Et. sb. eapply sim_bind; [apply sim_clws|]. intros ? ? _. sb. sb. now apply sim_ret.
Qed.
Lemma sim_enforce_mimc l r cs : simM eq (enforce_mimc_2_inputs P l r cs) (enforce_mimc_2_inputs V l r cs).
Proof.
  unfold enforce_mimc_2_inputs. eapply sim_bind; [apply sim_fold_eq|]. 2:{ intros [a b] ? <-. now apply sim_ret. }
  intros c [a b]. unfold mimc_step. sb. sb. now apply sim_ret.
Qed.
Lemma sim_mimc l r cs im : simM eq (mimc_gadget P l r cs im) (mimc_gadget V l r cs im).
Proof. unfold mimc_gadget. eapply sim_bind; [apply sim_enforce_mimc|]. intros ? ? <-. apply sim_clws. Qed.
Lemma sim_sbox t l k : simM eq (synthesize_sbox P t l k) (synthesize_sbox V t l k).
Proof.
  destruct t; cbn [synthesize_sbox].
  - unfold synthesize_cube. sb. sb. now apply sim_ret.
  - unfold synthesize_inverse. eapply sim_bind; [apply sim_evaluate|]. intros x y _. sb. sb. eapply sim_bind; [apply sim_nonzero|]. intros ? ? _.
    match goal with |- context [match ?o with Some _ => _ | None => _ end] => destruct o end; [|apply sim_fail]. eapply sim_bind; [apply sim_clws|]. intros ? ? _. now apply sim_ret.
  - unfold synthesize_quint. sb. sb. sb. now apply sim_ret.
Qed.
Lemma sim_full_round p t st : simM eq (full_round_c P p t st) (full_round_c V p t st).
Proof.
  unfold full_round_c. destruct st as [input off]. eapply sim_bind; [apply sim_fold_eq|].
  - intros i outs. sb. sb. eapply sim_bind; [apply sim_sbox|]. intros ? ? <-. now apply sim_ret.
  - intros outs ? <-. sb. now apply sim_ret.
Qed.
Lemma sim_partial_round p t st : simM eq (partial_round_c P p t st) (partial_round_c V p t st).
Proof.
  unfold partial_round_c. destruct st as [input off]. eapply sim_bind; [apply sim_fold_eq|].
  - intros i outs. sb. sb. destruct (Nat.eqb i (po_width p - 1)); [|now apply sim_ret]. eapply sim_bind; [apply sim_sbox|]. intros ? ? <-. now apply sim_ret.
  - intros outs ? <-. sb. now apply sim_ret.
Qed.
Lemma sim_rounds {X} (f : X -> csm (pstate K) X) (g : X -> csm (vstate K Pt) X) n x : (forall x, simM eq (f x) (g x)) -> simM eq (rounds_c f n x) (rounds_c g n x).
Proof. intros H. apply sim_fold_eq. intros _ a. apply H. Qed.
Lemma sim_permutation ins p t : simM eq (poseidon_permutation_constraints P ins p t) (poseidon_permutation_constraints V ins p t).
Proof.
  unfold poseidon_permutation_constraints. destruct (negb _); [apply sim_fail|].
  eapply sim_bind; [apply sim_rounds, sim_full_round|]. intros s1 ? <-. eapply sim_bind; [apply sim_rounds, sim_partial_round|]. intros s2 ? <-.
  eapply sim_bind; [apply sim_rounds, sim_full_round|]. intros s3 ? <-. now apply sim_ret.
Qed.
Lemma sim_hash ar ins cap p t : simM eq (poseidon_hash_constraints P ar ins cap p t) (poseidon_hash_constraints V ar ins cap p t).
Proof. unfold poseidon_hash_constraints. destruct (negb _); [apply sim_fail|]. eapply sim_bind; [apply sim_permutation|]. intros out ? <-. apply sim_clift. Qed.
Lemma sim_hash_gadget ar ins cap p t im : simM eq (poseidon_hash_gadget P ar ins cap p t im) (poseidon_hash_gadget V ar ins cap p t im).
Proof. unfold poseidon_hash_gadget. eapply sim_bind; [apply sim_hash|]. intros h ? <-. apply sim_clws. Qed.
Lemma sim_permutation_gadget ins ins' p t out : Forall2 same ins ins' -> simM eq (poseidon_permutation_gadget P ins p t out) (poseidon_permutation_gadget V ins' p t out).
Proof.
  intros F. unfold poseidon_permutation_gadget. destruct (negb _); [apply sim_fail|].
  replace (map (fun e : aq K => lc_var (aq_var e)) ins') with (map (fun e : aq K => lc_var (aq_var e)) ins : list (lc K)).
  2:{ induction F as [|a b l1 l2 H F IH]; [reflexivity|]. cbn [map]. now rewrite H, IH. }
  eapply sim_bind; [apply sim_permutation|]. intros o ? <-. apply sim_fold_eq. intros i []. sb. sb. apply sim_clws.
Qed.

(** ** Merkle gadgets, for any hash whose constraints agree *)
Section Merkle.
Variable hp : list (lc K) -> csm (pstate K) (lc K).
Variable hv : list (lc K) -> csm (vstate K Pt) (lc K).
Hypothesis Hh : forall ins, simM eq (hp ins) (hv ins).
Lemma sim_alloc_bit x y : simM eq (alloc_bit P x) (alloc_bit V y).
Proof. unfold alloc_bit. sb. sb. sb. now apply sim_ret. Qed.
Lemma sim_mul l r : simM eq (mul P l r) (mul V l r).
Proof. unfold mul. sb. now apply sim_ret. Qed.
Ltac sm := eapply sim_bind; [apply sim_mul|]; intros ? ? <-.
Lemma sim_children4 a b c d e f g h : simM eq (children4 P a b c d e f g h) (children4 V a b c d e f g h).
Proof. unfold children4. repeat sm. now apply sim_ret. Qed.
Lemma sim_children8 a b c d e f p g h i j k l m : simM eq (children8 P a b c d e f p g h i j k l m) (children8 V a b c d e f p g h i j k l m).
Proof. unfold children8. repeat sm. now apply sim_ret. Qed.
Lemma sim_merkle4_step bytes ij m : simM eq (merkle4_step ZK P hp bytes ij m) (merkle4_step ZK V hv None ij m).
Proof.
  unfold merkle4_step. destruct (ms_nodes m) as [|v3 rest]; [now apply sim_ret|]. destruct ij as [i j].
  eapply sim_bind with (R := fun _ _ => True). { apply sim_lift. intros x _. exists None. auto. } intros x0 y0 _.
  eapply sim_bind; [apply sim_alloc_bit|]. intros [b0 b0_1] ? <-.
  eapply sim_bind with (R := fun _ _ => True). { apply sim_lift. intros x _. exists None. auto. } intros x1 y1 _.
  eapply sim_bind; [apply sim_alloc_bit|]. intros [b1 b1_1] ? <-.
  destruct rest as [|v2 [|v1 nodes]]; try apply sim_fail.
  eapply sim_bind; [apply sim_children4|]. intros input ? <-. eapply sim_bind; [apply Hh|]. intros h ? <-. now apply sim_ret.
Qed.
Lemma sim_merkle4 modbytes depth root leaf a b nodes : same a b -> aq_val b = None ->
  simM eq (merkle4_gadget ZK P hp modbytes depth root leaf a nodes) (merkle4_gadget ZK V hv modbytes depth root leaf b nodes).
Proof.
  intros E N. unfold merkle4_gadget. rewrite E, N. cbn [option_map]. eapply sim_bind; [apply sim_fold_eq; intros; apply sim_merkle4_step|]. intros m ? <-. sb. apply sim_clws.
Qed.
Lemma sim_merkle8_step oct k m : simM eq (merkle8_step ZK P hp oct k m) (merkle8_step ZK V hv None k m).
Proof.
  unfold merkle8_step. destruct (ms_nodes m) as [|v7 rest]; [now apply sim_ret|].
  eapply sim_bind with (R := fun _ _ => True). { apply sim_lift. intros x _. exists None. auto. } intros x0 y0 _.
  eapply sim_bind; [apply sim_alloc_bit|]. intros [b0 b0_1] ? <-. eapply sim_bind; [apply sim_alloc_bit|]. intros [b1 b1_1] ? <-. eapply sim_bind; [apply sim_alloc_bit|]. intros [b2 b2_1] ? <-.
  destruct rest as [|v6 [|v5 [|v4 [|v3 [|v2 [|v1 nodes]]]]]]; try apply sim_fail.
  eapply sim_bind; [apply sim_children8|]. intros input ? <-. eapply sim_bind; [apply Hh|]. intros h ? <-. now apply sim_ret.
Qed.
Lemma sim_merkle8 depth root leaf a b nodes : same a b -> aq_val b = None ->
  simM eq (merkle8_gadget ZK P hp depth root leaf a nodes) (merkle8_gadget ZK V hv depth root leaf b nodes).
Proof.
  intros E N. unfold merkle8_gadget. rewrite E, N. cbn [option_map]. eapply sim_bind; [apply sim_fold_eq; intros; apply sim_merkle8_step|]. intros m ? <-. sb. apply sim_clws.
Qed.
End Merkle.
End Sim.

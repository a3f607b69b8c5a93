(** libzmix/bulletproofs_amcl/src/r1cs/gadgets: the prove_* / verify_* functions that commit
    to the inputs and call a gadget.  [com v b] is the commitment Prover::commit computes
    (prover.rs:125-135); [Pt] are the committed points.  [rng] is what the caller's generator
    would draw, [rnd] what FieldElement::random() draws. *)
From Verif Require Import Base Alg R1csModel GadgetModel.
Open Scope list_scope.
Open Scope Z_scope.
Open Scope cs_scope.

Section Api.
Context {K : fieldOps} (ZK : zops K) {Pt : Type} (com : K -> K -> Pt).
Notation PS := (pstate K).
Notation VS := (vstate K Pt).

(** prover.rs:125-135 *)
Definition pc (v bl : K) : csm PS (Pt * var) := fun s => let '(x, s') := p_commit v bl s in Ok ((com v bl, x), s').
(** verifier.rs:130-138 *)
Definition vc (c : Pt) : csm VS var := fun s => Ok (v_commit c s).
(** [commitments.remove(0)] *)
Definition pop (l : list Pt) : csm VS (Pt * list Pt) :=
  match l with [] => cfail (Err Panic) | c :: l' => cret (c, l') end.
Definition pop_commit (l : list Pt) : csm VS (var * list Pt) :=
  do! (c, l') := pop l in do! v := vc c in cret (v, l').

(** errors.rs:205-215 followed by [blinding.unwrap_or_else(|| random_using_rng(rng.unwrap()))] *)
Definition blinding_or (b : option K) (rng : option (nat -> K)) : res K :=
  match b, rng with
  | Some x, _ => Ok x
  | None, Some r => Ok (r 0%nat)
  | None, None => Err (BpErr BGadgetError)
  end.
(** the same for a vector of [n] blindings *)
Definition blindings_or (n : nat) (b : option (list K)) (rng : option (nat -> K)) : res (list K) :=
  match b, rng with
  | Some l, _ => Ok l
  | None, Some r => Ok (map r (seq 0 n))
  | None, None => Err (BpErr BGadgetError)
  end.
(** errors.rs:217-228 *)
Definition check_lengths (input blindings : list K) (n : nat) : res unit :=
  if negb (Nat.eqb (length input) n) || negb (Nat.eqb (length blindings) n) then Err (BpErr BGadgetError) else Ok tt.

(** bound_check.rs:43-94 *)
Definition prove_bounded_num (val : Z) (blinding : option K) (lower upper : Z) (n : nat) (rng : option (nat -> K)) (rnd : nat -> K) : csm PS (list Pt) :=
  do! bl := lift (blinding_or blinding rng) in
  let a := sub64 val lower in
  let b := sub64 upper val in
  do! (com_v, var_v) := pc (zof ZK val) bl in
  do! (com_a, var_a) := pc (zof ZK a) (rnd 0%nat) in
  do! (com_b, var_b) := pc (zof ZK b) (rnd 1%nat) in
  run! bound_check_gadget ZK P (mkAq var_v (Some (zof ZK val))) (mkAq var_a (Some (zof ZK a))) (mkAq var_b (Some (zof ZK b))) upper lower n then
  cret [com_v; com_a; com_b].
(** bound_check.rs:96-131 *)
Definition verify_bounded_num (lower upper : Z) (n : nat) (commitments : list Pt) : csm VS unit :=
  do! (var_v, cs1) := pop_commit commitments in
  do! (var_a, cs2) := pop_commit cs1 in
  do! (var_b, _) := pop_commit cs2 in
  bound_check_gadget ZK V (mkAq var_v None) (mkAq var_a None) (mkAq var_b None) upper lower n.

(** non_zero.rs:9-34 *)
Definition prove_non_zero_val (value : K) (blinding : option K) (rng : option (nat -> K)) (rnd : nat -> K) : csm PS (list Pt) :=
  do! bl := lift (blinding_or blinding rng) in
  let inv := finv value in
  do! (com_val, var_val) := pc value bl in
  do! (com_val_inv, var_val_inv) := pc inv (rnd 0%nat) in
  run! is_nonzero_gadget P var_val var_val_inv then
  cret [com_val; com_val_inv].
(** non_zero.rs:36-47 *)
Definition verify_non_zero_val (commitments : list Pt) : csm VS unit :=
  do! (var_val, cs1) := pop_commit commitments in
  do! (var_val_inv, _) := pop_commit cs1 in
  is_nonzero_gadget V var_val var_val_inv.

(** set_membership.rs:43-76 *)
Definition prove_set_membership (value : K) (randomness : option K) (set : list K) (rng : option (nat -> K)) (rnd : nat -> K) : csm PS (list Pt) :=
  do! bl := lift (blinding_or randomness rng) in
  do! (com_value, var_value) := pc value bl in
  do! (comms, diff_vars) := cfold (fun (is : nat * K) (acc : list Pt * list var) =>
      do! (com_diff, var_diff) := pc (fsub (snd is) value) (rnd (fst is)) in
      cret (fst acc ++ [com_diff], snd acc ++ [var_diff])) (combine (seq 0 (length set)) set) ([com_value], []) in
  run! set_membership_gadget P var_value diff_vars set then
  cret comms.
(** popping and committing [n] commitments in a row *)
Definition pop_commits (n : nat) (l : list Pt) : csm VS (list var * list Pt) :=
  cfold (fun (_ : unit) (acc : list var * list Pt) => do! (v, l') := pop_commit (snd acc) in cret (fst acc ++ [v], l')) (repeat tt n) ([], l).
(** set_membership.rs:79-98 *)
Definition verify_set_membership (set : list K) (commitments : list Pt) : csm VS unit :=
  do! (var_val, cs1) := pop_commit commitments in
  do! (diff_vars, _) := pop_commits (length set) cs1 in
  set_membership_gadget V var_val diff_vars set.

(** set_non_membership.rs:38-78 *)
Definition prove_set_non_membership (value : K) (randomness : option K) (set : list K) (rng : option (nat -> K)) (rnd : nat -> K) : csm PS (list Pt) :=
  do! bl := lift (blinding_or randomness rng) in
  do! (com_value, var_value) := pc value bl in
  do! (comms, diff_vars, diff_inv_vars) := cfold (fun (is : nat * K) (acc : list Pt * list var * list var) =>
      let '(cm, dv, iv) := acc in
      let diff := fsub (snd is) value in
      do! (com_diff, var_diff) := pc diff (rnd (2 * fst is)%nat) in
      do! (com_inv, var_inv) := pc (finv diff) (rnd (2 * fst is + 1)%nat) in
      cret (cm ++ [com_diff; com_inv], dv ++ [var_diff], iv ++ [var_inv])) (combine (seq 0 (length set)) set) ([com_value], [], []) in
  run! set_non_membership_gadget P var_value diff_vars diff_inv_vars set then
  cret comms.
(** set_non_membership.rs:80-103 *)
Definition verify_set_non_membership (set : list K) (commitments : list Pt) : csm VS unit :=
  do! (var_val, cs1) := pop_commit commitments in
  do! (diff_vars, diff_inv_vars, _) := cfold (fun (_ : unit) (acc : list var * list var * list Pt) =>
      let '(dv, iv, l) := acc in
      do! (d, l1) := pop_commit l in
      do! (i, l2) := pop_commit l1 in
      cret (dv ++ [d], iv ++ [i], l2)) (repeat tt (length set)) ([], [], cs1) in
  set_non_membership_gadget V var_val diff_vars diff_inv_vars set.

(** set_membership_alt.rs:80-128 *)
Definition prove_set_membership_alt (value : Z) (randomness : option K) (set : list Z) (rng : option (nat -> K)) (rnd : nat -> K) : csm PS (list Pt) :=
  do! bl := lift (blinding_or randomness rng) in
  let toggles := map (fun e => if Z.eqb e value then 1 else 0) set in
  do! (comms, allocs) := cfold (fun (ib : nat * Z) (acc : list Pt * list (aq K)) =>
      do! (c, v) := pc (zof ZK (snd ib)) (rnd (fst ib)) in
      let q := mkAq v (Some (zof ZK (snd ib))) in
      run! bit_gadget P q then
      cret (fst acc ++ [c], snd acc ++ [q])) (combine (seq 0 (length toggles)) toggles) ([], []) in
  run! vector_sum_constraints ZK P (map aq_var allocs) 1 then
  do! (com_value, var_value) := pc (zof ZK value) bl in
  run! vector_product_gadget ZK P set allocs (mkAq var_value (Some (zof ZK value))) then
  cret (comms ++ [com_value]).
(** set_membership_alt.rs:131-163 *)
Definition verify_set_membership_alt (set : list Z) (commitments : list Pt) : csm VS unit :=
  do! (allocs, cs1) := cfold (fun (_ : unit) (acc : list (aq K) * list Pt) =>
      do! (v, l) := pop_commit (snd acc) in
      let q := mkAq v None in
      run! bit_gadget V q then
      cret (fst acc ++ [q], l)) (repeat tt (length set)) ([], commitments) in
  run! vector_sum_constraints ZK V (map aq_var allocs) 1 then
  do! (var_val, _) := pop_commit cs1 in
  vector_product_gadget ZK V set allocs (mkAq var_val None).

(** mimc.rs:11-37 *)
Definition prove_mimc_preimage (preimage : list K) (blindings : option (list K)) (image : K) (constants : list K) (rng : option (nat -> K)) : csm PS (list Pt) :=
  do! rands := lift (blindings_or 2 blindings rng) in
  run! lift (check_lengths preimage rands 2) then
  do! (l, r, bl, br) := lift (match preimage, rands with [l; r], [bl; br] => Ok (l, r, bl, br) | _, _ => Err Panic end) in
  do! (com_l, var_l) := pc l bl in
  do! (com_r, var_r) := pc r br in
  run! mimc_gadget P (lc_var var_l) (lc_var var_r) constants image then
  cret [com_l; com_r].
(** mimc.rs:40-52 *)
Definition verify_mimc_preimage (image : K) (constants : list K) (commitments : list Pt) : csm VS unit :=
  do! (var_l, cs1) := pop_commit commitments in
  do! (var_r, _) := pop_commit cs1 in
  mimc_gadget V (lc_var var_l) (lc_var var_r) constants image.

(** committing to a list of values with a list of blindings of the same length *)
Definition commit_all (vbs : list (K * K)) : csm PS (list Pt * list var) :=
  cfold (fun (vb : K * K) (acc : list Pt * list var) => do! (c, v) := pc (fst vb) (snd vb) in cret (fst acc ++ [c], snd acc ++ [v])) vbs ([], []).
(** poseidon_hash.rs:41-84, 183-227, 333-380; capacity constant 16-20 (committed with blinding
    zero, its commitment not returned) *)
Definition prove_poseidon_preimage (arity : nat) (cap : Z) (preimage : list K) (blindings : option (list K)) (image : K) (p : poseidon_params (K := K)) (t : sbox) (rng : option (nat -> K)) : csm PS (list Pt) :=
  do! rands := lift (blindings_or arity blindings rng) in
  run! lift (check_lengths preimage rands arity) then
  do! (comms, vars) := commit_all (combine preimage rands) in
  do! (_, capv) := pc (zof ZK cap) f0 in
  run! poseidon_hash_gadget P arity vars capv p t image then
  cret comms.
(** poseidon_hash.rs:87-110, 230-258, 383-410; capacity constant 23-38 *)
Definition verify_poseidon_preimage (arity : nat) (cap : Z) (image : K) (p : poseidon_params (K := K)) (t : sbox) (commitments : list Pt) : csm VS unit :=
  do! (vars, _) := pop_commits arity commitments in
  do! capv := vc (com (zof ZK cap) f0) in
  poseidon_hash_gadget V arity vars capv p t image.

(** helper_constraints/mod.rs:97-137 (get_blinding_for_merkle_tree_prover) after the check *)
Definition merkle_blindings (hide_leaf : bool) (blindings : option (list K)) (rng : option (nat -> K)) : res (list K) :=
  let n := if hide_leaf then 2%nat else 1%nat in
  let! l := blindings_or n blindings rng in
  if Nat.eqb (length l) n then Ok l else Err (BpErr BGadgetError).

(** sparse_merkle_tree_4_ary.rs:20-77 and sparse_merkle_tree_8_ary.rs:20-78, with a fresh
    PoseidonHashConstraints (merkle_tree_hash.rs:153-176, 204-274) as the hash function: its
    setup commits to the capacity constant.  The proof is the concatenation of its nodes. *)
Definition prove_leaf_inclusion (gadget : (list (lc K) -> csm PS (lc K)) -> K -> leaf_value (K := K) -> aq K -> list var -> csm PS unit)
    (arity : nat) (cap : Z) (p : poseidon_params (K := K)) (t : sbox)
    (leaf leaf_index : K) (hide_leaf : bool) (blindings : option (list K)) (nodes : list K) (root : K) (rng : option (nat -> K)) (rnd : nat -> K) : csm PS (list Pt) :=
  do! bls := lift (merkle_blindings hide_leaf blindings rng) in
  do! (bl0, rest) := lift (match bls with [] => Err Panic | b :: r => Ok (b, r) end) in
  do! (com_idx, var_idx) := pc leaf_index bl0 in
  do! (comms0, lv) := (if hide_leaf
      then do! bl1 := lift (match rest with [] => Err Panic | b :: _ => Ok b end) in
           do! (com_leaf, var_leaf) := pc leaf bl1 in cret ([com_idx; com_leaf], Hidden var_leaf)
      else cret ([com_idx], Known leaf)) in
  do! (comms1, proof_vars) := commit_all (combine nodes (map rnd (seq 0 (length nodes)))) in
  do! (_, capv) := pc (zof ZK cap) f0 in
  run! gadget (fun ins => poseidon_hash_constraints P arity ins (lc_var capv) p t) root lv (mkAq var_idx (Some leaf_index)) proof_vars then
  cret (comms0 ++ comms1).
(** sparse_merkle_tree_4_ary.rs:79-118 and sparse_merkle_tree_8_ary.rs:80-120 *)
Definition verify_leaf_inclusion (gadget : (list (lc K) -> csm VS (lc K)) -> K -> leaf_value (K := K) -> aq K -> list var -> csm VS unit)
    (arity : nat) (cap : Z) (p : poseidon_params (K := K)) (t : sbox)
    (root : K) (leaf_val : option K) (commitments : list Pt) : csm VS unit :=
  do! (var_idx, cs1) := pop_commit commitments in
  do! (lv, cs2) := (match leaf_val with
      | Some v => cret (Known v, cs1)
      | None => do! (v, cs2) := pop_commit cs1 in cret (Hidden v, cs2) end) in
  do! (proof_vars, _) := pop_commits (length cs2) cs2 in
  do! capv := vc (com (zof ZK cap) f0) in
  gadget (fun ins => poseidon_hash_constraints V arity ins (lc_var capv) p t) root lv (mkAq var_idx None) proof_vars.
Definition prove_leaf_inclusion_4 (modbytes depth : nat) :=
  prove_leaf_inclusion (fun h => merkle4_gadget ZK P h modbytes depth) 4.
Definition verify_leaf_inclusion_4 (modbytes depth : nat) :=
  verify_leaf_inclusion (fun h => merkle4_gadget ZK V h modbytes depth) 4.
Definition prove_leaf_inclusion_8 (depth : nat) :=
  prove_leaf_inclusion (fun h => merkle8_gadget ZK P h depth) 8.
Definition verify_leaf_inclusion_8 (depth : nat) :=
  verify_leaf_inclusion (fun h => merkle8_gadget ZK V h depth) 8.
End Api.

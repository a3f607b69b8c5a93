(** libzmix/bulletproofs_amcl/src/r1cs/gadgets: the gadgets, each written once over the
    constraint-system interface [csops] and run on the prover's or on the verifier's
    instance of it, as in the code.  Field elements have an integer representative:
    [zto] is [to_bignum] (reduced), [zof] is [FieldElement::from] of an unsigned integer.
    (hamming_distance.rs and randomizer.rs are commented out of gadgets/mod.rs.) *)
From Verif Require Import Base Alg R1csModel.
Open Scope list_scope.
Open Scope Z_scope.
Open Scope cs_scope.

Record zops (K : fieldOps) := mkZops { zof : Z -> K; zto : K -> Z }.
Arguments zof {K}. Arguments zto {K}.

(** u64 subtraction in a release build *)
Definition sub64 (a b : Z) : Z := (a - b) mod 2 ^ 64.

Section Gadgets.
Context {K : fieldOps} (ZK : zops K).
Section Generic.
Context {S : Type} (cs : csops K S).

(** helper_constraints/mod.rs:19-25 *)
Definition constrain_lc_with_scalar (l : lc K) (scalar : K) : csm S unit := cs_constrain cs (lc_sub l (lc_const scalar)).

(** helper_constraints/bit.rs:7-33 *)
Definition bit_gadget (v : aq K) : csm S unit :=
  do! (a, b, o) := cs_allocate_multiplier cs (option_map (fun bit => (fsub f1 bit, bit)) (aq_val v)) in
  run! cs_constrain cs (lc_add (lc_var b) [(aq_var v, fopp f1)]) then
  run! cs_constrain cs (lc_var o) then
  cs_constrain cs (lc_add (lc_var a) (lc_sub (lc_var b) (lc_const f1))).

(** helper_constraints/positive_no.rs:7-40.  [shift_right(i).is_odd()] is bit [i] of the
    representative. *)
Definition positive_no_step (val : option K) (i : nat) (acc : lc K * K) : csm S (lc K * K) :=
  let '(constraint_v, exp_2) := acc in
  do! (a, b, o) := cs_allocate_multiplier cs (option_map (fun q => if Z.odd (Z.shiftr (zto ZK q) (Z.of_nat i)) then (f0, f1) else (f1, f0)) val) in
  run! cs_constrain cs (lc_var o) then
  run! cs_constrain cs (lc_add (lc_var a) (lc_sub (lc_var b) (lc_const f1))) then
  cret (constraint_v ++ [(b, exp_2)], fadd exp_2 exp_2).
Definition positive_no_gadget (v : aq K) (n : nat) : csm S unit :=
  do! (constraint_v, _) := cfold (positive_no_step (aq_val v)) (seq 0 n) ([(aq_var v, fopp f1)], f1) in
  cs_constrain cs constraint_v.

(** bound_check.rs:15-41 *)
Definition bound_check_gadget (v a b : aq K) (max min : Z) (n : nat) : csm S unit :=
  run! cs_constrain cs (lc_sub (lc_sub (lc_var (aq_var v)) (lc_const (zof ZK min))) (lc_var (aq_var a))) then
  run! cs_constrain cs (lc_sub (lc_sub (lc_const (zof ZK max)) (lc_var (aq_var v))) (lc_var (aq_var b))) then
  run! constrain_lc_with_scalar (lc_add (lc_var (aq_var a)) (lc_var (aq_var b))) (zof ZK (sub64 max min)) then
  run! positive_no_gadget a n then
  positive_no_gadget b n.

(** helper_constraints/non_zero.rs:11-32 *)
Definition is_nonzero_gadget (x x_inv : var) : csm S unit :=
  let x_lc := lc_var x in
  let y_lc := lc_const f1 in
  let one_minus_y_lc := lc_sub (lc_var VOne) y_lc in
  do! (_, _, o1) := cs_multiply cs x_lc one_minus_y_lc in
  run! cs_constrain cs (lc_var o1) then
  do! (_, _, o2) := cs_multiply cs x_lc [(x_inv, f1)] in
  cs_constrain cs (lc_sub (lc_var o2) y_lc).

(** helper_constraints/vector_sum.rs:5-11 *)
Definition vector_sum_constraints (vector : list var) (sum : Z) : csm S unit :=
  cs_constrain cs ((VOne, fopp (zof ZK sum)) :: map (fun i => (i, f1)) vector).

(** set_membership.rs:18-40; [diff_vars[i]] panics when out of range *)
Definition set_membership_step (v : var) (diff_vars : list var) (is : nat * K) (product : lc K) : csm S (lc K) :=
  do! d := (fun s => let! x := idx diff_vars (fst is) in Ok (x, s)) in
  run! constrain_lc_with_scalar (lc_add (lc_var d) (lc_var v)) (snd is) then
  do! (_, _, o) := cs_multiply cs product (lc_var d) in
  cret (lc_var o).
Definition set_membership_gadget (v : var) (diff_vars : list var) (set : list K) : csm S unit :=
  do! product := cfold (set_membership_step v diff_vars) (combine (seq 0 (length set)) set) (lc_var VOne) in
  cs_constrain cs product.

(** set_non_membership.rs:19-36 *)
Definition set_non_membership_step (v : var) (diff_vars diff_inv_vars : list var) (is : nat * K) (_ : unit) : csm S unit :=
  do! d := (fun s => let! x := idx diff_vars (fst is) in Ok (x, s)) in
  run! constrain_lc_with_scalar (lc_add (lc_var d) (lc_var v)) (snd is) then
  do! di := (fun s => let! x := idx diff_inv_vars (fst is) in Ok (x, s)) in
  is_nonzero_gadget d di.
Definition set_non_membership_gadget (v : var) (diff_vars diff_inv_vars : list var) (set : list K) : csm S unit :=
  cfold (set_non_membership_step v diff_vars diff_inv_vars) (combine (seq 0 (length set)) set) tt.

(** set_membership_alt.rs:44-74 *)
Definition vector_product_step (toggles : list (aq K)) (value : aq K) (ii : nat * Z) (constraints : lc K) : csm S (lc K) :=
  do! t := (fun s => let! x := idx toggles (fst ii) in Ok (x, s)) in
  do! (bit_var, item_var, o1) := cs_allocate_multiplier cs (option_map (fun bit => (bit, zof ZK (snd ii))) (aq_val t)) in
  run! constrain_lc_with_scalar (lc_var item_var) (zof ZK (snd ii)) then
  do! (_, _, o2) := cs_multiply cs (lc_var bit_var) (lc_var (aq_var value)) in
  run! cs_constrain cs (lc_sub (lc_var o1) (lc_var o2)) then
  cret (constraints ++ [(o1, f1)]).
Definition vector_product_gadget (items : list Z) (toggles : list (aq K)) (value : aq K) : csm S unit :=
  do! constraints := cfold (vector_product_step toggles value) (combine (seq 0 (length items)) items) [(aq_var value, fopp f1)] in
  cs_constrain cs constraints.

(** helper_constraints/mimc.rs:37-63 *)
Definition mimc_step (c : K) (lr : lc K * lc K) : csm S (lc K * lc K) :=
  let '(left_v, right_v) := lr in
  let left_plus_const := lc_add left_v [(VOne, c)] in
  do! (l, _, l_sqr) := cs_multiply cs left_plus_const left_plus_const in
  do! (_, _, l_cube) := cs_multiply cs (lc_var l_sqr) (lc_var l) in
  cret (lc_add (lc_var l_cube) right_v, left_v).
Definition enforce_mimc_2_inputs (left right : lc K) (mimc_constants : list K) : csm S (lc K) :=
  do! (left_v, _) := cfold mimc_step mimc_constants (left, right) in
  cret left_v.
(** helper_constraints/mimc.rs:24-34 *)
Definition mimc_gadget (left right : lc K) (mimc_constants : list K) (image : K) : csm S unit :=
  do! res_v := enforce_mimc_2_inputs left right mimc_constants in
  constrain_lc_with_scalar res_v image.
End Generic.

(** helper_constraints/mimc.rs:9-21 *)
Definition mimc (xl xr : K) (constants : list K) : K :=
  fst (fold_left (fun '(xl, xr) c => let tmp1 := fadd xl c in (fadd (fmul (fmul tmp1 tmp1) tmp1) xr, xl)) constants (xl, xr)).

(** ** Poseidon, helper_constraints/poseidon.rs *)
(** poseidon.rs:165-169 *)
Inductive sbox := Cube | Inverse | Quint.
(** poseidon.rs:13-23.  [new] (28-52) reads the constants from a table and fails for a
    width other than 3, 5, 9 or for too few constants; the tables are not modelled. *)
Record poseidon_params := mkPoseidon { po_width : nat; po_fb : nat; po_fe : nat; po_pr : nat; po_keys : list K; po_mds : list (list K) }.
(** poseidon.rs:173-188 *)
Definition apply_sbox (t : sbox) (e : K) : K :=
  match t with
  | Cube => fmul (fmul e e) e
  | Inverse => finv e
  | Quint => fmul (fmul (fmul e e) (fmul e e)) e
  end.
(** reading [matrix[j][i]] *)
Definition mds_at (m : list (list K)) (j i : nat) : res K := let! row := idx m j in idx row i.

(** poseidon.rs:293-304 and 330-341: the linear layer, accumulating from zero *)
Definition lin_layer (m : list (list K)) (width : nat) (state : list K) : res (list K) :=
  rmap (fun i => rfold (fun acc j => let! x := idx state j in let! c := mds_at m j i in Ok (fadd acc (fmul x c))) (seq 0 width) f0) (seq 0 width).
(** poseidon.rs:285-305: one full round, reading round keys from [off] on *)
Definition full_round (p : poseidon_params) (t : sbox) (st : list K * nat) : res (list K * nat) :=
  let '(state, off) := st in
  let! sb := rmap (fun i => let! x := idx state i in let! k := idx (po_keys p) (off + i) in Ok (apply_sbox t (fadd x k))) (seq 0 (po_width p)) in
  let! next := lin_layer (po_mds p) (po_width p) (sb ++ skipn (po_width p) state) in
  Ok (next, (off + po_width p)%nat).
(** poseidon.rs:319-342: one partial round; the S-box is applied to the last element *)
Definition partial_round (p : poseidon_params) (t : sbox) (st : list K * nat) : res (list K * nat) :=
  let '(state, off) := st in
  let w := po_width p in
  let! ad := rmap (fun i => let! x := idx state i in let! k := idx (po_keys p) (off + i) in Ok (fadd x k)) (seq 0 w) in
  if Nat.eqb w 0 then Err Panic else     (* current_state[width - 1] *)
  let! last := idx ad (w - 1) in
  let! next := lin_layer (po_mds p) w (firstn (w - 1) ad ++ [apply_sbox t last] ++ skipn w state) in
  Ok (next, (off + w)%nat).
Definition rounds {X} (f : X -> res X) (n : nat) (x : X) : res X := rfold (fun x _ => f x) (repeat tt n) x.
(** poseidon.rs:254-356 (Poseidon_permutation) *)
Definition poseidon_permutation (input : list K) (p : poseidon_params) (t : sbox) : res (list K) :=
  if negb (Nat.eqb (length input) (po_width p)) then Err Panic else
  let! s1 := rounds (full_round p t) (po_fb p) (input, 0%nat) in
  let! s2 := rounds (partial_round p t) (po_pr p) s1 in
  let! s3 := rounds (full_round p t) (po_fe p) s2 in
  Ok (fst s3).
(** poseidon.rs:536-558, 605-626, 679-697 (Poseidon_hash_2/4/8): [arity] inputs, [cap] the
    capacity constant of lines 520-524 *)
Definition poseidon_hash (arity : nat) (cap : Z) (inputs : list K) (p : poseidon_params) (t : sbox) : res K :=
  if negb (Nat.eqb (length inputs) arity) then Err (BpErr BIncorrectWidthForPoseidon) else
  let! out := poseidon_permutation (zof ZK cap :: inputs) p t in
  idx out 1.
(** poseidon.rs:520-524 *)
Definition CAP_CONST_W_3 := 3. Definition CAP_CONST_W_5 := 31. Definition CAP_CONST_W_9 := 511.

Section GenericPoseidon.
Context {S : Type} (cs : csops K S).
(** poseidon.rs:205-214 *)
Definition synthesize_cube (input : lc K) (round_key : K) : csm S var :=
  let ipc := lc_add input (lc_const round_key) in
  do! (i, _, sqr) := cs_multiply cs ipc ipc in
  do! (_, _, cube) := cs_multiply cs (lc_var sqr) (lc_var i) in
  cret cube.
(** poseidon.rs:217-227 *)
Definition synthesize_quint (input : lc K) (round_key : K) : csm S var :=
  let ipc := lc_add input (lc_const round_key) in
  do! (i, _, sqr) := cs_multiply cs ipc ipc in
  do! (_, _, qr) := cs_multiply cs (lc_var sqr) (lc_var sqr) in
  do! (_, _, qi) := cs_multiply cs (lc_var qr) (lc_var i) in
  cret qi.
(** poseidon.rs:230-250 *)
Definition synthesize_inverse (input : lc K) (round_key : K) : csm S var :=
  let ipc := lc_add input (lc_const round_key) in
  do! val_l := cs_evaluate_lc cs ipc in
  let val_r := option_map finv val_l in
  do! (var_l, _) := cs_allocate_single cs val_l in
  do! (var_r, var_o) := cs_allocate_single cs val_r in
  run! is_nonzero_gadget cs var_l var_r then
  match var_o with
  | None => cfail (Err Panic)       (* var_o.unwrap() *)
  | Some o => run! constrain_lc_with_scalar cs (lc_var o) f1 then cret var_r
  end.
(** poseidon.rs:191-202 *)
Definition synthesize_sbox (t : sbox) (input : lc K) (round_key : K) : csm S var :=
  match t with
  | Cube => synthesize_cube input round_key
  | Inverse => synthesize_inverse input round_key
  | Quint => synthesize_quint input round_key
  end.
Definition lift {A} (r : res A) : csm S A := fun s => let! x := r in Ok (x, s).
(** poseidon.rs:370-381 (apply_linear_layer) *)
Definition lin_layer_lc (m : list (list K)) (outs : list (lc K)) : res (list (lc K)) :=
  let width := length outs in
  rmap (fun i => rfold (fun acc j => let! x := idx outs j in let! c := mds_at m j i in Ok (lc_add acc (lc_scale c x))) (seq 0 width) []) (seq 0 width).
(** poseidon.rs:401-427: one full round *)
Definition full_round_c (p : poseidon_params) (t : sbox) (st : list (lc K) * nat) : csm S (list (lc K) * nat) :=
  let '(input, off) := st in
  do! outs := cfold (fun i outs => do! x := lift (idx input i) in do! k := lift (idx (po_keys p) (off + i)) in
                                   do! o := synthesize_sbox t x k in cret (outs ++ [lc_var o])) (seq 0 (po_width p)) [] in
  do! next := lift (lin_layer_lc (po_mds p) outs) in
  cret (next, (off + po_width p)%nat).
(** poseidon.rs:446-475: one partial round *)
Definition partial_round_c (p : poseidon_params) (t : sbox) (st : list (lc K) * nat) : csm S (list (lc K) * nat) :=
  let '(input, off) := st in
  do! outs := cfold (fun i outs => do! x := lift (idx input i) in do! k := lift (idx (po_keys p) (off + i)) in
                 if Nat.eqb i (po_width p - 1)
                 then do! o := synthesize_sbox t x k in cret (outs ++ [lc_var o])
                 else cret (outs ++ [lc_add x (lc_const k)])) (seq 0 (po_width p)) [] in
  do! next := lift (lin_layer_lc (po_mds p) outs) in
  cret (map lc_simplify next, (off + po_width p)%nat).
Definition rounds_c {X} (f : X -> csm S X) (n : nat) (x : X) : csm S X := cfold (fun _ x => f x) (repeat tt n) x.
(** poseidon.rs:361-489 (Poseidon_permutation_constraints) *)
Definition poseidon_permutation_constraints (input : list (lc K)) (p : poseidon_params) (t : sbox) : csm S (list (lc K)) :=
  if negb (Nat.eqb (length input) (po_width p)) then cfail (Err Panic) else
  do! s1 := rounds_c (full_round_c p t) (po_fb p) (input, 0%nat) in
  do! s2 := rounds_c (partial_round_c p t) (po_pr p) s1 in
  do! s3 := rounds_c (full_round_c p t) (po_fe p) s2 in
  cret (fst s3).
(** poseidon.rs:494-514 (Poseidon_permutation_gadget) *)
Definition poseidon_permutation_gadget (input : list (aq K)) (p : poseidon_params) (t : sbox) (output : list K) : csm S unit :=
  if negb (Nat.eqb (length output) (po_width p)) then cfail (Err Panic) else
  do! out := poseidon_permutation_constraints (map (fun e => lc_var (aq_var e)) input) p t in
  cfold (fun i _ => do! x := lift (idx out i) in do! y := lift (idx output i) in constrain_lc_with_scalar cs x y) (seq 0 (po_width p)) tt.
(** poseidon.rs:561-576, 629-646, 700-715 (Poseidon_hash_2/4/8_constraints) *)
Definition poseidon_hash_constraints (arity : nat) (inputs : list (lc K)) (cap : lc K) (p : poseidon_params) (t : sbox) : csm S (lc K) :=
  if negb (Nat.eqb (length inputs) arity) then cfail (Err Panic) else
  do! out := poseidon_permutation_constraints (cap :: inputs) p t in
  lift (idx out 1).
(** poseidon.rs:580-602, 650-674, 719-742 (Poseidon_hash_2/4/8_gadget) *)
Definition poseidon_hash_gadget (arity : nat) (input : list var) (cap : var) (p : poseidon_params) (t : sbox) (image : K) : csm S unit :=
  do! h := poseidon_hash_constraints arity (map lc_var input) (lc_var cap) p t in
  constrain_lc_with_scalar cs h image.
End GenericPoseidon.

(** ** Merkle-tree membership *)
(** helper_constraints/mod.rs:28-44 for base 2^b *)
Definition get_byte_size (num_digits b : nat) : nat :=
  let num_bits := (num_digits * b)%nat in (num_bits / 8 + (if Nat.eqb (num_bits mod 8) 0 then 0 else 1))%nat.
(** helper_constraints/mod.rs:66-74: little-endian bytes of the representative *)
Definition le_bytes (n : nat) (x : Z) : list Z := map (fun k => (x / 2 ^ (8 * Z.of_nat k)) mod 256) (seq 0 n).
(** helper_constraints/mod.rs:80-92 *)
Inductive leaf_value := Hidden (v : var) | Known (x : K).
Definition leaf_lc (l : leaf_value) : lc K := match l with Hidden v => lc_var v | Known x => lc_const x end.
(** [(bit, 1 - bit)] as field elements *)
Definition bit_pair (bit : Z) : K * K := (zof ZK bit, zof ZK (1 - bit)).

Section GenericMerkle.
Context {S : Type} (cs : csops K S).
(** the hash function's constraints, Arity4/8MerkleTreeHashConstraints::hash, merkle_tree_hash.rs:77-81, 98-102 *)
Variable hash_c : list (lc K) -> csm S (lc K).

(** allocating a bit and its complement, sparse_merkle_tree_4_ary.rs:283-288 *)
Definition alloc_bit (assignment : option (K * K)) : csm S (var * var) :=
  do! (b, b_1, o) := cs_allocate_multiplier cs assignment in
  run! cs_constrain cs (lc_var o) then
  run! cs_constrain cs (lc_add (lc_var b) (lc_sub (lc_var b_1) (lc_const f1))) then
  cret (b, b_1).
Definition mul (l r : lc K) : csm S var := do! (_, _, o) := cs_multiply cs l r in cret o.
Definition one_minus (v : var) : lc K := lc_sub (lc_var VOne) (lc_var v).

(** the loop state: nodes still to be popped (last first), the leaf-index constraint, the
    power of the arity, the current hash *)
Record mstate := mkMs { ms_nodes : list var; ms_cli : lc K; ms_exp : K; ms_hash : lc K }.

(** sparse_merkle_tree_4_ary.rs:309-354: the four children from the node and its siblings *)
Definition children4 (b0 b0_1 b1 b1_1 : var) (prev N1 N2 N3 : lc K) : csm S (list (lc K)) :=
  do! b0_1_b1_1 := mul (lc_var b0_1) (lc_var b1_1) in
  do! b0_1_b1 := mul (lc_var b0_1) (lc_var b1) in
  do! b0_b1_1 := mul (lc_var b0) (lc_var b1_1) in
  do! b0_b1 := mul (lc_var b0) (lc_var b1) in
  do! c0_1 := mul (lc_var b0_1_b1_1) prev in
  do! c0_2 := mul (one_minus b0_1_b1_1) N1 in
  let c0 := lc_add (lc_var c0_1) (lc_var c0_2) in
  let c1_1 := lc_sub N1 (lc_var c0_2) in
  do! c1_2 := mul (lc_var b0_b1_1) prev in
  do! c1_3 := mul (lc_var b1) N2 in
  let c1 := lc_add (lc_add c1_1 (lc_var c1_2)) (lc_var c1_3) in
  let c2_1 := lc_sub N2 (lc_var c1_3) in
  do! c2_2 := mul (lc_var b0_1_b1) prev in
  do! c2_3 := mul (lc_var b0_b1) N3 in
  let c2 := lc_add (lc_add c2_1 (lc_var c2_2)) (lc_var c2_3) in
  do! c3_1 := mul (lc_var b0_b1) prev in
  let c3_2 := lc_sub N3 (lc_var c2_3) in
  let c3 := lc_add (lc_var c3_1) c3_2 in
  cret [c0; c1; c2; c3].

(** sparse_merkle_tree_4_ary.rs:276-362, the body of the inner loop.  [break] on empty
    proof nodes is rendered as doing nothing in the remaining iterations: the node list
    stays empty. *)
Definition merkle4_step (bytes : option (list Z)) (ij : nat * nat) (m : mstate) : csm S mstate :=
  match ms_nodes m with
  | [] => cret m
  | v3 :: rest =>
    let '(i, j) := ij in
    do! bit0 := lift (match bytes with None => Ok None | Some l => let! x := idx l i in Ok (Some (bit_pair (Z.land (Z.shiftr x (Z.of_nat (2 * j))) 1))) end) in
    do! (b0, b0_1) := alloc_bit bit0 in
    do! bit1 := lift (match bytes with None => Ok None | Some l => let! x := idx l i in Ok (Some (bit_pair (Z.land (Z.shiftr x (Z.of_nat (2 * j + 1))) 1))) end) in
    do! (b1, b1_1) := alloc_bit bit1 in
    let cli := ms_cli m ++ [(b1, fmul (zof ZK 2) (ms_exp m)); (b0, ms_exp m)] in
    match rest with
    | v2 :: v1 :: nodes =>
      do! input := children4 b0 b0_1 b1 b1_1 (ms_hash m) (lc_var v1) (lc_var v2) (lc_var v3) in
      do! h := hash_c input in
      cret (mkMs nodes cli (fmul (ms_exp m) (zof ZK 4)) (lc_simplify h))
    | _ => cfail (Err Panic)          (* proof_nodes.pop().unwrap() *)
    end
  end.
(** sparse_merkle_tree_4_ary.rs:250-371; [modbytes] is MODBYTES *)
Definition merkle4_gadget (modbytes depth : nat) (expected_root : K) (leaf : leaf_value) (leaf_index : aq K) (proof_nodes : list var) : csm S unit :=
  let bytes := option_map (fun l => le_bytes modbytes (zto ZK l)) (aq_val leaf_index) in
  do! m := cfold (merkle4_step bytes) (flat_map (fun i => map (pair i) (seq 0 4)) (seq 0 (get_byte_size depth 2)))
                 (mkMs (rev proof_nodes) [(aq_var leaf_index, fopp f1)] f1 (leaf_lc leaf)) in
  run! cs_constrain cs (ms_cli m) then
  constrain_lc_with_scalar cs (ms_hash m) expected_root.

(** sparse_merkle_tree_8_ary.rs:341-455: the eight children *)
Definition children8 (b0 b0_1 b1 b1_1 b2 b2_1 : var) (prev N1 N2 N3 N4 N5 N6 N7 : lc K) : csm S (list (lc K)) :=
  do! b0_1_b1_1 := mul (lc_var b0_1) (lc_var b1_1) in
  do! b1_1_b2_1 := mul (lc_var b1_1) (lc_var b2_1) in
  do! b0_b1 := mul (lc_var b0) (lc_var b1) in
  do! b1_b2 := mul (lc_var b1) (lc_var b2) in
  do! b0_b1_b2 := mul (lc_var b0_b1) (lc_var b2) in
  do! b0_1_b1_1_b2_1 := mul (lc_var b0_1_b1_1) (lc_var b2_1) in
  do! b01_1_b2_1 := mul (one_minus b0_b1) (lc_var b2_1) in
  do! c0_1 := mul (lc_var b0_1_b1_1_b2_1) prev in
  do! c0_2 := mul (one_minus b0_1_b1_1_b2_1) N1 in
  let c0 := lc_add (lc_var c0_1) (lc_var c0_2) in
  do! c1_1 := mul (one_minus b1_1_b2_1) N2 in
  do! c1_2 := mul (lc_var b1_1_b2_1) (lc_var b0) in
  do! c1_3 := mul (lc_var c1_2) prev in
  let c1_4 := lc_sub N1 (lc_var c0_2) in
  let c1 := lc_add (lc_add (lc_var c1_1) (lc_var c1_3)) c1_4 in
  let c2_1 := lc_sub N2 (lc_var c1_1) in
  do! c2_2 := mul (lc_var b0_1) (lc_var b2_1) in
  do! c2_3 := mul (lc_var c2_2) (lc_var b1) in
  do! c2_4 := mul (lc_var c2_3) prev in
  do! c2_5 := mul (one_minus b01_1_b2_1) N3 in
  let c2 := lc_add (lc_add c2_1 (lc_var c2_4)) (lc_var c2_5) in
  let c3_1 := lc_sub N3 (lc_var c2_5) in
  do! c3_2 := mul (lc_var b2_1) (lc_var b0_b1) in
  do! c3_3 := mul (lc_var c3_2) prev in
  do! c3_4 := mul (lc_var b2) N4 in
  let c3 := lc_add (lc_add c3_1 (lc_var c3_3)) (lc_var c3_4) in
  let c4_1 := lc_sub N4 (lc_var c3_4) in
  do! c4_2 := mul (lc_var b2) (lc_var b0_1_b1_1) in
  do! c4_3 := mul (lc_var c4_2) prev in
  do! c4_4 := mul (lc_var b2) (one_minus b0_1_b1_1) in
  do! c4_5 := mul (lc_var c4_4) N5 in
  let c4 := lc_add (lc_add c4_1 (lc_var c4_3)) (lc_var c4_5) in
  let c5_1 := lc_sub N5 (lc_var c4_5) in
  do! c5_2 := mul (lc_var b1_b2) N6 in
  do! c5_3 := mul (lc_var b2) (lc_var b1_1) in
  do! c5_4 := mul (lc_var c5_3) (lc_var b0) in
  do! c5_5 := mul (lc_var c5_4) prev in
  let c5 := lc_add (lc_add c5_1 (lc_var c5_2)) (lc_var c5_5) in
  do! c6_1 := mul (lc_var b0_b1_b2) N7 in
  do! c6_2 := mul (lc_var b1_b2) (lc_var b0_1) in
  do! c6_3 := mul (lc_var c6_2) prev in
  let c6_4 := lc_sub N6 (lc_var c5_2) in
  let c6 := lc_add (lc_add (lc_var c6_1) (lc_var c6_3)) c6_4 in
  do! c7_1 := mul (lc_var b0_b1_b2) prev in
  let c7_2 := lc_sub N7 (lc_var c6_1) in
  let c7 := lc_add (lc_var c7_1) c7_2 in
  cret [c0; c1; c2; c3; c4; c5; c6; c7].

(** sparse_merkle_tree_8_ary.rs:289-463, the loop body for digit [k] = i / 3.  [octets] are
    the base-8 digits of the index, least significant first (280-286). *)
Definition merkle8_step (octets : option (list Z)) (k : nat) (m : mstate) : csm S mstate :=
  match ms_nodes m with
  | [] => cret m
  | v7 :: rest =>
    do! o := lift (match octets with None => Ok None | Some l => let! x := idx l k in Ok (Some x) end) in
    let bit := fun n => option_map (fun x => bit_pair (Z.land (Z.shiftr x n) 1)) o in
    do! (b0, b0_1) := alloc_bit (bit 0) in
    do! (b1, b1_1) := alloc_bit (bit 1) in
    do! (b2, b2_1) := alloc_bit (bit 2) in
    let cli := ms_cli m ++ [(b0, ms_exp m); (b1, fmul (zof ZK 2) (ms_exp m)); (b2, fmul (zof ZK 4) (ms_exp m))] in
    match rest with
    | v6 :: v5 :: v4 :: v3 :: v2 :: v1 :: nodes =>
      do! input := children8 b0 b0_1 b1 b1_1 b2 b2_1 (ms_hash m) (lc_var v1) (lc_var v2) (lc_var v3) (lc_var v4) (lc_var v5) (lc_var v6) (lc_var v7) in
      do! h := hash_c input in
      cret (mkMs nodes cli (fmul (ms_exp m) (zof ZK 8)) (lc_simplify h))
    | _ => cfail (Err Panic)
    end
  end.
(** get_repr_in_power_2_base(3, l, depth) reversed (helper_constraints/mod.rs:48-64): the
    [depth] low digits, least significant first *)
Definition octets_of (depth : nat) (x : Z) : list Z := map (fun k => (x / 8 ^ Z.of_nat k) mod 8) (seq 0 depth).
(** sparse_merkle_tree_8_ary.rs:261-470 *)
Definition merkle8_gadget (depth : nat) (expected_root : K) (leaf : leaf_value) (leaf_index : aq K) (proof_nodes : list var) : csm S unit :=
  let octets := option_map (fun l => octets_of depth (zto ZK l)) (aq_val leaf_index) in
  do! m := cfold (merkle8_step octets) (seq 0 depth)
                 (mkMs (rev proof_nodes) [(aq_var leaf_index, fopp f1)] f1 (leaf_lc leaf)) in
  run! cs_constrain cs (ms_cli m) then
  constrain_lc_with_scalar cs (ms_hash m) expected_root.
End GenericMerkle.
End Gadgets.

(** Model of the sparse Merkle trees of bulletproofs_amcl.

    Sources: libzmix/bulletproofs_amcl/src/r1cs/gadgets/helper_constraints/
    sparse_merkle_tree_4_ary.rs:24-207 (arity 4) and sparse_merkle_tree_8_ary.rs:20-199 (arity
    8), whose code is the same up to the arity ("The logic of [VanillaSparseMerkleTree4] and
    [VanillaSparseMerkleTree8] is same. Only the arity and hence the hash function differs",
    sparse_merkle_tree_4_ary.rs:31-33); helper_constraints/mod.rs:48-66
    ([get_repr_in_power_2_base]); utils/hash_db.rs:5-39 ([HashDb], [InMemoryHashDb]).

    The model is written once, for arity 2^sbits; sbits = 2 gives the 4-ary tree, sbits = 3 the
    8-ary one.  Field elements are values of an abstract type with a zero, an equality test, a
    byte encoding ([to_bytes]) and a canonical representative ([to_bignum]).  The hash function
    (a type parameter in the code, the traits of merkle_tree_hash.rs:32-61) is an arbitrary
    function which may fail. *)
From Verif Require Import Base.

Record smt_params := mkSmtParams {
  sK : Type;
  s0 : sK;                         (* FieldElement::zero() *)
  seqb : sK -> sK -> bool;         (* == on FieldElement *)
  sbytes : sK -> list Z;           (* FieldElement::to_bytes *)
  stoZ : sK -> Z;                  (* FieldElement::to_bignum *)
  sbits : nat;                     (* 2 for the 4-ary tree, 3 for the 8-ary one *)
  shash : list sK -> res sK        (* MTH::hash *)
}.

Definition arity (P : smt_params) : nat := (2 ^ sbits P)%nat.

Section Smt.
Context (P : smt_params).
Notation K := (sK P).

Fixpoint bytes_eqb (a b : list Z) : bool :=
  match a, b with
  | [], [] => true
  | x :: xs, y :: ys => (x =? y) && bytes_eqb xs ys
  | _, _ => false
  end.

(** [InMemoryHashDb] (utils/hash_db.rs:12-39): a [HashMap] from byte strings to arrays of
    children.  Modelled as the log of all insertions, newest first: [insert] adds at the head,
    [get] returns the newest entry of the key. *)
Definition hash_db := list (list Z * list K).

Definition db_insert (db : hash_db) (key : list Z) (val : list K) : hash_db := (key, val) :: db.

Fixpoint db_get (db : hash_db) (key : list Z) : res (list K) :=
  match db with
  | [] => Err (BpErr BHashNotFoundInDB)
  | (k, v) :: rest => if bytes_eqb k key then Ok v else db_get rest key
  end.

(** Indexing an array or vector: panics out of bounds. *)
Definition at_index {A} (l : list A) (i : nat) : res A :=
  match nth_error l i with Some x => Ok x | None => Err Panic end.

(** [get_repr_in_power_2_base] (helper_constraints/mod.rs:50-66): the digits are produced least
    significant first while the number is not zero, filled with zeros, then reversed.
    [lastbits(n)] is the number modulo 2^n, [fshr(n)] a shift by n.  The assertion n <= 8 holds
    for both instances and is not modelled. *)
Fixpoint lsb_digits (n : nat) (s : Z) (k : nat) : list nat :=
  match k with
  | O => []
  | S k' => if s =? 0 then repeat O (S k')
            else Z.to_nat (s mod 2 ^ Z.of_nat n) :: lsb_digits n (s / 2 ^ Z.of_nat n) k'
  end.
Definition repr_in_power_2_base (n : nat) (s : Z) (num_digits : nat) : list nat :=
  rev (lsb_digits n s num_digits).

(** [leaf_index_to_path] (sparse_merkle_tree_4_ary.rs:196-198, 8_ary.rs:188-190). *)
Definition leaf_index_to_path (idx : K) (depth : nat) : list nat :=
  repr_in_power_2_base (sbits P) (stoZ P idx) depth.

(** The struct (sparse_merkle_tree_4_ary.rs:24-28) without the hash function reference. *)
Record smt := mkSmt { sdepth : nat; sroot : K }.

(** [new] (sparse_merkle_tree_4_ary.rs:41-75): one node per level, inserted leaf level first.
    On a hash failure the error is returned and the insertions already made stay. *)
Fixpoint new_loop (levels : nat) (prev : K) (db : hash_db) : hash_db * res K :=
  match levels with
  | O => (db, Ok prev)
  | S n =>
      let input := repeat prev (arity P) in
      match shash P input with
      | Err e => (db, Err e)
      | Ok h => new_loop n h (db_insert db (sbytes P h) input)
      end
  end.
Definition smt_new (depth : nat) (db : hash_db) : hash_db * res smt :=
  let (db', r) := new_loop depth (s0 P) db in
  (db', let! root := r in Ok (mkSmt depth root)).

(** The sibling array of the child at position [d] (sparse_merkle_tree_4_ary.rs:142-153):
    the children at the other positions, in order. *)
Fixpoint siblings (d : nat) (children : list K) : list K :=
  match children with
  | [] => []
  | c :: cs => match d with O => cs | S d' => c :: siblings d' cs end
  end.

(** The loop of [get] (sparse_merkle_tree_4_ary.rs:137-156): the value at the end of the path
    and one sibling array per level, root level first. *)
Fixpoint get_loop (db : hash_db) (cur : K) (path : list nat) : res (K * list (list K)) :=
  match path with
  | [] => Ok (cur, [])
  | d :: rest =>
      let! children := db_get db (sbytes P cur) in
      let! child := at_index children d in
      let! (v, pf) := get_loop db child rest in
      Ok (v, siblings d children :: pf)
  end.

(** [get] (sparse_merkle_tree_4_ary.rs:125-166).  [proof] is the [Option<Vec<..>>] passed in:
    the proof is appended to the vector if there is one. *)
Definition smt_get (t : smt) (idx : K) (proof : option (list (list K))) (db : hash_db)
  : res (K * option (list (list K))) :=
  let! (v, pf) := get_loop db (sroot t) (leaf_index_to_path idx (sdepth t)) in
  Ok (v, match proof with Some old => Some (old ++ pf) | None => None end).

(** [Vec::insert]: panics if the position is beyond the end. *)
Definition vec_insert (d : nat) (x : K) (l : list K) : res (list K) :=
  if (length l <? d)%nat then Err Panic else Ok (firstn d l ++ x :: skipn d l).

(** The loop of [update] (sparse_merkle_tree_4_ary.rs:96-113) over the reversed path; [sibs] is
    the vector of sibling arrays, popped from its end ([unwrap] panics when it is empty). *)
Fixpoint update_loop (path_rev : list nat) (sibs_rev : list (list K)) (cur : K) (db : hash_db)
  : hash_db * res K :=
  match path_rev with
  | [] => (db, Ok cur)
  | d :: rest =>
      match sibs_rev with
      | [] => (db, Err Panic)
      | s :: sibs' =>
          match vec_insert d cur s with
          | Err e => (db, Err e)
          | Ok children =>
              match shash P children with
              | Err e => (db, Err e)
              | Ok h => update_loop rest sibs' h (db_insert db (sbytes P h) children)
              end
          end
      end
  end.

(** [update] (sparse_merkle_tree_4_ary.rs:78-122).  [&mut self] and the [&mut] database are
    returned; the root changes only when every step succeeded. *)
Definition smt_update (t : smt) (idx val : K) (db : hash_db) : (smt * hash_db) * res K :=
  match smt_get t idx (Some []) db with
  | Err e => ((t, db), Err e)
  | Ok (_, None) => ((t, db), Err Panic)
  | Ok (_, Some sibs) =>
      let (db', r) := update_loop (rev (leaf_index_to_path idx (sdepth t))) (rev sibs) val db in
      match r with
      | Err e => ((t, db'), Err e)
      | Ok root => ((mkSmt (sdepth t) root, db'), Ok root)
      end
  end.

(** [verify_proof] (sparse_merkle_tree_4_ary.rs:169-192): the i-th digit from the leaf uses
    [proof[self.depth - 1 - i]]. *)
Fixpoint verify_loop (depth i : nat) (path_rev : list nat) (proof : list (list K)) (cur : K) : res K :=
  match path_rev with
  | [] => Ok cur
  | d :: rest =>
      let! node := at_index proof (depth - 1 - i) in
      let! p := vec_insert d cur node in
      let! h := shash P p in
      verify_loop depth (S i) rest proof h
  end.
Definition smt_verify_proof (t : smt) (idx val : K) (proof : list (list K)) (root : option K) : res bool :=
  let! c := verify_loop (sdepth t) 0 (rev (leaf_index_to_path idx (sdepth t))) proof val in
  Ok (match root with Some r => seqb P c r | None => seqb P c (sroot t) end).

End Smt.

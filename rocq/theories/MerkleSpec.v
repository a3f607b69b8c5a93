(** Climbing a Merkle tree from a leaf: at each level the position among the siblings and the
    siblings themselves, leaf level first. *)
From Verif Require Import Base Alg.
Open Scope list_scope.
Open Scope Z_scope.

(** the node [x] at position [d] among its siblings *)
Definition children {A} (d : nat) (sibs : list A) (x : A) : list A := firstn d sibs ++ x :: skipn d sibs.
(** the root reached from [x] by hashing, level by level *)
Fixpoint climb {A} (H : list A -> res A) (x : A) (steps : list (nat * list A)) : res A :=
  match steps with
  | [] => Ok x
  | (d, sibs) :: r => let! y := H (children d sibs x) in climb H y r
  end.
(** the index whose base-[b] digits are the positions, the leaf level being least significant *)
Fixpoint path_index {A} (b : Z) (steps : list (nat * list A)) : Z :=
  match steps with [] => 0 | (d, _) :: r => Z.of_nat d + b * path_index b r end.
(** a path in a tree of the given arity *)
Definition path_ok {A} (arity : nat) (steps : list (nat * list A)) : Prop :=
  Forall (fun st => (fst st < arity)%nat /\ S (length (snd st)) = arity) steps.
(** all siblings of a path, the root level first *)
Definition path_nodes {A} (steps : list (nat * list A)) : list A := concat (map snd (rev steps)).
(** the lists of children hashed on the way *)
Fixpoint climb_inputs {A} (H : list A -> res A) (x : A) (steps : list (nat * list A)) : list (list A) :=
  match steps with
  | [] => []
  | (d, sibs) :: r => children d sibs x :: match H (children d sibs x) with Ok y => climb_inputs H y r | Err _ => [] end
  end.

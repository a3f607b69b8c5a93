(** Rewinding the verifier of the inner-product argument: a tree of accepted proofs. *)
From Verif Require Import Base Alg Lin TranscriptModel IppModel IppSoundSpec.
From Coq Require Import String.
Import List ListNotations.
Open Scope list_scope.
Section Fork.
Context {K : fieldOps} {M : modOps K}.
(** each round has one pair of points and four challenges; each leaf is a run of the verifier
    with its own challenges ([T]: the hash behind the transcript) and the two final scalars *)
Inductive ftree :=
| FLeaf (T : tcode M) (a b : K)
| FNode (L R : M) (x1 : K) (t1 : ftree) (x2 : K) (t2 : ftree) (x3 : K) (t3 : ftree) (x4 : K) (t4 : ftree).
Fixpoint scalars (t : ftree) : stree K :=
  match t with
  | FLeaf _ a b => SLeaf a b
  | FNode _ _ x1 t1 x2 t2 x3 t3 x4 t4 => SNode x1 (scalars t1) x2 (scalars t2) x3 (scalars t3) x4 (scalars t4)
  end.
(** a condition on every leaf, which sees the points and challenges of its path; the four
    challenges of a round are not zero and no two are equal or opposite *)
Fixpoint every_leaf (leaf : tcode M -> K -> K -> list M -> list M -> list K -> Prop) (t : ftree) (Ls Rs : list M) (xs : list K) : Prop :=
  match t with
  | FLeaf T a b => leaf T a b Ls Rs xs
  | FNode L R x1 t1 x2 t2 x3 t3 x4 t4 =>
      separated x1 x2 x3 x4 /\
      every_leaf leaf t1 (Ls ++ [L]) (Rs ++ [R]) (xs ++ [x1]) /\
      every_leaf leaf t2 (Ls ++ [L]) (Rs ++ [R]) (xs ++ [x2]) /\
      every_leaf leaf t3 (Ls ++ [L]) (Rs ++ [R]) (xs ++ [x3]) /\
      every_leaf leaf t4 (Ls ++ [L]) (Rs ++ [R]) (xs ++ [x4])
  end.
(** every leaf is accepted: the verifier run with the points of its path draws the challenges
    of its path and returns Ok *)
Definition accepted (lg : nat -> nat) (n : nat) (tr : transcript) (gf hf : list K) (P u : M) (G H : list M) (t : ftree) : Prop :=
  every_leaf (fun T a b Ls Rs xs =>
      fst (replay T (combine Ls Rs) (innerproduct_domain_sep tr n)) = xs /\
      verify_ipp T lg n tr gf hf P u G H a b Ls Rs = Ok tt) t [] [] [].
End Fork.
Arguments ftree {K}.

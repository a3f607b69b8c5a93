(** Knowledge extraction from accepted inner-product proofs: a tree of challenges and final
    scalars, the witness computed from it, and the relations between the generators computed
    from it.  Everything in this file is a function of scalars alone: no generator, no
    commitment and no point of a proof enters. *)
From Verif Require Import Base Alg Lin IppModel.
Import List ListNotations.
Open Scope list_scope.

Section Extract.
Context {K : fieldOps}.

(** four challenges per round, each followed by a tree for the remaining rounds; at the leaves
    the two scalars that end a proof *)
Inductive stree :=
| SLeaf (a b : K)
| SNode (x1 : K) (t1 : stree) (x2 : K) (t2 : stree) (x3 : K) (t3 : stree) (x4 : K) (t4 : stree).

(** all paths have k rounds *)
Fixpoint shape (k : nat) (t : stree) : Prop :=
  match k, t with
  | O, SLeaf _ _ => True
  | S k', SNode _ t1 _ t2 _ t3 _ t4 => shape k' t1 /\ shape k' t2 /\ shape k' t3 /\ shape k' t4
  | _, _ => False
  end.
(** the challenges of a round are not zero, and no two are equal or opposite *)
Definition separated (x1 x2 x3 x4 : K) : Prop :=
  x1 <> f0 /\ x2 <> f0 /\ x3 <> f0 /\ x4 <> f0 /\
  fmul x1 x1 <> fmul x2 x2 /\ fmul x1 x1 <> fmul x3 x3 /\ fmul x1 x1 <> fmul x4 x4 /\
  fmul x2 x2 <> fmul x3 x3 /\ fmul x2 x2 <> fmul x4 x4 /\ fmul x3 x3 <> fmul x4 x4.

(** coefficients for the generators of a round from coefficients for the folded ones *)
Definition unfold (n : nat) (x : K) (r : list K) : list K :=
  let g := firstn n r in let h := firstn n (skipn n r) in let c := skipn (n + n) r in
  map (fmul (finv x)) g ++ map (fmul x) g ++ map (fmul x) h ++ map (fmul (finv x)) h ++ c.
Definition comb3 (c1 c2 c3 : K) (r1 r2 r3 : list K) : list K :=
  add_lists (map (fmul c1) r1) (add_lists (map (fmul c2) r2) (map (fmul c3) r3)).
(** the coefficient of y in the quadratic polynomial through three points, and its value at y4 *)
Definition mid1 (y1 y2 y3 : K) : K := fdiv (fopp (fadd y2 y3)) (fmul (fsub y1 y2) (fsub y1 y3)).
Definition ell1 (y1 y2 y3 y4 : K) : K := fdiv (fmul (fsub y4 y2) (fsub y4 y3)) (fmul (fsub y1 y2) (fsub y1 y3)).
Definition middle (y1 y2 y3 : K) (r1 r2 r3 : list K) : list K :=
  comb3 (mid1 y1 y2 y3) (mid1 y2 y1 y3) (mid1 y3 y1 y2) r1 r2 r3.
Definition predicted (y1 y2 y3 y4 : K) (r1 r2 r3 : list K) : list K :=
  comb3 (ell1 y1 y2 y3 y4) (ell1 y2 y1 y3 y4) (ell1 y3 y1 y2 y4) r1 r2 r3.

(** the value of the round's polynomial at a challenge *)
Definition at_challenge (n : nat) (x : K) (ab : list K * list K) : list K :=
  map (fmul (fmul x x)) (unfold n x (fst ab ++ snd ab ++ [inner (fst ab) (snd ab)])).
(** the witness: two vectors of length [2 ^ k] *)
Fixpoint extract (k : nat) (t : stree) : list K * list K :=
  match k, t with
  | S k', SNode x1 t1 x2 t2 x3 t3 _ _ =>
      let n := (2 ^ k')%nat in
      let p := middle (fmul x1 x1) (fmul x2 x2) (fmul x3 x3) (at_challenge n x1 (extract k' t1)) (at_challenge n x2 (extract k' t2)) (at_challenge n x3 (extract k' t3)) in
      (firstn (n + n) p, firstn (n + n) (skipn (n + n) p))
  | _, SLeaf a b => ([a], [b])
  | _, _ => ([], [])
  end.
(** candidates for relations: coefficient vectors of length [2 * 2 ^ k + 1] *)
Fixpoint relations (k : nat) (t : stree) : list (list K) :=
  match k, t with
  | S k', SNode x1 t1 x2 t2 x3 t3 x4 t4 =>
      let n := (2 ^ k')%nat in
      let v x t := at_challenge n x (extract k' t) in
      add_lists (v x4 t4) (map fopp (predicted (fmul x1 x1) (fmul x2 x2) (fmul x3 x3) (fmul x4 x4) (v x1 t1) (v x2 t2) (v x3 t3)))
      :: map (unfold n x1) (relations k' t1) ++ map (unfold n x2) (relations k' t2) ++ map (unfold n x3) (relations k' t3) ++ map (unfold n x4) (relations k' t4)
  | _, _ => []
  end.
End Extract.
Arguments stree : clear implicits.

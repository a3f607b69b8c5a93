(** What the statements about the inner-product argument and the R1CS proof are made of. *)
From Verif Require Import Base Alg Lin.
Import List ListNotations.
Open Scope list_scope.
Section Spec.
Context {K : fieldOps} {M : modOps K}.
(** sums over the positions below n *)
Fixpoint ksum (n : nat) (f : nat -> K) : K := match n with O => f0 | S k => fadd (ksum k f) (f k) end.
Fixpoint gl (G : list M) (n : nat) (f : nat -> K) : M := match n with O => m0 | S k => madd (gl G k f) (smul (f k) (nth k G m0)) end.
(** the product of the challenges of the rounds, to the power 1 for the rounds in which
    position [i] lies in the upper half and -1 for the others; the first round is the most
    significant bit *)
Definition signed_product (xs : list K) (i : nat) : K :=
  fprod (map (fun j => let x := nth j xs f0 in if Nat.testbit i (length xs - 1 - j) then x else finv x) (seq 0 (length xs))).
End Spec.
(** the logarithm used for the positions 1 .. n-1 is the integer part of log2 *)
Definition log_exact (lg : nat -> nat) (n : nat) : Prop := forall i, (1 <= i < n)%nat -> lg i = Nat.log2 i.

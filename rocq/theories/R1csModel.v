(** libzmix/bulletproofs_amcl/src/r1cs: linear combinations, the constraint-system
    interface, and the two constraint systems behind it (Prover, Verifier).
    Scalars are the elements of a field [K]; the transcript, the commitments and
    the proof itself are in R1csProofModel.v. *)
From Verif Require Import Base Alg.
Open Scope list_scope.

(** r1cs/linear_combination.rs:11-23 (enum Variable) *)
Inductive var := Committed (i : nat) | MulL (i : nat) | MulR (i : nat) | MulO (i : nat) | VOne.
(** derive(PartialEq, Eq) of Variable, linear_combination.rs:11 *)
Definition var_eqb (a b : var) : bool :=
  match a, b with
  | Committed i, Committed j => Nat.eqb i j
  | MulL i, MulL j => Nat.eqb i j
  | MulR i, MulR j => Nat.eqb i j
  | MulO i, MulO j => Nat.eqb i j
  | VOne, VOne => true
  | _, _ => false
  end.

Section R1cs.
Variable K : fieldOps.

(** linear_combination.rs:34-38 *)
Definition lc := list (var * K).
(** linear_combination.rs:25-29 *)
Record aq := mkAq { aq_var : var; aq_val : option K }.

(** linear_combination.rs:74-81 (From<Variable>) *)
Definition lc_var (v : var) : lc := [(v, f1)].
(** linear_combination.rs:83-89 (From<FieldElement>) *)
Definition lc_const (c : K) : lc := [(VOne, c)].
(** linear_combination.rs:152-159 (Add), 175-179 (AddAssign), 209-215 (Variable + L) *)
Definition lc_add (a b : lc) : lc := a ++ b.
(** linear_combination.rs:141-150 (Neg), 201-207 *)
Definition lc_neg (a : lc) : lc := map (fun t => (fst t, fopp (snd t))) a.
(** linear_combination.rs:161-173 (Sub), 193-199 (Variable - L) *)
Definition lc_sub (a b : lc) : lc := a ++ map (fun t => (fst t, fopp (snd t))) b.
(** linear_combination.rs:115-139 (FieldElement * LinearCombination) *)
Definition lc_scale (c : K) (a : lc) : lc := map (fun t => (fst t, fmul (snd t) c)) a.
(** linear_combination.rs:183-191 (FieldElement + Variable) *)
Definition lc_fadd_var (c : K) (v : var) : lc := [(VOne, c); (v, f1)].
(** linear_combination.rs:219-227 (FieldElement - Variable) *)
Definition lc_fsub_var (c : K) (v : var) : lc := [(VOne, c); (v, fopp f1)].
(** linear_combination.rs:229-237 (FieldElement * Variable) *)
Definition lc_fmul_var (c : K) (v : var) : lc := [(v, c)].

(** linear_combination.rs:58-60: [*vars.entry(var).or_insert(zero) += val] *)
Fixpoint entry_add (v : var) (x : K) (m : lc) : lc :=
  match m with
  | [] => [(v, fadd f0 x)]
  | (v', y) :: m' => if var_eqb v' v then (v', fadd y x) :: m' else (v', y) :: entry_add v x m'
  end.
(** linear_combination.rs:53-67 (simplify).  The HashMap is an association list with
    one entry per variable, visited in order of first insertion; Rust's iteration
    order is unspecified. *)
Definition lc_simplify (a : lc) : lc := fold_left (fun m t => entry_add (fst t) (snd t) m) a [].

(** ** The constraint-system interface: r1cs/constraint_system.rs:30-117.
    An operation runs on the state of the constraint system; a panic or an error
    ends the run. *)
Definition csm (S A : Type) : Type := S -> res (A * S).
Definition cret {S A : Type} (a : A) : csm S A := fun s => Ok (a, s).
Definition cbind {S A B : Type} (m : csm S A) (k : A -> csm S B) : csm S B := fun s => let! (a, s') := m s in k a s'.
Definition cfail {S A : Type} (r : res (A * S)) : csm S A := fun _ => r.
(** [for x in xs { ... }] threading an accumulator *)
Fixpoint cfold {S A B : Type} (f : B -> A -> csm S A) (xs : list B) (a : A) : csm S A :=
  match xs with
  | [] => cret a
  | x :: xs' => cbind (f x a) (fun a' => cfold f xs' a')
  end.

Record csops (S : Type) := mkCs {
  cs_multiply : lc -> lc -> csm S (var * var * var);
  cs_allocate : option K -> csm S var;
  cs_allocate_multiplier : option (K * K) -> csm S (var * var * var);
  cs_constrain : lc -> csm S unit;
  cs_evaluate_lc : lc -> csm S (option K);
  cs_allocate_single : option K -> csm S (var * option var)
}.

(** ** The prover: r1cs/prover.rs:39-62.  [p_vbl] are the blindings of the
    committed values. *)
Record pstate := mkPs { p_cons : list lc; p_aL : list K; p_aR : list K; p_aO : list K; p_v : list K; p_vbl : list K; p_pending : option nat }.

(** prover.rs:90-106 (new) *)
Definition p_new : pstate := mkPs [] [] [] [] [] [] None.
(** prover.rs:125-135 (commit), the part that concerns the constraint system *)
Definition p_commit (v bl : K) (s : pstate) : var * pstate :=
  (Committed (length (p_v s)), mkPs (p_cons s) (p_aL s) (p_aR s) (p_aO s) (p_v s ++ [v]) (p_vbl s ++ [bl]) (p_pending s)).

(** indexing a vector: out of range panics *)
Definition idx {A} (l : list A) (i : nat) : res A := match nth_error l i with Some x => Ok x | None => Err Panic end.

(** prover.rs:293-299, the match on the variable *)
Definition p_value (s : pstate) (v : var) : res K :=
  match v with
  | MulL i => idx (p_aL s) i
  | MulR i => idx (p_aR s) i
  | MulO i => idx (p_aO s) i
  | Committed i => idx (p_v s) i
  | VOne => Ok f1
  end.
(** prover.rs:289-302 (eval) *)
Definition p_eval (s : pstate) (l : lc) : res K :=
  rfold (fun sum t => let! val := p_value s (fst t) in Ok (fadd sum (fmul (snd t) val))) l f0.

(** prover.rs:716-733 (_allocate_vars) *)
Definition p_alloc_vars (l r o : K) : csm pstate (var * var * var) := fun s =>
  Ok ((MulL (length (p_aL s)), MulR (length (p_aR s)), MulO (length (p_aO s))),
      mkPs (p_cons s) (p_aL s ++ [l]) (p_aR s ++ [r]) (p_aO s ++ [o]) (p_v s) (p_vbl s) (p_pending s)).
(** prover.rs:680-684 (constrain) *)
Definition p_constrain (l : lc) : csm pstate unit := fun s =>
  Ok (tt, mkPs (p_cons s ++ [l]) (p_aL s) (p_aR s) (p_aO s) (p_v s) (p_vbl s) (p_pending s)).
(** prover.rs:628-647 (multiply) *)
Definition p_multiply (left right : lc) : csm pstate (var * var * var) := fun s =>
  let! l := p_eval s left in
  let! r := p_eval s right in
  let o := fmul l r in
  cbind (p_alloc_vars l r o) (fun '(lv, rv, ov) =>
  cbind (p_constrain (left ++ [(lv, fopp f1)])) (fun _ =>
  cbind (p_constrain (right ++ [(rv, fopp f1)])) (fun _ => cret (lv, rv, ov)))) s.
(** [v[i] = x], panicking out of range *)
Fixpoint set_at {A} (i : nat) (x : A) (l : list A) : res (list A) :=
  match l, i with
  | [], _ => Err Panic
  | _ :: l', O => Ok (x :: l')
  | y :: l', S i' => let! l2 := set_at i' x l' in Ok (y :: l2)
  end.
(** prover.rs:649-668 (allocate) *)
Definition p_allocate (assignment : option K) : csm pstate var := fun s =>
  match assignment with
  | None => Err (BpErr BMissingAssignment)
  | Some scalar =>
    match p_pending s with
    | None =>
      let i := length (p_aL s) in
      Ok (MulL i, mkPs (p_cons s) (p_aL s ++ [scalar]) (p_aR s ++ [f0]) (p_aO s ++ [f0]) (p_v s) (p_vbl s) (Some i))
    | Some i =>
      let! aR := set_at i scalar (p_aR s) in
      let! l := idx (p_aL s) i in
      let! r := idx aR i in
      let! aO := set_at i (fmul l r) (p_aO s) in
      Ok (MulR i, mkPs (p_cons s) (p_aL s) aR aO (p_v s) (p_vbl s) None)
    end
  end.
(** prover.rs:670-678 (allocate_multiplier) *)
Definition p_allocate_multiplier (inputs : option (K * K)) : csm pstate (var * var * var) := fun s =>
  match inputs with
  | None => Err (BpErr BMissingAssignment)
  | Some (l, r) => p_alloc_vars l r (fmul l r) s
  end.
(** prover.rs:694-696 (evaluate_lc) *)
Definition p_evaluate_lc (l : lc) : csm pstate (option K) := fun s => let! x := p_eval s l in Ok (Some x, s).
(** the match shared by prover.rs:698-711 and verifier.rs:529-542 (allocate_single) *)
Definition single_of {S} (v : var) : csm S (var * option var) :=
  match v with
  | MulL i => cret (MulL i, None)
  | MulR i => cret (MulR i, Some (MulO i))
  | _ => cfail (Err (BpErr BFormatError))
  end.
Definition p_allocate_single (assignment : option K) : csm pstate (var * option var) := cbind (p_allocate assignment) single_of.

(** prover.rs:625-712 (impl ConstraintSystem for Prover); RandomizingProver
    (prover.rs:735-778) forwards every operation to it *)
Definition P : csops pstate := mkCs pstate p_multiply p_allocate p_allocate_multiplier p_constrain p_evaluate_lc p_allocate_single.

(** ** The verifier: r1cs/verifier.rs:36-58.  [Pt] is the type of the
    committed points. *)
Variable Pt : Type.
Record vstate := mkVs { v_cons : list lc; v_num : nat; v_V : list Pt; v_pending : option nat }.
(** verifier.rs:103-114 (new) *)
Definition v_new : vstate := mkVs [] 0 [] None.
(** verifier.rs:130-138 (commit) *)
Definition v_commit (c : Pt) (s : vstate) : var * vstate :=
  (Committed (length (v_V s)), mkVs (v_cons s) (v_num s) (v_V s ++ [c]) (v_pending s)).
(** verifier.rs:547-557 (_allocate_vars) *)
Definition v_alloc_vars : csm vstate (var * var * var) := fun s =>
  let i := v_num s in
  Ok ((MulL i, MulR i, MulO i), mkVs (v_cons s) (S i) (v_V s) (v_pending s)).
(** verifier.rs:510-515 (constrain) *)
Definition v_constrain (l : lc) : csm vstate unit := fun s =>
  Ok (tt, mkVs (v_cons s ++ [l]) (v_num s) (v_V s) (v_pending s)).
(** verifier.rs:472-486 (multiply) *)
Definition v_multiply (left right : lc) : csm vstate (var * var * var) :=
  cbind v_alloc_vars (fun '(lv, rv, ov) =>
  cbind (v_constrain (left ++ [(lv, fopp f1)])) (fun _ =>
  cbind (v_constrain (right ++ [(rv, fopp f1)])) (fun _ => cret (lv, rv, ov)))).
(** verifier.rs:488-501 (allocate) *)
Definition v_allocate (_ : option K) : csm vstate var := fun s =>
  match v_pending s with
  | None => let i := v_num s in Ok (MulL i, mkVs (v_cons s) (S i) (v_V s) (Some i))
  | Some i => Ok (MulR i, mkVs (v_cons s) (v_num s) (v_V s) None)
  end.
(** verifier.rs:503-508 (allocate_multiplier) *)
Definition v_allocate_multiplier (_ : option (K * K)) : csm vstate (var * var * var) := v_alloc_vars.
(** verifier.rs:525-527 (evaluate_lc) *)
Definition v_evaluate_lc (_ : lc) : csm vstate (option K) := cret None.
(** verifier.rs:529-542 (allocate_single) *)
Definition v_allocate_single (_ : option K) : csm vstate (var * option var) := cbind (v_allocate None) single_of.
(** verifier.rs:469-543 (impl ConstraintSystem for Verifier); RandomizingVerifier
    (verifier.rs:560-603) forwards every operation to it *)
Definition V : csops vstate := mkCs vstate v_multiply v_allocate v_allocate_multiplier v_constrain v_evaluate_lc v_allocate_single.

(** the start of the second phase, prover.rs:307-308 and verifier.rs:253-254:
    a half-assigned multiplier stays as it is and is no longer pending *)
Definition p_clear (s : pstate) : pstate := mkPs (p_cons s) (p_aL s) (p_aR s) (p_aO s) (p_v s) (p_vbl s) None.
Definition v_clear (s : vstate) : vstate := mkVs (v_cons s) (v_num s) (v_V s) None.
End R1cs.

Arguments cret {S A}. Arguments cbind {S A B}. Arguments cfail {S A}. Arguments cfold {S A B}.
Arguments aq_var {K}. Arguments aq_val {K}. Arguments mkAq {K}.
Arguments lc_var {K}. Arguments lc_const {K}. Arguments lc_add {K}. Arguments lc_neg {K}. Arguments lc_sub {K}. Arguments lc_scale {K}.
Arguments lc_fadd_var {K}. Arguments lc_fsub_var {K}. Arguments lc_fmul_var {K}. Arguments entry_add {K}. Arguments lc_simplify {K}.
Arguments cs_multiply {K S}. Arguments cs_allocate {K S}. Arguments cs_allocate_multiplier {K S}. Arguments cs_constrain {K S}.
Arguments cs_evaluate_lc {K S}. Arguments cs_allocate_single {K S}.
Arguments p_cons {K}. Arguments p_aL {K}. Arguments p_aR {K}. Arguments p_aO {K}. Arguments p_v {K}. Arguments p_vbl {K}. Arguments p_pending {K}. Arguments mkPs {K}.
Arguments v_cons {K Pt}. Arguments v_num {K Pt}. Arguments v_V {K Pt}. Arguments v_pending {K Pt}. Arguments mkVs {K Pt}.
Arguments p_new {K}. Arguments v_new {K Pt}. Arguments p_commit {K}. Arguments v_commit {K Pt}. Arguments p_clear {K}. Arguments v_clear {K Pt}.
Arguments p_value {K}. Arguments p_eval {K}. Arguments p_multiply {K}. Arguments v_multiply {K Pt}. Arguments P {K}. Arguments V {K Pt}.
Arguments p_alloc_vars {K}. Arguments p_constrain {K}. Arguments p_allocate {K}. Arguments p_allocate_multiplier {K}. Arguments p_evaluate_lc {K}. Arguments p_allocate_single {K}.
Arguments v_alloc_vars {K Pt}. Arguments v_constrain {K Pt}. Arguments v_allocate {K Pt}. Arguments v_allocate_multiplier {K Pt}. Arguments v_evaluate_lc {K Pt}. Arguments v_allocate_single {K Pt}.
Arguments single_of {S}.
Declare Scope cs_scope.
Notation "'do!' x ':=' e 'in' k" := (cbind e (fun x => k)) (at level 200, x pattern, e at level 100, k at level 200, right associativity) : cs_scope.
Notation "'run!' e 'then' k" := (cbind e (fun _ => k)) (at level 200, e at level 100, k at level 200, right associativity) : cs_scope.

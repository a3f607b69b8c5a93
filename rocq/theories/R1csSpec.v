(** What a rank-1 constraint system says: an assignment of field elements to the
    variables satisfies it when every multiplication gate and every linear
    constraint holds. *)
From Verif Require Import Base Alg R1csModel.
Open Scope list_scope.

Section Spec.
Context {K : fieldOps}.
Definition assignment := var -> K.
(** the value of a linear combination: the sum of coefficient times value *)
Definition lc_value (w : assignment) (l : lc K) : K := fsum (map (fun t => fmul (snd t) (w (fst t))) l).
(** [n] multiplication gates and the constraints [cons], all of them to be zero *)
Definition satisfies (w : assignment) (n : nat) (cons : list (lc K)) : Prop :=
  w VOne = f1 /\
  (forall i, (i < n)%nat -> w (MulO i) = fmul (w (MulL i)) (w (MulR i))) /\
  (forall l, In l cons -> lc_value w l = f0).
(** the system a verifier has built *)
Definition vsat {Pt} (w : assignment) (s : vstate K Pt) : Prop := satisfies w (v_num s) (v_cons s).
(** the assignment a prover holds *)
Definition pw (s : pstate K) : assignment := fun v =>
  match v with
  | MulL i => nth i (p_aL s) f0 | MulR i => nth i (p_aR s) f0 | MulO i => nth i (p_aO s) f0
  | Committed i => nth i (p_v s) f0 | VOne => f1
  end.
Definition psat (s : pstate K) : Prop := satisfies (pw s) (length (p_aL s)) (p_cons s).
(** [v] is a variable of the prover [s] (the right half and the output of a multiplier whose
    second input is still to come are not) *)
Definition valid (s : pstate K) (v : var) : Prop :=
  match v with
  | MulL i => (i < length (p_aL s))%nat
  | MulR i | MulO i => (i < length (p_aL s))%nat /\ p_pending s <> Some i
  | Committed i => (i < length (p_v s))%nat
  | VOne => True
  end.
Definition valid_lc (s : pstate K) (l : lc K) : Prop := forall v c, In (v, c) l -> valid s v.
(** a well-formed prover: its constraints mention its own variables, and its assignment
    satisfies everything it has built so far *)
Record pgood (s : pstate K) : Prop := {
  pg_R : length (p_aR s) = length (p_aL s);
  pg_O : length (p_aO s) = length (p_aL s);
  pg_pend : forall i, p_pending s = Some i -> (i < length (p_aL s))%nat;
  pg_valid : forall l, In l (p_cons s) -> valid_lc s l;
  pg_sat : psat s }.
(** a prover and a verifier holding the same system, the verifier's committed points being
    the commitments to the prover's values *)
Record sim {Pt} (com : K -> K -> Pt) (ps : pstate K) (vs : vstate K Pt) : Prop := {
  sm_cons : v_cons vs = p_cons ps;
  sm_num : v_num vs = length (p_aL ps);
  sm_R : length (p_aR ps) = length (p_aL ps);
  sm_O : length (p_aO ps) = length (p_aL ps);
  sm_pend : v_pending vs = p_pending ps;
  sm_len : length (p_vbl ps) = length (p_v ps);
  sm_V : v_V vs = map (fun t => com (fst t) (snd t)) (combine (p_v ps) (p_vbl ps)) }.
End Spec.

(** A circuit: the operations a gadget may perform on a constraint system, in any order, the
    continuation receiving the variables.  The values given to [allocate] and
    [allocate_multiplier] are computed from the prover's assignment so far. *)
Inductive circuit {K : fieldOps} : Type :=
| CDone
| CMultiply (l r : lc K) (k : var * var * var -> circuit)
| CAllocate (x : @assignment K -> K) (k : var -> circuit)
| CAllocMul (x : @assignment K -> K * K) (k : var * var * var -> circuit)
| CConstrain (l : lc K) (k : circuit).
Fixpoint run_prover {K : fieldOps} (c : @circuit K) : csm (pstate K) unit :=
  match c with
  | CDone => cret tt
  | CMultiply l r k => cbind (cs_multiply P l r) (fun t => run_prover (k t))
  | CAllocate x k => fun s => cbind (cs_allocate P (Some (x (pw s)))) (fun v => run_prover (k v)) s
  | CAllocMul x k => fun s => cbind (cs_allocate_multiplier P (Some (x (pw s)))) (fun t => run_prover (k t)) s
  | CConstrain l k => cbind (cs_constrain P l) (fun _ => run_prover k)
  end.
Fixpoint run_verifier {K : fieldOps} {Pt} (c : @circuit K) : csm (vstate K Pt) unit :=
  match c with
  | CDone => cret tt
  | CMultiply l r k => cbind (cs_multiply V l r) (fun t => run_verifier (k t))
  | CAllocate x k => cbind (cs_allocate V None) (fun v => run_verifier (k v))
  | CAllocMul x k => cbind (cs_allocate_multiplier V None) (fun t => run_verifier (k t))
  | CConstrain l k => cbind (cs_constrain V l) (fun _ => run_verifier k)
  end.

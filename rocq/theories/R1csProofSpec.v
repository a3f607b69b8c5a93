(** Circuits with a second phase: what a callback given to specify_randomized_constraints may
    do (constraint_system.rs:75-117, prover.rs:735-790, verifier.rs:560-615): the operations of a circuit
    and drawing challenges from the transcript, in any order. *)
From Coq Require Import String.
From Verif Require Import Base Alg Lin TranscriptModel IppModel IppSpec R1csModel R1csSpec R1csProofModel.
Import List ListNotations.
Open Scope list_scope.

Inductive rcircuit {K : fieldOps} : Type :=
| RDone
| RMultiply (l r : lc K) (k : var * var * var -> rcircuit)
| RAllocate (x : @assignment K -> K) (k : var -> rcircuit)
| RAllocMul (x : @assignment K -> K * K) (k : var * var * var -> rcircuit)
| RConstrain (l : lc K) (k : rcircuit)
| RChallenge (label : string) (k : K -> rcircuit).

Section Run.
Context {K : fieldOps} {M : modOps K} (T : tcode M).
(** an operation of the constraint system, the transcript untouched *)
Definition on_cs {S A : Type} (m : csm S A) : csm (S * transcript) A := fun st => let! (a, s') := m (fst st) in Ok (a, (s', snd st)).
(** prover.rs:780-790, verifier.rs:606-615 (challenge_scalar) *)
Definition draw {S : Type} (label : string) : csm (S * transcript) K := fun st => let (x, tr) := challenge_scalar T (snd st) label in Ok (x, (fst st, tr)).
Fixpoint run_rprover (c : @rcircuit K) : pcallback K :=
  match c with
  | RDone => cret tt
  | RMultiply l r k => cbind (on_cs (cs_multiply P l r)) (fun t => run_rprover (k t))
  | RAllocate x k => fun st => cbind (on_cs (cs_allocate P (Some (x (pw (fst st)))))) (fun v => run_rprover (k v)) st
  | RAllocMul x k => fun st => cbind (on_cs (cs_allocate_multiplier P (Some (x (pw (fst st)))))) (fun t => run_rprover (k t)) st
  | RConstrain l k => cbind (on_cs (cs_constrain P l)) (fun _ => run_rprover k)
  | RChallenge label k => cbind (draw label) (fun x => run_rprover (k x))
  end.
Fixpoint run_rverifier (c : @rcircuit K) : vcallback M :=
  match c with
  | RDone => cret tt
  | RMultiply l r k => cbind (on_cs (cs_multiply V l r)) (fun t => run_rverifier (k t))
  | RAllocate x k => cbind (on_cs (cs_allocate V None)) (fun v => run_rverifier (k v))
  | RAllocMul x k => cbind (on_cs (cs_allocate_multiplier V None)) (fun t => run_rverifier (k t))
  | RConstrain l k => cbind (on_cs (cs_constrain V l)) (fun _ => run_rverifier k)
  | RChallenge label k => cbind (draw label) (fun x => run_rverifier (k x))
  end.
(** committing to values, and to the commitments *)
Definition p_commits (vb : list (K * K)) (s : pstate K) : pstate K := fold_left (fun s t => snd (p_commit (fst t) (snd t) s)) vb s.
Definition v_commits (cs : list M) (s : vstate K M) : vstate K M := fold_left (fun s c => snd (v_commit c s)) cs s.
(** every constraint mentions variables that exist *)
Definition scoped (s : pstate K) : Prop := forall l v c, In l (p_cons s) -> In (v, c) l ->
  match v with MulL i | MulR i | MulO i => (i < length (p_aL s))%nat | Committed i => (i < length (p_v s))%nat | VOne => True end.
End Run.

(** ** what the verifier checks.  The challenges it draws after the second phase, from the
    proof it is given *)
Section Checks.
Context {K : fieldOps} {M : modOps K} (T : tcode M).
Record vchal := mkVchal { c_y : K; c_z : K; c_u : K; c_x : K; c_w : K; c_ip : list K }.
Definition verifier_challenges (tr : transcript) (p : r1cs_proof M) (N : nat) : vchal :=
  let tr := commit_point T tr "A_I2" (A_I2 p) in
  let tr := commit_point T tr "A_O2" (A_O2 p) in
  let tr := commit_point T tr "S2" (S2 p) in
  let (y, tr) := challenge_scalar T tr "y" in
  let (z, tr) := challenge_scalar T tr "z" in
  let tr := commit_point T tr "T_1" (T_1 p) in
  let tr := commit_point T tr "T_3" (T_3 p) in
  let tr := commit_point T tr "T_4" (T_4 p) in
  let tr := commit_point T tr "T_5" (T_5 p) in
  let tr := commit_point T tr "T_6" (T_6 p) in
  let (u, tr) := challenge_scalar T tr "u" in
  let (x, tr) := challenge_scalar T tr "x" in
  let tr := commit_scalar T tr "t_x" (t_x p) in
  let tr := commit_scalar T tr "t_x_blinding" (t_x_blinding p) in
  let tr := commit_scalar T tr "e_blinding" (e_blinding p) in
  let (w, tr) := challenge_scalar T tr "w" in
  mkVchal y z u x w (fst (replay T (combine (ip_L (ipp p)) (ip_R (ipp p))) (innerproduct_domain_sep tr N))).
(** the weight of position [i]: 1 in the first phase, u after *)
Definition phase_weight (n1 : nat) (u : K) (i : nat) : K := if (i <? n1)%nat then f1 else u.
(** y^-n: powers of the inverse of y *)
Definition delta_of (n : nat) (y : K) (w : @weights K) : K := ksum n (fun i => fmul (fmul (nth i (w_R w) f0) (fpow (finv y) i)) (nth i (w_L w) f0)).
(** the polynomial identity: t(x) = x^2 (<w_V, v> + w_c + delta) + sum of the t_i x^i, in the exponent *)
Definition t_equation (g h : M) (Vs : list M) (n : nat) (w : @weights K) (p : r1cs_proof M) (y x : K) : Prop :=
  madd (smul (t_x p) g) (smul (t_x_blinding p) h) =
  madd (madd (smul (fmul (fpow x 2) (fadd (w_c w) (delta_of n y w))) g) (smul (fpow x 2) (lin Vs (w_V w))))
       (madd (smul x (T_1 p)) (madd (smul (fpow x 3) (T_3 p)) (madd (smul (fpow x 4) (T_4 p)) (madd (smul (fpow x 5) (T_5 p)) (smul (fpow x 6) (T_6 p)))))).
(** the point for which the inner-product proof is checked: a commitment to l(x), r(x) and t_x *)
Definition ipp_point (g h : M) (G H : list M) (n1 N : nat) (w : @weights K) (p : r1cs_proof M) (y u x w' : K) : M :=
  madd (madd (madd (smul x (A_I1 p)) (madd (smul (fpow x 2) (A_O1 p)) (smul (fpow x 3) (S1 p))))
             (smul u (madd (smul x (A_I2 p)) (madd (smul (fpow x 2) (A_O2 p)) (smul (fpow x 3) (S2 p))))))
       (madd (madd (gl G N (fun i => fmul (phase_weight n1 u i) (fmul x (fmul (nth i (w_R w) f0) (fpow (finv y) i)))))
                   (gl H N (fun i => fmul (phase_weight n1 u i) (fsub (fmul (fpow (finv y) i) (fadd (fmul x (nth i (w_L w) f0)) (nth i (w_O w) f0))) f1))))
             (madd (smul (t_x p) (smul w' g)) (smul (fopp (e_blinding p)) h))).
(** the inner-product argument's equation for the point [P] over the bases [gf i * G_i] and
    [hf i * H_i] *)
Definition ipp_equation (G H : list M) (gf hf : nat -> K) (P Q : M) (N : nat) (xs : list K) (ip : ipp_proof M) : Prop :=
  madd P (madd (lin (ip_L ip) (map (fun x => fmul x x) xs)) (lin (ip_R ip) (map (fun x => fmul (finv x) (finv x)) xs))) =
  madd (madd (gl G N (fun i => fmul (ip_a ip) (fmul (gf i) (signed_product xs i)))) (gl H N (fun i => fmul (ip_b ip) (fmul (hf i) (finv (signed_product xs i))))))
       (smul (fmul (ip_a ip) (ip_b ip)) Q).
End Checks.

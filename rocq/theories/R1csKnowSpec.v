(** Complete proofs made with a gadget (gen_proof_of_* and verify_proof_of_* of
    libzmix/bulletproofs_amcl/src/r1cs/gadgets), and openings of the commitments computed from
    a tree of accepted proofs. *)
From Coq Require Import String.
From Verif Require Import Base Alg Lin TranscriptModel IppModel IppSpec R1csModel R1csSpec R1csProofModel R1csProofSpec R1csCheckProps IppForkSpec R1csSoundSpec.
Import List ListNotations.
Open Scope list_scope.

(** ** the functions that make and check a whole proof.  [pf] commits and builds the circuit
    (prove_... ), [vf] does so for the commitments (verify_... ), [label] is the transcript
    Transcript::new(transcript_label) starts with.
    bound_check.rs:135-182, non_zero.rs:51-87, set_membership.rs:102-141,
    set_non_membership.rs:106-144 *)
Section Whole.
Context {K : fieldOps} {M : modOps K} (T : tcode M).
Definition gen_proof (pf : csm (pstate K) (list M)) (label : transcript) (g h : M) (G H : list M) (d : draws K) : res (r1cs_proof M * list M) :=
  let! (comms, ps) := pf p_new in
  let! (proof, _) := prove T g h [] ps (p_transcript T g h label ps) G H d in
  Ok (proof, comms).
Definition verify_proof (lg : nat -> nat) (vf : csm (vstate K M) unit) (proof : r1cs_proof M) (label : transcript) (g h : M) (G H : list M) (r : K) : res unit :=
  let! (_, vs) := vf v_new in
  verify T lg [] vs (v_transcript T label vs) proof g h G H r.
End Whole.

(** ** openings from the constraints.  A constraint in which one commitment is not yet opened
    determines an opening of it: this is read off the gates and the blindings left over *)
Section Solve.
Context {K : fieldOps} (cons : list (lc K)) (w : @assignment K) (left_over : nat -> K).
(** the coefficient of the commitment i *)
Definition ccoef (i : nat) (l : lc K) : K := fsum (map (fun t => match fst t with Committed j => if (j =? i)%nat then snd t else f0 | _ => f0 end) l).
Definition with_committed (v : nat -> K) : @assignment K := fun x => match x with Committed i => v i | _ => w x end.
Definition blinding_of (b : nat -> K) (l : lc K) : K := fsum (map (fun t => match fst t with Committed i => fmul (snd t) (b i) | _ => f0 end) l).
Definition upd (v : nat -> K) (i : nat) (x : K) : nat -> K := fun j => if (j =? i)%nat then x else v j.
Fixpoint solve (order : list (nat * nat)) (v b : nat -> K) : (nat -> K) * (nat -> K) :=
  match order with
  | [] => (v, b)
  | (i, q) :: o =>
      let l := nth q cons [] in
      solve o (upd v i (fmul (finv (ccoef i l)) (fopp (lc_value (with_committed (upd v i f0)) l))))
              (upd b i (fmul (finv (ccoef i l)) (fsub (left_over q) (blinding_of (upd b i f0) l))))
  end.
(** constraint q mentions commitment i and otherwise only those opened before *)
Fixpoint triangular (order : list (nat * nat)) (done : list nat) : Prop :=
  match order with
  | [] => True
  | (i, q) :: o => (q < length cons)%nat /\ ccoef i (nth q cons []) <> f0 /\ (forall j c, In (Committed j, c) (nth q cons []) -> j = i \/ In j done) /\ triangular o (i :: done)
  end.
End Solve.
(** the openings computed from a tree of accepted proofs *)
Definition openings {K : fieldOps} (n1 n m k : nat) (cons : list (lc K)) (order : list (nat * nat)) (s : list (@sy K)) : (nat -> K) * (nat -> K) :=
  solve cons (ex_assignment n1 n m k cons s []) (ex_blinding s) order (fun _ => f0) (fun _ => f0).
(** ... or a relation: the scalars computed from the tree combine g and h, or the generators, to
    zero without being zero themselves *)
Definition relation_known {K : fieldOps} {M : modOps K} (vs : vstate K M) (g h : M) (G H : list M) (order : list (nat * nat)) (s : list (@sy K)) : Prop :=
  let n := v_num vs in let m := length (v_V vs) in let k := Nat.log2_up n in let N := (2 ^ k)%nat in let cons := v_cons vs in
  let v := fst (openings n n m k cons order s) in let b := snd (openings n n m k cons order s) in
  let w := ex_assignment n n m k cons s (map v (seq 0 m)) in
  (exists l q, (q < length cons)%nat /\ l = nth q cons [] /\ lc_value w l <> f0 /\ madd (smul (lc_value w l) g) (smul (fsub (blinding_of b l) (ex_blinding s q)) h) = m0)
  \/ exists r, In r (rels_r1cs n n m k cons s) /\ (exists j, (j < 2 * N + 2)%nat /\ r j <> f0) /\ gl (firstn N G ++ firstn N H ++ [g; h]) (2 * N + 2) r = m0.
(** the opening of commitment i computed from the tree *)
Definition opening {K : fieldOps} {M : modOps K} (vs : vstate K M) (order : list (nat * nat)) (s : list (@sy K)) (i : nat) : K * K :=
  let n := v_num vs in let o := openings n n (length (v_V vs)) (Nat.log2_up n) (v_cons vs) order s in (fst o i, snd o i).
(** enough generators, and a logarithm exact up to the padded number of multipliers *)
Definition enough {K : fieldOps} {M : modOps K} (lg : nat -> nat) (n : nat) (G H : list M) : Prop :=
  (next_pow2 n <= length G)%nat /\ (next_pow2 n <= length H)%nat /\ (Nat.log2_up n < 32)%nat /\ log_exact lg (next_pow2 n).

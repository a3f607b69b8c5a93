(** Concrete cases for C95 and C96: a two-phase circuit over the residues modulo 257. *)
From Coq Require Import String.
From Verif Require Import Base Alg Lin Fp NumTheory TranscriptModel IppModel IppLib IppSpec IppProps IppExProps R1csModel R1csSpec R1csLib R1csProofModel R1csProofLib R1csProofSpec R1csProofComplete R1csProofProps R1csCheckProps.
Import List ListNotations.
Open Scope list_scope.

(** first phase: the product of the first two committed values is the third; second phase:
    with a challenge x, (a - x)(b - x) = c - x (a + b) + x^2 *)
Definition eC : @circuit iK := CMultiply (lc_var (Committed 0)) (lc_var (Committed 1)) (fun '(_, _, o) => CConstrain (lc_sub (lc_var o) (lc_var (Committed 2))) CDone).
Definition eR : @rcircuit iK := RChallenge "c" (fun x => RMultiply (lc_sub (lc_var (Committed 0)) (lc_const x)) (lc_sub (lc_var (Committed 1)) (lc_const x)) (fun '(_, _, o) =>
  RConstrain (lc_sub (lc_var o) (lc_add (lc_sub (lc_var (Committed 2)) (lc_scale x (lc_add (lc_var (Committed 0)) (lc_var (Committed 1))))) (lc_const (fmul x x)))) RDone)).
Definition eVb (c : Z) : list (iK * iK) := [(ik 3, ik 7); (ik 5, ik 11); (ik c, ik 2)].
Definition eg := im 31. Definition eh := im 37.
Definition eD : draws iK := mkDraws (ik 1) (ik 2) (ik 3) (fun i => ik (Z.of_nat i + 4)) (fun i => ik (Z.of_nat i + 40)) (ik 5) (ik 6) (ik 7) (fun i => ik (Z.of_nat i + 8)) (fun i => ik (Z.of_nat i + 80)) (ik 9) (ik 10) (ik 11) (ik 12) (ik 13).
Definition ePs (c : Z) : pstate iK := match run_prover eC (p_commits (eVb c) p_new) with Ok (_, s) => s | _ => p_new end.
Definition eTr (c : Z) : transcript := p_transcript iT eg eh [] (ePs c).
Definition eVs (c : Z) : vstate iK iM := match run_verifier eC (v_commits (map (fun t => commit_elem eg eh (fst t) (snd t)) (eVb c)) v_new) with Ok (_, s) => s | _ => v_new end.
Definition ePs' (c : Z) : res (pstate iK * transcript) := p_randomize [run_rprover iT eR] (ePs c) (phase2_transcript iT eh (ePs c) iG iH eD (eTr c)).
Definition eProof (c : Z) : res (r1cs_proof iM * transcript) := prove iT eg eh [run_rprover iT eR] (ePs c) (eTr c) iG iH eD.
Definition eVerify (c r : Z) (p : r1cs_proof iM) (G H : list iM) : res unit := verify iT Nat.log2 [run_rverifier iT eR] (eVs c) (v_transcript iT [] (eVs c)) p eg eh G H (ik r).
Definition is_ok {A} (x : res A) : bool := match x with Ok _ => true | _ => false end.
Definition fe (x : iK) (z : Z) : bool := Z.eqb (@fpv 257 x) z.
Definition sat_b (s : pstate iK) : bool :=
  forallb (fun i => Z.eqb (@fpv 257 (nth i (p_aO s) f0)) (@fpv 257 (fmul (nth i (p_aL s) f0) (nth i (p_aR s) f0)))) (seq 0 (length (p_aL s))) &&
  forallb (fun l => fe (lc_value (pw s) l) 0) (p_cons s).
Definition set_tx (p : r1cs_proof iM) (x : iK) : r1cs_proof iM :=
  mkR1cs (A_I1 p) (A_O1 p) (S1 p) (A_I2 p) (A_O2 p) (S2 p) (T_1 p) (T_3 p) (T_4 p) (T_5 p) (T_6 p) x (t_x_blinding p) (e_blinding p) (ipp p).
Definition set_R (p : r1cs_proof iM) (l : list iM) : r1cs_proof iM :=
  mkR1cs (A_I1 p) (A_O1 p) (S1 p) (A_I2 p) (A_O2 p) (S2 p) (T_1 p) (T_3 p) (T_4 p) (T_5 p) (T_6 p) (t_x p) (t_x_blinding p) (e_blinding p) (mkIpp (ip_L (ipp p)) l (ip_a (ipp p)) (ip_b (ipp p))).
(** the hypotheses of C95_end_to_end hold for 3 * 5 = 15: one multiplier in each phase, the
    assignment satisfies the system, and the proof (one round) is accepted for several r; a
    changed t_x is refused *)
Theorem C95_ex :
  challenges_nonzero iT /\ log_exact Nat.log2 2 /\
  (match ePs' 15 with Ok (s, _) => (length (p_aL s) =? 2)%nat && (length (p_cons s) =? 6)%nat && sat_b s | _ => false end &&
   match eProof 15 with
   | Ok (p, _) => (length (ip_L (ipp p)) =? 1)%nat && is_ok (eVerify 15 1 p iG iH) && is_ok (eVerify 15 100 p iG iH) &&
       match eVerify 15 1 (set_tx p (fadd (t_x p) f1)) iG iH with Err (BpErr BVerificationError) => true | _ => false end
   | _ => false end)%bool = true.
Proof. split; [exact ichal_nonzero|]. split; [now intros i _|]. vm_compute. reflexivity. Qed.
(** the same with 3 * 5 = 16: the proof is made and refused; malformed proofs and generators *)
Theorem C96_ex :
  (match eProof 16 with
   | Ok (p, _) => match eVerify 16 1 p iG iH with Err (BpErr BVerificationError) => true | _ => false end
   | _ => false end &&
   match eProof 15 with
   | Ok (p, _) =>
       match eVerify 15 1 p (firstn 1 iG) iH with Err (BpErr (BInvalidGeneratorsLength 1 2)) => true | _ => false end &&
       match eVerify 15 1 p iG (firstn 1 iH) with Err Panic => true | _ => false end &&
       match eVerify 15 1 (set_R p []) iG iH with Err Panic => true | _ => false end &&
       match eVerify 15 1 (set_R p iG) iH iH with Err Panic => true | _ => false end
   | _ => false end)%bool = true.
Proof. vm_compute. reflexivity. Qed.

(** Concrete cases for C130 over the residues modulo 257. *)
From Verif Require Import Base Alg Lin Fp NumTheory TranscriptModel IppModel IppLib IppSpec IppSoundSpec IppForkSpec IppProps IppForkProps IppExProps.
From Coq Require Import String.
Import List ListNotations.
Open Scope list_scope.

(** a run in which the i-th challenge drawn is the i-th of a list *)
Definition chals (l : list Z) : tcode iM :=
  mkTcode (encM iT) (encF iT) (fun tr _ => ik (nth (length (filter (fun e => match e with Chal _ => true | _ => false end) tr)) l 1%Z)).
Definition okb (r : res unit) : bool := match r with Ok _ => true | _ => false end.
Lemma okb_ok r : okb r = true -> r = Ok tt.
Proof. destruct r as [[]|]; [reflexivity|discriminate]. Qed.
Lemma iK_list_eq (l m : list iK) : map (@fpv 257) l = map (@fpv 257) m -> l = m.
Proof.
  revert m. induction l as [|x l IH]; intros [|y m] E; try discriminate; [reflexivity|]. cbn [map] in E. injection E as E1 E2. f_equal; [now apply fpv_inj|now apply IH].
Qed.
Lemma iK_neq (x y : iK) : negb (@fpv 257 x =? @fpv 257 y)%Z = true -> x <> y.
Proof. intros E ->. now rewrite Z.eqb_refl in E. Qed.

Definition jG := map im [3; 5]%Z. Definition jH := map im [7; 11]%Z. Definition jgf := map ik [1; 2]%Z. Definition jhf := map ik [3; 1]%Z.
Definition jP : iM := madd (madd (lin jG (hadamard (map ik [2; 4]%Z) jgf)) (lin jH (hadamard (map ik [6; 8]%Z) jhf))) (smul (inner (map ik [2; 4]%Z) (map ik [6; 8]%Z)) iu).
(** the honest prover run with the challenges 1, 2, 3, 4 *)
Definition jrun (c : Z) : ipp_proof iM := match create_ipp (chals [c]) [] iu jgf jhf jG jH (map ik [2; 4]%Z) (map ik [6; 8]%Z) with Ok (p, _) => p | _ => mkIpp [] [] f0 f0 end.
Definition jleaf (c : Z) : ftree iM := FLeaf (chals [c]) (ip_a (jrun c)) (ip_b (jrun c)).
Definition jtree : ftree iM := FNode (hd m0 (ip_L (jrun 1))) (hd m0 (ip_R (jrun 1))) (ik 1) (jleaf 1) (ik 2) (jleaf 2) (ik 3) (jleaf 3) (ik 4) (jleaf 4).
Lemma jseparated : separated (ik 1) (ik 2) (ik 3) (ik 4).
Proof. unfold separated. repeat split; apply iK_neq; vm_compute; reflexivity. Qed.
(** the hypotheses hold for the honest prover's tree, and extraction returns its vectors *)
Theorem C130_ex_honest :
  shape 1 (scalars jtree) /\ accepted Nat.log2 2 [] jgf jhf jP iu jG jH jtree /\
  (map (@fpv 257) (fst (extract 1 (scalars jtree))), map (@fpv 257) (snd (extract 1 (scalars jtree)))) = ([2; 4]%Z, [6; 8]%Z) /\
  map (map (@fpv 257)) (relations 1 (scalars jtree)) = [[0; 0; 0; 0; 0]%Z].
Proof.
  split; [exact (conj I (conj I (conj I I)))|]. split; [|split; vm_compute; reflexivity].
  unfold accepted; cbn [every_leaf jtree jleaf app]. split; [exact jseparated|].
  split; [|split; [|split]]; (split; [apply iK_list_eq; vm_compute; reflexivity|apply okb_ok; vm_compute; reflexivity]).
Qed.
(** a prover who knows the discrete logarithms: the four runs are accepted for an arbitrary P,
    L and R, the vectors extracted are no witness, and a relation is found *)
Definition cP := im 100. Definition cL := im 55. Definition cR := im 77.
Definition cleaf (c a : Z) : ftree iM :=
  let x := ik c in
  let G' := madd (smul (finv x) (smul (ik 1) (im 3))) (smul x (smul (ik 2) (im 5))) in
  let H' := madd (smul x (smul (ik 3) (im 7))) (smul (finv x) (smul (ik 1) (im 11))) in
  let P' := madd cP (madd (smul (fmul x x) cL) (smul (fmul (finv x) (finv x)) cR)) in
  FLeaf (chals [c]) (ik a) (fdiv (fsub P' (fmul (ik a) G')) (fadd H' (fmul (ik a) iu))).
Definition ctree : ftree iM := FNode cL cR (ik 1) (cleaf 1 20) (ik 2) (cleaf 2 31) (ik 3) (cleaf 3 5) (ik 4) (cleaf 4 9).
Theorem C130_ex_relation :
  shape 1 (scalars ctree) /\ accepted Nat.log2 2 [] jgf jhf cP iu jG jH ctree /\
  (let (a, b) := extract 1 (scalars ctree) in cP <> madd (madd (lin jG (hadamard a jgf)) (lin jH (hadamard b jhf))) (smul (inner a b) iu)) /\
  exists r, map (map (@fpv 257)) (relations 1 (scalars ctree)) = [r] /\ forallb (fun c => negb (c =? 0)%Z) r = true.
Proof.
  split; [exact (conj I (conj I (conj I I)))|]. split; [|split].
  - unfold accepted; cbn [every_leaf ctree cleaf app]. split; [exact jseparated|].
    split; [|split; [|split]]; (split; [apply iK_list_eq; vm_compute; reflexivity|apply okb_ok; vm_compute; reflexivity]).
  - destruct (extract 1 (scalars ctree)) as [a b] eqn:E. apply iK_neq.
    assert (negb (@fpv 257 cP =? @fpv 257 (madd (madd (lin jG (hadamard (fst (extract 1 (scalars ctree))) jgf)) (lin jH (hadamard (snd (extract 1 (scalars ctree))) jhf))) (smul (inner (fst (extract 1 (scalars ctree))) (snd (extract 1 (scalars ctree)))) iu)))%Z = true) as Q by (vm_compute; reflexivity).
    rewrite E in Q. exact Q.
  - eexists. split; [vm_compute; reflexivity|]. vm_compute. reflexivity.
Qed.

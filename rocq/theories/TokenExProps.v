(** Concrete cases for C107-C113 over the toy curve of prime order 257: the chain of three links of
    GrothExProps, revealing attribute 0 of level 1 and attribute 0 of level 2. *)
From Verif Require Import Base BnModel NumTheory Alg Lin Fp ClRevModel ClRevSpec CurveInst BbsModel BbsLib BbsProps BbsExProps PsModel GrothModel DelegModel GrothSpec GrothLib GrothProps DelegLib DelegProps DelegChainProps DelegBatchProps DelegForgeProps
  TokenModel TokenSpec TokenLib TokenRecon TokenRun TokenSoundProps TokenProps TokenHideProps TokenFindProps GrothExProps.
Import List ListNotations.
Open Scope list_scope.
Open Scope Z_scope.

Definition xd : draws (cK T257) := mkDraws (fun _ => xk 51) (fun i => xk (Z.of_nat i + 60)) (fun i => xk (Z.of_nat i + 70)) (fun i j => xk (Z.of_nat i * 10 + Z.of_nat j)) (fun i j => xk (Z.of_nat i * 7 + Z.of_nat j + 3)).
Definition xrev : list (list nat) := [[0%nat]; [0%nat]; []].
Definition xhash (l : list Z) : cK T257 := xk (fold_left (fun a b => (a * 31 + b) mod 65521) l 7).
Definition eqGT (a b : list (cGT T257)) : bool := Nat.eqb (length a) (length b) && forallb (fun p => meqb (fst p) (snd p)) (combine a b).
(** the whole exchange; [twist] changes the commitment before the challenge, [askt] what the verifier asks *)
Definition xrun (c : chain T257) (p1 : params1 T257) (p2 : params2 T257) (sk : cK T257) (twist : comm T257 -> comm T257) (asked : list (list nat)) : bool :=
  match commitment (token_new c p1 p2) xrev xd with Err _ => false | Ok (t, cm) =>
  let cm := twist cm in let ch := gen_challenge xhash cm v0 [1; 2] in
  match response t cm sk ch [v2] [v1; v3] with Err _ => false | Ok r =>
  match reconstruct_commitment 3 cm r ch asked v0 p1 p2 with Err _ => false | Ok cm' =>
    eqGT (c_s cm) (c_s cm') && eqGT (concat (c_t cm)) (concat (c_t cm')) && feqb (gen_challenge xhash cm' v0 [1; 2]) ch end end end.
Lemma xnz : forall i : nat, d_sig xd i <> f0.
Proof. intros i. apply (fp_ne 51 0). discriminate. Qed.
Lemma xholds : holds gp1 gp2 (chain_size xchain) [v0; v2] [v1; v3] (xk 24).
Proof. reflexivity. Qed.
Lemma xdisclosable : disclosable xchain xrev.
Proof.
  split; [reflexivity| |].
  - intros [|[|k]] l Q; [| |destruct k; discriminate].
    + change (Some xl1 = Some l) in Q. injection Q as <-. repeat split; vm_compute; try reflexivity; lia.
    + change (Some xl3 = Some l) in Q. injection Q as <-. repeat split; vm_compute; try reflexivity; lia.
  - intros [|k] l Q; [|destruct k; discriminate].
    change (Some xl2 = Some l) in Q. injection Q as <-. repeat split; vm_compute; try reflexivity; lia.
Qed.
(** the hypotheses of C107-C110 hold, and the exchange evaluates to acceptance; with the wrong secret it does not *)
Example C107_ex : valid_chain gp1 gp2 xchain [v0; v2] [v1; v3] /\ holds gp1 gp2 (chain_size xchain) [v0; v2] [v1; v3] (xk 24) /\ disclosable xchain xrev /\ (forall i, d_sig xd i <> f0) /\
  xrun xchain gp1 gp2 (xk 24) (fun x => x) xrev = true /\ xrun xchain gp1 gp2 (xk 25) (fun x => x) xrev = false.
Proof. split; [exact xchain_valid|]. split; [exact xholds|]. split; [exact xdisclosable|]. split; [exact xnz|]. split; vm_compute; reflexivity. Qed.
(** two responses to one commitment with different challenges, both accepted: the hypotheses of C108 *)
Definition xtwo (c1 c2 : Z) : bool :=
  match commitment (token_new xchain gp1 gp2) xrev xd with Err _ => false | Ok (t, cm) =>
  match response t cm (xk 24) (xk c1) [v2] [v1; v3], response t cm (xk 24) (xk c2) [v2] [v1; v3] with Ok r, Ok r' =>
  match reconstruct_commitment 3 cm r (xk c1) xrev v0 gp1 gp2, reconstruct_commitment 3 cm r' (xk c2) xrev v0 gp1 gp2 with Ok a, Ok b =>
    eqGT (c_s cm) (c_s a) && eqGT (concat (c_t cm)) (concat (c_t a)) && eqGT (c_s cm) (c_s b) && eqGT (concat (c_t cm)) (concat (c_t b)) | _, _ => false end | _, _ => false end end.
Example C108_ex : xtwo 5 6 = true.
Proof. vm_compute. reflexivity. Qed.
(** another holder of a chain with the same attributes at the revealed positions, but other hidden
    attributes and other keys below the issuer *)
Definition w1 : cG1 T257 := snd (keygen2 gp2 (xk 92)).
Definition w2 : cG2 T257 := snd (keygen1 gp1 (xk 93)).
Definition w3 : cG1 T257 := snd (keygen2 gp2 (xk 94)).
Definition yl1 : link1 T257 := unwrap xl0 (root_delegate [e1 31; e1 132] w1 (xk 21) gp1 (xk 103)).
Definition yl2 : link2 T257 := unwrap xl0' (odd_delegate 1 [e2 33] w2 (xk 92) gp2 (xk 104)).
Definition yl3 : link1 T257 := unwrap xl0 (even_delegate 2 [e1 135] w3 (xk 93) gp1 (xk 106)).
Definition ychain : chain T257 := mkChain [yl1; yl3] [yl2].
Lemma ychain_valid : valid_chain gp1 gp2 ychain [v0; w2] [w1; w3].
Proof.
  split; [discriminate|right; reflexivity|reflexivity|reflexivity| |].
  - intros [|[|k]] l Q; [| |destruct k; discriminate].
    + change (Some yl1 = Some l) in Q. injection Q as <-. split; [vm_compute; reflexivity|]. split; [exists [e1 31; e1 132]; reflexivity|].
      apply (verify1_iff T257 T257_laws _ _ _ _ gp1_ok). vm_compute. reflexivity.
    + change (Some yl3 = Some l) in Q. injection Q as <-. split; [vm_compute; reflexivity|]. split; [exists [e1 135]; reflexivity|].
      apply (verify1_iff T257 T257_laws _ _ _ _ gp1_ok). vm_compute. reflexivity.
  - intros [|k] l Q; [|destruct k; discriminate].
    change (Some yl2 = Some l) in Q. injection Q as <-. split; [vm_compute; reflexivity|]. split; [exists [e2 33]; reflexivity|].
    apply (verify2_iff T257 T257_laws _ _ _ _ gp2_ok). vm_compute. reflexivity.
Qed.
Lemma ne257 (a : FpOps 257) : negb (feqb a f0) = true -> a <> f0.
Proof. intros H E. rewrite E in H. vm_compute in H. discriminate. Qed.
Example C109_ex : valid_chain gp1 gp2 ychain [v0; w2] [w1; w3] /\ holds gp1 gp2 (chain_size ychain) [v0; w2] [w1; w3] (xk 94) /\ disclosable ychain xrev /\ proper_R xchain /\ proper_R ychain /\
  same_disclosure xchain ychain xrev /\ line (cG1 T257) /\ line (cG2 T257) /\ p1_g1 gp1 <> m0 /\ p2_g2 gp2 <> m0.
Proof.
  split; [exact ychain_valid|]. split; [reflexivity|]. split.
  { split; [reflexivity| |].
    - intros [|[|k]] l Q; [| |destruct k; discriminate].
      + change (Some yl1 = Some l) in Q. injection Q as <-. repeat split; vm_compute; try reflexivity; lia.
      + change (Some yl3 = Some l) in Q. injection Q as <-. repeat split; vm_compute; try reflexivity; lia.
    - intros [|k] l Q; [|destruct k; discriminate].
      change (Some yl2 = Some l) in Q. injection Q as <-. repeat split; vm_compute; try reflexivity; lia. }
  split; [split; intros l [<- | [<- | []]] || intros l [<- | []]; apply ne257; vm_compute; reflexivity|].
  split; [split; intros l [<- | [<- | []]] || intros l [<- | []]; apply ne257; vm_compute; reflexivity|].
  split.
  { split; [reflexivity|reflexivity| |].
    - intros [|[|k]] l l' Q Q'; [| |destruct k; discriminate].
      + change (Some xl1 = Some l) in Q. change (Some yl1 = Some l') in Q'. injection Q as <-. injection Q' as <-. split; [reflexivity|]. intros j [<- | []] _. vm_compute. reflexivity.
      + change (Some xl3 = Some l) in Q. change (Some yl3 = Some l') in Q'. injection Q as <-. injection Q' as <-. split; [reflexivity|]. intros j [].
    - intros [|k] l l' Q Q'; [|destruct k; discriminate].
      change (Some xl2 = Some l) in Q. change (Some yl2 = Some l') in Q'. injection Q as <-. injection Q' as <-. split; [reflexivity|]. intros j [<- | []] _. vm_compute. reflexivity. }
  assert (line (cG1 T257)) as LN by exact xonedim.
  split; [exact LN|]. split; [exact LN|]. split; [apply (fp_ne 11 0); discriminate|apply (fp_ne 2 0); discriminate].
Qed.
(** showing a value that is not in the chain at a position not asked for; asking for the position of the key *)
Definition fake (cm : comm T257) : comm T257 := with_shown cm (match c_odd_rev cm with m :: ms => ((1%nat, e1 200) :: m) :: ms | [] => [] end) (c_even_rev cm).
(** the holder adds the false entry after computing the responses' blindings, so the response is computed for the honest commitment *)
Definition xfake : bool :=
  match commitment (token_new xchain gp1 gp2) xrev xd with Err _ => false | Ok (t, cm) =>
  let cm' := fake cm in let ch := gen_challenge xhash cm' v0 [1; 2] in
  match response t cm (xk 24) ch [v2] [v1; v3] with Err _ => false | Ok r =>
  match reconstruct_commitment 3 cm' r ch xrev v0 gp1 gp2 with Err _ => false | Ok c =>
    eqGT (c_s cm) (c_s c) && eqGT (concat (c_t cm)) (concat (c_t c)) && feqb (gen_challenge xhash c v0 [1; 2]) ch end end end.
Example C110_ex : xfake = true /\ ~ In 1%nat (nth (2 * 0) xrev []) /\ (0 < length (ch_odd xchain))%nat.
Proof. split; [vm_compute; reflexivity|]. split; [intros [H|[]]; discriminate|cbn; lia]. Qed.
(** revealing attributes 0 and 1 of level 1: the commitment shows the map {0, 1} *)
Definition xkeys : list nat := match commitment (token_new xchain gp1 gp2) [[0; 1]; []; []]%nat xd with Ok (_, cm) => map fst (nth 0 (c_odd_rev cm) []) | Err _ => [] end.
Example C111_ex : xkeys = [0; 1]%nat.
Proof. vm_compute. reflexivity. Qed.
(** the second commitment on one object succeeds, its response fails *)
Definition xtwice : option (nat * nat) :=
  match commitment (token_new xchain gp1 gp2) xrev xd with Err _ => None | Ok (t, _) =>
  match commitment t xrev xd with Err _ => None | Ok (t, cm) =>
  match response t cm (xk 24) (xk 5) [v2] [v1; v3] with Err (DelgErr (DIncorrectNumberOfBlindedR a b)) => Some (a, b) | _ => None end end end.
Example C112_ex : xtwice = Some (3, 6)%nat.
Proof. vm_compute. reflexivity. Qed.
Definition xpanics : bool :=
  match commitment (token_new xchain gp1 gp2) xrev xd with Err _ => false | Ok (t, cm) =>
  match response t cm (xk 24) (xk 5) [v2] [v1; v3] with Err _ => false | Ok r =>
  match reconstruct_commitment 3 cm (mkResp (r_csk r) (r_odd_vk r) (r_even_vk r) (r_odd_s r) (r_even_s r) (r_odd_t r) (r_even_t r) [] (r_even_a r)) (xk 5) xrev v0 gp1 gp2 with Err Panic => true | _ => false end end end.
Example C113_ex : xpanics = true.
Proof. vm_compute. reflexivity. Qed.

(** ** C107: with parameter sets of different generators (two setups with different labels) a holder of
    a valid chain makes tokens that no verifier accepts. *)
Definition qp2 : params2 T257 := mkParams2 (e1 12) (e2 2) [e2 6; e2 9; e2 14].
Definition u1 : cG1 T257 := snd (keygen2 qp2 (xk 22)).
Definition zl1 : link1 T257 := unwrap xl0 (root_delegate [e1 31; e1 32] u1 (xk 21) gp1 (xk 3)).
Definition zl2 : link2 T257 := unwrap xl0' (odd_delegate 1 [e2 33] v2 (xk 22) qp2 (xk 4)).
Definition zchain : chain T257 := mkChain [zl1] [zl2].
Definition zrun : bool :=
  match commitment (token_new zchain gp1 qp2) [[]; []] xd with Err _ => false | Ok (t, cm) =>
  match response t cm (xk 23) (xk 5) [v2] [u1] with Err _ => false | Ok r =>
  match reconstruct_commitment 2 cm r (xk 5) [[]; []] v0 gp1 qp2 with Err _ => false | Ok c => negb (eqGT (c_s cm) (c_s c)) end end end.
Theorem C107_refuted_any_params : exists (C : curve) (p1 : params1 C) (p2 : params2 C) c ipk ev od sk ch revealed d t cm r, curve_laws C /\ params1_ok p1 /\ params2_ok p2 /\
  valid_chain p1 p2 c (ipk :: ev) od /\ holds p1 p2 (chain_size c) (ipk :: ev) od sk /\ disclosable c revealed /\ (forall i, d_sig d i <> f0) /\
  commitment (token_new c p1 p2) revealed d = Ok (t, cm) /\ response t cm sk ch ev od = Ok r /\ reconstruct_commitment (chain_size c) cm r ch revealed ipk p1 p2 <> Ok cm.
Proof.
  assert (zrun = true) as Z by (vm_compute; reflexivity). unfold zrun in Z.
  destruct (commitment (token_new zchain gp1 qp2) [[]; []] xd) as [[t cm]|] eqn:E1; [|discriminate].
  destruct (response t cm (xk 23) (xk 5) [v2] [u1]) as [r|] eqn:E2; [|discriminate].
  exists T257, gp1, qp2, zchain, v0, [v2], [u1], (xk 23), (xk 5), [[]; []], xd, t, cm, r.
  split; [exact T257_laws|]. split; [discriminate|]. split; [discriminate|]. split.
  { split; [discriminate|left; reflexivity|reflexivity|reflexivity| |].
    - intros [|k] l Q; [|destruct k; discriminate].
      change (Some zl1 = Some l) in Q. injection Q as <-. split; [vm_compute; reflexivity|]. split; [exists [e1 31; e1 32]; reflexivity|].
      apply (verify1_iff T257 T257_laws _ _ _ _ gp1_ok). vm_compute. reflexivity.
    - intros [|k] l Q; [|destruct k; discriminate].
      change (Some zl2 = Some l) in Q. injection Q as <-. split; [vm_compute; reflexivity|]. split; [exists [e2 33]; reflexivity|].
      assert (params2_ok qp2) as OK2 by discriminate. apply (verify2_iff T257 T257_laws _ _ _ _ OK2). vm_compute. reflexivity. }
  split; [reflexivity|]. split.
  { split; [reflexivity| |].
    - intros [|k] l Q; [|destruct k; discriminate].
      change (Some zl1 = Some l) in Q. injection Q as <-. repeat split; vm_compute; try reflexivity; lia.
    - intros [|k] l Q; [|destruct k; discriminate].
      change (Some zl2 = Some l) in Q. injection Q as <-. repeat split; vm_compute; try reflexivity; lia. }
  split; [exact xnz|]. split; [exact E1|]. split; [exact E2|]. intros Q. change (chain_size zchain) with 2%nat in Q. rewrite Q in Z.
  assert (forall a, eqGT a a = true) as RF.
  { intros a. unfold eqGT. rewrite Nat.eqb_refl. cbn [andb]. induction a as [|x a IH]; [reflexivity|]. cbn [combine forallb fst snd]. rewrite IH, (meqb_refl _ _ (cl_gt T257 T257_laws) x). reflexivity. }
  rewrite RF in Z. discriminate.
Qed.

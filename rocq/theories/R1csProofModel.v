(** Model of the R1CS proof: libzmix/bulletproofs_amcl/src/r1cs/prover.rs:125-196, 304-610
    (commit, flattened_constraints, create_randomized_constraints, prove),
    r1cs/verifier.rs:130-199, 249-466 (the same and verify), utils/vector_poly.rs and
    r1cs/proof.rs.

    Points are elements of the group [M], scalars elements of [K].  The random draws of the
    prover are the record [draws] (a vector of random elements is a function of the
    position), the verifier's draw is the argument [r].  A callback given to
    specify_randomized_constraints is a function on the constraint system and the transcript.
    Indexing and slicing out of range and unwrapping an Err are [Err Panic]. *)
From Coq Require Import String.
From Verif Require Import Base Alg TranscriptModel IppModel R1csModel.
Import List ListNotations.
Open Scope list_scope.

(** [&l[i..j]] *)
Definition slice {A} (l : list A) (i j : nat) : res (list A) := if (j <=? length l)%nat then Ok (firstn (j - i) (skipn i l)) else Err Panic.

Section Poly.
Context {K : fieldOps}.
(** utils/vector_poly.rs:8-13 *)
Record vecpoly3 := mkVp { vp0 : list K; vp1 : list K; vp2 : list K; vp3 : list K }.
(** utils/vector_poly.rs:16-23 *)
Record poly6 := mkP6 { p6_1 : K; p6_2 : K; p6_3 : K; p6_4 : K; p6_5 : K; p6_6 : K }.
(** utils/vector_poly.rs:40-60 *)
Definition special_inner_product (l r : vecpoly3) : poly6 :=
  mkP6 (inner (vp1 l) (vp0 r))
       (fadd (inner (vp1 l) (vp1 r)) (inner (vp2 l) (vp0 r)))
       (fadd (inner (vp2 l) (vp1 r)) (inner (vp3 l) (vp0 r)))
       (fadd (inner (vp1 l) (vp3 r)) (inner (vp3 l) (vp1 r)))
       (inner (vp2 l) (vp3 r))
       (inner (vp3 l) (vp3 r)).
(** utils/vector_poly.rs:63-71 *)
Definition vecpoly_eval (p : vecpoly3) (x : K) : list K :=
  map (fun i => fadd (nth i (vp0 p) f0) (fmul x (fadd (nth i (vp1 p) f0) (fmul x (fadd (nth i (vp2 p) f0) (fmul x (nth i (vp3 p) f0))))))) (seq 0 (length (vp0 p))).
(** utils/vector_poly.rs:75-82 *)
Definition poly6_eval (t : poly6) (x : K) : K :=
  fmul x (fadd (p6_1 t) (fmul x (fadd (p6_2 t) (fmul x (fadd (p6_3 t) (fmul x (fadd (p6_4 t) (fmul x (fadd (p6_5 t) (fmul x (p6_6 t))))))))))).
(** FieldElementVector::new_vandermonde_vector *)
Definition vandermonde (y : K) (n : nat) : list K := map (fpow y) (seq 0 n).

(** ** flattened constraints *)
Record weights := mkW { w_L : list K; w_R : list K; w_O : list K; w_V : list K; w_c : K }.
Definition add_at (i : nat) (x : K) (l : list K) : res (list K) := let! y := idx l i in set_at i (fadd y x) l.
Definition sub_at (i : nat) (x : K) (l : list K) : res (list K) := let! y := idx l i in set_at i (fsub y x) l.
(** prover.rs:168-189: one term; the prover leaves [w_c] alone *)
Definition p_flatten_term (exp_z : K) (w : weights) (t : var * K) : res weights :=
  let '(v, coeff) := t in
  match v with
  | MulL i => let! l := add_at i (fmul exp_z coeff) (w_L w) in Ok (mkW l (w_R w) (w_O w) (w_V w) (w_c w))
  | MulR i => let! l := add_at i (fmul exp_z coeff) (w_R w) in Ok (mkW (w_L w) l (w_O w) (w_V w) (w_c w))
  | MulO i => let! l := add_at i (fmul exp_z coeff) (w_O w) in Ok (mkW (w_L w) (w_R w) l (w_V w) (w_c w))
  | Committed i => let! l := sub_at i (fmul exp_z coeff) (w_V w) in Ok (mkW (w_L w) (w_R w) (w_O w) l (w_c w))
  | VOne => Ok w
  end.
(** verifier.rs:173-194 *)
Definition v_flatten_term (exp_z : K) (w : weights) (t : var * K) : res weights :=
  let '(v, coeff) := t in
  match v with
  | MulL i => let! l := add_at i (fmul exp_z coeff) (w_L w) in Ok (mkW l (w_R w) (w_O w) (w_V w) (w_c w))
  | MulR i => let! l := add_at i (fmul exp_z coeff) (w_R w) in Ok (mkW (w_L w) l (w_O w) (w_V w) (w_c w))
  | MulO i => let! l := add_at i (fmul exp_z coeff) (w_O w) in Ok (mkW (w_L w) (w_R w) l (w_V w) (w_c w))
  | Committed i => let! l := sub_at i (fmul exp_z coeff) (w_V w) in Ok (mkW (w_L w) (w_R w) (w_O w) l (w_c w))
  | VOne => Ok (mkW (w_L w) (w_R w) (w_O w) (w_V w) (fsub (w_c w) (fmul exp_z coeff)))
  end.
Definition flatten (term : K -> weights -> var * K -> res weights) (z : K) (n m : nat) (cons : list (lc K)) : res weights :=
  let zeros k := repeat f0 k in
  let! (w, _) := rfold (fun st lc => let! w := rfold (term (snd st)) lc (fst st) in Ok (w, fmul (snd st) z)) cons (mkW (zeros n) (zeros n) (zeros n) (zeros m) f0, z) in
  Ok w.
(** prover.rs:146-196, verifier.rs:150-199 *)
Definition p_flattened (z : K) (s : pstate K) : res weights := flatten p_flatten_term z (length (p_aL s)) (length (p_v s)) (p_cons s).
Definition v_flattened {Pt} (z : K) (s : vstate K Pt) : res weights := flatten v_flatten_term z (v_num s) (length (v_V s)) (v_cons s).
End Poly.

Section Proof.
Context {K : fieldOps} {M : modOps K} (T : tcode M) (lg : nat -> nat).
(** amcl_wrapper::commitment *)
Definition commit_elem (g h : M) (v b : K) : M := madd (smul v g) (smul b h).
Definition commit_vectors (G H : list M) (h : M) (a b : list K) (bl : K) : res M :=
  if ((length G =? length a) && (length H =? length b))%nat then Ok (madd (madd (points_sum G a) (points_sum H b)) (smul bl h)) else Err Panic.

(** ** transcripts of the first phase.  Prover::new (prover.rs:90-91) and Verifier::new
    (verifier.rs:103-104) append the domain separator, commit (prover.rs:132,
    verifier.rs:134) the point; no other operation of the first phase touches the
    transcript, so it is determined by the committed points *)
Definition committed_transcript (tr : transcript) (Vs : list M) : transcript := fold_left (fun t V => commit_point T t "V" V) Vs (r1cs_domain_sep tr).
Definition p_transcript (g h : M) (tr : transcript) (s : pstate K) : transcript :=
  committed_transcript tr (map (fun t => commit_elem g h (fst t) (snd t)) (combine (p_v s) (p_vbl s))).
Definition v_transcript (tr : transcript) (s : vstate K M) : transcript := committed_transcript tr (v_V s).
(** merlin [append_u64] *)
Definition append_u64 (tr : transcript) (label : string) (n : nat) : transcript := append tr label (le64 n).

(** ** the second phase.  [cbs] is deferred_constraints *)
Definition pcallback := pstate K * transcript -> res (unit * (pstate K * transcript)).
Definition vcallback := vstate K M * transcript -> res (unit * (vstate K M * transcript)).
(** prover.rs:306-326 *)
Definition p_randomize (cbs : list pcallback) (s : pstate K) (tr : transcript) : res (pstate K * transcript) :=
  let s := p_clear s in
  match cbs with
  | [] => Ok (s, r1cs_1phase_domain_sep tr)
  | _ => rfold (fun st (cb : pcallback) => let! (_, st') := cb st in Ok st') cbs (s, r1cs_2phase_domain_sep tr)
  end.
(** verifier.rs:252-272 *)
Definition v_randomize (cbs : list vcallback) (s : vstate K M) (tr : transcript) : res (vstate K M * transcript) :=
  let s := v_clear s in
  match cbs with
  | [] => Ok (s, r1cs_1phase_domain_sep tr)
  | _ => rfold (fun st (cb : vcallback) => let! (_, st') := cb st in Ok st') cbs (s, r1cs_2phase_domain_sep tr)
  end.

(** proof.rs:25-58 *)
Record r1cs_proof := mkR1cs {
  A_I1 : M; A_O1 : M; S1 : M; A_I2 : M; A_O2 : M; S2 : M; T_1 : M; T_3 : M; T_4 : M; T_5 : M; T_6 : M;
  t_x : K; t_x_blinding : K; e_blinding : K; ipp : ipp_proof M }.
(** prover.rs:347-353, 401-419, 485-489 *)
Record draws := mkDraws {
  d_i1 : K; d_o1 : K; d_s1 : K; d_sL1 : nat -> K; d_sR1 : nat -> K;
  d_i2 : K; d_o2 : K; d_s2 : K; d_sL2 : nat -> K; d_sR2 : nat -> K;
  d_t1 : K; d_t3 : K; d_t4 : K; d_t5 : K; d_t6 : K }.

(** prover.rs:329-610.  The running power exp_y of the loop is [fpow y i] *)
Definition prove (g h : M) (cbs : list pcallback) (s : pstate K) (tr : transcript) (G H : list M) (d : draws) : res (r1cs_proof * transcript) :=
  let tr := append_u64 tr "m" (length (p_v s)) in
  let n1 := length (p_aL s) in
  if (length G <? n1)%nat then Err (BpErr (BInvalidGeneratorsLength (length G) n1)) else
  let s_L1 := map (d_sL1 d) (seq 0 n1) in
  let s_R1 := map (d_sR1 d) (seq 0 n1) in
  let! G_n1 := slice G 0 n1 in
  let! H_n1 := slice H 0 n1 in
  let! A_I1 := commit_vectors G_n1 H_n1 h (p_aL s) (p_aR s) (d_i1 d) in
  let! ao := multi_scalar_mul G_n1 (p_aO s) in
  let A_O1 := madd ao (smul (d_o1 d) h) in
  let! S1 := commit_vectors G_n1 H_n1 h s_L1 s_R1 (d_s1 d) in
  let tr := commit_point T tr "A_I1" A_I1 in
  let tr := commit_point T tr "A_O1" A_O1 in
  let tr := commit_point T tr "S1" S1 in
  let! (s, tr) := p_randomize cbs s tr in
  let n := length (p_aL s) in
  let n2 := (n - n1)%nat in
  let padded_n := next_pow2 n in
  let pad := (padded_n - n)%nat in
  if (length G <? padded_n)%nat then Err (BpErr (BInvalidGeneratorsLength (length G) padded_n)) else
  let has_2nd := (0 <? n2)%nat in
  let i2 := if has_2nd then d_i2 d else f0 in
  let o2 := if has_2nd then d_o2 d else f0 in
  let s2 := if has_2nd then d_s2 d else f0 in
  let s_L2 := map (d_sL2 d) (seq 0 n2) in
  let s_R2 := map (d_sR2 d) (seq 0 n2) in
  let! (A_I2, A_O2, S2) :=
    (if has_2nd then
       let! G_n2 := slice G n1 n in
       let! H_n2 := slice H n1 n in
       let! a := commit_vectors G_n2 H_n2 h (skipn n1 (p_aL s)) (skipn n1 (p_aR s)) i2 in
       let! o := multi_scalar_mul G_n2 (skipn n1 (p_aO s)) in
       let! c := commit_vectors G_n2 H_n2 h s_L2 s_R2 s2 in
       Ok (a, madd o (smul o2 h), c)
     else Ok (m0, m0, m0)) in
  let tr := commit_point T tr "A_I2" A_I2 in
  let tr := commit_point T tr "A_O2" A_O2 in
  let tr := commit_point T tr "S2" S2 in
  let (y, tr) := challenge_scalar T tr "y" in
  let (z, tr) := challenge_scalar T tr "z" in
  let! w := p_flattened z s in
  let y_inv := finv y in
  let exp_y_inv := vandermonde y_inv padded_n in
  let sL := s_L1 ++ s_L2 in
  let sR := s_R1 ++ s_R2 in
  let at_i (l : list K) i := nth i l f0 in
  let l_poly := mkVp (repeat f0 n)
                     (map (fun i => fadd (at_i (p_aL s) i) (fmul (at_i exp_y_inv i) (at_i (w_R w) i))) (seq 0 n))
                     (map (fun i => at_i (p_aO s) i) (seq 0 n))
                     (map (fun i => at_i sL i) (seq 0 n)) in
  let r_poly := mkVp (map (fun i => fsub (at_i (w_O w) i) (fpow y i)) (seq 0 n))
                     (map (fun i => fadd (fmul (fpow y i) (at_i (p_aR s) i)) (at_i (w_L w) i)) (seq 0 n))
                     (repeat f0 n)
                     (map (fun i => fmul (fpow y i) (at_i sR i)) (seq 0 n)) in
  let t_poly := special_inner_product l_poly r_poly in
  let T_1 := commit_elem g h (p6_1 t_poly) (d_t1 d) in
  let T_3 := commit_elem g h (p6_3 t_poly) (d_t3 d) in
  let T_4 := commit_elem g h (p6_4 t_poly) (d_t4 d) in
  let T_5 := commit_elem g h (p6_5 t_poly) (d_t5 d) in
  let T_6 := commit_elem g h (p6_6 t_poly) (d_t6 d) in
  let tr := commit_point T tr "T_1" T_1 in
  let tr := commit_point T tr "T_3" T_3 in
  let tr := commit_point T tr "T_4" T_4 in
  let tr := commit_point T tr "T_5" T_5 in
  let tr := commit_point T tr "T_6" T_6 in
  let (u, tr) := challenge_scalar T tr "u" in
  let (x, tr) := challenge_scalar T tr "x" in
  if negb (length (w_V w) =? length (p_vbl s))%nat then Err Panic else
  let t_2_blinding := inner (w_V w) (p_vbl s) in
  let t_blinding_poly := mkP6 (d_t1 d) t_2_blinding (d_t3 d) (d_t4 d) (d_t5 d) (d_t6 d) in
  let t_x := poly6_eval t_poly x in
  let t_x_blinding := poly6_eval t_blinding_poly x in
  let l_vec := vecpoly_eval l_poly x ++ repeat f0 pad in
  let r_vec := vecpoly_eval r_poly x ++ map (fun i => fopp (fpow y i)) (seq n pad) in
  let i_blinding := fadd (d_i1 d) (fmul u i2) in
  let o_blinding := fadd (d_o1 d) (fmul u o2) in
  let s_blinding := fadd (d_s1 d) (fmul u s2) in
  let e_blinding := fmul x (fadd i_blinding (fmul x (fadd o_blinding (fmul x s_blinding)))) in
  let tr := commit_scalar T tr "t_x" t_x in
  let tr := commit_scalar T tr "t_x_blinding" t_x_blinding in
  let tr := commit_scalar T tr "e_blinding" e_blinding in
  let (w', tr) := challenge_scalar T tr "w" in
  let Q := smul w' g in
  let G_factors := repeat f1 n1 ++ repeat u (n2 + pad) in
  let H_factors := zip_with fmul exp_y_inv G_factors in
  let! G_p := slice G 0 padded_n in
  let! H_p := slice H 0 padded_n in
  let! (ipp_proof, tr) := create_ipp T tr Q G_factors H_factors G_p H_p l_vec r_vec in
  Ok (mkR1cs A_I1 A_O1 S1 A_I2 A_O2 S2 T_1 T_3 T_4 T_5 T_6 t_x t_x_blinding e_blinding ipp_proof, tr).

(** verifier.rs:275-466 *)
Definition verify (cbs : list vcallback) (s : vstate K M) (tr : transcript) (p : r1cs_proof) (g h : M) (G H : list M) (r : K) : res unit :=
  let tr := append_u64 tr "m" (length (v_V s)) in
  let n1 := v_num s in
  let tr := commit_point T tr "A_I1" (A_I1 p) in
  let tr := commit_point T tr "A_O1" (A_O1 p) in
  let tr := commit_point T tr "S1" (S1 p) in
  let! (s, tr) := v_randomize cbs s tr in
  let n := v_num s in
  let n2 := (n - n1)%nat in
  let padded_n := next_pow2 n in
  let pad := (padded_n - n)%nat in
  if (length G <? padded_n)%nat then Err (BpErr (BInvalidGeneratorsLength (length G) padded_n)) else
  let tr := commit_point T tr "A_I2" (A_I2 p) in
  let tr := commit_point T tr "A_O2" (A_O2 p) in
  let tr := commit_point T tr "S2" (S2 p) in
  let (y, tr) := challenge_scalar T tr "y" in
  let (z, tr) := challenge_scalar T tr "z" in
  let tr := commit_point T tr "T_1" (T_1 p) in
  let tr := commit_point T tr "T_3" (T_3 p) in
  let tr := commit_point T tr "T_4" (T_4 p) in
  let tr := commit_point T tr "T_5" (T_5 p) in
  let tr := commit_point T tr "T_6" (T_6 p) in
  let (u, tr) := challenge_scalar T tr "u" in
  let (x, tr) := challenge_scalar T tr "x" in
  let tr := commit_scalar T tr "t_x" (t_x p) in
  let tr := commit_scalar T tr "t_x_blinding" (t_x_blinding p) in
  let tr := commit_scalar T tr "e_blinding" (e_blinding p) in
  let (w', tr) := challenge_scalar T tr "w" in
  let! w := v_flattened z s in
  let a := ip_a (ipp p) in
  let b := ip_b (ipp p) in
  let y_inv_vec := vandermonde (finv y) padded_n in
  let y_inv_wR := zip_with fmul (w_R w) y_inv_vec ++ repeat f0 pad in
  let delta := inner (firstn n y_inv_wR) (w_L w) in
  match verification_scalars T lg (ip_L (ipp p)) (ip_R (ipp p)) padded_n tr with
  | Err Panic => Err Panic
  | Err _ => Err (BpErr BVerificationError)
  | Ok (u_sq, u_inv_sq, sc, _) =>
    let u_or_1 := repeat f1 n1 ++ repeat u (n2 + pad) in
    let g_scalars := zip_with (fun yu s_i => fmul (snd yu) (fsub (fmul x (fst yu)) (fmul a s_i))) (combine y_inv_wR u_or_1) (firstn padded_n sc) in
    let h_scalars := zip_with (fun q wOi => let '(((y_inv_i, u1), s_i_inv), wLi) := q in
                                 fmul u1 (fsub (fmul y_inv_i (fsub (fadd (fmul x wLi) wOi) (fmul b s_i_inv))) f1))
                       (combine (combine (combine y_inv_vec u_or_1) (firstn padded_n (rev sc))) (w_L w ++ repeat f0 pad)) (w_O w ++ repeat f0 pad) in
    let x_sqr := fmul x x in
    let x_cube := fmul x x_sqr in
    let r_x_sqr := fmul r x_sqr in
    let rx := fmul r x in
    let rx_cube := fmul r x_cube in
    let rx_4 := fmul rx_cube x in
    let rx_5 := fmul rx_4 x in
    let rx_6 := fmul rx_5 x in
    let T_scalars := [rx; rx_cube; rx_4; rx_5; rx_6] in
    let T_points := [T_1 p; T_3 p; T_4 p; T_5 p; T_6 p] in
    let w'' := fadd (fmul w' (fsub (t_x p) (fmul a b))) (fmul r (fsub (fmul x_sqr (fadd (w_c w) delta)) (t_x p))) in
    let p' := fopp (fadd (e_blinding p) (fmul r (t_x_blinding p))) in
    let arg1 := [x; x_sqr; x_cube; fmul u x; fmul u x_sqr; fmul u x_cube] ++ map (fun c => fmul c r_x_sqr) (w_V w) ++ T_scalars ++ [w''; p'] ++ g_scalars ++ h_scalars ++ u_sq ++ u_inv_sq in
    let! G_p := slice G 0 padded_n in
    let! H_p := slice H 0 padded_n in
    let arg2 := [A_I1 p; A_O1 p; S1 p; A_I2 p; A_O2 p; S2 p] ++ v_V s ++ T_points ++ [g; h] ++ G_p ++ H_p ++ ip_L (ipp p) ++ ip_R (ipp p) in
    let! res := multi_scalar_mul arg2 arg1 in
    if meqb res m0 then Ok tt else Err (BpErr BVerificationError)
  end.
End Proof.
Arguments r1cs_proof {K}. Arguments mkR1cs {K M}. Arguments A_I1 {K M}. Arguments A_O1 {K M}. Arguments S1 {K M}. Arguments A_I2 {K M}. Arguments A_O2 {K M}. Arguments S2 {K M}.
Arguments T_1 {K M}. Arguments T_3 {K M}. Arguments T_4 {K M}. Arguments T_5 {K M}. Arguments T_6 {K M}. Arguments t_x {K M}. Arguments t_x_blinding {K M}. Arguments e_blinding {K M}. Arguments ipp {K M}.
Arguments draws : clear implicits.
Arguments pcallback : clear implicits. Arguments vcallback {K} M.

(** The R1CS proof system of bulletproofs_amcl (Prover::prove, Verifier::verify): C95-C97. *)
From Coq Require Import String.
From Verif Require Import Base Alg Lin TranscriptModel IppModel IppLib IppSpec IppProps R1csModel R1csSpec R1csLib R1csProofModel R1csProofLib R1csProofMaster.
Import List ListNotations.
Open Scope list_scope.

Ltac stepk Q := match goal with
  | |- Q (rbind (Ok ?v) ?k) => change (Q (k v)); cbv beta iota
  | |- Q (let x := ?v in @?b x) => change (let x := v in Q (b x)); cbv beta
  | |- Q (if true then ?a else ?b) => change (Q a)
  | |- Q (if false then ?a else ?b) => change (Q b)
  end.

Section Props.
Context {K : fieldOps} (HK : field_laws K) {M : modOps K} (HM : mod_laws M) (T : tcode M).
Add Field Kf2 : (proj1 HK).

Lemma create_ipp_spec k n tr gf hf (u : M) G H a b :
  challenges_nonzero T -> n = (2 ^ k)%nat ->
  length gf = n -> length hf = n -> length G = n -> length H = n -> length a = n -> length b = n ->
  exists p tr', create_ipp T tr u gf hf G H a b = Ok (p, tr') /\ length (ip_L p) = k /\ length (ip_R p) = k /\
  let xs := fst (replay T (combine (ip_L p) (ip_R p)) (innerproduct_domain_sep tr n)) in
  madd (madd (madd (lin (zip_with smul gf G) a) (lin (zip_with smul hf H) b)) (smul (inner a b) u)) (madd (lin (ip_L p) (map (fun x => fmul x x) xs)) (lin (ip_R p) (map (fun x => fmul (finv x) (finv x)) xs)))
  = madd (madd (smul (ip_a p) (lin (zip_with smul gf G) (sv xs))) (smul (ip_b p) (lin (zip_with smul hf H) (rev (sv xs))))) (smul (fmul (ip_a p) (ip_b p)) u).
Proof.
  intros HT En Egf Ehf EG EH Ea Eb. unfold create_ipp. rewrite EG, EH, Ea, Eb, Egf, Ehf, !Nat.eqb_refl. cbn [andb negb].
  assert (is_pow2 n = true) as ->.
  { unfold is_pow2. rewrite En, Nat.log2_pow2, Nat.eqb_refl by lia. apply andb_true_intro. split; [|reflexivity]. apply negb_true_iff, Nat.eqb_neq, Nat.pow_nonzero. lia. }
  cbn [negb]. replace (Nat.log2 n) with k by (rewrite En, Nat.log2_pow2; lia). set (tr0 := innerproduct_domain_sep tr n).
  rewrite (loop_factors HK HM T k u G H gf hf a b tr0) by congruence.
  pose proof (loop_spec HK HM T HT k u (zip_with smul gf G) (zip_with smul hf H) a b tr0) as S.
  destruct (ipp_loop T k None u (zip_with smul gf G) (zip_with smul hf H) a b tr0) as [p tr']. destruct S as (EL & ER & _ & S); try (rewrite ?zip_with_length; congruence).
  exists p, tr'. split; [reflexivity|]. split; [exact EL|]. split; [exact ER|]. exact S.
Qed.

(** the states after the second phase: same system on both sides, satisfied, and the first
    phase as it was *)
Record after_phase2 (g h : M) (ps ps' : pstate K) (vs' : vstate K M) : Prop := {
  ap_sim : sim (commit_elem g h) ps' vs';
  ap_sat : psat ps';
  ap_range : forall l v c, In l (p_cons ps') -> In (v, c) l -> in_range (length (p_aL ps')) (length (p_v ps')) v;
  ap_L : firstn (length (p_aL ps)) (p_aL ps') = p_aL ps;
  ap_R : firstn (length (p_aL ps)) (p_aR ps') = p_aR ps;
  ap_O : firstn (length (p_aL ps)) (p_aO ps') = p_aO ps;
  ap_v : p_v ps' = p_v ps }.

(** what the prover sends before the second phase *)
Definition phase1_points (h : M) (ps : pstate K) (G H : list M) (d : draws K) : M * M * M :=
  (madd (madd (lin G (p_aL ps)) (lin H (p_aR ps))) (smul (d_i1 d) h),
   madd (lin G (p_aO ps)) (smul (d_o1 d) h),
   madd (madd (lin G (map (d_sL1 d) (seq 0 (length (p_aL ps))))) (lin H (map (d_sR1 d) (seq 0 (length (p_aL ps)))))) (smul (d_s1 d) h)).
Definition phase2_transcript (h : M) (ps : pstate K) (G H : list M) (d : draws K) (tr : transcript) : transcript :=
  let '(a, o, s) := phase1_points h ps G H d in
  commit_point T (commit_point T (commit_point T (append_u64 tr "m" (length (p_v ps))) "A_I1" a) "A_O1" o) "S1" s.

Section Complete.
Context (lg : nat -> nat) (g h : M) (cbs : list (pcallback K)) (cbs' : list (vcallback M)) (ps : pstate K) (vs : vstate K M) (G H : list M) (tr : transcript) (d : draws K).
Hypothesis HT : challenges_nonzero T.
Hypothesis Hsim : sim (commit_elem g h) ps vs.
Context (ps' : pstate K) (vs' : vstate K M) (t' : transcript).
Hypothesis Ep : p_randomize cbs ps (phase2_transcript h ps G H d tr) = Ok (ps', t').
Hypothesis Ev : v_randomize cbs' vs (phase2_transcript h ps G H d tr) = Ok (vs', t').
Hypothesis AP : after_phase2 g h ps ps' vs'.
Hypothesis HG : (next_pow2 (length (p_aL ps')) <= length G)%nat.
Hypothesis HH : (next_pow2 (length (p_aL ps')) <= length H)%nat.
Hypothesis Hk : (Nat.log2_up (length (p_aL ps')) < 32)%nat.
Hypothesis Hlg : log_exact lg (next_pow2 (length (p_aL ps'))).

Lemma commit_vectors_ok (A B : list M) (hh : M) a b (bl : K) : length A = length a -> length B = length b -> commit_vectors A B hh a b bl = Ok (madd (madd (points_sum A a) (points_sum B b)) (smul bl hh)).
Proof. intros E1 E2. unfold commit_vectors. now rewrite E1, E2, !Nat.eqb_refl. Qed.
Lemma multi_scalar_mul_ok (A : list M) a : length A = length a -> multi_scalar_mul A a = Ok (points_sum A a).
Proof. intros E1. unfold multi_scalar_mul. now rewrite E1, !Nat.eqb_refl. Qed.

Lemma complete r : match prove T g h cbs ps tr G H d with Ok (p, _) => verify T lg cbs' vs tr p g h G H r = Ok tt | _ => False end.
Proof.
  set (Q := fun x : res (r1cs_proof M * transcript) => match x with Ok (p, _) => verify T lg cbs' vs tr p g h G H r = Ok tt | _ => False end).
  change (Q (prove T g h cbs ps tr G H d)). cbv delta [prove]; cbv beta.
  stepk Q. intro t1. subst t1. stepk Q. intro n1.
  assert (n1 <= length (p_aL ps'))%nat as Nx by (unfold n1; rewrite <- (ap_L _ _ _ _ _ AP), firstn_length; lia).
  pose proof (next_pow2_ge (length (p_aL ps'))) as Px.
  assert (length G <? n1 = false)%nat as -> by (apply Nat.ltb_ge; lia).
  stepk Q. intro s_L1. stepk Q. intro s_R1.
  rewrite (slice_ok G 0 n1) by lia. rewrite (slice_ok H 0 n1) by lia. rewrite Nat.sub_0_r. change (skipn 0 G) with G. change (skipn 0 H) with H. do 2 stepk Q.
  assert (length (firstn n1 G) = n1) as LG1 by (rewrite firstn_length; lia). assert (length (firstn n1 H) = n1) as LH1 by (rewrite firstn_length; lia).
  pose proof (sm_R _ _ _ Hsim) as LR1. pose proof (sm_O _ _ _ Hsim) as LO1.
  assert (length s_L1 = n1) as LsL1 by (unfold s_L1; now rewrite map_length, seq_length). assert (length s_R1 = n1) as LsR1 by (unfold s_R1; now rewrite map_length, seq_length).
  rewrite (commit_vectors_ok _ _ _ (p_aL ps)) by (rewrite ?LG1, ?LH1, ?LR1; reflexivity). rewrite (multi_scalar_mul_ok _ (p_aO ps)) by (rewrite LG1; symmetry; exact LO1).
  rewrite (commit_vectors_ok _ _ _ s_L1) by congruence.
  rewrite !(points_sum_lin HM), !lin_firstn by lia.
  clear Nx Px.
  stepk Q. set (aI1 := madd (madd (lin G (p_aL ps)) (lin H (p_aR ps))) (smul (d_i1 d) h)). stepk Q. stepk Q. intro aO1. stepk Q. set (aS1 := madd (madd (lin G s_L1) (lin H s_R1)) (smul (d_s1 d) h)).
  stepk Q. intro t. subst t. stepk Q. intro t. subst t. stepk Q. intro t.
  change (phase2_transcript h ps G H d tr) with t in Ep, Ev. rewrite Ep. subst t. stepk Q.
  stepk Q. intro n. stepk Q. intro n2. stepk Q. intro N. stepk Q. intro pad. fold n in HG, HH, Hk, Hlg. fold N in HG, HH, Hk, Hlg.
  pose proof (next_pow2_ge n) as HnN. fold N in HnN.
  assert (n1 <= n)%nat as Hn1 by (unfold n, n1; rewrite <- (ap_L _ _ _ _ _ AP), firstn_length; lia).
  assert (length G <? N = false)%nat as -> by (apply Nat.ltb_ge; lia).
  stepk Q. intro has2. stepk Q. intro i2. stepk Q. intro o2. stepk Q. intro s2. stepk Q. intro s_L2. stepk Q. intro s_R2.
  destruct AP as [APs APsat APr APL APR APO APv]. destruct APs as [Pc Pn PR PO Pp Pl PV]. fold n in PR, PO, Pn.
  match goal with |- Q (rbind ?e _) => assert (exists aI2 aO2 aS2, e = Ok (aI2, aO2, aS2) /\
    aI2 = madd (madd (lin G (repeat f0 n1 ++ skipn n1 (p_aL ps'))) (lin H (repeat f0 n1 ++ skipn n1 (p_aR ps')))) (smul i2 h) /\
    aO2 = madd (lin G (repeat f0 n1 ++ skipn n1 (p_aO ps'))) (smul o2 h) /\
    aS2 = madd (madd (lin G (repeat f0 n1 ++ s_L2)) (lin H (repeat f0 n1 ++ s_R2))) (smul s2 h)) as (aI2 & aO2 & aS2 & -> & EI2 & EO2 & ES2) end.
  { unfold i2, o2, s2, has2. destruct (Nat.ltb_spec 0 n2) as [C|C].
    - rewrite !slice_ok by (unfold n2 in *; lia). cbn [rbind].
      assert (length (skipn n1 (p_aL ps')) = n2 /\ length (skipn n1 (p_aR ps')) = n2 /\ length (skipn n1 (p_aO ps')) = n2) as (X1 & X2 & X3) by (rewrite !skipn_length, PR, PO; auto).
      assert (length (firstn (n - n1) (skipn n1 G)) = n2 /\ length (firstn (n - n1) (skipn n1 H)) = n2) as (X4 & X5) by (rewrite !firstn_length, !skipn_length; unfold n2; lia).
      assert (length s_L2 = n2 /\ length s_R2 = n2) as (X6 & X7) by (unfold s_L2, s_R2; now rewrite !map_length, !seq_length).
      rewrite !commit_vectors_ok, multi_scalar_mul_ok by congruence. cbn [rbind]. do 3 eexists. split; [reflexivity|].
      rewrite !(points_sum_lin HM), !lin_firstn, !(lin_skipn HK HM) by (unfold n2 in *; lia). auto.
    - exists m0, m0, m0. split; [reflexivity|]. assert (n2 = 0)%nat as Z by lia. unfold s_L2, s_R2. rewrite Z. cbn [seq map].
      assert (n = n1) as Z' by (unfold n2 in Z; lia). rewrite !skipn_all2 by (fold n; lia). rewrite !app_nil_r, !(lin_zero HK HM).
      repeat split; module_coefs HK HM; ring. }
  stepk Q. stepk Q. intro t. subst t. stepk Q. intro t. subst t. stepk Q. intro t. subst t.
  match goal with |- context [challenge_scalar T ?t "y"] => destruct (challenge_scalar T t "y") as [y ty] eqn:Ey end.
  match goal with |- context [challenge_scalar T ?t "z"] => destruct (challenge_scalar T t "z") as [z tz] eqn:Ez end.
  destruct (flatten_spec HK ps' PR PO z (p_cons ps') APr (proj2 (proj2 APsat))) as (w & Ew & (Lw1 & Lw2 & Lw3 & Lw4) & Sw). fold n in Ew, Lw1, Lw2, Lw3.
  change (p_flattened z ps') with (flatten p_flatten_term z n (length (p_v ps')) (p_cons ps')). rewrite (flatten_agree _ _ _ _ _ Ew). stepk Q.
  change (w_L (mkW (w_L w) (w_R w) (w_O w) (w_V w) f0)) with (w_L w). change (w_R (mkW (w_L w) (w_R w) (w_O w) (w_V w) f0)) with (w_R w). change (w_O (mkW (w_L w) (w_R w) (w_O w) (w_V w) f0)) with (w_O w). change (w_V (mkW (w_L w) (w_R w) (w_O w) (w_V w) f0)) with (w_V w).
  stepk Q. intro y_inv. stepk Q. intro yv. stepk Q. intro sL. stepk Q. intro sR. stepk Q. intro at_i. subst at_i. cbv beta.
  stepk Q. intro l_poly. stepk Q. intro r_poly. stepk Q. intro t_poly.
  stepk Q. intro T1. stepk Q. intro T3. stepk Q. intro T4. stepk Q. intro T5. stepk Q. intro T6.
  do 5 (stepk Q; intro t; subst t).
  match goal with |- context [challenge_scalar T ?t "u"] => destruct (challenge_scalar T t "u") as [u tu] eqn:Eu end.
  match goal with |- context [challenge_scalar T ?t "x"] => destruct (challenge_scalar T t "x") as [x tx] eqn:Ex end.
  assert (length (p_vbl ps') = length (p_v ps')) as Lbl by exact Pl.
  rewrite Lw4, Lbl, Nat.eqb_refl. cbv beta iota delta [negb].
  stepk Q. intro t2b. stepk Q. intro tbp. stepk Q. intro tx_. stepk Q. intro txb. stepk Q. intro lv. stepk Q. intro rv. stepk Q. intro ib. stepk Q. intro ob. stepk Q. intro sb. stepk Q. intro eb.
  do 3 (stepk Q; intro t; subst t).
  match goal with |- context [challenge_scalar T ?t "w"] => destruct (challenge_scalar T t "w") as [w' tw] eqn:Ew' end.
  stepk Q. intro Qp. stepk Q. intro gf. stepk Q. intro hf.
  rewrite (slice_ok G 0 N), (slice_ok H 0 N) by lia. rewrite Nat.sub_0_r. change (skipn 0 G) with G. change (skipn 0 H) with H. stepk Q. stepk Q.
  (* lengths *)
  assert (length gf = N) as Lgf by (unfold gf; rewrite app_length, !repeat_length; unfold n2, pad; lia).
  assert (length yv = N) as Lyv by (unfold yv, vandermonde; now rewrite map_length, seq_length).
  assert (length hf = N) as Lhf by (unfold hf; rewrite zip_with_length; congruence).
  assert (length lv = N) as Llv by (unfold lv, vecpoly_eval; rewrite app_length, map_length, seq_length, repeat_length; unfold l_poly; cbn [vp0]; rewrite repeat_length; unfold pad; lia).
  assert (length rv = N) as Lrv by (unfold rv, vecpoly_eval; rewrite app_length, !map_length, !seq_length; unfold r_poly; cbn [vp0]; rewrite map_length, seq_length; unfold pad; lia).
  assert (length (firstn N G) = N /\ length (firstn N H) = N) as [LGN LHN] by (rewrite !firstn_length; lia).
  destruct (create_ipp_spec (Nat.log2_up n) N tw gf hf Qp (firstn N G) (firstn N H) lv rv HT eq_refl Lgf Lhf LGN LHN Llv Lrv) as (ip & tip & -> & LiL & LiR & EIP).
  stepk Q. unfold Q. clear Q.
  set (Q := fun x : res unit => x = Ok tt). match goal with |- ?v = Ok tt => change (Q v) end.
  cbv delta [verify]; cbv beta. cbv beta iota delta [A_I1 A_O1 S1 A_I2 A_O2 S2 T_1 T_3 T_4 T_5 T_6 t_x t_x_blinding e_blinding ipp].
  assert (length (v_V vs) = length (p_v ps)) as LV by (rewrite (sm_V _ _ _ Hsim), map_length, combine_length, (sm_len _ _ _ Hsim); lia).
  rewrite LV, (sm_num _ _ _ Hsim). fold n1.
  stepk Q. intro t. subst t. stepk Q. intro m1. subst m1. do 3 (stepk Q; intro t; subst t).
  rewrite Ev. stepk Q. rewrite Pn. stepk Q. intro m. subst m. stepk Q. intro m. subst m. fold n2. fold N. stepk Q. intro m. subst m. stepk Q. intro m. subst m. fold pad.
  assert (length G <? N = false)%nat as -> by (apply Nat.ltb_ge; lia).
  do 3 (stepk Q; intro t; subst t). rewrite Ey, Ez. do 5 (stepk Q; intro t; subst t). rewrite Eu, Ex. do 3 (stepk Q; intro t; subst t). rewrite Ew'.
  assert (v_flattened z vs' = Ok w) as -> by (unfold v_flattened; rewrite Pn, Pc, PV, map_length, combine_length, Lbl, Nat.min_id; exact Ew). stepk Q.
  stepk Q. intro a. stepk Q. intro b. stepk Q. intro yv'. change yv' with yv. stepk Q. intro yw. stepk Q. intro delta.
  pose proof (verification_scalars_ok HK T lg (ip_L ip) (ip_R ip) (Nat.log2_up n) N tw HT Hk eq_refl LiL LiR Hlg) as VS.
  destruct (replay T (combine (ip_L ip) (ip_R ip)) (innerproduct_domain_sep tw N)) as [xs tr'']. destruct VS as (Lxs & Nxs & ->). cbn [fst] in EIP.
  cbv iota beta. stepk Q. intro gf'. change gf' with gf. clear gf'.
  assert (length (sv xs) = N) as Ls by (rewrite sv_length, Lxs; reflexivity).
  assert (length (rev (sv xs)) = N) as Lrs by (rewrite rev_length; exact Ls).
  rewrite (firstn_all2 (sv xs)), (firstn_all2 (rev (sv xs))) by lia.
  stepk Q. intro gs. stepk Q. intro hs. stepk Q. intro x_sqr. stepk Q. intro x_cube. stepk Q. intro r_x_sqr. stepk Q. intro rx. stepk Q. intro rx_cube. stepk Q. intro rx_4. stepk Q. intro rx_5. stepk Q. intro rx_6. stepk Q. intro Tsc. stepk Q. intro Tpt. stepk Q. intro w''. stepk Q. intro p'. stepk Q. intro arg1.
  rewrite (slice_ok G 0 N), (slice_ok H 0 N) by lia. rewrite Nat.sub_0_r. change (skipn 0 G) with G. change (skipn 0 H) with H. stepk Q. stepk Q. stepk Q. intro arg2.
  assert (length yw = N) as Lyw by (unfold yw, zip_with; rewrite app_length, map_length, combine_length, repeat_length; unfold pad; lia).
  assert (length gs = N) as Lgs by (unfold gs; rewrite zip_with_length; rewrite ?combine_length; lia).
  assert (length hs = N) as Lhs by (unfold hs; rewrite zip_with_length; rewrite ?combine_length, ?app_length, ?repeat_length; unfold pad; lia).
  assert (length (v_V vs') = length (w_V w)) as LVw by (rewrite PV, map_length, combine_length, Lbl, Lw4; lia).
  rewrite multi_scalar_mul_ok.
  2:{ unfold arg1, arg2, Tsc, Tpt. rewrite !app_length, !map_length, LGN, LHN, Lgs, Lhs, LiL, LiR, Lxs, LVw. cbn [length]. lia. }
  stepk Q. rewrite (points_sum_lin HM).
  assert (lin arg2 arg1 = m0) as ->; [|unfold Q; now rewrite (proj2 (meqb_eq _ _ HM m0 m0) eq_refl)].
  (* the sides, position by position *)
  assert (y <> f0) as Ny by (unfold challenge_scalar in Ey; apply (f_equal fst) in Ey; cbn [fst] in Ey; rewrite <- Ey; apply HT).
  assert (forall i, (i < N)%nat -> nth i yv f0 = fpow y_inv i) as Nyv by (intros i Hi; unfold yv, vandermonde; now apply nth_map_seq).
  assert (forall i, (i < N)%nat -> nth i gf f0 = if (i <? n1)%nat then f1 else u) as Ngf.
  { intros i Hi. unfold gf. destruct (Nat.ltb_spec i n1).
    - rewrite app_nth1 by (rewrite repeat_length; lia). rewrite (nth_indep _ f0 f1) by (rewrite repeat_length; lia). apply nth_repeat_d.
    - rewrite app_nth2 by (rewrite repeat_length; lia). rewrite repeat_length, (nth_indep _ f0 u) by (rewrite repeat_length; unfold n2, pad; lia). apply nth_repeat_d. }
  assert (length sL = n /\ length sR = n) as [LsL LsR] by (unfold sL, sR, s_L1, s_R1, s_L2, s_R2; rewrite !app_length, !map_length, !seq_length; unfold n2; lia).
  assert (forall i, (n <= i)%nat -> nth i (p_aL ps') f0 = f0 /\ nth i (p_aR ps') f0 = f0 /\ nth i (p_aO ps') f0 = f0 /\ nth i sL f0 = f0 /\ nth i sR f0 = f0 /\ nth i (w_L w) f0 = f0 /\ nth i (w_R w) f0 = f0 /\ nth i (w_O w) f0 = f0) as Over
    by (intros i Hi; rewrite !nth_overflow by (fold n; lia); auto 10).
  assert (forall i, (i < N)%nat -> nth i lv f0 = fadd f0 (fmul x (fadd (fadd (nth i (p_aL ps') f0) (fmul (fpow y_inv i) (nth i (w_R w) f0))) (fmul x (fadd (nth i (p_aO ps') f0) (fmul x (nth i sL f0))))))) as Nlv.
  { intros i Hi. unfold lv. rewrite nth_app_zero. unfold vecpoly_eval, l_poly. cbn [vp0 vp1 vp2 vp3]. rewrite repeat_length. destruct (Nat.lt_ge_cases i n) as [C|C].
    - rewrite nth_map_seq by exact C. rewrite nth_repeat_d, !nth_map_seq by exact C. rewrite Nyv by exact Hi. reflexivity.
    - rewrite nth_map_seq_over by exact C. destruct (Over i C) as (V1 & V2 & V3 & V4 & V5 & V6 & V7 & V8); rewrite ?V1, ?V2, ?V3, ?V4, ?V5, ?V6, ?V7, ?V8. ring. }
  assert (forall i, (i < N)%nat -> nth i rv f0 = fadd (fsub (nth i (w_O w) f0) (fpow y i)) (fmul x (fadd (fadd (fmul (fpow y i) (nth i (p_aR ps') f0)) (nth i (w_L w) f0)) (fmul x (fadd f0 (fmul x (fmul (fpow y i) (nth i sR f0)))))))) as Nrv.
  { intros i Hi. unfold rv, vecpoly_eval, r_poly. cbn [vp0 vp1 vp2 vp3]. rewrite map_length, seq_length. destruct (Nat.lt_ge_cases i n) as [C|C].
    - rewrite app_nth1 by (rewrite map_length, seq_length; exact C). rewrite nth_map_seq by exact C. rewrite nth_repeat_d, !nth_map_seq by exact C. reflexivity.
    - rewrite app_nth2 by (rewrite map_length, seq_length; exact C). rewrite map_length, seq_length, nth_map_seq_from by (unfold pad; lia). replace (n + (i - n))%nat with i by lia.
      destruct (Over i C) as (V1 & V2 & V3 & V4 & V5 & V6 & V7 & V8); rewrite ?V1, ?V2, ?V3, ?V4, ?V5, ?V6, ?V7, ?V8. ring. }
  assert (forall i, (i < N)%nat -> nth i yw f0 = fmul (nth i (w_R w) f0) (fpow y_inv i)) as Nyw.
  { intros i Hi. unfold yw. rewrite nth_app_zero. destruct (Nat.lt_ge_cases i n) as [C|C].
    - rewrite (nth_zip_with fmul _ _ i f0 f0) by lia. now rewrite Nyv.
    - rewrite nth_overflow by (unfold zip_with; rewrite map_length, combine_length; lia). destruct (Over i C) as (_ & _ & _ & _ & _ & _ & -> & _). ring. }
  assert (forall i, (i < N)%nat -> nth i gs f0 = fmul (nth i gf f0) (fsub (fmul x (nth i yw f0)) (fmul a (nth i (sv xs) f0)))) as Ngs.
  { intros i Hi. unfold gs. rewrite (nth_zip_with _ _ _ i (f0, f0) f0) by (rewrite ?combine_length; lia). now rewrite nth_combine by lia. }
  assert (forall i, (i < N)%nat -> nth i hs f0 = fmul (nth i gf f0) (fsub (fmul (nth i yv f0) (fsub (fadd (fmul x (nth i (w_L w) f0)) (nth i (w_O w) f0)) (fmul b (nth i (rev (sv xs)) f0)))) f1)) as Nhs.
  { intros i Hi. unfold hs. rewrite (nth_zip_with _ _ _ i (f0, f0, f0, f0) f0) by (rewrite ?combine_length, ?app_length, ?repeat_length; unfold pad; lia).
    rewrite !nth_combine by (rewrite ?combine_length, ?app_length, ?repeat_length; unfold pad; lia). now rewrite !nth_app_zero. }
  assert (forall i, (i < N)%nat -> fmul (fpow y_inv i) (fpow y i) = f1) as Hyy by (intros; apply (fpow_inv HK); exact Ny).
  (* <l, r> = t(x) *)
  assert (t_poly = mkP6 (ksum n (fun i => fmul (fadd (nth i (p_aL ps') f0) (fmul (fpow y_inv i) (nth i (w_R w) f0))) (fsub (nth i (w_O w) f0) (fpow y i))))
     (fadd (ksum n (fun i => fmul (fadd (nth i (p_aL ps') f0) (fmul (fpow y_inv i) (nth i (w_R w) f0))) (fadd (fmul (fpow y i) (nth i (p_aR ps') f0)) (nth i (w_L w) f0)))) (ksum n (fun i => fmul (nth i (p_aO ps') f0) (fsub (nth i (w_O w) f0) (fpow y i)))))
     (fadd (ksum n (fun i => fmul (nth i (p_aO ps') f0) (fadd (fmul (fpow y i) (nth i (p_aR ps') f0)) (nth i (w_L w) f0)))) (ksum n (fun i => fmul (nth i sL f0) (fsub (nth i (w_O w) f0) (fpow y i)))))
     (fadd (ksum n (fun i => fmul (fadd (nth i (p_aL ps') f0) (fmul (fpow y_inv i) (nth i (w_R w) f0))) (fmul (fpow y i) (nth i sR f0)))) (ksum n (fun i => fmul (nth i sL f0) (fadd (fmul (fpow y i) (nth i (p_aR ps') f0)) (nth i (w_L w) f0)))))
     (ksum n (fun i => fmul (nth i (p_aO ps') f0) (fmul (fpow y i) (nth i sR f0))))
     (ksum n (fun i => fmul (nth i sL f0) (fmul (fpow y i) (nth i sR f0))))) as Etp.
  { unfold t_poly, special_inner_product, l_poly, r_poly. cbn [vp0 vp1 vp2 vp3].
    rewrite !(inner_ksum HK _ _ n) by (now rewrite map_length, seq_length).
    f_equal; [|apply (f_equal2 fadd)|apply (f_equal2 fadd)|apply (f_equal2 fadd)| |]; apply ksum_ext; intros i Hi; rewrite !nth_map_seq by exact Hi; rewrite ?Nyv by lia; reflexivity. }
  assert (inner lv rv = tx_) as Etx.
  { rewrite (inner_ksum HK lv rv N Llv Lrv), (ksum_split HK n N) by (exact HnN || (intros i Hi; rewrite (Nlv i) by lia; destruct (Over i) as (V1 & V2 & V3 & V4 & V5 & V6 & V7 & V8); [lia|]; rewrite ?V1, ?V2, ?V3, ?V4, ?V5, ?V6, ?V7, ?V8; ring)).
    rewrite (ksum_ext n _ (fun i => fmul (fadd f0 (fmul x (fadd (fadd (nth i (p_aL ps') f0) (fmul (fpow y_inv i) (nth i (w_R w) f0))) (fmul x (fadd (nth i (p_aO ps') f0) (fmul x (nth i sL f0)))))))
      (fadd (fsub (nth i (w_O w) f0) (fpow y i)) (fmul x (fadd (fadd (fmul (fpow y i) (nth i (p_aR ps') f0)) (nth i (w_L w) f0)) (fmul x (fadd f0 (fmul x (fmul (fpow y i) (nth i sR f0))))))))))
      by (intros i Hi; rewrite Nlv, Nrv by lia; reflexivity).
    rewrite (product_poly HK n (fun i => fadd (nth i (p_aL ps') f0) (fmul (fpow y_inv i) (nth i (w_R w) f0))) (fun i => nth i (p_aO ps') f0) (fun i => nth i sL f0) (fun i => fsub (nth i (w_O w) f0) (fpow y i)) (fun i => fadd (fmul (fpow y i) (nth i (p_aR ps') f0)) (nth i (w_L w) f0)) (fun i => fmul (fpow y i) (nth i sR f0))).
    unfold tx_. now rewrite Etp. }
  (* the coefficient of x^2 *)
  assert (p6_2 t_poly = fadd (inner (w_V w) (p_v ps')) (fadd (w_c w) delta)) as Et2.
  { rewrite Etp. cbn [p6_2]. rewrite (t2_eq HK n (fun i => nth i (p_aL ps') f0) (fun i => nth i (p_aR ps') f0) (fun i => nth i (p_aO ps') f0) (fun i => nth i (w_L w) f0) (fun i => nth i (w_R w) f0) (fun i => nth i (w_O w) f0) (fpow y_inv) (fpow y)).
    2:{ intros i Hi. exact (proj1 (proj2 APsat) i Hi). }
    2:{ intros i Hi. apply Hyy. lia. }
    assert (delta = ksum n (fun i => fmul (fmul (nth i (w_R w) f0) (fpow y_inv i)) (nth i (w_L w) f0))) as ->.
    { unfold delta. rewrite (inner_ksum HK _ _ n) by (rewrite ?firstn_length; lia). apply ksum_ext. intros i Hi. rewrite nth_firstn_lt by exact Hi. now rewrite Nyw by lia. }
    unfold wsum in Sw. rewrite (inner_ksum HK (w_L w) (p_aL ps') n), (inner_ksum HK (w_R w) (p_aR ps') n), (inner_ksum HK (w_O w) (p_aO ps') n) in Sw by auto.
    assert (forall f g : nat -> K, ksum n (fun i => fmul (f i) (g i)) = ksum n (fun i => fmul (g i) (f i))) as C by (intros; apply ksum_ext; intros; ring).
    rewrite (C (fun i => nth i (p_aL ps') f0)), (C (fun i => nth i (p_aR ps') f0)), (C (fun i => nth i (p_aO ps') f0)).
    match type of Sw with fsub (fsub ?A ?B) ?D = f0 => assert (A = fadd B D) as -> by (transitivity (fadd (fsub (fsub A B) D) (fadd B D)); [ring|rewrite Sw; ring]) end. ring. }
  (* everything as sums over the positions *)
  assert (forall (B : list M) l f, (length l <= n)%nat -> (N <= length B)%nat -> (forall i, nth i l f0 = f i) -> lin B l = gl B N f) as LGL
    by (intros B l f E1 E2 E3; rewrite (lin_gl HK HM B l N) by lia; apply gl_ext; intros; apply E3).
  assert (p_aL ps = firstn n1 (p_aL ps')) as PL' by (symmetry; exact APL). assert (p_aR ps = firstn n1 (p_aR ps')) as PR' by (symmetry; exact APR). assert (p_aO ps = firstn n1 (p_aO ps')) as PO' by (symmetry; exact APO).
  assert (s_L1 = firstn n1 sL) as SL1 by (unfold sL; rewrite <- LsL1, firstn_app, Nat.sub_diag, firstn_all, firstn_O, app_nil_r; reflexivity).
  assert (s_R1 = firstn n1 sR) as SR1 by (unfold sR; rewrite <- LsR1, firstn_app, Nat.sub_diag, firstn_all, firstn_O, app_nil_r; reflexivity).
  assert (s_L2 = skipn n1 sL) as SL2 by (unfold sL; rewrite <- LsL1, skipn_app, Nat.sub_diag, skipn_all; reflexivity).
  assert (s_R2 = skipn n1 sR) as SR2 by (unfold sR; rewrite <- LsR1, skipn_app, Nat.sub_diag, skipn_all; reflexivity).
  assert (forall (B : list M) l, (length l = n)%nat -> (N <= length B)%nat -> lin B (firstn n1 l) = gl B N (lo n1 (fun i => nth i l f0))) as LLO
    by (intros B l E1 E2; apply LGL; [rewrite firstn_length; lia|exact E2|intros i; apply nth_firstn_if]).
  assert (forall (B : list M) l, (length l = n)%nat -> (N <= length B)%nat -> lin B (repeat f0 n1 ++ skipn n1 l) = gl B N (hi n1 (fun i => nth i l f0))) as LHI
    by (intros B l E1 E2; apply LGL; [rewrite app_length, repeat_length, skipn_length; lia|exact E2|intros i; apply nth_pad_if]).
  assert (forall (B : list M) fs l, length fs = N -> length l = N -> (N <= length B)%nat -> lin (zip_with smul fs (firstn N B)) l = gl B N (fun i => fmul (nth i l f0) (nth i fs f0))) as LHD.
  { intros B fs l E1 E2 E3. rewrite <- (lin_hadamard HK HM) by (rewrite ?firstn_length; lia). rewrite lin_firstn by (unfold hadamard; rewrite zip_with_length; lia).
    rewrite (lin_gl HK HM B _ N) by (unfold hadamard; rewrite zip_with_length; lia). apply gl_ext. intros i Hi. unfold hadamard. now rewrite (nth_zip_with fmul _ _ i f0 f0) by lia. }
  assert (forall i, (i < N)%nat -> nth i hf f0 = fmul (fpow y_inv i) (nth i gf f0)) as Nhf by (intros i Hi; unfold hf; rewrite (nth_zip_with fmul _ _ i f0 f0) by lia; now rewrite Nyv by lia).
  rewrite !LHD, Etx in EIP by auto.
  pose proof (fun LRx => master HK HM G H g h N n1 (fun i => nth i (p_aL ps') f0) (fun i => nth i (p_aR ps') f0) (fun i => nth i (p_aO ps') f0) (fun i => nth i sL f0) (fun i => nth i sR f0) (fun i => nth i (w_L w) f0) (fun i => nth i (w_R w) f0) (fun i => nth i (w_O w) f0) (fpow y_inv) (fpow y)
    (fun i => nth i (sv xs) f0) (fun i => nth i (rev (sv xs)) f0) (fun i => nth i gf f0) (fun i => nth i hf f0) (fun i => nth i lv f0) (fun i => nth i rv f0) (fun i => nth i gs f0) (fun i => nth i hs f0)
    x u w' r a b (d_i1 d) (d_o1 d) (d_s1 d) i2 o2 s2 (p6_1 t_poly) (p6_2 t_poly) (p6_3 t_poly) (p6_4 t_poly) (p6_5 t_poly) (p6_6 t_poly) (d_t1 d) (d_t3 d) (d_t4 d) (d_t5 d) (d_t6 d)
    (inner (w_V w) (p_v ps')) t2b (w_c w) delta LRx aI1 aO1 aS1 aI2 aO2 aS2 (madd (smul (inner (w_V w) (p_v ps')) g) (smul t2b h))) as MM.
  assert (lin (v_V vs') (w_V w) = madd (smul (inner (w_V w) (p_v ps')) g) (smul t2b h)) as EVV by (rewrite PV; unfold t2b; apply (lin_commitments HK HM); congruence).
  assert (forall (B : list M) l, length l = N -> (N <= length B)%nat -> lin B l = gl B N (fun i => nth i l f0)) as LGL' by (intros B l E1 E2; apply (lin_gl HK HM); lia).
  specialize (MM (madd (lin (ip_L ip) (map (fun x0 => fmul x0 x0) xs)) (lin (ip_R ip) (map (fun x0 => fmul (finv x0) (finv x0)) xs))) Ngf Nhf Hyy Nlv Nrv).
  unfold arg1, arg2, Tsc, Tpt.
  rewrite !(lin_app HM) by (rewrite ?map_length; cbn [length]; lia).
  rewrite (lin_scale_r HK HM), EVV. rewrite !lin_firstn by lia. rewrite (LGL' G gs), (LGL' H hs) by auto.
  rewrite !lin_cons, !lin_nil_l.
  change (poly6_eval (mkP6 (p6_1 t_poly) (p6_2 t_poly) (p6_3 t_poly) (p6_4 t_poly) (p6_5 t_poly) (p6_6 t_poly)) x) with (poly6_eval t_poly x) in MM.
  etransitivity; [|apply MM; clear MM].
  - clear - HK HM. unfold T1, T3, T4, T5, T6, w'', p', tx_, txb, tbp, eb, sb, ob, ib, rx_6, rx_5, rx_4, rx_cube, rx, r_x_sqr, x_cube, x_sqr. module_coefs HK HM; ring.
  - intros i Hi. rewrite Ngs, Nyw by exact Hi. reflexivity.
  - intros i Hi. rewrite Nhs, Nyv by exact Hi. reflexivity.
  - exact Et2.
  - unfold aI1. rewrite PL', PR', !LLO by (auto; lia). reflexivity.
  - unfold aO1. rewrite PO', !LLO by (auto; lia). reflexivity.
  - unfold aS1. rewrite SL1, SR1, !LLO by (auto; lia). reflexivity.
  - rewrite EI2, !LHI by (auto; lia). reflexivity.
  - rewrite EO2, !LHI by (auto; lia). reflexivity.
  - rewrite ES2, SL2, SR2, !LHI by (auto; lia). reflexivity.
  - reflexivity.
  - exact EIP.
Qed.
End Complete.
End Props.

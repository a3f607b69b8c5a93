(** What the verifier of the R1CS proof checks (C96). *)
From Coq Require Import String.
From Verif Require Import Base Alg Lin TranscriptModel IppModel IppLib IppSpec IppProps R1csModel R1csSpec R1csLib R1csProofModel R1csProofLib R1csProofSpec R1csProofComplete R1csProofProps.
Import List ListNotations.
Open Scope list_scope.

Section Props.
Context {K : fieldOps} (HK : field_laws K) {M : modOps K} (HM : mod_laws M) (T : tcode M).
Add Field Kf3 : (proj1 HK).
(** ** the flattened constraints have the sizes of the system *)
Lemma add_at_length i (x : K) l l' : add_at i x l = Ok l' -> length l' = length l.
Proof. unfold add_at. intros E. apply rbind_ok in E. destruct E as (y & _ & E). now apply set_at_length in E. Qed.
Lemma sub_at_length i (x : K) l l' : sub_at i x l = Ok l' -> length l' = length l.
Proof. unfold sub_at. intros E. apply rbind_ok in E. destruct E as (y & _ & E). now apply set_at_length in E. Qed.
Lemma v_flatten_term_lens e n m (w w' : @weights K) t : wlens n m w -> v_flatten_term e w t = Ok w' -> wlens n m w'.
Proof.
  intros (L1 & L2 & L3 & L4) E. destruct t as [v c]. unfold v_flatten_term in E.
  destruct v; try (apply rbind_ok in E; destruct E as (l' & E1 & E); apply (f_equal (fun r => match r with Ok x => x | _ => w end)) in E; subst w';
    first [apply add_at_length in E1 | apply sub_at_length in E1]; unfold wlens; cbn [w_L w_R w_O w_V]; repeat split; congruence).
  apply (f_equal (fun r => match r with Ok x => x | _ => w end)) in E. subst w'. unfold wlens. auto.
Qed.
Lemma v_flatten_lc_lens e n m l : forall w w' : @weights K, wlens n m w -> rfold (v_flatten_term e) l w = Ok w' -> wlens n m w'.
Proof.
  induction l as [|t l IH]; intros w w' W E; cbn [rfold] in E; [apply (f_equal (fun r => match r with Ok x => x | _ => w end)) in E; now subst|].
  apply rbind_ok in E. destruct E as (w1 & E1 & E2). apply (IH w1); [eapply v_flatten_term_lens; eassumption|exact E2].
Qed.
Lemma v_flatten_lens (z : K) n m cons w : flatten v_flatten_term z n m cons = Ok w -> wlens n m w.
Proof.
  unfold flatten. intros E. apply rbind_ok in E. destruct E as ((w1 & e1) & E & E2). apply (f_equal (fun r => match r with Ok x => x | _ => w end)) in E2. subst w1.
  assert (wlens n m (mkW (repeat f0 n) (repeat f0 n) (repeat f0 n) (repeat f0 m) (f0 : K))) as W by (unfold wlens; cbn [w_L w_R w_O w_V]; rewrite !repeat_length; auto).
  assert (forall w0 e0, wlens n m w0 -> rfold (fun st lc => let! w := rfold (v_flatten_term (snd st)) lc (fst st) in Ok (w, fmul (snd st) z)) cons (w0, e0) = Ok (w, e1) -> wlens n m w) as A; [|exact (A _ _ W E)].
  clear E W. induction cons as [|l cons IH]; intros w0 e0 W E; cbn [rfold] in E.
  - apply (f_equal (fun r => match r with Ok x => fst x | _ => w end)) in E. cbn [fst] in E. congruence.
  - apply rbind_ok in E. destruct E as ((w2 & e2) & E1 & E). apply rbind_ok in E1. destruct E1 as (w3 & E1 & E3). cbn [fst snd] in *.
    assert (w3 = w2) as -> by (apply (f_equal (fun r => match r with Ok x => fst x | _ => w end)) in E3; exact E3).
    apply (IH w2 e2); [|exact E]. eapply v_flatten_lc_lens; eassumption.
Qed.

(** ** the transcript of the verifier before the second phase *)
Definition verifier_phase1 (vs : vstate K M) (p : r1cs_proof M) (tr : transcript) : transcript :=
  commit_point T (commit_point T (commit_point T (append_u64 tr "m" (length (v_V vs))) "A_I1" (A_I1 p)) "A_O1" (A_O1 p)) "S1" (S1 p).

Definition t_defect (g h : M) (Vs : list M) (n : nat) (w : @weights K) (p : r1cs_proof M) (y x : K) : M :=
  msub (madd (madd (smul (fmul (fpow x 2) (fadd (w_c w) (delta_of n y w))) g) (smul (fpow x 2) (lin Vs (w_V w))))
       (madd (smul x (T_1 p)) (madd (smul (fpow x 3) (T_3 p)) (madd (smul (fpow x 4) (T_4 p)) (madd (smul (fpow x 5) (T_5 p)) (smul (fpow x 6) (T_6 p)))))))
       (madd (smul (t_x p) g) (smul (t_x_blinding p) h)).
Definition ipp_defect (G H : list M) (gf hf : nat -> K) (P Q : M) (N : nat) (xs : list K) (ip : ipp_proof M) : M :=
  msub (madd P (madd (lin (ip_L ip) (map (fun x => fmul x x) xs)) (lin (ip_R ip) (map (fun x => fmul (finv x) (finv x)) xs))))
  (madd (madd (gl G N (fun i => fmul (ip_a ip) (fmul (gf i) (signed_product xs i)))) (gl H N (fun i => fmul (ip_b ip) (fmul (hf i) (finv (signed_product xs i))))))
       (smul (fmul (ip_a ip) (ip_b ip)) Q)).

Section Verify.
Context (lg : nat -> nat) (cbs : list (vcallback M)) (vs vs' : vstate K M) (tr t' : transcript) (p : r1cs_proof M) (g h : M) (G H : list M) (w : @weights K).
Let n1 := v_num vs.
Let n := v_num vs'.
Let N := next_pow2 n.
Let c := verifier_challenges T t' p N.
Hypothesis HT : challenges_nonzero T.
Hypothesis Ev : v_randomize cbs vs (verifier_phase1 vs p tr) = Ok (vs', t').
Hypothesis Hn : (n1 <= n)%nat.
Hypothesis HG : (N <= length G)%nat.
Hypothesis HH : (N <= length H)%nat.
Hypothesis HL : length (ip_L (ipp p)) = Nat.log2_up n.
Hypothesis HR : length (ip_R (ipp p)) = Nat.log2_up n.
Hypothesis Hk : (Nat.log2_up n < 32)%nat.
Hypothesis Hlg : log_exact lg N.
Hypothesis Hw : v_flattened (c_z c) vs' = Ok w.

Definition gfac (u : K) : nat -> K := phase_weight n1 u.
Definition hfac (y u : K) : nat -> K := fun i => fmul (fpow (finv y) i) (phase_weight n1 u i).
Lemma verify_eq r : verify T lg cbs vs tr p g h G H r =
  if meqb (madd (ipp_defect G H (gfac (c_u c)) (hfac (c_y c) (c_u c)) (ipp_point g h G H n1 N w p (c_y c) (c_u c) (c_x c) (c_w c)) (smul (c_w c) g) N (c_ip c) (ipp p))
                (smul r (t_defect g h (v_V vs') n w p (c_y c) (c_x c)))) m0
  then Ok tt else Err (BpErr BVerificationError).
Proof.
  pose proof (next_pow2_ge n) as HnN. fold N in HnN.
  destruct (v_flatten_lens _ _ _ _ _ Hw) as (Lw1 & Lw2 & Lw3 & Lw4). fold n in Lw1, Lw2, Lw3.
  revert Hw. unfold c, verifier_challenges.
  match goal with |- context [challenge_scalar T ?t "y"] => destruct (challenge_scalar T t "y") as [y ty] eqn:Ey end.
  match goal with |- context [challenge_scalar T ?t "z"] => destruct (challenge_scalar T t "z") as [z tz] eqn:Ez end.
  match goal with |- context [challenge_scalar T ?t "u"] => destruct (challenge_scalar T t "u") as [u tu] eqn:Eu end.
  match goal with |- context [challenge_scalar T ?t "x"] => destruct (challenge_scalar T t "x") as [x tx] eqn:Ex end.
  match goal with |- context [challenge_scalar T ?t "w"] => destruct (challenge_scalar T t "w") as [w' tw] eqn:Ew' end.
  cbn [c_y c_z c_u c_x c_w c_ip]. intros Hw'.
  match goal with |- _ = ?R => set (RHS := R) end.
  set (Q := fun x : res unit => x = RHS). match goal with |- ?v = RHS => change (Q v) end.
  cbv delta [verify]; cbv beta.
  stepk Q. intro t. subst t. stepk Q. intro m1. change m1 with n1. clear m1. do 2 (stepk Q; intro t; subst t). stepk Q. intro t. change (verifier_phase1 vs p tr) with t in Ev. rewrite Ev. subst t. stepk Q.
  fold n. stepk Q. intro m. change m with n. clear m. stepk Q. intro n2. fold N. stepk Q. intro m. change m with N. clear m. stepk Q. intro pad.
  assert (length G <? N = false)%nat as -> by (apply Nat.ltb_ge; lia).
  do 3 (stepk Q; intro t; subst t). rewrite Ey, Ez. do 5 (stepk Q; intro t; subst t). rewrite Eu, Ex. do 3 (stepk Q; intro t; subst t). rewrite Ew'.
  rewrite Hw'. stepk Q. stepk Q. intro a. stepk Q. intro b. stepk Q. intro yv. stepk Q. intro yw. stepk Q. intro delta.
  pose proof (C93_verification_scalars HK T lg (ip_L (ipp p)) (ip_R (ipp p)) (Nat.log2_up n) N tw HT Hk eq_refl HL HR Hlg) as VS. cbv zeta in VS.
  pose proof (replay_length T (combine (ip_L (ipp p)) (ip_R (ipp p))) (innerproduct_domain_sep tw N)) as Lxs. rewrite combine_length, HL, HR, Nat.min_id in Lxs.
  revert VS Lxs RHS Q.
  generalize (fst (replay T (combine (ip_L (ipp p)) (ip_R (ipp p))) (innerproduct_domain_sep tw N))). intros xs (s & tr'' & -> & Ls & Ns) Lxs RHS Q.
  cbv iota beta. stepk Q. intro gf. rewrite (firstn_all2 s), (firstn_all2 (rev s)) by (rewrite ?rev_length; lia).
  stepk Q. intro gs. stepk Q. intro hs. stepk Q. intro x_sqr. stepk Q. intro x_cube. stepk Q. intro r_x_sqr. stepk Q. intro rx. stepk Q. intro rx_cube. stepk Q. intro rx_4. stepk Q. intro rx_5. stepk Q. intro rx_6. stepk Q. intro Tsc. stepk Q. intro Tpt. stepk Q. intro w''. stepk Q. intro p'. stepk Q. intro arg1.
  rewrite (slice_ok G 0 N), (slice_ok H 0 N) by lia. rewrite Nat.sub_0_r. change (skipn 0 G) with G. change (skipn 0 H) with H. stepk Q. stepk Q. stepk Q. intro arg2.
  assert (length gf = N) as Lgf by (unfold gf; rewrite app_length, !repeat_length; unfold n2, pad; lia).
  assert (length yv = N) as Lyv by (unfold yv, vandermonde; now rewrite map_length, seq_length).
  assert (length (firstn N G) = N /\ length (firstn N H) = N) as [LGN LHN] by (rewrite !firstn_length; lia).
  assert (length yw = N) as Lyw by (unfold yw, zip_with; rewrite app_length, map_length, combine_length, repeat_length; unfold pad; lia).
  assert (length gs = N) as Lgs by (unfold gs; rewrite zip_with_length; rewrite ?combine_length; lia).
  assert (length (rev s) = N) as Lrs by (rewrite rev_length; exact Ls).
  assert (length hs = N) as Lhs by (unfold hs; rewrite zip_with_length; rewrite ?combine_length, ?app_length, ?repeat_length; unfold pad; lia).
  rewrite multi_scalar_mul_ok.
  2:{ unfold arg1, arg2, Tsc, Tpt. rewrite !app_length, !map_length, LGN, LHN, Lgs, Lhs, HL, HR, Lxs, Lw4. cbn [length]. lia. }
  stepk Q. rewrite (points_sum_lin HM). unfold Q, RHS. clear Q RHS.
  match goal with |- (if meqb ?X m0 then _ else _) = (if meqb ?Y m0 then _ else _) => assert (X = Y) as ->; [|reflexivity] end.
  assert (forall i, (i < N)%nat -> nth i yv f0 = fpow (finv y) i) as Nyv by (intros i Hi; unfold yv, vandermonde; now apply nth_map_seq).
  assert (forall i, (i < N)%nat -> nth i gf f0 = phase_weight n1 u i) as Ngf.
  { intros i Hi. unfold gf, phase_weight. destruct (Nat.ltb_spec i n1).
    - rewrite app_nth1 by (rewrite repeat_length; lia). rewrite (nth_indep _ f0 f1) by (rewrite repeat_length; lia). apply nth_repeat_d.
    - rewrite app_nth2 by (rewrite repeat_length; lia). rewrite repeat_length, (nth_indep _ f0 u) by (rewrite repeat_length; unfold n2, pad; lia). apply nth_repeat_d. }
  assert (forall i, (n <= i)%nat -> nth i (w_L w) f0 = f0 /\ nth i (w_R w) f0 = f0 /\ nth i (w_O w) f0 = f0) as Over by (intros i Hi; rewrite !nth_overflow by lia; auto).
  assert (forall i, (i < N)%nat -> nth i yw f0 = fmul (nth i (w_R w) f0) (fpow (finv y) i)) as Nyw.
  { intros i Hi. unfold yw. rewrite nth_app_zero. destruct (Nat.lt_ge_cases i n) as [C|C].
    - rewrite (nth_zip_with fmul _ _ i f0 f0) by lia. now rewrite Nyv.
    - rewrite nth_overflow by (unfold zip_with; rewrite map_length, combine_length; lia). destruct (Over i C) as (_ & -> & _). ring. }
  assert (forall i, (i < N)%nat -> nth i gs f0 = fmul (nth i gf f0) (fsub (fmul x (nth i yw f0)) (fmul a (nth i s f0)))) as Ngs.
  { intros i Hi. unfold gs. rewrite (nth_zip_with _ _ _ i (f0, f0) f0) by (rewrite ?combine_length; lia). now rewrite nth_combine by lia. }
  assert (forall i, (i < N)%nat -> nth i hs f0 = fmul (nth i gf f0) (fsub (fmul (nth i yv f0) (fsub (fadd (fmul x (nth i (w_L w) f0)) (nth i (w_O w) f0)) (fmul b (nth i (rev s) f0)))) f1)) as Nhs.
  { intros i Hi. unfold hs. rewrite (nth_zip_with _ _ _ i (f0, f0, f0, f0) f0) by (rewrite ?combine_length, ?app_length, ?repeat_length; unfold pad; lia).
    rewrite !nth_combine by (rewrite ?combine_length, ?app_length, ?repeat_length; unfold pad; lia). now rewrite !nth_app_zero. }
  assert (delta = delta_of n y w) as Ed.
  { unfold delta, delta_of. rewrite (inner_ksum HK _ _ n) by (rewrite ?firstn_length; lia). apply ksum_ext. intros i Hi. rewrite nth_firstn_lt by exact Hi. now rewrite Nyw by lia. }
  assert (forall (B : list M) l, length l = N -> (N <= length B)%nat -> lin B l = gl B N (fun i => nth i l f0)) as LGL' by (intros B l E1 E2; apply (lin_gl HK HM); lia).
  unfold arg1, arg2, Tsc, Tpt.
  rewrite !(lin_app HM) by (rewrite ?map_length; cbn [length]; lia).
  rewrite (lin_scale_r HK HM). rewrite !lin_firstn by lia. rewrite (LGL' G gs), (LGL' H hs) by auto.
  rewrite !lin_cons, !lin_nil_l.
  unfold ipp_defect, t_defect, ipp_point, gfac, hfac.
  rewrite (gl_ext G N (fun i => nth i gs f0) (fun i => fadd (fmul (phase_weight n1 u i) (fmul x (fmul (nth i (w_R w) f0) (fpow (finv y) i)))) (fmul (fopp f1) (fmul (ip_a (ipp p)) (fmul (phase_weight n1 u i) (signed_product xs i))))))
    by (intros i Hi; rewrite Ngs, Nyw, Ngf by exact Hi; rewrite (proj1 (Ns i Hi)); unfold a; ring).
  rewrite (gl_ext H N (fun i => nth i hs f0) (fun i => fadd (fmul (phase_weight n1 u i) (fsub (fmul (fpow (finv y) i) (fadd (fmul x (nth i (w_L w) f0)) (nth i (w_O w) f0))) f1)) (fmul (fopp f1) (fmul (ip_b (ipp p)) (fmul (fmul (fpow (finv y) i) (phase_weight n1 u i)) (finv (signed_product xs i)))))))
    by (intros i Hi; rewrite Nhs, Nyv, Ngf by exact Hi; rewrite (proj2 (Ns i Hi)); unfold b; ring).
  rewrite <- !(gl_add HK HM), <- !(gl_smul HK HM).
  unfold w'', p', rx_6, rx_5, rx_4, rx_cube, rx, r_x_sqr, x_cube, x_sqr, a, b. rewrite Ed. generalize (delta_of n y w). intros dl. cbn [fpow].
  repeat match goal with |- context [gl ?B N ?f] => generalize (gl B N f); intro end. generalize (lin (v_V vs') (w_V w)) (lin (ip_L (ipp p)) (map (fun x0 => fmul x0 x0) xs)) (lin (ip_R (ipp p)) (map (fun x0 => fmul (finv x0) (finv x0)) xs)).
  clear - HK HM. intros. module_coefs HK HM; ring.
Qed.

(** ** C96.  [verify] draws r itself.  If it accepts for two values of r, the identity of the
    polynomial t and the inner-product equation both hold; if both hold it accepts for every
    r.  So a proof for which one of them fails is accepted for at most one value of r. *)
Lemma msub0 (a b : M) : msub a b = m0 <-> a = b.
Proof. split; [|intros ->; apply (madd_opp _ _ HM)]. intros E. transitivity (madd (msub a b) b); [module_coefs HK HM; ring|]. rewrite E. module_coefs HK HM; ring. Qed.
Definition both_equations : Prop :=
  t_equation g h (v_V vs') n w p (c_y c) (c_x c) /\
  ipp_equation G H (phase_weight n1 (c_u c)) (fun i => fmul (fpow (finv (c_y c)) i) (phase_weight n1 (c_u c) i))
    (ipp_point g h G H n1 N w p (c_y c) (c_u c) (c_x c) (c_w c)) (smul (c_w c) g) N (c_ip c) (ipp p).
Lemma two_draws r r' : r <> r' -> verify T lg cbs vs tr p g h G H r = Ok tt -> verify T lg cbs vs tr p g h G H r' = Ok tt -> both_equations.
Proof.
  intros Nr. rewrite !verify_eq. remember (ipp_defect _ _ _ _ _ _ _ _ _) as I eqn:EI. remember (t_defect _ _ _ _ _ _ _ _) as D eqn:ED. intros E1 E2.
  destruct (meqb (madd I (smul r D)) m0) eqn:M1; [|discriminate]. destruct (meqb (madd I (smul r' D)) m0) eqn:M2; [|discriminate]. apply (meqb_eq _ _ HM) in M1, M2.
  assert (D = m0) as D0.
  { assert (smul (fsub r r') D = m0) as Z by (transitivity (msub (madd I (smul r D)) (madd I (smul r' D))); [module_coefs HK HM; ring|rewrite M1, M2; module_coefs HK HM; ring]).
    transitivity (smul (fmul (finv (fsub r r')) (fsub r r')) D); [|transitivity (smul (finv (fsub r r')) (smul (fsub r r') D)); [module_coefs HK HM; ring|rewrite Z; module_coefs HK HM; ring]].
    assert (fmul (finv (fsub r r')) (fsub r r') = f1) as -> by (pose proof (fsub_neq0 _ HK _ _ Nr); field; assumption). module_coefs HK HM; ring. }
  assert (I = m0) as I0 by (rewrite D0 in M1; transitivity (madd I (smul r m0)); [module_coefs HK HM; ring|exact M1]).
  rewrite EI in I0. unfold ipp_defect in I0. apply -> msub0 in I0. rewrite ED in D0. unfold t_defect in D0. apply -> msub0 in D0. split; [unfold t_equation; symmetry; exact D0|exact I0].
Qed.
Lemma both_accept r : both_equations -> verify T lg cbs vs tr p g h G H r = Ok tt.
Proof.
  intros [E1 E2]. rewrite verify_eq. unfold t_defect, ipp_defect. unfold t_equation in E1. symmetry in E1. apply <- msub0 in E1. rewrite E1. unfold ipp_equation in E2. apply <- msub0 in E2. unfold gfac, hfac. rewrite E2.
  match goal with |- (if meqb ?X m0 then _ else _) = _ => assert (X = m0) as -> by (module_coefs HK HM; ring) end. now rewrite (proj2 (meqb_eq _ _ HM m0 m0) eq_refl).
Qed.
Lemma no_other_error r : verify T lg cbs vs tr p g h G H r = Ok tt \/ verify T lg cbs vs tr p g h G H r = Err (BpErr BVerificationError).
Proof. rewrite verify_eq. destruct (meqb _ _); auto. Qed.
End Verify.

(** the hypotheses on the sizes, together: the second phase of the verifier succeeds and ends
    in [vs'], its weights are [w]; enough generators; the proof has the right number of rounds *)
Record right_sizes (lg : nat -> nat) (cbs : list (vcallback M)) (vs vs' : vstate K M) (tr t' : transcript) (p : r1cs_proof M) (G H : list M) (w : @weights K) : Prop := {
  rz_phase2 : v_randomize cbs vs (verifier_phase1 vs p tr) = Ok (vs', t');
  rz_more : (v_num vs <= v_num vs')%nat;
  rz_G : (next_pow2 (v_num vs') <= length G)%nat;
  rz_H : (next_pow2 (v_num vs') <= length H)%nat;
  rz_L : length (ip_L (ipp p)) = Nat.log2_up (v_num vs');
  rz_R : length (ip_R (ipp p)) = Nat.log2_up (v_num vs');
  rz_32 : (Nat.log2_up (v_num vs') < 32)%nat;
  rz_lg : log_exact lg (next_pow2 (v_num vs'));
  rz_w : v_flattened (c_z (verifier_challenges T t' p (next_pow2 (v_num vs')))) vs' = Ok w }.
Definition equations (vs vs' : vstate K M) (t' : transcript) (p : r1cs_proof M) (g h : M) (G H : list M) (w : @weights K) : Prop :=
  let n1 := v_num vs in let n := v_num vs' in let N := next_pow2 n in
  let c := verifier_challenges T t' p N in
  t_equation g h (v_V vs') n w p (c_y c) (c_x c) /\
  ipp_equation G H (phase_weight n1 (c_u c)) (fun i => fmul (fpow (finv (c_y c)) i) (phase_weight n1 (c_u c) i))
    (ipp_point g h G H n1 N w p (c_y c) (c_u c) (c_x c) (c_w c)) (smul (c_w c) g) N (c_ip c) (ipp p).
Theorem C96_accepts_iff : forall lg cbs vs vs' tr t' p g h G H w, challenges_nonzero T -> right_sizes lg cbs vs vs' tr t' p G H w ->
  (equations vs vs' t' p g h G H w -> forall r, verify T lg cbs vs tr p g h G H r = Ok tt) /\
  (forall r r', r <> r' -> verify T lg cbs vs tr p g h G H r = Ok tt -> verify T lg cbs vs tr p g h G H r' = Ok tt -> equations vs vs' t' p g h G H w) /\
  (forall r, verify T lg cbs vs tr p g h G H r = Ok tt \/ verify T lg cbs vs tr p g h G H r = Err (BpErr BVerificationError)).
Proof.
  intros lg cbs vs vs' tr t' p g h G H w HT [Z1 Z2 Z3 Z4 Z5 Z6 Z7 Z8 Z9]. split; [|split].
  - intros E r. apply (both_accept lg cbs vs vs' tr t' p g h G H w HT Z1 Z2 Z3 Z4 Z5 Z6 Z7 Z8 Z9). exact E.
  - intros r r' Nr E1 E2. exact (two_draws lg cbs vs vs' tr t' p g h G H w HT Z1 Z2 Z3 Z4 Z5 Z6 Z7 Z8 Z9 r r' Nr E1 E2).
  - intros r. apply (no_other_error lg cbs vs vs' tr t' p g h G H w HT Z1 Z2 Z3 Z4 Z5 Z6 Z7 Z8 Z9).
Qed.
(** a proof that fails one of the two equations is accepted for at most one r *)
Theorem C96_bad_draws : forall lg cbs vs vs' tr t' p g h G H w, challenges_nonzero T -> right_sizes lg cbs vs vs' tr t' p G H w ->
  ~ equations vs vs' t' p g h G H w -> forall r r', verify T lg cbs vs tr p g h G H r = Ok tt -> verify T lg cbs vs tr p g h G H r' = Ok tt -> r = r'.
Proof.
  intros lg cbs vs vs' tr t' p g h G H w HT Z Ne r r' E1 E2. destruct (feq_dec _ HK r r') as [|Nr]; [assumption|]. exfalso. apply Ne.
  exact (proj1 (proj2 (C96_accepts_iff lg cbs vs vs' tr t' p g h G H w HT Z)) r r' Nr E1 E2).
Qed.

(** ** malformed input *)
Lemma s_loop_shape lg k sq (l : list nat) : forall acc : list K, match rfold (s_step lg k sq) l acc with Ok s => length s = (length acc + length l)%nat | Err e => e = Panic end.
Proof.
  induction l as [|i l IH]; intros acc; cbn [rfold]; [cbn [length]; lia|]. destruct (s_step lg k sq acc i) as [acc'|e] eqn:E; cbn [rbind].
  - specialize (IH acc'). destruct (rfold _ _ _); [|exact IH]. rewrite IH. unfold s_step in E.
    destruct (_ <? lg i)%nat; [discriminate|]. destruct (at_ sq _); cbn [rbind] in E; [|discriminate]. destruct (_ <? _)%nat; [discriminate|]. destruct (at_ acc _); cbn [rbind] in E; [|discriminate]. injection E as <-. rewrite app_length. cbn [length]. lia.
  - unfold s_step in E. destruct (_ <? lg i)%nat; [congruence|]. unfold at_ in E. destruct (nth_error sq _); cbn [rbind] in E; [|congruence]. destruct (_ <? _)%nat; [congruence|]. destruct (nth_error acc _); cbn [rbind] in E; congruence.
Qed.
Lemma scalars_shape lg (L R : list M) n tr : n = (2 ^ length L)%nat -> (length L < 32)%nat -> lg 1%nat = 0%nat ->
  match verification_scalars T lg L R n tr with Ok (a, b, s, _) => length a = length L /\ length b = length L /\ length s = n /\ (length L <= length R)%nat | Err e => e = Panic end.
Proof.
  intros En Hl Hlg. unfold verification_scalars. rewrite (proj2 (Nat.leb_gt _ _) Hl), <- En, Nat.eqb_refl. cbn [negb].
  assert (2 ^ length L <> 0)%nat as P by (apply Nat.pow_nonzero; lia).
  pose proof (replay_length T (combine L R) (innerproduct_domain_sep tr n)) as Lx. destruct (replay T (combine L R) (innerproduct_domain_sep tr n)) as [xs tr']. cbn [fst] in Lx. rewrite combine_length in Lx.
  destruct (Nat.ltb_spec 0 (length L)) as [C|C].
  - destruct (batch_invert xs) as [[ci pp]|e] eqn:Ei; cbn [rbind].
    2:{ unfold batch_invert in Ei. destruct xs; congruence. }
    assert (length ci = length xs) as Lci by (unfold batch_invert in Ei; destruct xs; [discriminate|]; apply (f_equal (fun r => match r with Ok w => length (fst w) | _ => 0%nat end)) in Ei; cbn [fst] in Ei; rewrite map_length, seq_length in Ei; congruence).
    pose proof (s_loop_shape lg (length L) (map (fun x => fmul x x) xs) (seq 1 (n - 1)) [pp]) as Sl.
    destruct (Nat.lt_ge_cases (length R) (length L)) as [D|D].
    + assert (exists m, n - 1 = S m)%nat as (m & Em) by (exists (n - 2)%nat; assert (2 ^ 1 <= 2 ^ length L)%nat by (apply Nat.pow_le_mono_r; lia); cbn in *; lia).
      rewrite Em in *. cbn [seq rfold] in *. unfold s_step at 1. rewrite Hlg. destruct (Nat.ltb_spec (length L - 1) 0); [reflexivity|]. unfold at_ at 1. rewrite (proj2 (nth_error_None _ _)) by (rewrite map_length; lia). reflexivity.
    + destruct (rfold _ _ _); cbn [rbind]; [|exact Sl]. rewrite !map_length. rewrite seq_length in Sl. cbn [length] in Sl. repeat split; lia.
  - cbn [rbind]. replace n with 1%nat by (rewrite En; replace (length L) with 0%nat by lia; reflexivity). cbn. lia.
Qed.
Theorem C96_short_G : forall lg cbs vs vs' tr t' p g h G H r, v_randomize cbs vs (verifier_phase1 vs p tr) = Ok (vs', t') -> (length G < next_pow2 (v_num vs'))%nat ->
  verify T lg cbs vs tr p g h G H r = Err (BpErr (BInvalidGeneratorsLength (length G) (next_pow2 (v_num vs')))).
Proof.
  intros lg cbs vs vs' tr t' p g h G H r Ev C. unfold verify. change (commit_point T (commit_point T (commit_point T (append_u64 tr "m" (length (v_V vs))) "A_I1" (A_I1 p)) "A_O1" (A_O1 p)) "S1" (S1 p)) with (verifier_phase1 vs p tr).
  rewrite Ev. cbn [rbind]. rewrite (proj2 (Nat.ltb_lt _ _) C). reflexivity.
Qed.
Theorem C96_wrong_rounds : forall lg cbs vs vs' tr t' p g h G H w r, v_randomize cbs vs (verifier_phase1 vs p tr) = Ok (vs', t') -> (next_pow2 (v_num vs') <= length G)%nat ->
  v_flattened (c_z (verifier_challenges T t' p (next_pow2 (v_num vs')))) vs' = Ok w ->
  (32 <= length (ip_L (ipp p)))%nat \/ length (ip_L (ipp p)) <> Nat.log2_up (v_num vs') ->
  verify T lg cbs vs tr p g h G H r = Err (BpErr BVerificationError).
Proof.
  intros lg cbs vs vs' tr t' p g h G H w r Ev C Hw W. unfold verify. change (commit_point T (commit_point T (commit_point T (append_u64 tr "m" (length (v_V vs))) "A_I1" (A_I1 p)) "A_O1" (A_O1 p)) "S1" (S1 p)) with (verifier_phase1 vs p tr).
  rewrite Ev. cbn [rbind]. rewrite (proj2 (Nat.ltb_ge _ _) C). unfold verifier_challenges in Hw. unfold challenge_scalar in *. cbn [c_z] in Hw. rewrite Hw. cbn [rbind].
  unfold verification_scalars. destruct (Nat.leb_spec 32 (length (ip_L (ipp p)))) as [|Cl]; [reflexivity|]. destruct W as [W|W]; [lia|].
  match goal with |- context [(?a =? ?b)%nat] => destruct (Nat.eqb_spec a b) as [E|E] end; [|reflexivity]. exfalso. unfold next_pow2 in E. apply Nat.pow_inj_r in E; lia.
Qed.
(** refuted: verify answers Ok or an error for every proof.  Too few H generators, or L and R
    of different lengths, and the process is aborted *)
Theorem C96_refuted_short_H : forall lg cbs vs vs' tr t' p g h G H w r, challenges_nonzero T -> v_randomize cbs vs (verifier_phase1 vs p tr) = Ok (vs', t') -> (next_pow2 (v_num vs') <= length G)%nat ->
  v_flattened (c_z (verifier_challenges T t' p (next_pow2 (v_num vs')))) vs' = Ok w ->
  length (ip_L (ipp p)) = Nat.log2_up (v_num vs') -> length (ip_R (ipp p)) = Nat.log2_up (v_num vs') -> (Nat.log2_up (v_num vs') < 32)%nat -> log_exact lg (next_pow2 (v_num vs')) ->
  (length H < next_pow2 (v_num vs'))%nat ->
  verify T lg cbs vs tr p g h G H r = Err Panic.
Proof.
  intros lg cbs vs vs' tr t' p g h G H w r HT Ev C Hw HL HR Hk Hlg HH. unfold verify. change (commit_point T (commit_point T (commit_point T (append_u64 tr "m" (length (v_V vs))) "A_I1" (A_I1 p)) "A_O1" (A_O1 p)) "S1" (S1 p)) with (verifier_phase1 vs p tr).
  rewrite Ev. cbn [rbind]. rewrite (proj2 (Nat.ltb_ge _ _) C). unfold verifier_challenges in Hw. unfold challenge_scalar in *. cbn [c_z] in Hw. rewrite Hw. cbn [rbind].
  match goal with |- context [verification_scalars T lg _ _ ?n ?t] => pose proof (verification_scalars_ok HK T lg (ip_L (ipp p)) (ip_R (ipp p)) _ n t HT Hk eq_refl HL HR Hlg) as VS; destruct (replay T (combine (ip_L (ipp p)) (ip_R (ipp p))) (innerproduct_domain_sep t n)) as [xs t2] end.
  destruct VS as (_ & _ & ->). cbv iota beta. rewrite (slice_ok G 0) by lia. unfold slice. rewrite (proj2 (Nat.leb_gt _ _) HH). reflexivity.
Qed.
Theorem C96_refuted_unequal_lists : forall lg cbs vs vs' tr t' p g h G H w r, v_randomize cbs vs (verifier_phase1 vs p tr) = Ok (vs', t') -> (v_num vs <= v_num vs')%nat -> (next_pow2 (v_num vs') <= length G)%nat ->
  v_flattened (c_z (verifier_challenges T t' p (next_pow2 (v_num vs')))) vs' = Ok w ->
  length (ip_L (ipp p)) = Nat.log2_up (v_num vs') -> (Nat.log2_up (v_num vs') < 32)%nat -> lg 1%nat = 0%nat -> length (ip_R (ipp p)) <> length (ip_L (ipp p)) ->
  verify T lg cbs vs tr p g h G H r = Err Panic.
Proof.
  intros lg cbs vs vs' tr t' p g h G H w r Ev C0 C Hw HL Hk Hlg Ne. pose proof (v_flatten_lens _ _ _ _ _ Hw) as (Lw1 & Lw2 & Lw3 & Lw4).
  unfold verify. change (commit_point T (commit_point T (commit_point T (append_u64 tr "m" (length (v_V vs))) "A_I1" (A_I1 p)) "A_O1" (A_O1 p)) "S1" (S1 p)) with (verifier_phase1 vs p tr).
  rewrite Ev. cbn [rbind]. rewrite (proj2 (Nat.ltb_ge _ _) C). unfold verifier_challenges in Hw. unfold challenge_scalar in *. cbn [c_z] in Hw. rewrite Hw. cbn [rbind].
  match goal with |- context [verification_scalars T lg _ _ ?n ?t] => destruct (verification_scalars T lg (ip_L (ipp p)) (ip_R (ipp p)) n t) as [[[[usq uinv] s] t2]|e] eqn:VS end.
  2:{ match type of VS with verification_scalars T lg _ _ ?n ?t = _ => pose proof (scalars_shape lg (ip_L (ipp p)) (ip_R (ipp p)) n t) as Sh end.
      rewrite VS in Sh. rewrite Sh; auto; [unfold next_pow2; now rewrite HL|lia]. }
  match type of VS with verification_scalars T lg _ _ ?n ?t = _ => pose proof (scalars_shape lg (ip_L (ipp p)) (ip_R (ipp p)) n t) as Sh end.
  rewrite VS in Sh. destruct Sh as (S1 & S2 & S3 & S4); [unfold next_pow2; now rewrite HL|lia|exact Hlg|]. clear VS.
  pose proof (next_pow2_ge (v_num vs')) as HnN.
  rewrite (slice_ok G 0) by lia. cbn [rbind]. unfold slice. destruct (Nat.leb_spec (next_pow2 (v_num vs')) (length H)) as [HH|HH]; [|reflexivity]. cbn [rbind].
  rewrite Nat.sub_0_r. unfold multi_scalar_mul. match goal with |- context [(?a =? ?b)%nat] => destruct (Nat.eqb_spec a b) as [E|E]; [|reflexivity] end. exfalso. revert E.
  unfold vandermonde. repeat rewrite ?app_length, ?map_length, ?firstn_length, ?skipn_length, ?seq_length, ?combine_length, ?repeat_length, ?rev_length. unfold zip_with. repeat rewrite ?app_length, ?map_length, ?firstn_length, ?skipn_length, ?seq_length, ?combine_length, ?repeat_length, ?rev_length. cbn [length].
  rewrite Lw1, Lw2, Lw3, Lw4, S1, S2, S3. lia.
Qed.
End Props.

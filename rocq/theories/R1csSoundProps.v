(** C131: from a tree of accepted R1CS proofs one computes an assignment of the multiplication
    gates that satisfies every gate and, together with the committed points, every constraint;
    or a relation between the generators. *)
From Coq Require Import String.
From Verif Require Import Base Alg Lin Poly TranscriptModel IppModel IppLib IppSpec IppProps IppSoundSpec IppForkSpec IppSoundLib IppForkProps R1csModel R1csSpec R1csLib R1csProofModel R1csProofLib R1csProofSpec R1csCheckProps R1csSoundSpec InterpLib R1csSoundLib.
Import List ListNotations.
Open Scope list_scope.

Section Sound.
Context {K : fieldOps} (HK : field_laws K) {M : modOps K} (HM : mod_laws M).
Add Field Kft : (proj1 HK).

Lemma some_leaf (leaf : tcode M -> K -> K -> list M -> list M -> list K -> Prop) : forall t k Ls Rs xs, shape k (scalars t) -> length Ls = length xs -> length Rs = length xs -> every_leaf leaf t Ls Rs xs ->
  exists T a b Ls' Rs' xs', leaf T a b Ls' Rs' xs' /\ length Ls' = (length xs + k)%nat /\ length Rs' = (length xs + k)%nat.
Proof.
  induction t as [T a b|L R x1 t1 IH1 x2 t2 IH2 x3 t3 IH3 x4 t4 IH4]; intros k Ls Rs xs Sh EL ER A; destruct k as [|k]; try contradiction.
  - exists T, a, b, Ls, Rs, xs. split; [exact A|lia].
  - destruct Sh as (S1 & _). destruct A as (_ & A1 & _). destruct (IH1 k (Ls ++ [L]) (Rs ++ [R]) (xs ++ [x1]) S1) as (T & a & b & Ls' & Rs' & xs' & H1 & H2 & H3); [rewrite !app_length; cbn [length]; lia..|exact A1|].
    exists T, a, b, Ls', Rs', xs'. rewrite app_length in H2, H3. cbn [length] in H2, H3. split; [exact H1|lia].
Qed.
Lemma lin_zip (f : nat -> K) (G : list M) s n : (n <= length G)%nat -> length s = n -> lin (zip_with smul (map f (seq 0 n)) (firstn n G)) s = gl G n (fun i => fmul (f i) (nth i s f0)).
Proof.
  intros HG Ls. assert (length (firstn n G) = n) as Lf by (rewrite firstn_length; lia). assert (length (map f (seq 0 n)) = n) as Lm by (now rewrite map_length, seq_length).
  rewrite <- (lin_hadamard HK HM) by congruence. assert (length (hadamard s (map f (seq 0 n))) = n) as Lh by (unfold hadamard; rewrite zip_with_length; congruence). rewrite lin_firstn by lia. rewrite (lin_gl HK HM _ _ n) by lia.
  apply gl_ext. intros i Hi. unfold hadamard. rewrite (nth_zip_with fmul _ _ i f0 f0) by lia. rewrite nth_map_seq by exact Hi. ring.
Qed.

Context (lg : nat -> nat) (cbs : tcode M -> list (vcallback M)) (vs vs' : vstate K M) (tr : transcript) (g h : M) (G H : list M).
Notation n1 := (v_num vs). Notation n := (v_num vs'). Notation k := (Nat.log2_up (v_num vs')). Notation N := (2 ^ Nat.log2_up (v_num vs'))%nat.
Notation m := (length (v_V vs')). Notation Vs := (v_V vs'). Notation cons := (v_cons vs').
Notation D := (N + N + 2)%nat. Notation B := (basis k g h G H).
Context (AI1 AO1 S1' AI2 AO2 S2' : M).
Hypothesis Hmore : (n1 <= n)%nat.
Hypothesis HG : (N <= length G)%nat.
Hypothesis HH : (N <= length H)%nat.
Hypothesis Hk : (k < 32)%nat.
Hypothesis Hlg : log_exact lg N.
Hypothesis Hsc : v_scoped vs'.
Lemma HnN : (n <= N)%nat. Proof. apply next_pow2_ge. Qed.

Definition leaf_eqs (y : K) (c : fz M) (u : K) (b : fx M) (w : K) (a0 b0 : K) (Ls Rs : list M) (xs : list K) : Prop :=
  let p := mkR1cs AI1 AO1 S1' AI2 AO2 S2' (fz_T1 c) (fz_T3 c) (fz_T4 c) (fz_T5 c) (fz_T6 c) (fx_t b) (fx_tb b) (fx_e b) (mkIpp Ls Rs a0 b0) in
  let wt := weights_at n m cons (fz_z c) in
  t_equation g h Vs n wt p y (fx_x b) /\
  ipp_equation G H (phase_weight n1 u) (fun i => fmul (fpow (finv y) i) (phase_weight n1 u i)) (ipp_point g h G H n1 N wt p y u (fx_x b) w) (smul w g) N xs (ipp p).
Lemma leaf_equations y c u b w T a0 b0 Ls Rs xs : leaf_accepted lg cbs vs vs' tr g h G H AI1 AO1 S1' AI2 AO2 S2' y c u b w T a0 b0 Ls Rs xs ->
  length Ls = k -> length Rs = k -> leaf_eqs y c u b w a0 b0 Ls Rs xs.
Proof.
  unfold leaf_accepted, leaf_eqs. cbv zeta. set (p := mkR1cs _ _ _ _ _ _ _ _ _ _ _ _ _ _ _). intros (HT & t' & Er & Ec & r & r' & Nr & V1 & V2) EL ER.
  destruct (flatten_Phi HK HM n m k cons g G H Vs HG HH HnN eq_refl Hsc (fz_z c) (fun _ => f1) eq_refl) as (Ef & _ & _).
  assert (right_sizes T lg (cbs T) vs vs' tr t' p G H (weights_at n m cons (fz_z c))) as RZ.
  { split; auto. rewrite Ec. exact Ef. }
  pose proof (proj1 (proj2 (C96_accepts_iff HK HM T lg (cbs T) vs vs' tr t' p g h G H _ HT RZ)) r r' Nr V1 V2) as E. unfold equations in E. cbv zeta in E. rewrite Ec in E. exact E.
Qed.

Definition gfs (u : K) : list K := map (phase_weight n1 u) (seq 0 N).
Definition hfs (y u : K) : list K := map (fun i => fmul (fpow (finv y) i) (phase_weight n1 u i)) (seq 0 N).
Lemma ipp_level y c u b w' (ft : ftree M) : y <> f0 -> u <> f0 -> w' <> f0 -> shape k (scalars ft) ->
  every_leaf (leaf_accepted lg cbs vs vs' tr g h G H AI1 AO1 S1' AI2 AO2 S2' y c u b w') ft [] [] [] ->
  Rel B D (map (ipp_rel n1 k y u w') (relations k (scalars ft))) \/
  gl B D (rep_x n1 n m k cons y (fz_z c) u (s_x b) w' (extract k (scalars ft))) = P3 (fx_x b) (madd AI1 (smul u AI2)) (madd AO1 (smul u AO2)) (madd S1' (smul u S2')).
Proof.
  intros Ny Nu Nw Sh A. set (wt := weights_at n m cons (fz_z c)).
  set (Gb := zip_with smul (gfs u) (firstn N G)). set (Hb := zip_with smul (hfs y u) (firstn N H)).
  assert (length (gfs u) = N /\ length (hfs y u) = N) as [Lgf Lhf] by (unfold gfs, hfs; now rewrite !map_length, !seq_length).
  assert (length (firstn N G) = N /\ length (firstn N H) = N) as [LGN LHN] by (rewrite !firstn_length; lia).
  assert (length Gb = N) as LG by (unfold Gb; rewrite zip_with_length; congruence). assert (length Hb = N) as LH by (unfold Hb; rewrite zip_with_length; congruence).
  set (P := ipp_point g h G H n1 N wt (mkR1cs AI1 AO1 S1' AI2 AO2 S2' m0 m0 m0 m0 m0 (fx_t b) (fx_tb b) (fx_e b) (mkIpp [] [] f0 f0)) y u (fx_x b) w').
  destruct (extract_length k (scalars ft) Sh) as [La Lb].
  destruct (leaves_sound HK HM _ k Gb Hb P (smul w' g) ft LG LH Sh A) as [E|(r & I & Lr & (d & Id & Nd) & Er)].
  - intros T a0 b0 Ls Rs xs Lf E1 E2 E3 Nx. destruct (leaf_equations _ _ _ _ _ _ _ _ _ _ _ Lf E1 E2) as [_ E]. unfold ipp_equation in E. cbn [ipp ip_L ip_R ip_a ip_b] in E.
    unfold path_eq. change (ipp_point g h G H n1 N (weights_at n m cons (fz_z c)) (mkR1cs AI1 AO1 S1' AI2 AO2 S2' (fz_T1 c) (fz_T3 c) (fz_T4 c) (fz_T5 c) (fz_T6 c) (fx_t b) (fx_tb b) (fx_e b) (mkIpp Ls Rs a0 b0)) y u (fx_x b) w') with P in E. rewrite E.
    pose proof (sv_signed HK xs Nx) as Sv. rewrite E3 in Sv. unfold Gb, Hb, gfs, hfs. rewrite !lin_zip by (rewrite ?rev_length, ?sv_length; congruence || lia). rewrite !(gl_smul HK HM). f_equal. f_equal; apply gl_ext; intros i Hi; destruct (Sv i Hi) as [Ev1 Ev2]; rewrite ?Ev1, ?Ev2; ring.
  - right. unfold represents in E. destruct (extract k (scalars ft)) as [l r]. cbn [fst snd] in *. rewrite (lin_app HM), (lin_app HM) in E by congruence. rewrite lin_cons, lin_nil_l in E.
    unfold Gb, Hb, gfs, hfs in E. rewrite !lin_zip in E by (congruence || lia). unfold P, ipp_point in E. cbn [A_I1 A_O1 S1 A_I2 A_O2 S2 t_x e_blinding] in E.
    rewrite (gl_basis HK HM n m k g h G H Vs HG HH HnN eq_refl). unfold P3.
    rewrite (gl_ext G N (rep_x n1 n m k cons y (fz_z c) u (s_x b) w' (l, r)) (fun i => fadd (fmul (phase_weight n1 u i) (nth i l f0)) (fmul (fopp f1) (fmul (phase_weight n1 u i) (fmul (fx_x b) (fmul (nth i (w_R wt) f0) (fpow (finv y) i))))))).
    2:{ intros i Hi. unfold rep_x. rewrite (proj2 (Nat.ltb_lt i N) Hi). cbn [fst s_x sx_x]. fold wt. ring. }
    rewrite (gl_ext H N (fun i => rep_x n1 n m k cons y (fz_z c) u (s_x b) w' (l, r) (N + i)%nat) (fun i => fadd (fmul (fmul (fpow (finv y) i) (phase_weight n1 u i)) (nth i r f0)) (fmul (fopp f1) (fmul (phase_weight n1 u i) (fsub (fmul (fpow (finv y) i) (fadd (fmul (fx_x b) (nth i (w_L wt) f0)) (nth i (w_O wt) f0))) f1))))).
    2:{ intros i Hi. unfold rep_x. rewrite (proj2 (Nat.ltb_ge (N + i) N)), (proj2 (Nat.ltb_lt (N + i) (N + N))) by lia. cbv zeta. replace (N + i - N)%nat with i by lia. cbn [snd s_x sx_x]. fold wt. ring. }
    rewrite <- !(gl_add HK HM), <- !(gl_smul HK HM).
    assert (rep_x n1 n m k cons y (fz_z c) u (s_x b) w' (l, r) (N + N)%nat = fmul (fsub (inner l r) (fx_t b)) w') as ->.
    { unfold rep_x, gcoef. rewrite !(proj2 (Nat.ltb_ge _ _)), Nat.eqb_refl by lia. reflexivity. }
    assert (rep_x n1 n m k cons y (fz_z c) u (s_x b) w' (l, r) (N + N + 1)%nat = fx_e b) as ->.
    { unfold rep_x, gcoef. rewrite !(proj2 (Nat.ltb_ge _ _)), (proj2 (Nat.eqb_neq (N + N + 1) (N + N))), Nat.eqb_refl by lia. reflexivity. }
    match type of E with madd _ (madd (madd (gl G N ?f1') (gl H N ?f2')) _) = madd (gl G N ?f3') (madd (gl H N ?f4') _) => revert E; generalize (gl G N f1') (gl H N f2') (gl G N f3') (gl H N f4') end.
    intros e1 e2 e3 e4 E. generalize (inner l r) (fx_t b) (fx_e b) (fx_x b) E. clear - HK HM. intros ip tx eb x E.
    match type of E with madd ?Q _ = ?R => transitivity Q; [|module_coefs HK HM; ring]; transitivity (msub R (madd (madd e1 e2) (madd (smul tx (smul w' g)) (smul (fopp eb) h)))) end.
    + module_coefs HK HM; ring.
    + rewrite <- E. module_coefs HK HM; ring.
  - left. exists (ipp_rel n1 k y u w' r). split; [apply in_map_iff; exists r; split; [reflexivity|exact I]|]. split.
    + apply In_nth with (d := f0) in Id as (j & Hj & Ej). exists j. split; [lia|]. unfold ipp_rel. rewrite Ej.
      assert (forall i, fpow (finv y) i <> f0) as Nyi by (intros i Z; pose proof (fpow_inv HK y i Ny) as Py; rewrite Z in Py; apply (f1_neq_0 _ HK); rewrite <- Py; ring).
      assert (forall a c : K, a <> f0 -> c <> f0 -> fmul a c <> f0) as Nm by (intros a e Na Ne Z; apply (fmul_integral _ HK) in Z as [Z|Z]; contradiction).
      pose proof (phase_weight_nz HK n1 u) as Np.
      destruct (Nat.ltb_spec j N); [apply Nm; auto|]. destruct (Nat.ltb_spec j (N + N)); [apply Nm; [apply Nm; auto|auto]|]. unfold gcoef. rewrite (proj2 (Nat.eqb_eq j (N + N))) by lia. apply Nm; auto.
    + destruct (rep_split _ _ Lr) as (rg & rh & e & -> & Lg & Lh). rewrite (lin_app HM), (lin_app HM) in Er by congruence. rewrite lin_cons, lin_nil_l in Er. unfold Gb, Hb, gfs, hfs in Er. rewrite !lin_zip in Er by (congruence || lia).
      rewrite (gl_basis HK HM n m k g h G H Vs HG HH HnN eq_refl).
      rewrite (gl_ext G N (ipp_rel n1 k y u w' (rg ++ rh ++ [e])) (fun i => fmul (phase_weight n1 u i) (nth i rg f0))).
      2:{ intros i Hi. unfold ipp_rel. rewrite (proj2 (Nat.ltb_lt i N) Hi), app_nth1 by lia. reflexivity. }
      rewrite (gl_ext H N (fun i => ipp_rel n1 k y u w' (rg ++ rh ++ [e]) (N + i)%nat) (fun i => fmul (fmul (fpow (finv y) i) (phase_weight n1 u i)) (nth i rh f0))).
      2:{ intros i Hi. unfold ipp_rel. rewrite (proj2 (Nat.ltb_ge (N + i) N)), (proj2 (Nat.ltb_lt (N + i) (N + N))) by lia. replace (N + i - N)%nat with i by lia. rewrite app_nth2, app_nth1 by lia. rewrite Lg. replace (N + i - N)%nat with i by lia. reflexivity. }
      assert (ipp_rel n1 k y u w' (rg ++ rh ++ [e]) (N + N)%nat = fmul w' e) as ->.
      { unfold ipp_rel, gcoef. rewrite !(proj2 (Nat.ltb_ge _ _)), Nat.eqb_refl by lia. rewrite app_nth2, app_nth2 by lia. rewrite Lg, Lh. replace (N + N - N - N)%nat with 0%nat by lia. reflexivity. }
      assert (ipp_rel n1 k y u w' (rg ++ rh ++ [e]) (N + N + 1)%nat = f0) as ->.
      { unfold ipp_rel, gcoef. rewrite !(proj2 (Nat.ltb_ge _ _)), (proj2 (Nat.eqb_neq (N + N + 1) (N + N))), Nat.eqb_refl by lia. reflexivity. }
      rewrite <- Er. module_coefs HK HM; ring.
Qed.

Lemma x_level y c u b : y <> f0 -> u <> f0 -> x_accepted lg cbs vs vs' tr g h G H AI1 AO1 S1' AI2 AO2 S2' y c u b ->
  Rel B D (rels_x n1 n m k cons y (fz_z c) u (s_x b)) \/
  ok_x n1 n m k cons g h G H Vs y (fz_z c) u (madd AI1 (smul u AI2)) (madd AO1 (smul u AO2)) (madd S1' (smul u S2')) (fz_T1 c) (fz_T3 c) (fz_T4 c) (fz_T5 c) (fz_T6 c) (s_x b).
Proof.
  intros Ny Nu (Nx & Nw1 & Nw2 & Nw & Sh1 & Sh2 & A1 & A2).
  destruct (ipp_level y c u b _ _ Ny Nu Nw1 Sh1 A1) as [R|E1]; [left; revert R; apply Rel_incl; intros r I; unfold rels_x; right; apply in_app_iff; now left|].
  destruct (ipp_level y c u b _ _ Ny Nu Nw2 Sh2 A2) as [R|E2]; [left; revert R; apply Rel_incl; intros r I; unfold rels_x; right; apply in_app_iff; now right|].
  destruct (same_or_rel HK HM B D (rels_x n1 n m k cons y (fz_z c) u (s_x b)) (rep1 n1 n m k cons y (fz_z c) u (s_x b)) (rep2 n1 n m k cons y (fz_z c) u (s_x b))) as [R|Same]; [now left|exact (eq_trans E1 (eq_sym E2))|now left|].
  right. split; [exact Nx|]. split; [exact E1|]. split.
  - cbv zeta. cbn [s_x sx_t sx_t1]. destruct (extract_length k (scalars (fx_t1 b)) Sh1) as [La1 Lb1]. destruct (extract_length k (scalars (fx_t2 b)) Sh2) as [La2 Lb2].
    unfold rep1, rep2 in Same. cbn [s_x sx_t1 sx_t2 sx_w1 sx_w2] in Same.
    destruct (extract k (scalars (fx_t1 b))) as [l1 r1]. destruct (extract k (scalars (fx_t2 b))) as [l2 r2]. cbn [fst snd] in *.
    assert (forall a p q : K, a <> f0 -> fmul a p = fmul a q -> p = q) as Cancel.
    { intros a p q Na E. transitivity (fmul (finv a) (fmul a p)); [field; exact Na|]. rewrite E. field. exact Na. }
    assert (forall p q s : K, fsub p s = fsub q s -> p = q) as Csub by (intros p q s E; transitivity (fadd (fsub p s) s); [ring|]; rewrite E; ring).
    assert (forall i, (i < N)%nat -> nth i l1 f0 = nth i l2 f0) as El.
    { intros i Hi. specialize (Same i ltac:(lia)). unfold rep_x in Same. rewrite (proj2 (Nat.ltb_lt i N) Hi) in Same. cbn [fst] in Same. apply Csub in Same. eapply Cancel; [|exact Same]. now apply (phase_weight_nz HK). }
    assert (forall i, (i < N)%nat -> nth i r1 f0 = nth i r2 f0) as Er.
    { intros i Hi. specialize (Same (N + i)%nat ltac:(lia)). unfold rep_x in Same. rewrite (proj2 (Nat.ltb_ge (N + i) N)), (proj2 (Nat.ltb_lt (N + i) (N + N))) in Same by lia. cbv zeta in Same. replace (N + i - N)%nat with i in Same by lia. cbn [snd] in Same. apply Csub in Same. eapply Cancel; [|exact Same].
      intros Z. apply (fmul_integral _ HK) in Z as [Z|Z]; [|now apply (phase_weight_nz HK n1 u i Nu) in Z]. pose proof (fpow_inv HK y i Ny) as Py. rewrite Z in Py. apply (f1_neq_0 _ HK). rewrite <- Py. ring. }
    specialize (Same (N + N)%nat ltac:(lia)). unfold rep_x, gcoef in Same. rewrite !(proj2 (Nat.ltb_ge _ _)), Nat.eqb_refl in Same by lia. cbn [fst snd s_x sx_t] in Same.
    rewrite !(inner_ksum HK _ _ N) in Same by congruence. rewrite (ksum_ext N (fun i => fmul (nth i l2 f0) (nth i r2 f0)) (fun i => fmul (nth i l1 f0) (nth i r1 f0))) in Same by (intros i Hi; now rewrite El, Er).
    apply (fsub_eq0 _ HK). revert Same. generalize (ksum N (fun i => fmul (nth i l1 f0) (nth i r1 f0))). intros e Same.
    assert (fmul (fsub e (fx_t b)) (fsub (fx_w1 b) (fx_w2 b)) = f0) as Z by (transitivity (fsub (fmul (fsub e (fx_t b)) (fx_w1 b)) (fmul (fsub e (fx_t b)) (fx_w2 b))); [ring|]; rewrite Same; ring).
    apply (fmul_integral _ HK) in Z as [Z|Z]; [transitivity (fopp (fsub e (fx_t b))); [ring|]; rewrite Z; ring|]. apply (fsub_eq0 _ HK) in Z. contradiction.
  - destruct (some_leaf _ (fx_t1 b) k [] [] [] Sh1 eq_refl eq_refl A1) as (T & a0 & b0 & Ls & Rs & xs & Lf & EL & ER). destruct (leaf_equations _ _ _ _ _ _ _ _ _ _ _ Lf EL ER) as [E _].
    unfold t_equation in E. cbn [t_x t_x_blinding T_1 T_3 T_4 T_5 T_6] in E. cbn [s_x sx_t sx_tb sx_x]. rewrite E. unfold Xz. module_coefs HK HM; ring.
Qed.

Theorem C131_gates_and_constraints : forall t : list (fy M), r1cs_accepted lg cbs vs vs' tr g h G H AI1 AO1 S1' AI2 AO2 S2' t ->
  let s := map s_y t in
  ((forall i, (i < N)%nat -> fmul (ex_aL n1 n m k cons s i) (ex_aR n1 n m k cons s i) = ex_aO n1 n m k cons s i) /\
   forall q v, (q < length cons)%nat -> point_value g Vs (ex_assignment n1 n m k cons s v) (nth q cons []) = smul (ex_blinding s q) h)
  \/ exists r, In r (rels_r1cs n1 n m k cons s) /\ (exists j, (j < 2 * N + 2)%nat /\ r j <> f0) /\ gl (firstn N G ++ firstn N H ++ [g; h]) (2 * N + 2) r = m0.
Proof.
  intros t (Lt & NDt & A) s.
  assert (2 * N + 2 = D)%nat as -> by lia.
  assert (forall (b : fy M) r, In b t -> In r (rels_y n1 n m k cons s (s_y b)) -> In r (rels_r1cs n1 n m k cons s)) as Iy by (intros b r Ib Ir; unfold rels_r1cs; apply in_flat_map; exists (s_y b); split; [now apply in_map|exact Ir]).
  assert (forall (b : fy M) c r, In b t -> In c (fy_zs b) -> In r (rels_z n1 n m k cons (fy_y b) (s_z c)) -> In r (rels_r1cs n1 n m k cons s)) as Iz.
  { intros b c r Ib Ic Ir. apply (Iy b r Ib). unfold rels_y. right. apply in_flat_map. exists (s_z c). split; [now apply in_map|]. apply in_app_iff. right. exact Ir. }
  assert (forall (b : fy M) c d r, In b t -> In c (fy_zs b) -> In d (fz_us c) -> In r (rels_u n1 n m k cons (fy_y b) (fz_z c) (s_u d)) -> In r (rels_r1cs n1 n m k cons s)) as Iu.
  { intros b c d r Ib Ic Id Ir. apply (Iz b c r Ib Ic). unfold rels_z. do 3 (apply in_app_iff; right). apply in_flat_map. exists (s_u d). split; [now apply in_map|exact Ir]. }
  assert (Rel B D (rels_r1cs n1 n m k cons s) \/ forall b, In b t -> forall c, In c (fy_zs b) -> forall d, In d (fz_us c) -> forall e, In e (fu_xs d) ->
    ok_x n1 n m k cons g h G H Vs (fy_y b) (fz_z c) (fu_u d) (madd AI1 (smul (fu_u d) AI2)) (madd AO1 (smul (fu_u d) AO2)) (madd S1' (smul (fu_u d) S2')) (fz_T1 c) (fz_T3 c) (fz_T4 c) (fz_T5 c) (fz_T6 c) (s_x e)) as [R|OKx].
  { apply or_all; intros b Ib; apply or_all; intros c Ic; apply or_all; intros d Id; apply or_all; intros e Ie.
    destruct (A b Ib) as (Ny & _ & _ & Az). destruct (Az c Ic) as (_ & _ & Au). destruct (Au d Id) as (Nu & _ & _ & Ax).
    destruct (x_level _ _ _ _ Ny Nu (Ax e Ie)) as [R|O]; [left|now right]. revert R. apply Rel_incl. intros r Ir. apply (Iu b c d r Ib Ic Id). unfold rels_u. apply in_app_iff. right. apply in_flat_map. exists (s_x e). split; [now apply in_map|exact Ir]. }
  { right. exact R. }
  assert (Rel B D (rels_r1cs n1 n m k cons s) \/ forall b, In b t -> forall c, In c (fy_zs b) -> forall d, In d (fz_us c) -> ok_u n1 n m k cons g h G H Vs (fy_y b) (fz_z c) AI1 AO1 AI2 AO2 (s_u d)) as [R|OKu].
  { apply or_all; intros b Ib; apply or_all; intros c Ic; apply or_all; intros d Id.
    destruct (A b Ib) as (Ny & _ & _ & Az). destruct (Az c Ic) as (_ & _ & Au). destruct (Au d Id) as (Nu & L6 & ND & _).
    destruct (u_level HK HM n1 n m k cons g h G H Vs HG HH HnN eq_refl Hsc (fy_y b) (fz_z c) AI1 AO1 S1' AI2 AO2 S2' (fz_T1 c) (fz_T3 c) (fz_T4 c) (fz_T5 c) (fz_T6 c) (s_u d)) as [R|O].
    - exact Ny.
    - exact Nu.
    - cbn [s_u su_xs]. now rewrite map_length.
    - cbn [s_u su_xs]. rewrite map_map. exact ND.
    - cbn [s_u su_xs su_u]. intros e Ie. apply in_map_iff in Ie as (e' & <- & Ie). apply (OKx b Ib c Ic d Id e' Ie).
    - left. revert R. apply Rel_incl. intros r Ir. apply (Iu b c d r Ib Ic Id Ir).
    - now right. }
  { right. exact R. }
  assert (Rel B D (rels_r1cs n1 n m k cons s) \/ forall b, In b t -> forall c, In c (fy_zs b) -> ok_z n1 n m k cons g h G H Vs (fy_y b) AI1 AO1 AI2 AO2 (s_z c)) as [R|OKz].
  { apply or_all; intros b Ib; apply or_all; intros c Ic. destruct (A b Ib) as (Ny & _ & _ & Az). destruct (Az c Ic) as (L5 & ND & _).
    destruct (z_level HK HM n1 n m k cons g h G H Vs HG HH HnN eq_refl Hsc (fy_y b) AI1 AO1 AI2 AO2 (s_z c)) as [R|O].
    - cbn [s_z sz_us]. now rewrite map_length.
    - cbn [s_z sz_us]. rewrite map_map. exact ND.
    - cbn [s_z sz_us sz_z]. intros d Id. apply in_map_iff in Id as (d' & <- & Id). apply (OKu b Ib c Ic d' Id).
    - left. revert R. apply Rel_incl. intros r Ir. apply (Iz b c r Ib Ic Ir).
    - now right. }
  { right. exact R. }
  destruct (top_level HK HM n1 n m k cons g h G H Vs HG HH HnN eq_refl Hsc s AI1 AO1 AI2 AO2) as [R|O].
  - unfold s. now rewrite map_length.
  - unfold s. rewrite map_map. exact NDt.
  - intros b Ib. unfold s in Ib. apply in_map_iff in Ib as (b' & <- & Ib). destruct (A b' Ib) as (Ny & Lz & NDz & _). cbn [s_y sy_y sy_zs]. split; [exact Ny|]. split; [now rewrite map_length|]. split; [rewrite map_map; exact NDz|].
    intros c Ic. apply in_map_iff in Ic as (c' & <- & Ic). apply (OKz b' Ib c' Ic).
  - right. exact R.
  - left. exact O.
Qed.

(** ** with openings of the commitments *)
Lemma point_value_open (v bl : list K) w l : (forall i, (i < m)%nat -> nth i Vs m0 = madd (smul (nth i v f0) g) (smul (nth i bl f0) h)) ->
  (forall x c, In (x, c) l -> in_range n m x) -> (forall i, w (Committed i) = nth i v f0) ->
  point_value g Vs w l = madd (smul (lc_value w l) g) (smul (lc_blinding bl l) h).
Proof.
  intros EV Sc Wv. induction l as [|[x c] l IH].
  - unfold point_value, lc_blinding. rewrite lv_nil. cbn [map msum fsum]. module_coefs HK HM; ring.
  - specialize (IH (fun x c I => Sc x c (or_intror I))). unfold point_value, lc_blinding in *. cbn [map msum fsum fst snd]. rewrite IH, lv_cons.
    destruct x as [i| | | |]; try (module_coefs HK HM; ring). rewrite Wv, EV by (apply (Sc (Committed i) c); now left). module_coefs HK HM; ring.
Qed.
(** whoever also knows openings [v], [bl] of the commitments has a satisfying assignment with
    these committed values, or a relation between the generators *)
Theorem C131_satisfied : forall (t : list (fy M)) (v bl : list K), r1cs_accepted lg cbs vs vs' tr g h G H AI1 AO1 S1' AI2 AO2 S2' t ->
  (forall i, (i < m)%nat -> nth i Vs m0 = madd (smul (nth i v f0) g) (smul (nth i bl f0) h)) ->
  let s := map s_y t in let w := ex_assignment n1 n m k cons s v in
  vsat w vs' \/
  (exists q, (q < length cons)%nat /\ let l := nth q cons [] in lc_value w l <> f0 /\ madd (smul (lc_value w l) g) (smul (fsub (lc_blinding bl l) (ex_blinding s q)) h) = m0) \/
  exists r, In r (rels_r1cs n1 n m k cons s) /\ (exists j, (j < 2 * N + 2)%nat /\ r j <> f0) /\ gl (firstn N G ++ firstn N H ++ [g; h]) (2 * N + 2) r = m0.
Proof.
  intros t v bl A EV s w. destruct (C131_gates_and_constraints t A) as [[Ga Co]|R]; [|right; right; exact R]. fold s in Ga, Co.
  assert ((exists q, (q < length cons)%nat /\ lc_value w (nth q cons []) <> f0) \/ forall q, (q < length cons)%nat -> lc_value w (nth q cons []) = f0) as [(q & Hq & Nz)|Z].
  { clear - HK. generalize (length cons). intros L. induction L as [|L [(q & Hq & Nz)|Z]]; [right; intros; lia|left; exists q; split; [lia|exact Nz]|].
    destruct (feq_dec _ HK (lc_value w (nth L cons [])) f0) as [E|E]; [right; intros q Hq; destruct (Nat.eq_dec q L) as [->|]; [exact E|apply Z; lia]|left; exists L; split; [lia|exact E]]. }
  - right. left. exists q. split; [exact Hq|]. cbv zeta. split; [exact Nz|]. pose proof (Co q v Hq) as E. rewrite (point_value_open v bl) in E; [|exact EV|intros x c I; apply (Hsc (nth q cons []) x c); [now apply nth_In|exact I]|reflexivity].
    fold w in E. transitivity (msub (madd (smul (lc_value w (nth q cons [])) g) (smul (lc_blinding bl (nth q cons [])) h)) (smul (ex_blinding s q) h)); [module_coefs HK HM; ring|]. rewrite E. module_coefs HK HM; ring.
  - left. split; [reflexivity|]. split.
    + intros i Hi. cbn. symmetry. apply Ga. pose proof HnN. lia.
    + intros l Il. apply In_nth with (d := []) in Il as (q & Hq & <-). now apply Z.
Qed.
End Sound.

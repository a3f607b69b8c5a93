(** C109: attribute tokens hide what is not revealed
    (libzmix/src/signatures/delg_cred_cdd/attribute_token.rs). *)
From Verif Require Import Base BnModel Alg Lin ClRevModel ClRevSpec BbsModel BbsLib BbsProps PsModel PsLib GrothModel DelegModel GrothSpec GrothLib DelegLib TokenModel TokenSpec TokenLib TokenRecon TokenRun TokenProps.
Import List ListNotations.
Open Scope list_scope.
Open Scope Z_scope.

Lemma finite_choice {A} (P : nat -> A -> Prop) (a0 : A) n : (forall i, (i < n)%nat -> exists x, P i x) -> exists f, forall i, (i < n)%nat -> P i (f i).
Proof.
  induction n as [|n IH]; intros H; [exists (fun _ => a0); intros; lia|].
  destruct IH as (f & F); [intros i Hi; apply H; lia|]. destruct (H n ltac:(lia)) as (x & X).
  exists (fun i => if (i =? n)%nat then x else f i). intros i Hi. destruct (Nat.eqb_spec i n) as [->|N]; [exact X|apply F; lia].
Qed.
Lemma level_choice {A} (PO PE : nat -> A -> Prop) (a0 : A) L : (forall k, (2 * k + 1 <= L)%nat -> exists x, PO k x) -> (forall k, (2 * k + 2 <= L)%nat -> exists x, PE k x) ->
  exists f, (forall k, (2 * k + 1 <= L)%nat -> PO k (f (2 * k + 1)%nat)) /\ (forall k, (2 * k + 2 <= L)%nat -> PE k (f (2 * k + 2)%nat)) /\ (forall i, (i = 0 \/ L < i)%nat -> f i = a0).
Proof.
  intros HO HE. destruct (finite_choice (fun i x => (1 <= i)%nat -> if (i mod 2 =? 1)%nat then PO (i / 2)%nat x else PE (i / 2 - 1)%nat x) a0 (S L)) as (f & F).
  - intros i Hi. destruct (Nat.eq_dec i 0) as [->|Ni]; [exists a0; intros Q; exfalso; lia|]. destruct (level_cases i ltac:(lia)) as [ (k & ->) | (k & ->) ].
    + destruct (odd_double k) as (-> & ->). destruct (HO k ltac:(lia)) as (x & X). exists x. intros _. exact X.
    + destruct (even_double k) as (-> & -> & _). destruct (HE k ltac:(lia)) as (x & X). exists x. intros _. exact X.
  - exists (fun i => if ((1 <=? i) && (i <=? L))%nat then f i else a0). split; [|split].
    + intros k Hk. rewrite (proj2 (Nat.leb_le 1 (2 * k + 1))), (proj2 (Nat.leb_le (2 * k + 1) L)) by lia. cbn [andb]. specialize (F (2 * k + 1)%nat ltac:(lia) ltac:(lia)). destruct (odd_double k) as (E1 & E2). now rewrite E1, E2 in F.
    + intros k Hk. rewrite (proj2 (Nat.leb_le 1 (2 * k + 2))), (proj2 (Nat.leb_le (2 * k + 2) L)) by lia. cbn [andb]. specialize (F (2 * k + 2)%nat ltac:(lia) ltac:(lia)). destruct (even_double k) as (E1 & E2 & _). now rewrite E1, E2 in F.
    + intros i [ -> | Hi ]; [reflexivity|]. rewrite (proj2 (Nat.leb_gt i L)) by lia. now rewrite andb_false_r.
Qed.
Lemma map_seq_ext {A} (f g : nat -> A) n : (forall k, (k < n)%nat -> f k = g k) -> map f (seq 0 n) = map g (seq 0 n).
Proof. intros H. apply map_ext_in. intros k Hk. apply in_seq in Hk. apply H. lia. Qed.

Section Solve.
Context {K : fieldOps} (HK : field_laws K) {M : modOps K} (HM : mod_laws M).
Add Field KfHi : (proj1 HK).
Lemma solve_bmul (g v target : M) ch : line M -> g <> m0 -> exists x, bmul g v x ch = target.
Proof.
  intros LN N. destruct (LN g (madd target (mopp (smul ch v))) N) as (x & E). exists x. unfold bmul. rewrite <- E. module_coefs HK HM; ring.
Qed.
Lemma solve_many (g : M) (v target : nat -> M) n ch : line M -> g <> m0 -> exists x : nat -> K, forall j, (j < n)%nat -> bmul g (v j) (x j) ch = target j.
Proof. intros LN N. apply (finite_choice (fun j x => bmul g (v j) x ch = target j) f0). intros j _. now apply solve_bmul. Qed.
Lemma solve_scale (R R' : M) x : line M -> R <> m0 -> R' <> m0 -> x <> f0 -> exists x', smul x' R' = smul x R /\ x' <> f0.
Proof.
  intros LN N N' Nx. destruct (LN R' (smul x R) N') as (x' & E). exists x'. split; [now symmetry|]. intros ->. rewrite (smul_0_l _ HK _ HM) in E. revert E. now apply (smul_nonzero HK HM).
Qed.
End Solve.

Section Hide.
Variable C : curve.
Hypothesis LW : curve_laws C.
Notation K := (cK C). Notation G1 := (cG1 C). Notation G2 := (cG2 C). Notation GT := (cGT C).
Let HK := cl_field C LW.
Let H1 := cl_g1 C LW.
Let H2 := cl_g2 C LW.
Let HT := cl_gt C LW.
Add Field KfTHi : (proj1 HK).

(** the reconstruction uses only the R's, the revealed maps and the numbers of attributes of the commitment *)
Lemma reconstruct_ext L (cm cm' : comm C) r ch revealed ipk p1 p2 : c_odd_r cm = c_odd_r cm' -> c_even_r cm = c_even_r cm' -> c_odd_rev cm = c_odd_rev cm' -> c_even_rev cm = c_even_rev cm' ->
  length (c_s cm) = length (c_s cm') -> map (@length GT) (c_t cm) = map (@length GT) (c_t cm') ->
  reconstruct_commitment L cm r ch revealed ipk p1 p2 = reconstruct_commitment L cm' r ch revealed ipk p1 p2.
Proof.
  destruct cm as [a b s t e f], cm' as [a' b' s' t' e' f']. cbn [c_odd_r c_even_r c_odd_rev c_even_rev c_s c_t]. intros <- <- <- <- LS LT.
  assert (length t = length t') as LT' by (apply (f_equal (@length _)) in LT; now rewrite !map_length in LT).
  unfold reconstruct_commitment, comm_validate. cbn [c_odd_r c_even_r c_odd_rev c_even_rev c_s c_t]. rewrite LS, LT'.
  match goal with |- rbind ?x _ = rbind ?x _ => destruct x; cbn [rbind]; [|reflexivity] end.
  destruct (resp_validate r L); cbn [rbind]; [|reflexivity]. destruct (at_ (p1_y p1) 0); cbn [rbind]; [|reflexivity]. destruct (at_ (p2_y p2) 0); cbn [rbind]; [|reflexivity].
  f_equal. apply rmap_ext. intros i _.
  assert ((exists x x', at_ t (i - 1) = Ok x /\ at_ t' (i - 1) = Ok x' /\ length x = length x') \/ (at_ t (i - 1) = Err Panic /\ at_ t' (i - 1) = Err Panic)) as EX.
  { unfold at_. apply (f_equal (fun l => nth_error l (i - 1))) in LT. rewrite !nth_error_map in LT. destruct (nth_error t (i - 1)) as [x|], (nth_error t' (i - 1)) as [x'|]; cbn [option_map] in LT; try discriminate; [left; exists x, x'; repeat split; congruence|right; split; reflexivity]. }
  destruct EX as [ (x & x' & -> & -> & EL) | (-> & ->) ]; cbn [rbind]; [now rewrite EL|reflexivity].
Qed.

Variables (p1 : params1 C) (p2 : params2 C) (c c' : chain C) (revealed : list (list nat)) (ipk : G2) (ev ev' : list G2) (od od' : list G1) (sk sk' ch : K) (d : draws K).
Hypothesis N1 : params1_ok p1.
Hypothesis N2 : params2_ok p2.
Hypothesis GG1 : p1_g1 p1 = p2_g1 p2.
Hypothesis GG2 : p1_g2 p1 = p2_g2 p2.
Hypothesis V : valid_chain p1 p2 c (ipk :: ev) od.
Hypothesis V' : valid_chain p1 p2 c' (ipk :: ev') od'.
Hypothesis HO : holds p1 p2 (chain_size c) (ipk :: ev) od sk.
Hypothesis HO' : holds p1 p2 (chain_size c') (ipk :: ev') od' sk'.
Hypothesis DI : disclosable c revealed.
Hypothesis DI' : disclosable c' revealed.
Hypothesis SD : same_disclosure c c' revealed.
Hypothesis ND : forall i, d_sig d i <> f0.
Hypothesis PR : proper_R c.
Hypothesis PR' : proper_R c'.
Hypothesis LN1 : line G1.
Hypothesis LN2 : line G2.
Hypothesis NG1 : p1_g1 p1 <> m0.
Hypothesis NG2 : p2_g2 p2 <> m0.
Let L := chain_size c.
Let BAL : balanced c := vc_balanced C _ _ _ _ _ V.
Let BAL' : balanced c' := vc_balanced C _ _ _ _ _ V'.
Lemma same_size : chain_size c' = L.
Proof. unfold L, chain_size. rewrite (sd_odd_n C _ _ _ SD), (sd_even_n C _ _ _ SD). reflexivity. Qed.
Lemma other_draws : exists d', (forall i, d_sig d' i <> f0) /\
  (forall k, (2 * k + 1 <= L)%nat ->
     s1_R (o_sig C c' d' k) = s1_R (o_sig C c d k) /\ o_rs C c' p1 d' ch k = o_rs C c p1 d ch k /\
     ((2 * k + 1 <> L)%nat -> o_rvk C p1 d' od' ch k = o_rvk C p1 d od ch k) /\ ((2 * k + 1 = L)%nat -> d_vk d' L = fsub (fadd (d_vk d L) (fmul ch sk)) (fmul ch sk')) /\
     (forall j, (j < oatt C c k)%nat -> bmul (p1_g1 p1) (nth j (s1_T (o_sig C c' d' k)) m0) (d_t d' (2 * k + 1) j) ch = bmul (p1_g1 p1) (nth j (s1_T (o_sig C c d k)) m0) (d_t d (2 * k + 1) j) ch) /\
     (forall j, (j < oatt C c k)%nat -> bmul (p1_g1 p1) (nth j (l1_attrs (ol C c' k)) m0) (d_a d' (2 * k + 1) j) ch = bmul (p1_g1 p1) (nth j (l1_attrs (ol C c k)) m0) (d_a d (2 * k + 1) j) ch)) /\
  (forall k, (2 * k + 2 <= L)%nat ->
     s2_R (e_sig C c' d' k) = s2_R (e_sig C c d k) /\ e_rs C c' p2 d' ch k = e_rs C c p2 d ch k /\
     ((2 * k + 2 <> L)%nat -> e_rvk C p2 d' ev' ch k = e_rvk C p2 d ev ch k) /\ ((2 * k + 2 = L)%nat -> d_vk d' L = fsub (fadd (d_vk d L) (fmul ch sk)) (fmul ch sk')) /\
     (forall j, (j < eatt C c k)%nat -> bmul (p2_g2 p2) (nth j (s2_T (e_sig C c' d' k)) m0) (d_t d' (2 * k + 2) j) ch = bmul (p2_g2 p2) (nth j (s2_T (e_sig C c d k)) m0) (d_t d (2 * k + 2) j) ch) /\
     (forall j, (j < eatt C c k)%nat -> bmul (p2_g2 p2) (nth j (l2_attrs (el C c' k)) m0) (d_a d' (2 * k + 2) j) ch = bmul (p2_g2 p2) (nth j (l2_attrs (el C c k)) m0) (d_a d (2 * k + 2) j) ch)).
Proof.
  destruct (level_choice (fun k x => smul x (s1_R (l1_sig (ol C c' k))) = smul (d_sig d (2 * k + 1)) (s1_R (l1_sig (ol C c k))) /\ x <> f0)
                         (fun k x => smul x (s2_R (l2_sig (el C c' k))) = smul (d_sig d (2 * k + 2)) (s2_R (l2_sig (el C c k))) /\ x <> f0) f1 L) as (fs & FO & FE & FD).
  { intros k Hk. apply (solve_scale HK H2); [exact LN2| | |apply ND].
    - apply (proj1 PR). eapply nth_error_In. apply (odd_at C c BAL k Hk).
    - apply (proj1 PR'). eapply nth_error_In. apply (odd_at C c' BAL' k). rewrite same_size. exact Hk. }
  { intros k Hk. apply (solve_scale HK H1); [exact LN1| | |apply ND].
    - apply (proj2 PR). eapply nth_error_In. apply (even_at C c BAL k Hk).
    - apply (proj2 PR'). eapply nth_error_In. apply (even_at C c' BAL' k). rewrite same_size. exact Hk. }
  assert (forall i, fs i <> f0) as FN.
  { intros i. destruct (Nat.eq_dec i 0) as [->|Ni]; [rewrite (FD _ (or_introl eq_refl)); apply (f1_neq_0 _ HK)|]. destruct (Nat.le_gt_cases i L) as [Hi|Hi]; [|rewrite (FD _ (or_intror Hi)); apply (f1_neq_0 _ HK)].
    destruct (level_cases i ltac:(lia)) as [ (k & ->) | (k & ->) ]; [apply FO|apply FE]; lia. }
  set (d0 := mkDraws fs (fun _ => f0) (fun _ => f0) (fun _ _ => f0) (fun _ _ => f0)).
  destruct (level_choice (fun k x => bmul (p1_g1 p1) (s1_S (o_sig C c' d0 k)) x ch = o_rs C c p1 d ch k) (fun k x => bmul (p2_g2 p2) (s2_S (e_sig C c' d0 k)) x ch = e_rs C c p2 d ch k) f0 L) as (ss & SO & SE & _);
    [intros; now apply (solve_bmul HK H1)|intros; now apply (solve_bmul HK H2)|].
  destruct (level_choice (fun k x => ((2 * k + 1 <> L)%nat -> bmul (p1_g1 p1) (nth k od' m0) x ch = o_rvk C p1 d od ch k) /\ ((2 * k + 1 = L)%nat -> x = fsub (fadd (d_vk d L) (fmul ch sk)) (fmul ch sk')))
                         (fun k x => ((2 * k + 2 <> L)%nat -> bmul (p2_g2 p2) (nth k ev' m0) x ch = e_rvk C p2 d ev ch k) /\ ((2 * k + 2 = L)%nat -> x = fsub (fadd (d_vk d L) (fmul ch sk)) (fmul ch sk'))) f0 L) as (vv & VO & VE & _).
  { intros k _. destruct (Nat.eq_dec (2 * k + 1) L) as [E|N]; [eexists; split; [intros; contradiction|intros _; reflexivity]|].
    destruct (solve_bmul HK H1 (p1_g1 p1) (nth k od' m0) (o_rvk C p1 d od ch k) ch LN1 NG1) as (x & X). exists x. split; [intros _; exact X|intros; contradiction]. }
  { intros k _. destruct (Nat.eq_dec (2 * k + 2) L) as [E|N]; [eexists; split; [intros; contradiction|intros _; reflexivity]|].
    destruct (solve_bmul HK H2 (p2_g2 p2) (nth k ev' m0) (e_rvk C p2 d ev ch k) ch LN2 NG2) as (x & X). exists x. split; [intros _; exact X|intros; contradiction]. }
  destruct (level_choice (fun k (x : nat -> K) => forall j, (j < oatt C c k)%nat -> bmul (p1_g1 p1) (nth j (s1_T (o_sig C c' d0 k)) m0) (x j) ch = bmul (p1_g1 p1) (nth j (s1_T (o_sig C c d k)) m0) (d_t d (2 * k + 1) j) ch)
                         (fun k (x : nat -> K) => forall j, (j < eatt C c k)%nat -> bmul (p2_g2 p2) (nth j (s2_T (e_sig C c' d0 k)) m0) (x j) ch = bmul (p2_g2 p2) (nth j (s2_T (e_sig C c d k)) m0) (d_t d (2 * k + 2) j) ch) (fun _ => f0) L) as (tt' & TO & TE & _);
    [intros k _; exact (solve_many HK H1 (p1_g1 p1) (fun j => nth j (s1_T (o_sig C c' d0 k)) m0) (fun j => bmul (p1_g1 p1) (nth j (s1_T (o_sig C c d k)) m0) (d_t d (2 * k + 1) j) ch) (oatt C c k) ch LN1 NG1)
    |intros k _; exact (solve_many HK H2 (p2_g2 p2) (fun j => nth j (s2_T (e_sig C c' d0 k)) m0) (fun j => bmul (p2_g2 p2) (nth j (s2_T (e_sig C c d k)) m0) (d_t d (2 * k + 2) j) ch) (eatt C c k) ch LN2 NG2)|].
  destruct (level_choice (fun k (x : nat -> K) => forall j, (j < oatt C c k)%nat -> bmul (p1_g1 p1) (nth j (l1_attrs (ol C c' k)) m0) (x j) ch = bmul (p1_g1 p1) (nth j (l1_attrs (ol C c k)) m0) (d_a d (2 * k + 1) j) ch)
                         (fun k (x : nat -> K) => forall j, (j < eatt C c k)%nat -> bmul (p2_g2 p2) (nth j (l2_attrs (el C c' k)) m0) (x j) ch = bmul (p2_g2 p2) (nth j (l2_attrs (el C c k)) m0) (d_a d (2 * k + 2) j) ch) (fun _ => f0) L) as (aa & AO & AE & _);
    [intros k _; exact (solve_many HK H1 (p1_g1 p1) (fun j => nth j (l1_attrs (ol C c' k)) m0) (fun j => bmul (p1_g1 p1) (nth j (l1_attrs (ol C c k)) m0) (d_a d (2 * k + 1) j) ch) (oatt C c k) ch LN1 NG1)
    |intros k _; exact (solve_many HK H2 (p2_g2 p2) (fun j => nth j (l2_attrs (el C c' k)) m0) (fun j => bmul (p2_g2 p2) (nth j (l2_attrs (el C c k)) m0) (d_a d (2 * k + 2) j) ch) (eatt C c k) ch LN2 NG2)|].
  exists (mkDraws fs ss vv tt' aa). split; [exact FN|]. split; intros k Hk.
  - destruct (FO k Hk) as (F1 & _). destruct (VO k Hk) as (V1 & V2). split; [exact F1|]. split; [exact (SO k Hk)|]. split; [exact V1|].
    split; [intros E; rewrite <- E at 1; exact (V2 E)|]. split; [exact (TO k Hk)|exact (AO k Hk)].
  - destruct (FE k Hk) as (F1 & _). destruct (VE k Hk) as (V1 & V2). split; [exact F1|]. split; [exact (SE k Hk)|]. split; [exact V1|].
    split; [intros E; rewrite <- E at 1; exact (V2 E)|]. split; [exact (TE k Hk)|exact (AE k Hk)].
Qed.
Lemma same_entries {M : modOps K} (attrs attrs' : list M) rev : same_at attrs attrs' rev -> rev_entries attrs m0 rev (length attrs - 1) = rev_entries attrs' m0 rev (length attrs' - 1).
Proof.
  intros (E & S). unfold rev_entries. rewrite <- E. apply map_ext_in. intros j Hj. apply filter_In in Hj as (Hj & Mj). apply in_seq in Hj. apply mem_in in Mj.
  f_equal. specialize (S j Mj ltac:(lia)). rewrite (nth_error_nth' _ m0) in S by lia. symmetry. apply nth_error_nth. now symmetry.
Qed.
Lemma o_same k : (2 * k + 1 <= L)%nat -> same_at (l1_attrs (ol C c k)) (l1_attrs (ol C c' k)) (orev revealed k).
Proof. intros Hk. apply (sd_odd C _ _ _ SD k); [now apply (odd_at C c BAL)|apply (odd_at C c' BAL'); rewrite same_size; exact Hk]. Qed.
Lemma e_same k : (2 * k + 2 <= L)%nat -> same_at (l2_attrs (el C c k)) (l2_attrs (el C c' k)) (erev revealed k).
Proof. intros Hk. apply (sd_even C _ _ _ SD k); [now apply (even_at C c BAL)|apply (even_at C c' BAL'); rewrite same_size; exact Hk]. Qed.
Lemma o_lt k : (k < (L + 1) / 2)%nat -> (2 * k + 1 <= L)%nat.
Proof. clear. intros H. pose proof (halves L). pose proof (Nat.div_mod L 2 ltac:(lia)). pose proof (Nat.mod_upper_bound L 2 ltac:(lia)). lia. Qed.
Lemma e_lt k : (k < L / 2)%nat -> (2 * k + 2 <= L)%nat.
Proof. clear. intros H. pose proof (Nat.div_mod L 2 ltac:(lia)). pose proof (Nat.mod_upper_bound L 2 ltac:(lia)). lia. Qed.
Lemma same_run d' : (forall i, d_sig d' i <> f0) ->
  (forall k, (2 * k + 1 <= L)%nat ->
     s1_R (o_sig C c' d' k) = s1_R (o_sig C c d k) /\ o_rs C c' p1 d' ch k = o_rs C c p1 d ch k /\
     ((2 * k + 1 <> L)%nat -> o_rvk C p1 d' od' ch k = o_rvk C p1 d od ch k) /\ ((2 * k + 1 = L)%nat -> d_vk d' L = fsub (fadd (d_vk d L) (fmul ch sk)) (fmul ch sk')) /\
     (forall j, (j < oatt C c k)%nat -> bmul (p1_g1 p1) (nth j (s1_T (o_sig C c' d' k)) m0) (d_t d' (2 * k + 1) j) ch = bmul (p1_g1 p1) (nth j (s1_T (o_sig C c d k)) m0) (d_t d (2 * k + 1) j) ch) /\
     (forall j, (j < oatt C c k)%nat -> bmul (p1_g1 p1) (nth j (l1_attrs (ol C c' k)) m0) (d_a d' (2 * k + 1) j) ch = bmul (p1_g1 p1) (nth j (l1_attrs (ol C c k)) m0) (d_a d (2 * k + 1) j) ch)) ->
  (forall k, (2 * k + 2 <= L)%nat ->
     s2_R (e_sig C c' d' k) = s2_R (e_sig C c d k) /\ e_rs C c' p2 d' ch k = e_rs C c p2 d ch k /\
     ((2 * k + 2 <> L)%nat -> e_rvk C p2 d' ev' ch k = e_rvk C p2 d ev ch k) /\ ((2 * k + 2 = L)%nat -> d_vk d' L = fsub (fadd (d_vk d L) (fmul ch sk)) (fmul ch sk')) /\
     (forall j, (j < eatt C c k)%nat -> bmul (p2_g2 p2) (nth j (s2_T (e_sig C c' d' k)) m0) (d_t d' (2 * k + 2) j) ch = bmul (p2_g2 p2) (nth j (s2_T (e_sig C c d k)) m0) (d_t d (2 * k + 2) j) ch) /\
     (forall j, (j < eatt C c k)%nat -> bmul (p2_g2 p2) (nth j (l2_attrs (el C c' k)) m0) (d_a d' (2 * k + 2) j) ch = bmul (p2_g2 p2) (nth j (l2_attrs (el C c k)) m0) (d_a d (2 * k + 2) j) ch)) ->
  run_resp C c' p1 p2 d' revealed ev' od' sk' ch = run_resp C c p1 p2 d revealed ev od sk ch /\ run_comm C c' p1 p2 d' revealed = run_comm C c p1 p2 d revealed.
Proof.
  intros ND' DO DE.
  assert (L >= 1)%nat as LP by (eapply run_size; exact V).
  assert (forall k, (2 * k + 1 <= L)%nat -> oatt C c' k = oatt C c k) as AO by (intros k Hk; symmetry; apply (o_same k Hk)).
  assert (forall k, (2 * k + 2 <= L)%nat -> eatt C c' k = eatt C c k) as AE by (intros k Hk; symmetry; apply (e_same k Hk)).
  assert (run_resp C c' p1 p2 d' revealed ev' od' sk' ch = run_resp C c p1 p2 d revealed ev od sk ch) as ER.
  { unfold run_resp. rewrite same_size. fold L. f_equal.
    - assert (d_vk d' L = fsub (fadd (d_vk d L) (fmul ch sk)) (fmul ch sk')) as ->.
      { destruct (level_cases L ltac:(lia)) as [ (k & E) | (k & E) ]; [apply (DO k)|apply (DE k)]; lia. }
      ring.
    - apply map_seq_ext. intros k Hk. apply DO; [apply e_lt in Hk; lia|apply e_lt in Hk; lia].
    - apply map_seq_ext. intros k Hk. assert (2 * k + 2 <= L - 1)%nat by (pose proof (Nat.div_mod (L - 1) 2 ltac:(lia)); pose proof (Nat.mod_upper_bound (L - 1) 2 ltac:(lia)); lia). apply DE; lia.
    - apply map_seq_ext. intros k Hk. apply o_lt in Hk. now apply DO.
    - apply map_seq_ext. intros k Hk. apply e_lt in Hk. now apply DE.
    - apply map_seq_ext. intros k Hk. apply o_lt in Hk. unfold o_rt. rewrite AO by exact Hk. apply map_seq_ext. now apply DO.
    - apply map_seq_ext. intros k Hk. apply e_lt in Hk. unfold e_rt. rewrite AE by exact Hk. apply map_seq_ext. now apply DE.
    - apply map_seq_ext. intros k Hk. apply o_lt in Hk. unfold o_ra. rewrite AO by exact Hk. apply map_ext_in. intros j Hj. apply filter_In in Hj as (Hj & _). apply in_seq in Hj. apply DO; [exact Hk|lia].
    - apply map_seq_ext. intros k Hk. apply e_lt in Hk. unfold e_ra. rewrite AE by exact Hk. apply map_ext_in. intros j Hj. apply filter_In in Hj as (Hj & _). apply in_seq in Hj. apply DE; [exact Hk|lia]. }
  split; [exact ER|].
  pose proof (run_reconstruct C LW c p1 p2 d revealed ipk ev od sk ch N1 N2 GG1 GG2 V HO DI ND) as RR.
  pose proof (run_reconstruct C LW c' p1 p2 d' revealed ipk ev' od' sk' ch N1 N2 GG1 GG2 V' HO' DI' ND') as RR'.
  rewrite ER, same_size in RR'. fold L in RR.
  rewrite (reconstruct_ext L _ (run_comm C c p1 p2 d revealed)) in RR'; [congruence| | | | | |]; unfold run_comm; cbn [c_odd_r c_even_r c_odd_rev c_even_rev c_s c_t]; rewrite same_size; fold L.
  - apply map_seq_ext. intros k Hk. apply o_lt in Hk. now apply DO.
  - apply map_seq_ext. intros k Hk. apply e_lt in Hk. now apply DE.
  - apply map_seq_ext. intros k Hk. apply o_lt in Hk. unfold o_map, oatt. symmetry. now apply same_entries, o_same.
  - apply map_seq_ext. intros k Hk. apply e_lt in Hk. unfold e_map, eatt. symmetry. now apply same_entries, e_same.
  - now rewrite !map_length.
  - rewrite !map_map. apply map_ext_in. intros i Hi. apply in_seq in Hi. destruct (level_cases i ltac:(lia)) as [ (k & ->) | (k & ->) ].
    + rewrite !clevs_odd. cbn [clev_t o_lev cl_t]. unfold o_ct. rewrite !map_length, !seq_length. apply AO. lia.
    + rewrite !clevs_even. cbn [clev_t e_lev cl_t]. unfold e_ct. rewrite !map_length, !seq_length. apply AE. lia.
Qed.
End Hide.

(** Two holders of chains of the same shape from the same issuer, with the same attributes at the
    revealed positions, produce the same tokens: for every commitment and response of the one there
    are random draws with which the other produces exactly the same commitment and response. *)
Theorem C109_indistinguishable : forall (C : curve) (p1 : params1 C) (p2 : params2 C) c c' ipk ev ev' od od' sk sk' ch revealed d, curve_laws C -> params1_ok p1 -> params2_ok p2 -> p1_g1 p1 = p2_g1 p2 -> p1_g2 p1 = p2_g2 p2 ->
  valid_chain p1 p2 c (ipk :: ev) od -> holds p1 p2 (chain_size c) (ipk :: ev) od sk -> disclosable c revealed -> proper_R c ->
  valid_chain p1 p2 c' (ipk :: ev') od' -> holds p1 p2 (chain_size c') (ipk :: ev') od' sk' -> disclosable c' revealed -> proper_R c' ->
  same_disclosure c c' revealed -> line (cG1 C) -> line (cG2 C) -> p1_g1 p1 <> m0 -> p2_g2 p2 <> m0 -> (forall i, d_sig d i <> f0) ->
  exists t cm r d' t', commitment (token_new c p1 p2) revealed d = Ok (t, cm) /\ response t cm sk ch ev od = Ok r /\
    (forall i, d_sig d' i <> f0) /\ commitment (token_new c' p1 p2) revealed d' = Ok (t', cm) /\ response t' cm sk' ch ev' od' = Ok r.
Proof.
  intros C p1 p2 c c' ipk ev ev' od od' sk sk' ch revealed d LW N1 N2 G1e G2e V HO DI PR V' HO' DI' PR' SD LN1 LN2 NG1 NG2 ND.
  destruct (other_draws C LW p1 p2 c c' revealed ipk ev ev' od od' sk sk' ch d V V' SD ND PR PR' LN1 LN2 NG1 NG2) as (d' & ND' & DO & DE).
  destruct (same_run C LW p1 p2 c c' revealed ipk ev ev' od od' sk sk' ch d N1 N2 G1e G2e V V' HO HO' DI DI' SD ND d' ND' DO DE) as (ER & EC).
  pose proof (vc_balanced C _ _ _ _ _ V) as B. pose proof (vc_balanced C _ _ _ _ _ V') as B'.
  exists (run_token C c p1 p2 d revealed), (run_comm C c p1 p2 d revealed), (run_resp C c p1 p2 d revealed ev od sk ch), d', (run_token C c' p1 p2 d' revealed).
  split; [apply (commitment_run C LW); [exact B|exact DI|apply (run_Y1 C c p1 p2 ipk ev od V)|apply (run_Y2 C c p1 p2 ipk ev od V)]|].
  split; [apply (response_run C); [exact B|exact DI|apply (run_LE C c p1 p2 ipk ev od V)|apply (run_LO C c p1 p2 ipk ev od V)|apply (run_size C c p1 p2 ipk ev od V)]|].
  split; [exact ND'|]. rewrite <- EC, <- ER.
  split; [apply (commitment_run C LW); [exact B'|exact DI'|apply (run_Y1 C c' p1 p2 ipk ev' od' V')|apply (run_Y2 C c' p1 p2 ipk ev' od' V')]|].
  apply (response_run C); [exact B'|exact DI'|apply (run_LE C c' p1 p2 ipk ev' od' V')|apply (run_LO C c' p1 p2 ipk ev' od' V')|apply (run_size C c' p1 p2 ipk ev' od' V')].
Qed.

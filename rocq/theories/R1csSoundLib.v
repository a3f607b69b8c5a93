(** The algebra of the extraction from R1CS proofs: from the equations a tree of accepted
    proofs satisfies to the assignment. *)
From Coq Require Import String.
From Verif Require Import Base Alg Lin Poly IppModel IppLib IppSpec IppSoundSpec R1csModel R1csSpec R1csLib R1csProofModel R1csProofLib R1csProofSpec R1csCheckProps R1csSoundSpec InterpLib.
Import List ListNotations.
Open Scope list_scope.

Section Core.
Context {K : fieldOps} (HK : field_laws K) {M : modOps K} (HM : mod_laws M).
Add Field Kfs : (proj1 HK).
Context (n1 n m k : nat) (cons : list (lc K)) (g h : M) (G H Vs : list M).
Notation N := (2 ^ k)%nat.
Notation D := (2 ^ k + 2 ^ k + 2)%nat.
Hypothesis HG : (N <= length G)%nat.
Hypothesis HH : (N <= length H)%nat.
Hypothesis Hn : (n <= N)%nat.
Hypothesis HV : length Vs = m.
Hypothesis Hsc : forall l v c, In l cons -> In (v, c) l -> in_range n m v.
Definition basis : list M := firstn N G ++ firstn N H ++ [g; h].
Notation B := basis.
Lemma gl_app (b1 b2 : list M) a b f : length b1 = a -> gl (b1 ++ b2) (a + b) f = madd (gl b1 a f) (gl b2 b (fun i => f (a + i)%nat)).
Proof.
  intros E. induction b as [|b IH]; [rewrite Nat.add_0_r; cbn [gl]|].
  - transitivity (gl b1 a f); [|module_coefs HK HM; ring]. clear - E. assert (forall c, (c <= a)%nat -> gl (b1 ++ b2) c f = gl b1 c f) as A; [|now apply A].
    induction c as [|c IH]; intros Hc; [reflexivity|]. cbn [gl]. rewrite IH, app_nth1 by lia. reflexivity.
  - rewrite Nat.add_succ_r. cbn [gl]. rewrite IH, app_nth2 by lia. replace (a + b - length b1)%nat with b by lia. module_coefs HK HM; ring.
Qed.
Lemma gl_basis r : gl B D r = madd (madd (gl G N r) (gl H N (fun i => r (N + i)%nat))) (madd (smul (r (N + N)%nat) g) (smul (r (N + N + 1)%nat) h)).
Proof.
  unfold basis. replace D with (N + (N + 2))%nat by lia. rewrite gl_app by (rewrite firstn_length; lia). rewrite gl_app by (rewrite firstn_length; lia). rewrite !gl_firstn by lia. cbn [gl nth].
  rewrite !Nat.add_0_r. replace (N + (N + 1))%nat with (N + N + 1)%nat by lia. module_coefs HK HM; ring.
Qed.
Lemma gl_gcoef a b : gl B D (fun j => gcoef k j a b) = madd (smul a g) (smul b h).
Proof.
  rewrite gl_basis. unfold gcoef. rewrite Nat.eqb_refl. rewrite (proj2 (Nat.eqb_neq (N + N + 1) (N + N))), Nat.eqb_refl by lia.
  rewrite !(gl_zero HK HM); [module_coefs HK HM; ring| |]; intros i Hi; rewrite !(proj2 (Nat.eqb_neq _ _)) by lia; reflexivity.
Qed.

(** ** the flattened constraints *)
Definition kmi (l : list K) (a : nat -> K) : K := ksum N (fun i => fmul (nth i l f0) (a i)).
Lemma kmi_set : forall (l : list K) i x a l', set_at i x l = Ok l' -> (i < length l)%nat -> forall q, (length l <= q)%nat ->
  ksum q (fun j => fmul (nth j l' f0) (a j)) = fadd (ksum q (fun j => fmul (nth j l f0) (a j))) (fmul (fsub x (nth i l f0)) (a i)).
Proof.
  induction l as [|y l IH]; intros i x a l' E Hi q Hq; [cbn in Hi; lia|]. destruct q as [|q]; [cbn in Hq; lia|]. rewrite !(ksum_shift HK). destruct i as [|i]; cbn [set_at] in E.
  - injection E as <-. cbn [nth]. ring.
  - apply rbind_ok in E. destruct E as (l'' & E & E'). injection E' as <-. cbn [nth]. cbn [length] in Hi, Hq. rewrite (IH i x (fun j => a (S j)) l'' E) by lia. ring.
Qed.
Lemma lin_set : forall (l : list K) i x (Ps : list M) l', set_at i x l = Ok l' -> (i < length l)%nat -> length Ps = length l ->
  lin Ps l' = madd (lin Ps l) (smul (fsub x (nth i l f0)) (nth i Ps m0)).
Proof.
  induction l as [|y l IH]; intros i x [|P Ps] l' E Hi Hl; try discriminate; [cbn in Hi; lia|]. destruct i as [|i]; cbn [set_at] in E.
  - injection E as <-. rewrite !lin_cons. cbn [nth]. module_coefs HK HM; ring.
  - apply rbind_ok in E. destruct E as (l'' & E & E'). injection E' as <-. rewrite !lin_cons. cbn [nth]. cbn [length] in Hi, Hl. rewrite (IH i x Ps l'' E) by lia. module_coefs HK HM; ring.
Qed.
Definition Phi (A : @assignment K) (w : @weights K) : M :=
  msub (smul (fsub (fadd (kmi (w_L w) (fun i => A (MulL i))) (fadd (kmi (w_R w) (fun i => A (MulR i))) (kmi (w_O w) (fun i => A (MulO i))))) (w_c w)) g) (lin Vs (w_V w)).
Lemma add_at_Phi i x (l : list K) : (i < length l)%nat -> exists l', add_at i x l = Ok l' /\ length l' = length l /\ set_at i (fadd (nth i l f0) x) l = Ok l'.
Proof.
  intros Hi. unfold add_at, idx. rewrite (nth_error_nth' l f0) by exact Hi. cbn [rbind]. destruct (set_at_inner HK l i (fadd (nth i l f0) x) l Hi eq_refl) as (l' & E & L & _). eauto.
Qed.
Lemma sub_at_Phi i x (l : list K) : (i < length l)%nat -> exists l', sub_at i x l = Ok l' /\ length l' = length l /\ set_at i (fsub (nth i l f0) x) l = Ok l'.
Proof.
  intros Hi. unfold sub_at, idx. rewrite (nth_error_nth' l f0) by exact Hi. cbn [rbind]. destruct (set_at_inner HK l i (fsub (nth i l f0) x) l Hi eq_refl) as (l' & E & L & _). eauto.
Qed.
Definition term_point (A : @assignment K) (t : var * K) : M := match fst t with Committed i => smul (snd t) (nth i Vs m0) | v => smul (fmul (snd t) (A v)) g end.
Lemma flatten_term_Phi (A : @assignment K) e w v c : A VOne = f1 -> wlens n m w -> in_range n m v ->
  exists w', v_flatten_term e w (v, c) = Ok w' /\ wlens n m w' /\ Phi A w' = madd (Phi A w) (smul e (term_point A (v, c))).
Proof.
  intros A1 (L1 & L2 & L3 & L4) R. unfold Phi, kmi, term_point. destruct v as [i|i|i|i|]; cbn [v_flatten_term in_range fst snd] in *.
  - destruct (sub_at_Phi i (fmul e c) (w_V w)) as (l & -> & L & S); [lia|]. cbn [rbind]. eexists; split; [reflexivity|]. split; [repeat split; cbn [w_L w_R w_O w_V]; congruence|]. cbn [w_L w_R w_O w_V w_c].
    rewrite (lin_set _ _ _ _ _ S) by lia. module_coefs HK HM; ring.
  - destruct (add_at_Phi i (fmul e c) (w_L w)) as (l & -> & L & S); [lia|]. cbn [rbind]. eexists; split; [reflexivity|]. split; [repeat split; cbn [w_L w_R w_O w_V]; congruence|]. cbn [w_L w_R w_O w_V w_c].
    rewrite (kmi_set _ _ _ (fun i => A (MulL i)) _ S) by lia. module_coefs HK HM; ring.
  - destruct (add_at_Phi i (fmul e c) (w_R w)) as (l & -> & L & S); [lia|]. cbn [rbind]. eexists; split; [reflexivity|]. split; [repeat split; cbn [w_L w_R w_O w_V]; congruence|]. cbn [w_L w_R w_O w_V w_c].
    rewrite (kmi_set _ _ _ (fun i => A (MulR i)) _ S) by lia. module_coefs HK HM; ring.
  - destruct (add_at_Phi i (fmul e c) (w_O w)) as (l & -> & L & S); [lia|]. cbn [rbind]. eexists; split; [reflexivity|]. split; [repeat split; cbn [w_L w_R w_O w_V]; congruence|]. cbn [w_L w_R w_O w_V w_c].
    rewrite (kmi_set _ _ _ (fun i => A (MulO i)) _ S) by lia. module_coefs HK HM; ring.
  - eexists; split; [reflexivity|]. split; [repeat split; assumption|]. cbn [w_L w_R w_O w_V w_c]. rewrite A1. module_coefs HK HM; ring.
Qed.
Lemma flatten_lc_Phi A e (l : lc K) : A VOne = f1 -> forall w, wlens n m w -> (forall v c, In (v, c) l -> in_range n m v) ->
  exists w', rfold (v_flatten_term e) l w = Ok w' /\ wlens n m w' /\ Phi A w' = madd (Phi A w) (smul e (point_value g Vs A l)).
Proof.
  intros A1. induction l as [|[v c] l IH]; intros w Lw R; cbn [rfold]; [exists w; split; [reflexivity|]; split; [exact Lw|]; unfold point_value; cbn [map msum]; module_coefs HK HM; ring|].
  destruct (flatten_term_Phi A e w v c A1 Lw) as (w1 & E1 & L1 & S1); [apply (R v c); now left|]. rewrite E1. cbn [rbind].
  destruct (IH w1 L1) as (w2 & E2 & L2 & S2); [intros; apply (R v0 c0); now right|]. exists w2. split; [exact E2|]. split; [exact L2|]. rewrite S2, S1. unfold point_value. cbn [map msum].
  change (match fst (v, c) with Committed i => smul (snd (v, c)) (nth i Vs m0) | v0 => smul (fmul (snd (v, c)) (A v0)) g end) with (term_point A (v, c)). module_coefs HK HM; ring.
Qed.
Lemma flatten_fold_Phi z A (cs : list (lc K)) : A VOne = f1 -> forall w e, wlens n m w -> (forall l v c, In l cs -> In (v, c) l -> in_range n m v) ->
  exists w' e', rfold (fun st lc => let! w := rfold (v_flatten_term (snd st)) lc (fst st) in Ok (w, fmul (snd st) z)) cs (w, e) = Ok (w', e') /\ wlens n m w' /\
    Phi A w' = madd (Phi A w) (smul e (gl (map (point_value g Vs A) cs) (length cs) (fpow z))).
Proof.
  intros A1. induction cs as [|l cs IH]; intros w e Lw R; cbn [rfold fst snd]; [exists w, e; split; [reflexivity|]; split; [exact Lw|]; cbn [length gl]; module_coefs HK HM; ring|].
  destruct (flatten_lc_Phi A e l A1 w Lw) as (w1 & E1 & L1 & S1); [intros v c; apply R; now left|]. rewrite E1. cbn [rbind].
  destruct (IH w1 (fmul e z) L1) as (w2 & e2 & E2 & L2 & S2); [intros l' v c I; apply R; now right|].
  exists w2, e2. split; [exact E2|]. split; [exact L2|]. rewrite S2, S1. cbn [map length]. rewrite (gl_cons HK HM). cbn [fpow]. rewrite <- (gl_smul HK HM). module_coefs HK HM; ring.
Qed.
Lemma kmi_zero a : forall q j, ksum q (fun i => fmul (nth i (repeat f0 j) f0) (a i)) = (f0 : K).
Proof. intros q j. rewrite (ksum_ext q _ (fun _ => f0)); [apply (ksum_0 HK)|]. intros i _. rewrite nth_repeat_d. ring. Qed.
Lemma flatten_Phi z A : A VOne = f1 -> flatten v_flatten_term z n m cons = Ok (weights_at n m cons z) /\ wlens n m (weights_at n m cons z) /\
  Phi A (weights_at n m cons z) = smul z (gl (map (point_value g Vs A) cons) (length cons) (fpow z)).
Proof.
  intros A1. unfold weights_at, flatten. destruct (flatten_fold_Phi z A cons A1 (mkW (repeat f0 n) (repeat f0 n) (repeat f0 n) (repeat f0 m) f0) z) as (w & e & E & L & S); [|exact Hsc|].
  - repeat split; apply repeat_length.
  - rewrite E. cbn [rbind]. split; [reflexivity|]. split; [exact L|]. rewrite S. unfold Phi, kmi. cbn [w_L w_R w_O w_V w_c]. rewrite !kmi_zero, (lin_zero HK HM). module_coefs HK HM; ring.
Qed.

(** ** after x *)
Definition P3 (x : K) (AI AO S3 : M) : M := madd (smul x AI) (madd (smul (fpow x 2) AO) (smul (fpow x 3) S3)).
Definition Xz (y z : K) : M := madd (smul (fadd (w_c (weights_at n m cons z)) (delta_of n y (weights_at n m cons z))) g) (lin Vs (w_V (weights_at n m cons z))).
Definition ok_x (y z u : K) (AI AO S3 T1 T3 T4 T5 T6 : M) (b : sx) : Prop :=
  sx_x b <> f0 /\ gl B D (rep1 n1 n m k cons y z u b) = P3 (sx_x b) AI AO S3 /\
  (let lr := extract k (sx_t1 b) in sx_t b = ksum N (fun i => fmul (nth i (fst lr) f0) (nth i (snd lr) f0))) /\
  madd (smul (sx_t b) g) (smul (sx_tb b) h) =
  madd (smul (fpow (sx_x b) 2) (Xz y z)) (madd (smul (sx_x b) T1) (madd (smul (fpow (sx_x b) 3) T3) (madd (smul (fpow (sx_x b) 4) T4) (madd (smul (fpow (sx_x b) 5) T5) (smul (fpow (sx_x b) 6) T6))))).

(** the coefficient of x^2 of the inner product of l and r *)
Definition T2 (y : K) (w : @weights K) (phi a b c : nat -> K) : K := ksum N (fun i =>
  fadd (fmul (fadd (fmul (finv (phi i)) (a i)) (fmul (nth i (w_R w) f0) (fpow (finv y) i))) (fadd (fmul (fpow y i) (fmul (finv (phi i)) (b i))) (nth i (w_L w) f0)))
       (fmul (fmul (finv (phi i)) (c i)) (fsub (nth i (w_O w) f0) (fpow y i)))).
Lemma lr_poly q (L1 L2 L3 R0 R1 R2 R3 : nat -> K) x :
  ksum q (fun i => fmul (fadd (fmul x (L1 i)) (fadd (fmul (fmul x x) (L2 i)) (fmul (fmul x (fmul x x)) (L3 i)))) (fadd (R0 i) (fadd (fmul x (R1 i)) (fadd (fmul (fmul x x) (R2 i)) (fmul (fmul x (fmul x x)) (R3 i)))))) =
  fmul x (peval [ksum q (fun i => fmul (L1 i) (R0 i)); ksum q (fun i => fadd (fmul (L1 i) (R1 i)) (fmul (L2 i) (R0 i)));
    ksum q (fun i => fadd (fmul (L1 i) (R2 i)) (fadd (fmul (L2 i) (R1 i)) (fmul (L3 i) (R0 i))));
    ksum q (fun i => fadd (fmul (L1 i) (R3 i)) (fadd (fmul (L2 i) (R2 i)) (fmul (L3 i) (R1 i))));
    ksum q (fun i => fadd (fmul (L2 i) (R3 i)) (fmul (L3 i) (R2 i))); ksum q (fun i => fmul (L3 i) (R3 i))] x).
Proof. induction q as [|q IH]; cbn [ksum]; [cbn [peval]; ring|]. rewrite IH. cbn [peval]. ring. Qed.
Lemma phase_weight_nz (u : K) i : u <> f0 -> phase_weight n1 u i <> f0.
Proof. intros Nu. unfold phase_weight. destruct (i <? n1)%nat; [apply (f1_neq_0 _ HK)|exact Nu]. Qed.

Definition ok_u (y z : K) (AI1 AO1 AI2 AO2 : M) (b : su) : Prop :=
  su_u b <> f0 /\
  gl B D (rep_u n1 n m k cons y z b 0) = madd AI1 (smul (su_u b) AI2) /\ gl B D (rep_u n1 n m k cons y z b 1) = madd AO1 (smul (su_u b) AO2) /\
  Xz y z = madd (smul (t2_of b) g) (smul (tb2_of b) h) /\
  t2_of b = T2 y (weights_at n m cons z) (phase_weight n1 (su_u b)) (rep_u n1 n m k cons y z b 0) (fun i => rep_u n1 n m k cons y z b 0 (N + i)%nat) (rep_u n1 n m k cons y z b 1).

Lemma NoDup_firstn {A} (l : list A) q : NoDup l -> NoDup (firstn q l).
Proof. revert q. induction l as [|a l IH]; intros [|q] ND; try constructor; inversion ND as [|? ? N1 N2]; subst; [|now apply IH]. intros I. apply N1. rewrite <- (firstn_skipn q l). apply in_app_iff. now left. Qed.

Lemma u_level y z AI1 AO1 S1 AI2 AO2 S2 T1 T3 T4 T5 T6 b : y <> f0 -> su_u b <> f0 -> length (su_xs b) = 6%nat -> NoDup (map sx_x (su_xs b)) ->
  (forall c, In c (su_xs b) -> ok_x y z (su_u b) (madd AI1 (smul (su_u b) AI2)) (madd AO1 (smul (su_u b) AO2)) (madd S1 (smul (su_u b) S2)) T1 T3 T4 T5 T6 c) ->
  Rel B D (rels_u n1 n m k cons y z b) \/ ok_u y z AI1 AO1 AI2 AO2 b.
Proof.
  intros Ny Nu L6 ND OK. set (AI := madd AI1 _) in OK. set (AO := madd AO1 _) in OK. set (S3 := madd S1 _) in OK. set (u := su_u b) in *.
  assert (forall d, (d < 3)%nat -> gl B D (rep_u n1 n m k cons y z b d) = nth d [AI; AO; S3] m0) as R3.
  { intros d Hd. set (xs := firstn 3 (su_xs b)). assert (length xs = 3%nat) as Lx by (unfold xs; rewrite firstn_length; lia).
    assert (forall i, (i < 3)%nat -> In (nth i xs dx) (su_xs b)) as Ix by (intros i Hi; assert (In (nth i xs dx) xs) as Ii by (apply nth_In; lia); revert Ii; generalize (nth i xs dx); intros c Ic; rewrite <- (firstn_skipn 3 (su_xs b)); apply in_app_iff; left; exact Ic).
    apply (coefficient_points HK HM B D (map sx_x xs) [AI; AO; S3] (fun i j => fmul (finv (sx_x (nth i xs dx))) (rep1 n1 n m k cons y z u (nth i xs dx) j)) d).
    - unfold xs. rewrite <- firstn_map. now apply NoDup_firstn.
    - now rewrite map_length, Lx.
    - rewrite map_length. lia.
    - rewrite map_length, Lx. intros i Hi. destruct (OK _ (Ix i Hi)) as (Nx & E & _). rewrite <- (gl_smul HK HM), E. unfold P3. assert (nth i (map sx_x xs) f0 = sx_x (nth i xs dx)) as -> by (rewrite (nth_indep _ f0 (sx_x dx)) by (rewrite map_length; lia); apply map_nth). cbn [gl nth].
      cbn [fpow]. revert Nx. generalize (sx_x (nth i xs dx)). intros x Nx. module_coefs HK HM; field; exact Nx. }
  assert (Rel B D (rels_u n1 n m k cons y z b) \/ forall c, In c (su_xs b) -> forall j, (j < D)%nat -> rep1 n1 n m k cons y z u c j = fmul (sx_x c) (fadd (rep_u n1 n m k cons y z b 0 j) (fmul (sx_x c) (fadd (rep_u n1 n m k cons y z b 1 j) (fmul (sx_x c) (rep_u n1 n m k cons y z b 2 j)))))) as [R|Cons]; [|now left|].
  { apply or_all. intros c Ic. apply (same_or_rel HK HM); [unfold rels_u; apply in_app_iff; left; apply in_map_iff; exists c; split; [reflexivity|exact Ic]|].
    destruct (OK c Ic) as (Nx & E & _). rewrite E. unfold P3. rewrite <- (gl_smul HK HM), <- (gl_add HK HM), <- (gl_smul HK HM), <- (gl_add HK HM), <- (gl_smul HK HM). rewrite !R3 by lia. cbn [nth fpow]. module_coefs HK HM; ring. }
  right. split; [exact Nu|]. split; [now rewrite R3 by lia|]. split; [now rewrite R3 by lia|].
  assert (forall i, (i < 6)%nat -> In (nth i (su_xs b) dx) (su_xs b)) as Ix by (intros i Hi; apply nth_In; lia).
  assert (length (map sx_x (su_xs b)) = 6%nat) as Lx by (now rewrite map_length).
  assert (forall i, (i < 6)%nat -> nth i (map sx_x (su_xs b)) f0 = sx_x (nth i (su_xs b) dx)) as Nx by (intros i Hi; rewrite (nth_indep _ f0 (sx_x dx)) by lia; apply map_nth).
  split.
  - pose proof (coefficient_points HK HM B D (map sx_x (su_xs b)) [T1; Xz y z; T3; T4; T5; T6] (fun i j => let c := nth i (su_xs b) dx in gcoef k j (fmul (finv (sx_x c)) (sx_t c)) (fmul (finv (sx_x c)) (sx_tb c))) 1 ND) as CP.
    cbn [nth] in CP. rewrite <- CP; [|now rewrite Lx|lia|].
    + rewrite <- gl_gcoef. apply gl_ext. intros j _. unfold gcoef, t2_of, tb2_of. destruct (j =? N + N)%nat; [reflexivity|]. destruct (j =? N + N + 1)%nat; [reflexivity|].
      unfold coefficient. rewrite (ksum_ext _ _ (fun _ => f0)) by (intros; ring). apply (ksum_0 HK).
    + rewrite Lx. intros i Hi. cbv zeta. rewrite gl_gcoef, Nx by exact Hi. destruct (OK _ (Ix i Hi)) as (Nz & _ & _ & E).
      transitivity (smul (finv (sx_x (nth i (su_xs b) dx))) (madd (smul (sx_t (nth i (su_xs b) dx)) g) (smul (sx_tb (nth i (su_xs b) dx)) h))); [module_coefs HK HM; ring|]. rewrite E.
      cbn [gl nth fpow]. revert Nz. generalize (sx_x (nth i (su_xs b) dx)). intros x Nz. module_coefs HK HM; field; exact Nz.
  - set (w := weights_at n m cons z). set (phi := phase_weight n1 u). set (r := rep_u n1 n m k cons y z b).
    set (L1 := fun i => fadd (fmul (finv (phi i)) (r 0%nat i)) (fmul (nth i (w_R w) f0) (fpow (finv y) i))).
    set (L2 := fun i => fmul (finv (phi i)) (r 1%nat i)). set (L3 := fun i => fmul (finv (phi i)) (r 2%nat i)).
    set (R0 := fun i => fsub (nth i (w_O w) f0) (fpow y i)). set (R1 := fun i => fadd (fmul (fpow y i) (fmul (finv (phi i)) (r 0%nat (N + i)%nat))) (nth i (w_L w) f0)).
    set (R2 := fun i => fmul (fpow y i) (fmul (finv (phi i)) (r 1%nat (N + i)%nat))). set (R3' := fun i => fmul (fpow y i) (fmul (finv (phi i)) (r 2%nat (N + i)%nat))).
    unfold t2_of. rewrite (coefficient_poly HK (map sx_x (su_xs b)) [ksum N (fun i => fmul (L1 i) (R0 i)); ksum N (fun i => fadd (fmul (L1 i) (R1 i)) (fmul (L2 i) (R0 i)));
      ksum N (fun i => fadd (fmul (L1 i) (R2 i)) (fadd (fmul (L2 i) (R1 i)) (fmul (L3 i) (R0 i))));
      ksum N (fun i => fadd (fmul (L1 i) (R3' i)) (fadd (fmul (L2 i) (R2 i)) (fmul (L3 i) (R1 i))));
      ksum N (fun i => fadd (fmul (L2 i) (R3' i)) (fmul (L3 i) (R2 i))); ksum N (fun i => fmul (L3 i) (R3' i))]); [reflexivity|exact ND|now rewrite Lx| |lia].
    rewrite Lx. intros i Hi. cbv zeta. rewrite Nx by exact Hi. pose proof (Ix i Hi) as Ic. revert Ic. generalize (nth i (su_xs b) dx). intros c Ic. pose proof (Cons c Ic) as Ec. destruct (OK c Ic) as (Nz & _ & Et & _). cbv zeta in Et.
    rewrite Et. rewrite (ksum_ext N _ (fun i => fmul (fadd (fmul (sx_x c) (L1 i)) (fadd (fmul (fmul (sx_x c) (sx_x c)) (L2 i)) (fmul (fmul (sx_x c) (fmul (sx_x c) (sx_x c))) (L3 i)))) (fadd (R0 i) (fadd (fmul (sx_x c) (R1 i)) (fadd (fmul (fmul (sx_x c) (sx_x c)) (R2 i)) (fmul (fmul (sx_x c) (fmul (sx_x c) (sx_x c))) (R3' i))))))).
    { rewrite lr_poly. match goal with |- context [peval ?p ?x] => generalize (peval p x) end. intros e. field. exact Nz. }
    intros l Hl. pose proof (phase_weight_nz u l Nu) as Np. pose proof (fpow_inv HK y l Ny) as Py. f_equal.
    + pose proof (Ec l ltac:(lia)) as E1. unfold rep1, rep_x in E1. rewrite (proj2 (Nat.ltb_lt l N) Hl) in E1. unfold L1, L2, L3. fold phi in E1, Np. fold w in E1. fold r in E1.
      transitivity (fadd (fmul (finv (phi l)) (fsub (fmul (phi l) (nth l (fst (extract k (sx_t1 c))) f0)) (fmul (phi l) (fmul (sx_x c) (fmul (nth l (w_R w) f0) (fpow (finv y) l)))))) (fmul (sx_x c) (fmul (nth l (w_R w) f0) (fpow (finv y) l)))); [field; exact Np|].
      rewrite E1. field. exact Np.
    + pose proof (Ec (N + l)%nat ltac:(lia)) as E1. unfold rep1, rep_x in E1. rewrite (proj2 (Nat.ltb_ge (N + l) N)), (proj2 (Nat.ltb_lt (N + l) (N + N))) in E1 by lia. replace (N + l - N)%nat with l in E1 by lia. cbv zeta in E1. unfold R0, R1, R2, R3'. fold phi in E1, Np. fold w in E1. fold r in E1.
      revert E1 Py. generalize (fpow (finv y) l) (fpow y l). intros yi yy E1 Py.
      transitivity (fadd (fmul yy (fmul (finv (phi l)) (fsub (fmul (fmul yi (phi l)) (nth l (snd (extract k (sx_t1 c))) f0)) (fmul (phi l) (fsub (fmul yi (fadd (fmul (sx_x c) (nth l (w_L w) f0)) (nth l (w_O w) f0))) f1))))) (fsub (fmul (fmul yi yy) (fadd (fmul (sx_x c) (nth l (w_L w) f0)) (nth l (w_O w) f0))) yy)).
      * transitivity (fmul (fmul yi yy) (nth l (snd (extract k (sx_t1 c))) f0)); [rewrite Py; ring|]. field. exact Np.
      * rewrite E1, Py. field. exact Np.
Qed.

(** ** after u *)
Lemma polyfun_ksum q p (f : nat -> K -> K) : (1 <= p)%nat -> (forall i, (i < q)%nat -> polyfun K p (f i)) -> polyfun K p (fun x => ksum q (fun i => f i x)).
Proof. intros Hp. induction q as [|q IH]; intros Hf; cbn [ksum]; [now apply (polyfun_const K HK)|]. apply (polyfun_add K HK); [apply IH; intros; apply Hf; lia|apply Hf; lia]. Qed.
(** u^2 (t_2(u) - tau), without divisions *)
Definition U2 (y : K) (w : @weights K) (a0 a1 b0 b1 c0 c1 : nat -> K) (tau u : K) : K :=
  fsub (ksum N (fun i => let r := fmul (nth i (w_R w) f0) (fpow (finv y) i) in let l := nth i (w_L w) f0 in let o := fsub (nth i (w_O w) f0) (fpow y i) in
    if (i <? n1)%nat then fmul (fmul u u) (fadd (fmul (fadd (fadd (a0 i) (fmul u (a1 i))) r) (fadd (fmul (fpow y i) (fadd (b0 i) (fmul u (b1 i)))) l)) (fmul (fadd (c0 i) (fmul u (c1 i))) o))
    else fadd (fmul (fadd (fadd (a0 i) (fmul u (a1 i))) (fmul u r)) (fadd (fmul (fpow y i) (fadd (b0 i) (fmul u (b1 i)))) (fmul u l))) (fmul u (fmul (fadd (c0 i) (fmul u (c1 i))) o))))
  (fmul (fmul u u) tau).
Lemma U2_T2 y w a0 a1 b0 b1 c0 c1 tau u : u <> f0 ->
  U2 y w a0 a1 b0 b1 c0 c1 tau u = fmul (fmul u u) (fsub (T2 y w (phase_weight n1 u) (fun i => fadd (a0 i) (fmul u (a1 i))) (fun i => fadd (b0 i) (fmul u (b1 i))) (fun i => fadd (c0 i) (fmul u (c1 i)))) tau).
Proof.
  intros Nu. unfold U2, T2. assert (forall d e t : K, fmul d (fsub e t) = fsub (fmul d e) (fmul d t)) as -> by (intros; ring). rewrite (ksum_scale HK). f_equal. apply ksum_ext. intros i _. cbv zeta. unfold phase_weight.
  pose proof (f1_neq_0 _ HK). destruct (i <? n1)%nat; field; auto.
Qed.
Lemma U2_poly y w a0 a1 b0 b1 c0 c1 tau : polyfun K 5 (U2 y w a0 a1 b0 b1 c0 c1 tau).
Proof.
  unfold U2. apply (polyfun_ext K 5 (fun u => fadd (ksum N (fun i => let r := fmul (nth i (w_R w) f0) (fpow (finv y) i) in let l := nth i (w_L w) f0 in let o := fsub (nth i (w_O w) f0) (fpow y i) in
    if (i <? n1)%nat then fmul (fmul u u) (fadd (fmul (fadd (fadd (a0 i) (fmul u (a1 i))) r) (fadd (fmul (fpow y i) (fadd (b0 i) (fmul u (b1 i)))) l)) (fmul (fadd (c0 i) (fmul u (c1 i))) o))
    else fadd (fmul (fadd (fadd (a0 i) (fmul u (a1 i))) (fmul u r)) (fadd (fmul (fpow y i) (fadd (b0 i) (fmul u (b1 i)))) (fmul u l))) (fmul u (fmul (fadd (c0 i) (fmul u (c1 i))) o)))) (fmul (fopp tau) (fmul u u)))); [intros u; cbv beta zeta; match goal with |- context [ksum N ?f] => generalize (ksum N f) end; intros e; ring|].
  apply (polyfun_add K HK).
  - apply (polyfun_ksum N 5 (fun i u => let r := fmul (nth i (w_R w) f0) (fpow (finv y) i) in let l := nth i (w_L w) f0 in let o := fsub (nth i (w_O w) f0) (fpow y i) in
    if (i <? n1)%nat then fmul (fmul u u) (fadd (fmul (fadd (fadd (a0 i) (fmul u (a1 i))) r) (fadd (fmul (fpow y i) (fadd (b0 i) (fmul u (b1 i)))) l)) (fmul (fadd (c0 i) (fmul u (c1 i))) o))
    else fadd (fmul (fadd (fadd (a0 i) (fmul u (a1 i))) (fmul u r)) (fadd (fmul (fpow y i) (fadd (b0 i) (fmul u (b1 i)))) (fmul u l))) (fmul u (fmul (fadd (c0 i) (fmul u (c1 i))) o)))); [lia|].
    intros i _. cbv zeta. generalize (fmul (nth i (w_R w) f0) (fpow (finv y) i)) (nth i (w_L w) f0) (fsub (nth i (w_O w) f0) (fpow y i)). generalize (fpow y i) (a0 i) (a1 i) (b0 i) (b1 i) (c0 i) (c1 i).
    intros yy A0 A1 B0 B1 C0 C1 r l o. destruct (i <? n1)%nat.
    + exists [f0; f0; fadd (fmul (fadd A0 r) (fadd (fmul yy B0) l)) (fmul C0 o); fadd (fmul (fadd A0 r) (fmul yy B1)) (fadd (fmul A1 (fadd (fmul yy B0) l)) (fmul C1 o)); fmul A1 (fmul yy B1)]. split; [cbn; lia|]. intros u. cbv beta iota. cbn [peval]. ring.
    + exists [fmul A0 (fmul yy B0); fadd (fmul A0 (fadd (fmul yy B1) l)) (fadd (fmul (fadd A1 r) (fmul yy B0)) (fmul C0 o)); fadd (fmul (fadd A1 r) (fadd (fmul yy B1) l)) (fmul C1 o)]. split; [cbn; lia|]. intros u. cbv beta iota. cbn [peval]. ring.
  - exists [f0; f0; fopp tau]. split; [cbn; lia|]. intros u. cbv beta iota. cbn [peval]. ring.
Qed.
Lemma T2_ext y w phi a a' b b' c c' : (forall i, (i < N)%nat -> a i = a' i) -> (forall i, (i < N)%nat -> b i = b' i) -> (forall i, (i < N)%nat -> c i = c' i) -> T2 y w phi a b c = T2 y w phi a' b' c'.
Proof. intros Ea Eb Ec. unfold T2. apply ksum_ext. intros i Hi. now rewrite Ea, Eb, Ec. Qed.

Notation rz := (rep_z n1 n m k cons).
Definition ok_z (y : K) (AI1 AO1 AI2 AO2 : M) (b : sz) : Prop :=
  gl B D (rz y b 0 0) = AI1 /\ gl B D (rz y b 0 1) = AI2 /\ gl B D (rz y b 1 0) = AO1 /\ gl B D (rz y b 1 1) = AO2 /\
  Xz y (sz_z b) = madd (smul (T2 y (weights_at n m cons (sz_z b)) (fun _ => f1) (fun i => fadd (rz y b 0 0 i) (rz y b 0 1 i)) (fun i => fadd (rz y b 0 0 (N + i)%nat) (rz y b 0 1 (N + i)%nat)) (fun i => fadd (rz y b 1 0 i) (rz y b 1 1 i))) g)
                       (smul (tb_z b) h).
Lemma z_level y AI1 AO1 AI2 AO2 b : length (sz_us b) = 5%nat -> NoDup (map su_u (sz_us b)) ->
  (forall c, In c (sz_us b) -> ok_u y (sz_z b) AI1 AO1 AI2 AO2 c) ->
  Rel B D (rels_z n1 n m k cons y b) \/ ok_z y AI1 AO1 AI2 AO2 b.
Proof.
  intros L5 ND OK. set (z := sz_z b) in *. set (us := firstn 2 (sz_us b)). assert (length us = 2%nat) as Lu by (unfold us; rewrite firstn_length; lia).
  assert (forall i, (i < 2)%nat -> In (nth i us du) (sz_us b)) as Iu.
  { intros i Hi. assert (In (nth i us du) us) as Ii by (apply nth_In; lia). revert Ii. generalize (nth i us du). intros c Ic. rewrite <- (firstn_skipn 2 (sz_us b)). apply in_app_iff. left. exact Ic. }
  assert (forall d A1 A2, (forall c, In c (sz_us b) -> gl B D (rep_u n1 n m k cons y z c d) = madd A1 (smul (su_u c) A2)) -> forall e, (e < 2)%nat -> gl B D (rz y b d e) = nth e [A1; A2] m0) as R2.
  { intros d A1 A2 E e He. apply (coefficient_points HK HM B D (map su_u us) [A1; A2] (fun i j => rep_u n1 n m k cons y z (nth i us du) d j) e).
    - unfold us. rewrite <- firstn_map. now apply NoDup_firstn.
    - now rewrite map_length, Lu.
    - rewrite map_length. lia.
    - rewrite map_length, Lu. intros i Hi. change (fun j => rep_u n1 n m k cons y z (nth i us du) d j) with (rep_u n1 n m k cons y z (nth i us du) d). rewrite (E _ (Iu i Hi)).
      assert (nth i (map su_u us) f0 = su_u (nth i us du)) as -> by (rewrite (nth_indep _ f0 (su_u du)) by (rewrite map_length; lia); apply map_nth). cbn [gl nth fpow]. module_coefs HK HM; ring. }
  pose proof (R2 0%nat AI1 AI2 (fun c I => proj1 (proj2 (OK c I)))) as RI. pose proof (R2 1%nat AO1 AO2 (fun c I => proj1 (proj2 (proj2 (OK c I))))) as RO. clear R2.
  assert (Rel B D (rels_z n1 n m k cons y b) \/ forall c, In c (sz_us b) -> forall j, (j < D)%nat -> rep_u n1 n m k cons y z c 0 j = fadd (rz y b 0 0 j) (fmul (su_u c) (rz y b 0 1 j))) as [R|C0]; [|now left|].
  { apply or_all. intros c Ic. apply (same_or_rel HK HM); [unfold rels_z; apply in_app_iff; left; apply in_map_iff; exists c; split; [reflexivity|exact Ic]|].
    rewrite (proj1 (proj2 (OK c Ic))), <- (gl_add HK HM), <- (gl_smul HK HM), !RI by lia. reflexivity. }
  assert (Rel B D (rels_z n1 n m k cons y b) \/ forall c, In c (sz_us b) -> forall j, (j < D)%nat -> rep_u n1 n m k cons y z c 1 j = fadd (rz y b 1 0 j) (fmul (su_u c) (rz y b 1 1 j))) as [R|C1]; [|now left|].
  { apply or_all. intros c Ic. apply (same_or_rel HK HM); [unfold rels_z; apply in_app_iff; right; apply in_app_iff; left; apply in_map_iff; exists c; split; [reflexivity|exact Ic]|].
    rewrite (proj1 (proj2 (proj2 (OK c Ic)))), <- (gl_add HK HM), <- (gl_smul HK HM), !RO by lia. reflexivity. }
  assert (In (nth 0 (sz_us b) du) (sz_us b)) as I0 by (apply nth_In; lia).
  set (tau := t2_of (nth 0 (sz_us b) du)).
  assert (Rel B D (rels_z n1 n m k cons y b) \/ forall c, In c (sz_us b) -> t2_of c = tau) as [R|Ct]; [|now left|].
  { apply or_all. intros c Ic. destruct (zero_or_rel HK B D (rels_z n1 n m k cons y b) (fun j => gcoef k j (fsub (t2_of c) tau) (fsub (tb2_of c) (tb_z b)))) as [R|Z].
    - unfold rels_z. do 2 (apply in_app_iff; right). apply in_app_iff. left. apply in_map_iff. exists c. split; [reflexivity|exact Ic].
    - rewrite gl_gcoef. transitivity (msub (madd (smul (t2_of c) g) (smul (tb2_of c) h)) (madd (smul tau g) (smul (tb_z b) h))); [module_coefs HK HM; ring|].
      rewrite <- (proj1 (proj2 (proj2 (proj2 (OK c Ic))))). unfold tau, tb_z. rewrite <- (proj1 (proj2 (proj2 (proj2 (OK _ I0))))). module_coefs HK HM; ring.
    - now left.
    - right. specialize (Z (N + N)%nat ltac:(lia)). unfold gcoef in Z. rewrite Nat.eqb_refl in Z. now apply (fsub_eq0 _ HK). }
  right. unfold ok_z. rewrite !RI, !RO by lia. do 4 (split; [reflexivity|]). fold z.
  assert (T2 y (weights_at n m cons z) (fun _ => f1) (fun i => fadd (rz y b 0 0 i) (rz y b 0 1 i)) (fun i => fadd (rz y b 0 0 (N + i)%nat) (rz y b 0 1 (N + i)%nat)) (fun i => fadd (rz y b 1 0 i) (rz y b 1 1 i)) = tau) as ->.
  2:{ unfold tau, tb_z. exact (proj1 (proj2 (proj2 (proj2 (OK _ I0))))). }
  set (w := weights_at n m cons z) in *. set (a0 := rz y b 0 0) in *. set (a1 := rz y b 0 1) in *. set (c0 := rz y b 1 0) in *. set (c1 := rz y b 1 1) in *.
  assert (U2 y w a0 a1 (fun i => a0 (N + i)%nat) (fun i => a1 (N + i)%nat) c0 c1 tau f1 = f0) as U.
  { apply (polyfun_roots K HK 5 _ (map su_u (sz_us b)) (U2_poly _ _ _ _ _ _ _ _ _)); [exact ND|rewrite map_length; lia|].
    intros u Iu'. apply in_map_iff in Iu' as (c & <- & Ic). destruct (OK c Ic) as (Nu & _ & _ & _ & E). rewrite U2_T2 by exact Nu.
    rewrite <- (Ct c Ic). change (weights_at n m cons z) with w in E. rewrite E.
    rewrite (T2_ext y w (phase_weight n1 (su_u c)) (rep_u n1 n m k cons y z c 0) (fun i => fadd (a0 i) (fmul (su_u c) (a1 i))) (fun i => rep_u n1 n m k cons y z c 0 (N + i)%nat) (fun i => fadd (a0 (N + i)%nat) (fmul (su_u c) (a1 (N + i)%nat))) (rep_u n1 n m k cons y z c 1) (fun i => fadd (c0 i) (fmul (su_u c) (c1 i))));
      [ring| | |]; intros i Hi; [apply C0|apply C0|apply C1]; try assumption; lia. }
  rewrite U2_T2 in U by apply (f1_neq_0 _ HK).
  assert (forall X : K, fmul (fmul f1 f1) (fsub X tau) = f0 -> X = tau) as Z by (intros X E; apply (fsub_eq0 _ HK); rewrite <- E; ring). apply Z in U. rewrite <- U. unfold T2. apply ksum_ext. intros i _.
  assert (phase_weight n1 f1 i = (f1 : K)) as -> by (unfold phase_weight; now destruct (i <? n1)%nat). ring.
Qed.

(** ** after z and after y *)
Context (t : list (@sy K)).
Notation A0 := (ex_assignment n1 n m k cons t).
Notation aL := (ex_aL n1 n m k cons t). Notation aR := (ex_aR n1 n m k cons t). Notation aO := (ex_aO n1 n m k cons t).
Notation ga := (gates_at n1 n m k cons t).
Lemma T2_gates y z v : y <> f0 ->
  madd (smul (T2 y (weights_at n m cons z) (fun _ => f1) aL aR aO) g) m0 =
  madd (Xz y z) (madd (smul (ga y) g) (smul z (gl (map (point_value g Vs (A0 v)) cons) (length cons) (fpow z)))).
Proof.
  intros Ny. destruct (flatten_Phi z (A0 v) eq_refl) as (_ & (W1 & W2 & W3 & W4) & <-). set (w := weights_at n m cons z) in *. unfold Phi, Xz. fold w.
  assert (T2 y w (fun _ => f1) aL aR aO = fadd (fadd (ga y) (delta_of n y w)) (fadd (kmi (w_L w) aL) (fadd (kmi (w_R w) aR) (kmi (w_O w) aO)))) as ->.
  { unfold delta_of. rewrite <- (ksum_split HK n N) by (try exact Hn; intros i Hi; rewrite !nth_overflow by lia; ring). unfold T2, gates_at, kmi. rewrite !(ksum_add HK). apply ksum_ext. intros i Hi. pose proof (fpow_inv HK y i Ny) as Py.
    assert (finv f1 = (f1 : K)) as -> by (field; apply (f1_neq_0 _ HK)).
    transitivity (fadd (fmul (fpow y i) (fsub (fmul (aL i) (aR i)) (aO i))) (fadd (fmul (aL i) (nth i (w_L w) f0)) (fadd (fmul (fmul (fpow (finv y) i) (fpow y i)) (fmul (nth i (w_R w) f0) (aR i))) (fadd (fmul (fmul (nth i (w_R w) f0) (fpow (finv y) i)) (nth i (w_L w) f0)) (fmul (aO i) (nth i (w_O w) f0)))))); [ring|]. rewrite Py. ring. }
  change (kmi (w_L w) (fun i => A0 v (MulL i))) with (kmi (w_L w) aL). change (kmi (w_R w) (fun i => A0 v (MulR i))) with (kmi (w_R w) aR). change (kmi (w_O w) (fun i => A0 v (MulO i))) with (kmi (w_O w) aO).
  module_coefs HK HM; ring.
Qed.


Lemma coefficient_opp (xs : list K) q v : coefficient xs q (fun i => fopp (v i)) = fopp (coefficient xs q v).
Proof. unfold coefficient. transitivity (fmul (fopp f1) (ksum (length xs) (fun i => fmul (nth q (lagc xs i) f0) (v i)))); [|ring]. rewrite (ksum_scale HK). apply ksum_ext. intros. ring. Qed.
Lemma gl_coefficient (xs : list K) q (v : nat -> K) : gl B D (fun j => coefficient xs q (fun i => gcoef k j f0 (v i))) = smul (coefficient xs q v) h.
Proof.
  transitivity (madd (smul f0 g) (smul (coefficient xs q v) h)); [|module_coefs HK HM; ring]. rewrite <- gl_gcoef. apply gl_ext. intros j _. unfold gcoef.
  assert (coefficient xs q (fun _ => f0) = f0) as Z by (unfold coefficient; rewrite (ksum_ext _ _ (fun _ => f0)) by (intros; ring); apply (ksum_0 HK)).
  destruct (j =? N + N)%nat; [exact Z|]. destruct (j =? N + N + 1)%nat; [reflexivity|exact Z].
Qed.
Notation rr := (rep_ref n1 n m k cons t).
Notation rels := (rels_r1cs n1 n m k cons t).
Lemma top_level AI1 AO1 AI2 AO2 : length t = N -> NoDup (map sy_y t) ->
  (forall b, In b t -> sy_y b <> f0 /\ length (sy_zs b) = S (length cons) /\ NoDup (map sz_z (sy_zs b)) /\ forall c, In c (sy_zs b) -> ok_z (sy_y b) AI1 AO1 AI2 AO2 c) ->
  Rel B D rels \/
  ((forall i, (i < N)%nat -> fmul (aL i) (aR i) = aO i) /\
   forall q v, (q < length cons)%nat -> point_value g Vs (A0 v) (nth q cons []) = smul (ex_blinding t q) h).
Proof.
  intros Lt ND OK. assert (N <> 0)%nat as N0 by (apply Nat.pow_nonzero; lia).
  assert (In (first_y t) t) as I1 by (unfold first_y; apply nth_In; lia).
  assert (In (first_z t) (sy_zs (first_y t))) as I2 by (unfold first_z; apply nth_In; destruct (OK _ I1) as (_ & -> & _); lia).
  assert (forall d e, In (d, e) [(0, 0); (0, 1); (1, 0); (1, 1)]%nat -> Rel B D rels \/ forall b, In b t -> forall c, In c (sy_zs b) -> forall j, (j < D)%nat -> rz (sy_y b) c d e j = rr d e j) as Same.
  { intros d e I. apply or_all. intros b Ib. apply or_all. intros c Ic. apply (same_or_rel HK HM).
    - unfold rels_r1cs. apply in_flat_map. exists b. split; [exact Ib|]. right. apply in_flat_map. exists c. split; [exact Ic|]. apply in_app_iff. left. apply in_map_iff. exists (d, e). split; [reflexivity|exact I].
    - destruct (OK b Ib) as (_ & _ & _ & F). destruct (F c Ic) as (E1 & E2 & E3 & E4 & _). destruct (OK _ I1) as (_ & _ & _ & F'). destruct (F' _ I2) as (E1' & E2' & E3' & E4' & _).
      unfold rep_ref. destruct I as [I|[I|[I|[I|[]]]]]; injection I as <- <-; congruence. }
  destruct (Same 0%nat 0%nat) as [R|S00]; [cbn; auto|now left|]. destruct (Same 0%nat 1%nat) as [R|S01]; [cbn; auto|now left|].
  destruct (Same 1%nat 0%nat) as [R|S10]; [cbn; auto|now left|]. destruct (Same 1%nat 1%nat) as [R|S11]; [cbn; auto|now left|]. clear Same.
  assert (forall v b, In b t -> forall c, In c (sy_zs b) -> gl (smul (ga (sy_y b)) g :: map (point_value g Vs (A0 v)) cons) (S (length cons)) (fpow (sz_z c)) = smul (fopp (tb_z c)) h) as Eq.
  { intros v b Ib c Ic. destruct (OK b Ib) as (Ny & _ & _ & F). destruct (F c Ic) as (_ & _ & _ & _ & E). pose proof (T2_gates (sy_y b) (sz_z c) v Ny) as Tg.
    rewrite (T2_ext _ _ _ _ aL _ aR _ aO) in E.
    - rewrite (gl_cons HK HM). cbn [fpow]. rewrite <- (gl_smul HK HM).
      match goal with |- madd ?X ?Y = _ => transitivity (msub (madd (Xz (sy_y b) (sz_z c)) (madd (smul (ga (sy_y b)) g) Y)) (Xz (sy_y b) (sz_z c))); [module_coefs HK HM; ring|] end.
      rewrite <- Tg, E. module_coefs HK HM; ring.
    - intros i Hi. unfold ex_aL. now rewrite (S00 b Ib c Ic), (S01 b Ib c Ic) by lia.
    - intros i Hi. unfold ex_aR. now rewrite (S00 b Ib c Ic), (S01 b Ib c Ic) by lia.
    - intros i Hi. unfold ex_aO. now rewrite (S10 b Ib c Ic), (S11 b Ib c Ic) by lia. }
  assert (forall v b, In b t -> forall q, (q < S (length cons))%nat -> nth q (smul (ga (sy_y b)) g :: map (point_value g Vs (A0 v)) cons) m0 = smul (fopp (coefficient (map sz_z (sy_zs b)) q (fun i => tb_z (nth i (sy_zs b) dz)))) h) as Co.
  { intros v b Ib q Hq. destruct (OK b Ib) as (_ & Lz & NDz & _). rewrite <- coefficient_opp, <- gl_coefficient. symmetry.
    apply (coefficient_points HK HM B D (map sz_z (sy_zs b)) (smul (ga (sy_y b)) g :: map (point_value g Vs (A0 v)) cons) (fun i j => gcoef k j f0 (fopp (tb_z (nth i (sy_zs b) dz)))) q NDz).
    - cbn [length]. rewrite !map_length. now rewrite Lz.
    - rewrite map_length. lia.
    - rewrite map_length, Lz. intros i Hi. assert (nth i (map sz_z (sy_zs b)) f0 = sz_z (nth i (sy_zs b) dz)) as -> by (rewrite (nth_indep _ f0 (sz_z dz)) by (rewrite map_length; lia); apply map_nth).
      rewrite (Eq v b Ib) by (apply nth_In; lia). rewrite gl_gcoef. module_coefs HK HM; ring. }
  assert (Rel B D rels \/ forall b, In b t -> ga (sy_y b) = f0) as [R|Gz]; [|now left|].
  { apply or_all. intros b Ib. destruct (zero_or_rel HK B D rels (fun j => gcoef k j (ga (sy_y b)) (coefficient (map sz_z (sy_zs b)) 0 (fun i => tb_z (nth i (sy_zs b) dz))))) as [R|Z].
    - unfold rels_r1cs. apply in_flat_map. exists b. split; [exact Ib|]. left. reflexivity.
    - rewrite gl_gcoef. pose proof (Co [] b Ib 0%nat ltac:(lia)) as E. cbn [nth] in E. rewrite E. module_coefs HK HM; ring.
    - now left.
    - right. specialize (Z (N + N)%nat ltac:(lia)). unfold gcoef in Z. now rewrite Nat.eqb_refl in Z. }
  right. split.
  - set (p := map (fun i => fsub (fmul (aL i) (aR i)) (aO i)) (seq 0 N)).
    assert (Forall (fun c => c = f0) p) as Z.
    { apply (roots_zero K HK (map sy_y t)); [exact ND|unfold p; rewrite !map_length, seq_length; lia|]. intros y Iy. apply in_map_iff in Iy as (b & <- & Ib). rewrite <- (Gz b Ib). rewrite (peval_ksum HK). unfold p at 1. rewrite map_length, seq_length.
      unfold gates_at. apply ksum_ext. intros i Hi. unfold p. rewrite nth_map_seq by exact Hi. ring. }
    intros i Hi. apply (fsub_eq0 _ HK). rewrite Forall_forall in Z. apply Z. unfold p. apply in_map_iff. exists i. split; [reflexivity|apply in_seq; lia].
  - intros q v Hq. pose proof (Co v (first_y t) I1 (S q) ltac:(lia)) as E. cbn [nth] in E. rewrite (nth_indep _ m0 (point_value g Vs (A0 v) [])), map_nth in E by (rewrite map_length; exact Hq). exact E.
Qed.
End Core.

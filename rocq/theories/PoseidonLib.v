(** The Poseidon constraints against the native permutation. *)
From Verif Require Import Base Alg R1csModel R1csSpec R1csLib GadgetModel GadgetApiModel GadgetLib GadgetSim GadgetApiLib.
Open Scope list_scope.
Open Scope Z_scope.
Open Scope cs_scope.

Lemma rmap_snoc {A B} (f : A -> res B) l x ys y : rmap f l = Ok ys -> f x = Ok y -> rmap f (l ++ [x]) = Ok (ys ++ [y]).
Proof.
  revert ys. induction l as [|a l IH]; intros ys H1 H2; cbn [rmap app] in *.
  - injection H1 as <-. now rewrite H2.
  - destruct (f a) as [b|]; [|discriminate]. cbn [rbind] in *. destruct (rmap f l) as [bs|]; [|discriminate]. cbn [rbind] in H1. injection H1 as <-. now rewrite (IH bs eq_refl H2).
Qed.
Lemma rmap_snoc_inv {A B} (f : A -> res B) l x zs : rmap f (l ++ [x]) = Ok zs -> exists ys y, rmap f l = Ok ys /\ f x = Ok y /\ zs = ys ++ [y].
Proof.
  revert zs. induction l as [|a l IH]; intros zs H; cbn [rmap app] in *.
  - destruct (f x) as [y|]; [|discriminate]. injection H as <-. exists [], y. auto.
  - destruct (f a) as [b|]; [|discriminate]. cbn [rbind] in *. destruct (rmap f (l ++ [x])) as [bs|]; [|discriminate]. cbn [rbind] in H. injection H as <-.
    destruct (IH bs eq_refl) as (ys & y & E1 & E2 & ->). rewrite E1. cbn [rbind]. exists (b :: ys), y. auto.
Qed.
Lemma rmap_rel {A B C} (f : A -> res B) (g : A -> res C) (h : B -> C) l ys : (forall x y, f x = Ok y -> g x = Ok (h y)) -> rmap f l = Ok ys -> rmap g l = Ok (map h ys).
Proof.
  intros H. revert ys. induction l as [|a l IH]; intros ys E; cbn [rmap] in *; [injection E as <-; reflexivity|].
  destruct (f a) as [b|] eqn:Ea; [|discriminate]. cbn [rbind] in E. destruct (rmap f l) as [bs|]; [|discriminate]. cbn [rbind] in E. injection E as <-.
  now rewrite (H _ _ Ea), (IH bs eq_refl).
Qed.
Lemma rmap_ext_in {A B} (f g : A -> res B) l : (forall x, In x l -> f x = g x) -> rmap f l = rmap g l.
Proof. induction l as [|a l IH]; intros H; [reflexivity|]. cbn [rmap]. rewrite (H a) by now left. rewrite IH; [reflexivity|]. intros; apply H; now right. Qed.
Lemma rfold_rel {A S T} (f : S -> A -> res S) (g : T -> A -> res T) (h : S -> T) l : (forall s x s', f s x = Ok s' -> g (h s) x = Ok (h s')) -> forall s s', rfold f l s = Ok s' -> rfold g l (h s) = Ok (h s').
Proof.
  intros H. induction l as [|a l IH]; intros s s' E; cbn [rfold] in *; [injection E as <-; reflexivity|].
  destruct (f s a) as [s1|] eqn:Ea; [|discriminate]. cbn [rbind] in E. rewrite (H _ _ _ Ea). cbn [rbind]. now apply IH.
Qed.
Lemma seq_last w : (0 < w)%nat -> seq 0 w = seq 0 (w - 1) ++ [(w - 1)%nat].
Proof. intros H. replace w with (S (w - 1)) at 1 by lia. now rewrite seq_S. Qed.

Section Lib.
Context {K : fieldOps} (HK : field_laws K).
Add Field Kf : (proj1 HK).
Implicit Types (p : poseidon_params (K := K)) (t : sbox).

(** the values entering the linear layer in a partial round *)
Definition partial_out p t (state : list K) (off i : nat) : res K :=
  let! x := idx state i in let! k := idx (po_keys p) (off + i) in
  Ok (if Nat.eqb i (po_width p - 1) then apply_sbox t (fadd x k) else fadd x k).
Definition full_out p t (state : list K) (off i : nat) : res K :=
  let! x := idx state i in let! k := idx (po_keys p) (off + i) in Ok (apply_sbox t (fadd x k)).
Lemma full_round_form p t state off : length state = po_width p ->
  full_round p t (state, off) = let! sb := rmap (full_out p t state off) (seq 0 (po_width p)) in let! next := lin_layer (po_mds p) (po_width p) sb in Ok (next, (off + po_width p)%nat).
Proof. intros L. unfold full_round. rewrite (skipn_all2 state) by lia. fold (full_out p t state off). destruct (rmap _ _) as [sb|]; [|reflexivity]. cbn [rbind]. now rewrite app_nil_r. Qed.
Lemma partial_round_form p t state off : length state = po_width p -> (0 < po_width p)%nat ->
  forall r, partial_round p t (state, off) = Ok r <-> (let! sb := rmap (partial_out p t state off) (seq 0 (po_width p)) in let! next := lin_layer (po_mds p) (po_width p) sb in Ok (next, (off + po_width p)%nat)) = Ok r.
Proof.
  intros L H r. unfold partial_round. rewrite (skipn_all2 state) by lia.
  set (w := po_width p) in *. rewrite (seq_last w H).
  set (ad := fun i => let! x := idx state i in let! k := idx (po_keys p) (off + i) in Ok (fadd x k)).
  assert (rmap (partial_out p t state off) (seq 0 (w - 1)) = rmap ad (seq 0 (w - 1))) as Ep.
  { apply rmap_ext_in. intros i I. apply in_seq in I. unfold partial_out, ad. fold w. replace (Nat.eqb i (w - 1)) with false by (symmetry; apply Nat.eqb_neq; lia). reflexivity. }
  assert (Nat.eqb w 0 = false) as -> by (apply Nat.eqb_neq; lia).
  assert (forall A (l : list A) x, length l = (w - 1)%nat -> firstn (w - 1) (l ++ [x]) = l /\ idx (l ++ [x]) (w - 1) = Ok x) as FL.
  { intros A l x E. split; [rewrite firstn_app, E, Nat.sub_diag, firstn_all2 by lia; apply app_nil_r|]. unfold idx. rewrite nth_error_app2 by lia. now rewrite E, Nat.sub_diag. }
  split; intros E.
  - destruct (rmap ad (seq 0 (w - 1) ++ [(w - 1)%nat])) as [l|] eqn:El; [|discriminate]. cbn [rbind] in E. apply rmap_snoc_inv in El as (ys & y & E1 & E2 & ->).
    pose proof (rmap_length _ _ _ E1) as Ly. rewrite seq_length in Ly. destruct (FL _ ys y Ly) as [F1 F2]. rewrite F2 in E. cbn [rbind] in E. rewrite F1 in E.
    rewrite (rmap_snoc _ _ _ ys (apply_sbox t y)); [exact E|now rewrite Ep|]. unfold partial_out. unfold ad in E2. destruct (idx state (w - 1)) as [x|]; [|discriminate]. cbn [rbind] in E2 |- *.
    destruct (idx (po_keys p) (off + (w - 1))) as [k|]; [|discriminate]. cbn [rbind] in E2 |- *. injection E2 as <-. fold w. now rewrite Nat.eqb_refl.
  - destruct (rmap (partial_out p t state off) (seq 0 (w - 1) ++ [(w - 1)%nat])) as [l|] eqn:El; [|discriminate]. cbn [rbind] in E. apply rmap_snoc_inv in El as (ys & z & E1 & E2 & ->). rewrite Ep in E1.
    unfold partial_out in E2. fold w in E2. rewrite Nat.eqb_refl in E2. destruct (idx state (w - 1)) as [x|] eqn:Ex; [|discriminate]. cbn [rbind] in E2. destruct (idx (po_keys p) (off + (w - 1))) as [k|] eqn:Ek; [|discriminate]. cbn [rbind] in E2. injection E2 as <-.
    rewrite (rmap_snoc ad _ _ ys (fadd x k) E1) by (unfold ad; now rewrite Ex, Ek). cbn [rbind].
    pose proof (rmap_length _ _ _ E1) as Ly. rewrite seq_length in Ly. destruct (FL _ ys (fadd x k) Ly) as [F1 F2]. rewrite F2. cbn [rbind]. rewrite F1. exact E.
Qed.

Section Sound.
Context {Pt : Type} (w : @assignment K).
Notation VS := (vstate K Pt).
Notation sound := (soundM (Pt := Pt) w).
Notation lv := (lc_value w).

Lemma sound_clift {A} (r : res A) (Q : A -> Prop) : (forall a, r = Ok a -> Q a) -> sound (lift r) Q.
Proof. apply sound_lift. Qed.
Lemma sound_sbox t l k : t <> Inverse -> sound (synthesize_sbox (@V K Pt) t l k) (fun o => w VOne = f1 -> w o = apply_sbox t (fadd (lv l) k)).
Proof.
  intros N. destruct t; [| congruence |]; cbn [synthesize_sbox apply_sbox].
  - unfold synthesize_cube. eapply sound_bind; [apply (sound_multiply HK)|]. intros [[a b] o]. eapply sound_bind; [apply (sound_multiply HK)|]. intros [[a2 b2] o2]. apply sound_ret.
    intros (_ & _ & E2) (E1 & _ & E0) O. rewrite E2, !(lv_var HK), E0, E1, (lv_add HK), (lv_const HK) by exact O. reflexivity.
  - unfold synthesize_quint. eapply sound_bind; [apply (sound_multiply HK)|]. intros [[a b] o]. eapply sound_bind; [apply (sound_multiply HK)|]. intros [[a2 b2] o2]. eapply sound_bind; [apply (sound_multiply HK)|]. intros [[a3 b3] o3]. apply sound_ret.
    intros (_ & _ & E3) (_ & _ & E2) (E1 & _ & E0) O. rewrite E3, !(lv_var HK), E2, !(lv_var HK), E0, E1, (lv_add HK), (lv_const HK) by exact O. reflexivity.
Qed.
Lemma sound_outs (step : nat -> list (lc K) -> csm VS (list (lc K))) (g : nat -> res K) :
  (forall i outs, sound (step i outs) (fun outs' => w VOne = f1 -> exists o, outs' = outs ++ [o] /\ g i = Ok (lv o))) ->
  forall is, sound (cfold step is []) (fun outs => w VOne = f1 -> rmap g is = Ok (map lv outs)).
Proof.
  intros H is. apply (sound_fold w step (fun d outs => w VOne = f1 -> rmap g d = Ok (map lv outs))) with (done := []); [|reflexivity].
  intros d i outs. eapply sound_weaken; [apply H|]. intros outs' E HI O. destruct (E O) as (o & -> & Eg). rewrite map_app. apply rmap_snoc; auto.
Qed.
Lemma lin_layer_lv m outs next : lin_layer_lc m outs = Ok next -> lin_layer m (length outs) (map lv outs) = Ok (map lv next).
Proof.
  unfold lin_layer_lc, lin_layer. apply rmap_rel. intros i y E. rewrite <- (lv_nil w : lv [] = f0). revert E. apply (rfold_rel _ _ lv).
  intros acc j acc' E. destruct (idx outs j) as [x|] eqn:Ex; [|discriminate]. cbn [rbind] in E. rewrite (idx_map lv _ _ _ Ex). cbn [rbind]. destruct (mds_at m j i) as [c|]; [|discriminate]. cbn [rbind] in *. injection E as <-.
  rewrite (lv_add HK), (lv_scale HK). do 2 f_equal. ring.
Qed.
Definition abs (st : list (lc K) * nat) : list K * nat := (map lv (fst st), snd st).
Definition rspec p (fc : list (lc K) * nat -> csm VS (list (lc K) * nat)) (f : list K * nat -> res (list K * nat)) : Prop :=
  forall st, sound (fc st) (fun st' => w VOne = f1 -> length (fst st) = po_width p -> f (abs st) = Ok (abs st') /\ length (fst st') = po_width p).
Lemma sound_full_round p t : t <> Inverse -> rspec p (full_round_c V p t) (full_round p t).
Proof.
  intros N [ins off]. unfold full_round_c. eapply sound_bind.
  { apply (sound_outs _ (full_out p t (map lv ins) off)). intros i outs.
    eapply sound_bind; [apply sound_clift; intros x Ex; exact Ex|]. intros x. eapply sound_bind; [apply sound_clift; intros k Ek; exact Ek|]. intros k.
    eapply sound_bind; [apply sound_sbox, N|]. intros o. apply sound_ret. intros Eo Ek Ex O. exists (lc_var o). split; [reflexivity|]. unfold full_out. rewrite (idx_map lv _ _ _ Ex), Ek. cbn [rbind]. now rewrite (lv_var HK), (Eo O). }
  intros outs. eapply sound_bind; [apply sound_clift; intros n En; exact En|]. intros next. apply sound_ret. intros En Eo O L. unfold abs. cbn [fst snd] in *. specialize (Eo O).
  pose proof (rmap_length _ _ _ Eo) as Lo. rewrite map_length, seq_length in Lo.
  rewrite full_round_form by (rewrite map_length; exact L). rewrite Eo. cbn [rbind]. rewrite <- Lo at 1. rewrite (lin_layer_lv _ _ _ En). cbn [rbind]. split; [reflexivity|].
  unfold lin_layer_lc in En. apply rmap_length in En. rewrite seq_length in En. congruence.
Qed.
Lemma sound_partial_round p t : t <> Inverse -> (0 < po_width p)%nat -> rspec p (partial_round_c V p t) (partial_round p t).
Proof.
  intros N W [ins off]. unfold partial_round_c. eapply sound_bind.
  { apply (sound_outs _ (partial_out p t (map lv ins) off)). intros i outs.
    eapply sound_bind; [apply sound_clift; intros x Ex; exact Ex|]. intros x. eapply sound_bind; [apply sound_clift; intros k Ek; exact Ek|]. intros k.
    destruct (Nat.eqb i (po_width p - 1)) eqn:Ei.
    - eapply sound_bind; [apply sound_sbox, N|]. intros o. apply sound_ret. intros Eo Ek Ex O. exists (lc_var o). split; [reflexivity|]. unfold partial_out. rewrite (idx_map lv _ _ _ Ex), Ek, Ei. cbn [rbind]. now rewrite (lv_var HK), (Eo O).
    - apply sound_ret. intros Ek Ex O. eexists. split; [reflexivity|]. unfold partial_out. rewrite (idx_map lv _ _ _ Ex), Ek, Ei. cbn [rbind]. now rewrite (lv_add HK), (lv_const HK). }
  intros outs. eapply sound_bind; [apply sound_clift; intros n En; exact En|]. intros next. apply sound_ret. intros En Eo O L. unfold abs. cbn [fst snd] in *. specialize (Eo O).
  pose proof (rmap_length _ _ _ Eo) as Lo. rewrite map_length, seq_length in Lo. split.
  - apply partial_round_form; [now rewrite map_length|exact W|]. rewrite Eo. cbn [rbind]. rewrite <- Lo at 1. rewrite (lin_layer_lv _ _ _ En). cbn [rbind]. rewrite map_map.
    rewrite (map_ext (fun x => lv (lc_simplify x)) lv) by (intros; apply (lv_simplify HK)). reflexivity.
  - rewrite map_length. unfold lin_layer_lc in En. apply rmap_length in En. rewrite seq_length in En. congruence.
Qed.
Lemma sound_rounds p fc f : rspec p fc f -> forall n st, sound (rounds_c fc n st) (fun st' => w VOne = f1 -> length (fst st) = po_width p -> rounds f n (abs st) = Ok (abs st') /\ length (fst st') = po_width p).
Proof.
  intros H. induction n as [|n IH]; intros st; unfold rounds_c, rounds in *; cbn [repeat cfold rfold].
  - apply sound_ret. auto.
  - eapply sound_bind; [apply H|]. intros st1. eapply sound_weaken; [apply IH|]. intros st2 E2 E1 O L. destruct (E1 O L) as [-> L1]. cbn [rbind]. auto.
Qed.
Lemma sound_permutation ins p t : t <> Inverse -> (0 < po_width p)%nat -> sound (poseidon_permutation_constraints (@V K Pt) ins p t) (fun outs => poseidon_permutation (map lv ins) p t = Ok (map lv outs)).
Proof.
  intros N W. apply sound_one. unfold poseidon_permutation_constraints. destruct (Nat.eqb (length ins) (po_width p)) eqn:EL; [|apply sound_fail]. cbn [negb].
  eapply sound_bind; [apply (sound_rounds p), sound_full_round, N|]. intros s1. eapply sound_bind; [apply (sound_rounds p), sound_partial_round; assumption|]. intros s2.
  eapply sound_bind; [apply (sound_rounds p), sound_full_round, N|]. intros s3. apply sound_ret. intros E3 E2 E1 O. unfold poseidon_permutation. rewrite map_length, EL. cbn [negb]. apply Nat.eqb_eq in EL.
  destruct (E1 O EL) as [R1 L1]. change (abs (ins, 0%nat)) with (map lv ins, 0%nat) in R1. rewrite R1. cbn [rbind]. destruct (E2 O L1) as [-> L2]. cbn [rbind]. destruct (E3 O L2) as [-> _]. reflexivity.
Qed.
Lemma sound_hash ar ins cap p t : t <> Inverse -> sound (poseidon_hash_constraints (@V K Pt) ar ins cap p t)
  (fun h => length ins = ar /\ exists outs, poseidon_permutation (lv cap :: map lv ins) p t = Ok outs /\ idx outs 1 = Ok (lv h)).
Proof.
  intros N. unfold poseidon_hash_constraints. destruct (Nat.eqb (length ins) ar) eqn:EL; [|apply sound_fail]. cbn [negb]. apply Nat.eqb_eq in EL.
  destruct (po_width p) as [|n] eqn:EW.
  { intros s a s' E. unfold poseidon_permutation_constraints in E. rewrite EW in E. cbn in E. discriminate. }
  eapply sound_bind; [apply (sound_permutation _ p t N); lia|]. intros outs. eapply sound_weaken; [apply sound_clift; intros h Eh; exact Eh|]. intros h Eh Ep. cbn [map] in Ep. split; [exact EL|]. exists (map lv outs). split; [exact Ep|]. now apply idx_map.
Qed.
End Sound.

Section Compl.
Implicit Types (s : pstate K).
Ltac carry X := repeat match goal with
  | H : hasv ?s _ _ |- _ => match type of X with pext s _ => apply (hasv_ext _ _ _ _ X) in H end
  | H : has ?s _ _ |- _ => match type of X with pext s _ => apply (has_ext _ _ _ _ X) in H end
  end.
Lemma Forall2_has_ext s s' (ls : list (lc K)) (xs : list K) : pext s s' -> Forall2 (has s) ls xs -> Forall2 (has s') ls xs.
Proof. intros X F. induction F; constructor; [eapply has_ext; eauto|assumption]. Qed.
Lemma idx_F2 {A B} (R : A -> B -> Prop) l1 l2 i y : Forall2 R l1 l2 -> idx l2 i = Ok y -> exists x, idx l1 i = Ok x /\ R x y.
Proof. intros F E. unfold idx in E. destruct (nth_error l2 i) as [b|] eqn:Eb; [|discriminate]. injection E as <-. destruct (Forall2_nth _ _ _ _ _ F Eb) as (a & Ea & Hab). exists a. unfold idx. now rewrite Ea. Qed.
Lemma compl_clift {A} s (r : res A) x (Q : A -> pstate K -> Prop) : pgood s -> r = Ok x -> Q x s -> compl s (lift r) Q.
Proof. apply compl_lift. Qed.
Lemma compl_sbox s t l k x : t <> Inverse -> pgood s -> has s l x -> compl s (synthesize_sbox P t l k) (fun o s' => hasv s' o (apply_sbox t (fadd x k)) /\ p_pending s' = p_pending s).
Proof.
  intros N G H. assert (has s (lc_add l (lc_const k)) (fadd x k)) as H1 by (apply (has_add HK); [exact H|apply (has_const HK)]). destruct t; [| congruence |]; cbn [synthesize_sbox apply_sbox].
  - unfold synthesize_cube. eapply compl_bind; [apply (compl_multiply HK _ _ _ _ _ G H1 H1)|]. intros [[a b] o] s1 G1 X1 (A1 & _ & A3 & P1).
    eapply compl_bind; [eapply (compl_multiply HK _ _ _ _ _ G1); apply (has_var HK); eassumption|]. intros [[a2 b2] o2] s2 G2 X2 (_ & _ & B3 & P2). apply compl_ret; [exact G2|]. split; [exact B3|congruence].
  - unfold synthesize_quint. eapply compl_bind; [apply (compl_multiply HK _ _ _ _ _ G H1 H1)|]. intros [[a b] o] s1 G1 X1 (A1 & _ & A3 & P1).
    eapply compl_bind; [eapply (compl_multiply HK _ _ _ _ _ G1); apply (has_var HK); eassumption|]. intros [[a2 b2] o2] s2 G2 X2 (_ & _ & B3 & P2). carry X2.
    eapply compl_bind; [eapply (compl_multiply HK _ _ _ _ _ G2); apply (has_var HK); eassumption|]. intros [[a3 b3] o3] s3 G3 X3 (_ & _ & C3 & P3). apply compl_ret; [exact G3|]. split; [exact C3|congruence].
Qed.
(** [cond] may restrict the values a box accepts and the state it runs in *)
Lemma compl_outs s (step : nat -> list (lc K) -> csm (pstate K) (list (lc K))) (g : nat -> res K) :
  (forall i outs y s1, pgood s1 -> pext s s1 -> p_pending s1 = p_pending s -> g i = Ok y -> compl s1 (step i outs) (fun outs' s' => exists o, outs' = outs ++ [o] /\ has s' o y /\ p_pending s' = p_pending s)) ->
  forall is ys outs xs s1, pgood s1 -> pext s s1 -> p_pending s1 = p_pending s -> Forall2 (has s1) outs xs -> rmap g is = Ok ys ->
  compl s1 (cfold step is outs) (fun outs' s' => Forall2 (has s') outs' (xs ++ ys) /\ p_pending s' = p_pending s).
Proof.
  intros H. induction is as [|i is IH]; intros ys outs xs s1 G1 X1 P1 F E; cbn [cfold rmap] in *.
  - injection E as <-. apply compl_ret; [exact G1|]. rewrite app_nil_r. auto.
  - destruct (g i) as [y|] eqn:Ei; [|discriminate]. cbn [rbind] in E. destruct (rmap g is) as [l|] eqn:El; [|discriminate]. cbn [rbind] in E. injection E as <-.
    eapply compl_bind; [apply (H i outs y s1 G1 X1 P1 Ei)|]. intros outs' s2 G2 X2 (o & -> & Ho & P2).
    eapply compl_weaken; [apply (IH l (outs ++ [o]) (xs ++ [y]) s2 G2)|].
    + eapply pext_trans; eauto. + exact P2. + apply Forall2_app; [eapply Forall2_has_ext; eauto|]. constructor; [exact Ho|constructor]. + reflexivity.
    + intros outs'' s3 _ _ (F3 & P3). rewrite <- app_assoc in F3. auto.
Qed.
Lemma lin_layer_has s m outs xs ys : Forall2 (has s) outs xs -> lin_layer m (length xs) xs = Ok ys -> exists next, lin_layer_lc m outs = Ok next /\ Forall2 (has s) next ys.
Proof.
  intros F. unfold lin_layer_lc, lin_layer.
  assert (length outs = length xs) as -> by (clear - F; induction F; cbn; lia).
  generalize (seq 0 (length xs)) at 2 4 as js. generalize (seq 0 (length xs)) as is. intros is js. revert js ys.
  assert (forall js i acc x y, has s acc x -> rfold (fun acc j => let! x := idx xs j in let! c := mds_at m j i in Ok (fadd acc (fmul x c))) js x = Ok y ->
     exists o, rfold (fun acc j => let! x := idx outs j in let! c := mds_at m j i in Ok (lc_add acc (lc_scale c x))) js acc = Ok o /\ has s o y) as R.
  { induction js as [|j js IH]; intros i acc x y Ha E; cbn [rfold] in *; [injection E as <-; eauto|].
    destruct (idx xs j) as [xj|] eqn:Ej; [|discriminate]. destruct (idx_F2 _ _ _ _ _ F Ej) as (oj & Eo & Hj). rewrite Eo. cbn [rbind] in *. destruct (mds_at m j i) as [c|]; [|discriminate]. cbn [rbind] in *.
    eapply IH; [|exact E]. eapply has_eq; [apply (has_add HK); [exact Ha|apply (has_scale HK), Hj]|ring]. }
  intros js ys. revert js ys. intros js. induction js as [|i js IH]; intros ys E; cbn [rmap] in *; [injection E as <-; eexists; split; [reflexivity|constructor]|].
  match type of E with (let! y := ?X in _) = _ => destruct X as [y|] eqn:Ey; [|discriminate] end. cbn [rbind] in E. match type of E with (let! y := ?X in _) = _ => destruct X as [l|] eqn:El; [|discriminate] end. cbn [rbind] in E. injection E as <-.
  destruct (R _ i [] f0 y (has_nil s) Ey) as (o & -> & Ho). cbn [rbind]. destruct (IH l eq_refl) as (nx & -> & Fn). cbn [rbind]. eexists. split; [reflexivity|]. now constructor.
Qed.
Definition cspec p (fc : list (lc K) * nat -> csm (pstate K) (list (lc K) * nat)) (f : list K * nat -> res (list K * nat)) : Prop :=
  forall s ins off xs r, pgood s -> Forall2 (has s) ins xs -> length xs = po_width p -> f (xs, off) = Ok r ->
  compl s (fc (ins, off)) (fun st' s' => Forall2 (has s') (fst st') (fst r) /\ snd st' = snd r /\ p_pending s' = p_pending s /\ length (fst r) = po_width p).
Lemma compl_full_round p t : t <> Inverse -> cspec p (full_round_c P p t) (full_round p t).
Proof.
  intros N s ins off xs r G F L E. rewrite full_round_form in E by exact L. destruct (rmap _ _) as [sb|] eqn:Esb; [|discriminate]. cbn [rbind] in E. destruct (lin_layer _ _ _) as [next|] eqn:En; [|discriminate]. cbn [rbind] in E. injection E as <-.
  unfold full_round_c. eapply compl_bind.
  { apply (compl_outs s _ (full_out p t xs off)) with (xs := []); try exact Esb; try exact G; try reflexivity; [|apply pext_refl|constructor].
    intros i outs y s1 G1 X1 P1 Ei. unfold full_out in Ei. destruct (idx xs i) as [x|] eqn:Ex; [|discriminate]. cbn [rbind] in Ei. destruct (idx (po_keys p) (off + i)) as [k|] eqn:Ek; [|discriminate]. cbn [rbind] in Ei. injection Ei as <-.
    destruct (idx_F2 _ _ _ _ _ F Ex) as (l & El & Hl). apply (has_ext _ _ _ _ X1) in Hl.
    eapply compl_bind; [apply (compl_clift _ _ l (fun d s' => d = l /\ s' = s1) G1 El); auto|]. intros ? ? _ _ [-> ->]. eapply compl_bind; [apply (compl_clift _ _ k (fun d s' => d = k /\ s' = s1) G1 eq_refl); auto|]. intros ? ? _ _ [-> ->].
    eapply compl_bind; [apply (compl_sbox s1 t l k x N G1 Hl)|]. intros o s2 G2 X2 (Ho & P2). apply compl_ret; [exact G2|]. exists (lc_var o). split; [reflexivity|]. split; [apply (has_var HK), Ho|congruence]. }
  intros outs s1 G1 X1 (Fo & P1). cbn [app] in Fo. pose proof (rmap_length _ _ _ Esb) as Ls. rewrite seq_length in Ls. rewrite <- Ls in En at 1.
  destruct (lin_layer_has s1 _ _ _ _ Fo En) as (nx & Enx & Fn). eapply compl_bind; [apply (compl_clift _ _ nx (fun d s' => d = nx /\ s' = s1) G1 Enx); auto|]. intros ? ? _ _ [-> ->].
  apply compl_ret; [exact G1|]. cbn [fst snd]. split; [exact Fn|]. split; [reflexivity|]. split; [exact P1|]. unfold lin_layer in En. apply rmap_length in En. rewrite seq_length in En. congruence.
Qed.
Lemma compl_partial_round p t : t <> Inverse -> (0 < po_width p)%nat -> cspec p (partial_round_c P p t) (partial_round p t).
Proof.
  intros N W s ins off xs r G F L E. apply (partial_round_form p t xs off L W) in E. destruct (rmap _ _) as [sb|] eqn:Esb; [|discriminate]. cbn [rbind] in E. destruct (lin_layer _ _ _) as [next|] eqn:En; [|discriminate]. cbn [rbind] in E. injection E as <-.
  unfold partial_round_c. eapply compl_bind.
  { apply (compl_outs s _ (partial_out p t xs off)) with (xs := []); try exact Esb; try exact G; try reflexivity; [|apply pext_refl|constructor].
    intros i outs y s1 G1 X1 P1 Ei. unfold partial_out in Ei. destruct (idx xs i) as [x|] eqn:Ex; [|discriminate]. cbn [rbind] in Ei. destruct (idx (po_keys p) (off + i)) as [k|] eqn:Ek; [|discriminate]. cbn [rbind] in Ei. injection Ei as <-.
    destruct (idx_F2 _ _ _ _ _ F Ex) as (l & El & Hl). apply (has_ext _ _ _ _ X1) in Hl.
    eapply compl_bind; [apply (compl_clift _ _ l (fun d s' => d = l /\ s' = s1) G1 El); auto|]. intros ? ? _ _ [-> ->]. eapply compl_bind; [apply (compl_clift _ _ k (fun d s' => d = k /\ s' = s1) G1 eq_refl); auto|]. intros ? ? _ _ [-> ->].
    destruct (Nat.eqb i (po_width p - 1)).
    - eapply compl_bind; [apply (compl_sbox s1 t l k x N G1 Hl)|]. intros o s2 G2 X2 (Ho & P2). apply compl_ret; [exact G2|]. exists (lc_var o). split; [reflexivity|]. split; [apply (has_var HK), Ho|congruence].
    - apply compl_ret; [exact G1|]. eexists. split; [reflexivity|]. split; [apply (has_add HK); [exact Hl|apply (has_const HK)]|congruence]. }
  intros outs s1 G1 X1 (Fo & P1). cbn [app] in Fo. pose proof (rmap_length _ _ _ Esb) as Ls. rewrite seq_length in Ls. rewrite <- Ls in En at 1.
  destruct (lin_layer_has s1 _ _ _ _ Fo En) as (nx & Enx & Fn). eapply compl_bind; [apply (compl_clift _ _ nx (fun d s' => d = nx /\ s' = s1) G1 Enx); auto|]. intros ? ? _ _ [-> ->].
  apply compl_ret; [exact G1|]. cbn [fst snd]. split; [|split; [reflexivity|split; [exact P1|]]].
  - clear - Fn HK. induction Fn; cbn [map]; constructor; [now apply (has_simplify HK)|assumption].
  - unfold lin_layer in En. apply rmap_length in En. rewrite seq_length in En. congruence.
Qed.
Lemma compl_rounds p fc f : cspec p fc f -> forall n s ins off xs r, pgood s -> Forall2 (has s) ins xs -> length xs = po_width p -> rounds f n (xs, off) = Ok r ->
  compl s (rounds_c fc n (ins, off)) (fun st' s' => Forall2 (has s') (fst st') (fst r) /\ snd st' = snd r /\ p_pending s' = p_pending s /\ length (fst r) = po_width p).
Proof.
  intros H. induction n as [|n IH]; intros s ins off xs r G F L E; unfold rounds_c, rounds in *; cbn [repeat cfold rfold] in *.
  - injection E as <-. apply compl_ret; [exact G|]. auto.
  - destruct (f (xs, off)) as [[xs1 off1]|] eqn:E1; [|discriminate]. cbn [rbind] in E. eapply compl_bind; [apply (H s ins off xs _ G F L E1)|]. intros [ins1 o1] s1 G1 X1 (F1 & O1 & P1 & L1). cbn [fst snd] in *. subst o1.
    eapply compl_weaken; [apply (IH s1 ins1 off1 xs1 r G1 F1 L1 E)|]. intros st s2 _ _ (A & B & C & D). rewrite P1 in C. auto.
Qed.
Lemma compl_permutation s ins xs ys p t : t <> Inverse -> (0 < po_width p)%nat -> pgood s -> Forall2 (has s) ins xs -> poseidon_permutation xs p t = Ok ys ->
  compl s (poseidon_permutation_constraints P ins p t) (fun outs s' => Forall2 (has s') outs ys /\ p_pending s' = p_pending s).
Proof.
  intros N W G F E. unfold poseidon_permutation in E. destruct (Nat.eqb (length xs) (po_width p)) eqn:EL; [|discriminate]. cbn [negb] in E.
  destruct (rounds (full_round p t) (po_fb p) _) as [[x1 o1]|] eqn:E1; [|discriminate]. cbn [rbind] in E. destruct (rounds (partial_round p t) (po_pr p) _) as [[x2 o2]|] eqn:E2; [|discriminate]. cbn [rbind] in E.
  destruct (rounds (full_round p t) (po_fe p) _) as [[x3 o3]|] eqn:E3; [|discriminate]. cbn [rbind fst] in E. injection E as <-.
  unfold poseidon_permutation_constraints. assert (length ins = length xs) as -> by (clear - F; induction F; cbn; lia). rewrite EL. cbn [negb]. apply Nat.eqb_eq in EL.
  eapply compl_bind; [apply (compl_rounds p _ _ (compl_full_round p t N) _ _ _ _ _ _ G F EL E1)|]. intros [i1 p1] s1 G1 X1 (F1 & O1 & P1 & L1). cbn [fst snd] in *. subst p1.
  eapply compl_bind; [apply (compl_rounds p _ _ (compl_partial_round p t N W) _ _ _ _ _ _ G1 F1 L1 E2)|]. intros [i2 p2] s2 G2 X2 (F2 & O2 & P2 & L2). cbn [fst snd] in *. subst p2.
  eapply compl_bind; [apply (compl_rounds p _ _ (compl_full_round p t N) _ _ _ _ _ _ G2 F2 L2 E3)|]. intros [i3 p3] s3 G3 X3 (F3 & O3 & P3 & L3). cbn [fst snd] in *.
  apply compl_ret; [exact G3|]. split; [exact F3|congruence].
Qed.
Lemma compl_hash s ar ins cap xs c outs h p t : t <> Inverse -> pgood s -> has s cap c -> Forall2 (has s) ins xs -> length xs = ar -> poseidon_permutation (c :: xs) p t = Ok outs -> idx outs 1 = Ok h ->
  compl s (poseidon_hash_constraints P ar ins cap p t) (fun o s' => has s' o h /\ p_pending s' = p_pending s).
Proof.
  intros N G Hc F L E Eh. unfold poseidon_hash_constraints. assert (length ins = length xs) as -> by (clear - F; induction F; cbn; lia). rewrite L, Nat.eqb_refl. cbn [negb].
  assert (0 < po_width p)%nat as W. { unfold poseidon_permutation in E. destruct (po_width p); [discriminate|lia]. }
  eapply compl_bind; [apply (compl_permutation s (cap :: ins) (c :: xs) outs p t N W G); [now constructor|exact E]|]. intros os s1 G1 X1 (Fo & P1).
  destruct (idx_F2 _ _ _ _ _ Fo Eh) as (o & Eo & Ho). apply (compl_clift _ _ o _ G1 Eo). auto.
Qed.
End Compl.
End Lib.

(** Reasoning about gadgets: soundness on the verifier's system (whatever satisfies the
    final system satisfies the earlier one and the gadget's claim), completeness on the
    prover's (the prover's own assignment satisfies what it built), and agreement of the
    two systems. *)
From Verif Require Import Base Alg R1csModel R1csSpec.
Open Scope list_scope.
Open Scope cs_scope.

Section Lib.
Context {K : fieldOps} (HK : field_laws K).
Add Field Kf : (proj1 HK).
Implicit Types (w : @assignment K) (l r : lc K).

(** ** values of linear combinations *)
Lemma lv_nil w : lc_value w [] = f0.
Proof. reflexivity. Qed.
Lemma lv_cons w v c l : lc_value w ((v, c) :: l) = fadd (fmul c (w v)) (lc_value w l).
Proof. reflexivity. Qed.
Lemma fsum_app (a b : list K) : fsum (a ++ b) = fadd (fsum a) (fsum b).
Proof. induction a as [|x a IH]; cbn [app fsum]; [ring|rewrite IH; ring]. Qed.
Lemma lv_app w a b : lc_value w (a ++ b) = fadd (lc_value w a) (lc_value w b).
Proof. unfold lc_value. now rewrite map_app, fsum_app. Qed.
Lemma lv_add w a b : lc_value w (lc_add a b) = fadd (lc_value w a) (lc_value w b).
Proof. apply lv_app. Qed.
Lemma lv_opp_map w a : lc_value w (map (fun t => (fst t, fopp (snd t))) a) = fopp (lc_value w a).
Proof. induction a as [|[v c] a IH]; [cbn; ring|]. cbn [map fst snd]. rewrite !lv_cons, IH. ring. Qed.
Lemma lv_neg w a : lc_value w (lc_neg a) = fopp (lc_value w a).
Proof. apply lv_opp_map. Qed.
Lemma lv_sub w a b : lc_value w (lc_sub a b) = fsub (lc_value w a) (lc_value w b).
Proof. unfold lc_sub. rewrite lv_app, lv_opp_map. ring. Qed.
Lemma lv_scale w c a : lc_value w (lc_scale c a) = fmul c (lc_value w a).
Proof. induction a as [|[v x] a IH]; [cbn; ring|]. unfold lc_scale in *. cbn [map fst snd]. rewrite !lv_cons, IH. ring. Qed.
Lemma lv_var w v : lc_value w (lc_var v) = w v.
Proof. unfold lc_var. rewrite lv_cons, lv_nil. ring. Qed.
Lemma lv_const w c : w VOne = f1 -> lc_value w (lc_const c) = c.
Proof. intros H. unfold lc_const. rewrite lv_cons, lv_nil, H. ring. Qed.
Lemma var_eqb_eq a b : var_eqb a b = true <-> a = b.
Proof.
  destruct a, b; cbn [var_eqb]; try rewrite Nat.eqb_eq; split; intros H; try discriminate; try congruence; now inversion H.
Qed.
Lemma lv_entry_add w v x m : lc_value w (entry_add v x m) = fadd (lc_value w m) (fmul x (w v)).
Proof.
  induction m as [|[v' y] m IH]; cbn [entry_add]; [rewrite lv_cons, lv_nil; ring|].
  destruct (var_eqb v' v) eqn:E; rewrite !lv_cons.
  - apply var_eqb_eq in E. subst. ring.
  - rewrite IH. ring.
Qed.
Lemma lv_simplify w a : lc_value w (lc_simplify a) = lc_value w a.
Proof.
  unfold lc_simplify. enough (forall m, lc_value w (fold_left (fun m t => entry_add (fst t) (snd t) m) a m) = fadd (lc_value w m) (lc_value w a)) as H by (rewrite H, lv_nil; ring).
  induction a as [|[v x] a IH]; intros m; cbn [fold_left fst snd]; [rewrite lv_nil; ring|]. rewrite IH, lv_entry_add, lv_cons. ring.
Qed.
Lemma lv_ext w w' l : (forall v c, In (v, c) l -> w v = w' v) -> lc_value w l = lc_value w' l.
Proof.
  induction l as [|[v c] l IH]; intros H; [reflexivity|]. rewrite !lv_cons, (H v c) by now left. rewrite IH; [reflexivity|]. intros v' c' I. eapply H. right. exact I.
Qed.
Lemma sat_one w n cons : satisfies w n cons -> w VOne = f1.
Proof. now intros [H _]. Qed.

(** ** soundness on the verifier's system *)
Section Sound.
Context {Pt : Type} (w : @assignment K).
Notation VS := (vstate K Pt).
(** [m] leaves the committed points alone, and an assignment satisfying the system after [m]
    satisfies the one before it and the claim *)
Definition soundM {A} (m : csm VS A) (Q : A -> Prop) : Prop :=
  forall s a s', m s = Ok (a, s') -> v_V s' = v_V s /\ (vsat w s' -> vsat w s /\ Q a).
Lemma sound_ret {A} (a : A) (Q : A -> Prop) : Q a -> soundM (cret a) Q.
Proof. intros H s b s' E. injection E as <- <-. auto. Qed.
Lemma sound_bind {A B} (m : csm VS A) (k : A -> csm VS B) (Q1 : A -> Prop) (Q : B -> Prop) :
  soundM m Q1 -> (forall a, soundM (k a) (fun b => Q1 a -> Q b)) -> soundM (cbind m k) Q.
Proof.
  intros H1 H2 s b s' E. unfold cbind in E. destruct (m s) as [[a s1]|e] eqn:Em; [|discriminate]. cbn [rbind] in E.
  destruct (H2 a s1 b s' E) as [V2 Q2]. destruct (H1 s a s1 Em) as [V1 Q1']. split; [congruence|]. intros S.
  destruct (Q2 S) as [S1 Q3]. destruct (Q1' S1). auto.
Qed.
Lemma sound_weaken {A} (m : csm VS A) (Q Q' : A -> Prop) : soundM m Q -> (forall a, Q a -> Q' a) -> soundM m Q'.
Proof. intros H H' s a s' E. destruct (H s a s' E) as [V0 F]. split; [exact V0|]. intros S. destruct (F S). auto. Qed.
Lemma sound_conj {A} (m : csm VS A) (Q Q' : A -> Prop) : soundM m Q -> soundM m Q' -> soundM m (fun a => Q a /\ Q' a).
Proof. intros H H' s a s' E. destruct (H s a s' E) as [V0 F], (H' s a s' E) as [_ F']. split; [exact V0|]. intros S. destruct (F S), (F' S). auto. Qed.
Lemma sound_one {A} (m : csm VS A) (Q : A -> Prop) : soundM m (fun a => w VOne = f1 -> Q a) -> soundM m Q.
Proof. intros H s a s' E. destruct (H s a s' E) as [V0 F]. split; [exact V0|]. intros S. destruct (F S) as [S0 Q0]. split; [exact S0|]. apply Q0. apply (sat_one _ _ _ S). Qed.
Lemma sound_fail {A} e (Q : A -> Prop) : soundM (cfail (Err e)) Q.
Proof. intros s a s' E. discriminate. Qed.
Lemma sound_lift {A} (r : res A) (Q : A -> Prop) : (forall a, r = Ok a -> Q a) -> soundM (fun s => let! x := r in Ok (x, s)) Q.
Proof. intros H s a s' E. destruct r as [x|]; [|discriminate]. cbn [rbind] in E. injection E as <- <-. auto. Qed.
Lemma sound_alloc_vars : soundM v_alloc_vars (fun '(a, b, o) => w o = fmul (w a) (w b)).
Proof.
  intros s [[a b] o] s' E. injection E as <- <- <- <-. split; [reflexivity|]. intros (S1 & S2 & S3). cbn [v_num v_cons] in *. split.
  - split; [exact S1|split; [|exact S3]]. intros i Hi. apply S2. lia.
  - apply S2. lia.
Qed.
Lemma sound_constrain l : soundM (v_constrain l) (fun _ => lc_value w l = f0).
Proof.
  intros s [] s' E. injection E as <-. split; [reflexivity|]. intros (S1 & S2 & S3). cbn [v_num v_cons] in *. split.
  - split; [exact S1|split; [exact S2|]]. intros l' I. apply S3, in_or_app. now left.
  - apply S3, in_or_app. right. now left.
Qed.
Lemma sound_multiply l r : soundM (v_multiply l r) (fun '(a, b, o) => w a = lc_value w l /\ w b = lc_value w r /\ w o = fmul (lc_value w l) (lc_value w r)).
Proof.
  eapply sound_bind; [apply sound_alloc_vars|]. intros [[a b] o].
  eapply sound_bind; [apply sound_constrain|]. intros [].
  eapply sound_bind; [apply sound_constrain|]. intros [].
  apply sound_ret. intros E2 E1 G; cbn beta in *. rewrite lv_app, lv_cons, lv_nil in E1, E2.
  assert (w a = lc_value w l) as Ea by (transitivity (fadd (w a) (fadd (lc_value w l) (fadd (fmul (fopp f1) (w a)) f0))); [rewrite E1; ring|ring]).
  assert (w b = lc_value w r) as Eb by (transitivity (fadd (w b) (fadd (lc_value w r) (fadd (fmul (fopp f1) (w b)) f0))); [rewrite E2; ring|ring]).
  rewrite <- Ea, <- Eb. auto.
Qed.
Lemma sound_allocate x : soundM (v_allocate x) (fun _ => True).
Proof.
  intros s v s' E. unfold v_allocate in E. destruct (v_pending s); injection E as <- <-; (split; [reflexivity|]); intros (S1 & S2 & S3); cbn [v_num v_cons] in *.
  - split; [split; [exact S1|split; [exact S2|exact S3]]|exact I].
  - split; [split; [exact S1|split; [|exact S3]]|exact I]. intros i Hi. apply S2. lia.
Qed.
Lemma sound_allocate_single x : soundM (v_allocate_single x) (fun _ => True).
Proof.
  eapply sound_bind; [apply sound_allocate|]. intros a s b s' E. destruct a; try discriminate; injection E as <- <-; auto.
Qed.
Lemma sound_fold_back {A B} (f : B -> A -> csm VS A) : (forall x a, soundM (f x a) (fun _ => True)) ->
  forall xs a s b s', cfold f xs a s = Ok (b, s') -> v_V s' = v_V s /\ (vsat w s' -> vsat w s).
Proof.
  intros Hf. induction xs as [|y xs IH]; intros a s b s' E.
  - injection E as <- <-. auto.
  - cbn [cfold] in E. unfold cbind in E. destruct (f y a s) as [[a2 s2]|] eqn:Ey; [|discriminate]. cbn [rbind] in E.
    destruct (IH _ _ _ _ E) as [V1 F1]. destruct (Hf y a s a2 s2 Ey) as [V0 F0]. split; [congruence|]. intros S. now apply F0, F1.
Qed.
Lemma sound_fold {A B} (f : B -> A -> csm VS A) (Inv : list B -> A -> Prop) : 
  (forall done x a, soundM (f x a) (fun a' => Inv done a -> Inv (done ++ [x]) a')) ->
  forall xs done a, Inv done a -> soundM (cfold f xs a) (Inv (done ++ xs)).
Proof.
  intros Hf. assert (forall x a, soundM (f x a) (fun _ => True)) as Hb.
  { intros x a. eapply sound_weaken; [apply (Hf [] x a)|auto]. }
  enough (forall xs done a, soundM (cfold f xs a) (fun b => Inv done a -> Inv (done ++ xs) b)) as Q.
  { intros xs done a H. eapply sound_weaken; [apply (Q xs done a)|auto]. }
  induction xs as [|x xs IH]; intros done a; cbn [cfold].
  - apply sound_ret. now rewrite app_nil_r.
  - eapply sound_bind; [apply (Hf done x a)|]. intros a1. eapply sound_weaken; [apply (IH (done ++ [x]) a1)|]. rewrite <- app_assoc. cbn [app]. auto.
Qed.
(** monotonicity alone *)
Lemma sound_fold_true {A B} (f : B -> A -> csm VS A) xs a : (forall x a, soundM (f x a) (fun _ => True)) -> soundM (cfold f xs a) (fun _ => True).
Proof.
  intros H s b s' E. destruct (sound_fold_back f H xs a s b s' E). auto.
Qed.
End Sound.

(** ** completeness on the prover's system *)
(** [s'] extends [s]: what [s] could refer to keeps its value *)
Record pext (s s' : pstate K) : Prop := {
  pe_valid : forall v, valid s v -> valid s' v /\ pw s' v = pw s v;
  pe_v : p_v s' = p_v s; pe_vbl : p_vbl s' = p_vbl s }.
Lemma pext_refl s : pext s s.
Proof. constructor; auto. Qed.
Lemma pext_trans s1 s2 s3 : pext s1 s2 -> pext s2 s3 -> pext s1 s3.
Proof.
  intros [A1 A2 A3] [B1 B2 B3]. constructor; [|congruence|congruence]. intros v Hv. destruct (A1 v Hv) as [Hv2 E]. destruct (B1 v Hv2) as [Hv3 E']. split; [exact Hv3|congruence].
Qed.
(** [l] refers to existing variables and has value [x] *)
Definition has (s : pstate K) (l : lc K) (x : K) : Prop := valid_lc s l /\ lc_value (pw s) l = x.
Definition hasv (s : pstate K) (v : var) (x : K) : Prop := valid s v /\ pw s v = x.
Lemma valid_lc_ext s s' l : pext s s' -> valid_lc s l -> valid_lc s' l.
Proof. intros E H v c I. apply (pe_valid _ _ E), (H v c I). Qed.
Lemma has_ext s s' l x : pext s s' -> has s l x -> has s' l x.
Proof.
  intros E [H <-]. split; [eapply valid_lc_ext; eauto|]. apply lv_ext. intros v c I. symmetry. symmetry. apply (pe_valid _ _ E). eapply H. exact I.
Qed.
Lemma hasv_ext s s' v x : pext s s' -> hasv s v x -> hasv s' v x.
Proof. intros E [H <-]. apply (pe_valid _ _ E v H). Qed.
Lemma has_var s v x : hasv s v x -> has s (lc_var v) x.
Proof. intros [H <-]. split; [|apply lv_var]. intros v' c [E|[]]. injection E as <- <-. exact H. Qed.
Lemma has_const s c : has s (lc_const c) c.
Proof. split; [|now apply lv_const]. intros v' c' [E|[]]. injection E as <- <-. exact I. Qed.
Lemma has_nil s : has s [] f0.
Proof. split; [intros v c []|reflexivity]. Qed.
Lemma has_cons s v c l x y : hasv s v x -> has s l y -> has s ((v, c) :: l) (fadd (fmul c x) y).
Proof. intros [H1 <-] [H2 <-]. split; [|reflexivity]. intros v' c' [E|I]; [injection E as <- <-; exact H1|eapply H2; exact I]. Qed.
Lemma has_app s a b x y : has s a x -> has s b y -> has s (a ++ b) (fadd x y).
Proof. intros [H1 <-] [H2 <-]. split; [|apply lv_app]. intros v c I. apply in_app_or in I as [I|I]; eauto. Qed.
Lemma has_add s a b x y : has s a x -> has s b y -> has s (lc_add a b) (fadd x y).
Proof. apply has_app. Qed.
Lemma has_sub s a b x y : has s a x -> has s b y -> has s (lc_sub a b) (fsub x y).
Proof.
  intros [H1 <-] [H2 <-]. split; [|apply lv_sub]. intros v c I. apply in_app_or in I as [I|I]; [eauto|].
  apply in_map_iff in I as ([v' c'] & E & I). injection E as <- <-. eapply H2. exact I.
Qed.
Lemma has_scale s a c x : has s a x -> has s (lc_scale c a) (fmul c x).
Proof.
  intros [H1 <-]. split; [|apply lv_scale]. intros v c' I. apply in_map_iff in I as ([v' c''] & E & I). injection E as <- <-. eapply H1. exact I.
Qed.
Lemma in_entry_add v x : forall (m : lc K) v' c', In (v', c') (entry_add v x m) -> v' = v \/ exists c'', In (v', c'') m.
Proof.
  induction m as [|[u y] m IH]; intros v' c' H; cbn [entry_add] in H.
  - destruct H as [E|[]]. injection E as <- <-. now left.
  - destruct (var_eqb u v) eqn:E.
    + destruct H as [H|H]; [injection H as <- <-; right; exists y; now left|]. right. exists c'. now right.
    + destruct H as [H|H]; [injection H as <- <-; right; exists y; now left|]. destruct (IH _ _ H) as [->|[c'' I]]; [now left|]. right. exists c''. now right.
Qed.
Lemma in_simplify (a : lc K) v c : In (v, c) (lc_simplify a) -> exists c', In (v, c') a.
Proof.
  unfold lc_simplify. enough (forall m, In (v, c) (fold_left (fun m t => entry_add (fst t) (snd t) m) a m) -> (exists c', In (v, c') a) \/ exists c', In (v, c') m) as H.
  { intros I. destruct (H [] I) as [?|[? []]]. assumption. }
  revert c. induction a as [|[u x] a IH]; intros c m H; cbn [fold_left fst snd] in H; [right; eauto|].
  destruct (IH _ _ H) as [[c' I]|[c' I]]; [left; exists c'; now right|]. apply in_entry_add in I as [->|[c'' I]]; [left; exists x; now left|right; eauto].
Qed.
Lemma has_simplify s a x : has s a x -> has s (lc_simplify a) x.
Proof. intros [H <-]. split; [|apply lv_simplify]. intros v c I. apply in_simplify in I as [c' I]. eapply H. exact I. Qed.

Lemma p_value_valid (s : pstate K) v : pgood s -> valid s v -> p_value s v = Ok (pw s v).
Proof.
  intros G H. destruct v as [i|i|i|i|]; cbn [p_value pw valid] in *; try reflexivity; unfold idx.
  - now rewrite (nth_error_nth' _ f0 H).
  - now rewrite (nth_error_nth' _ f0 H).
  - destruct H as [H _]. rewrite <- (pg_R s G) in H. now rewrite (nth_error_nth' _ f0 H).
  - destruct H as [H _]. rewrite <- (pg_O s G) in H. now rewrite (nth_error_nth' _ f0 H).
Qed.
Lemma p_eval_has s l x : pgood s -> has s l x -> p_eval s l = Ok x.
Proof.
  intros G [H <-]. unfold p_eval.
  enough (forall acc, rfold (fun sum t => let! val := p_value s (fst t) in Ok (fadd sum (fmul (snd t) val))) l acc = Ok (fadd acc (lc_value (pw s) l))) as Q.
  { rewrite Q. f_equal. ring. }
  revert H. induction l as [|[v c] l IH]; intros H acc; cbn [rfold fst snd]; [rewrite lv_nil; f_equal; ring|].
  rewrite (p_value_valid s v G) by (eapply H; now left). cbn [rbind]. rewrite IH by (intros v' c' I; eapply H; right; exact I). rewrite lv_cons. f_equal. ring.
Qed.

(** running [m] from [s] succeeds, keeps the system satisfied and ends in [Q] *)
Definition compl {A} (s : pstate K) (m : csm (pstate K) A) (Q : A -> pstate K -> Prop) : Prop :=
  exists a s', m s = Ok (a, s') /\ pgood s' /\ pext s s' /\ Q a s'.
Lemma compl_ret {A} s (a : A) (Q : A -> pstate K -> Prop) : pgood s -> Q a s -> compl s (cret a) Q.
Proof. intros G H. exists a, s. split; [reflexivity|split; [exact G|split; [apply pext_refl|exact H]]]. Qed.
Lemma compl_bind {A B} s (m : csm (pstate K) A) (k : A -> csm (pstate K) B) Q R :
  compl s m Q -> (forall a s', pgood s' -> pext s s' -> Q a s' -> compl s' (k a) R) -> compl s (cbind m k) R.
Proof.
  intros (a & s1 & E1 & G1 & X1 & Q1) H. destruct (H a s1 G1 X1 Q1) as (b & s2 & E2 & G2 & X2 & Q2).
  exists b, s2. split; [unfold cbind; rewrite E1; exact E2|]. split; [exact G2|split; [eapply pext_trans; eauto|exact Q2]].
Qed.
Lemma compl_weaken {A} s (m : csm (pstate K) A) (Q R : A -> pstate K -> Prop) : compl s m Q -> (forall a s', pgood s' -> pext s s' -> Q a s' -> R a s') -> compl s m R.
Proof. intros (a & s1 & E1 & G1 & X1 & Q1) H. exists a, s1. auto. Qed.
Lemma compl_lift {A} s (r : res A) x (Q : A -> pstate K -> Prop) : pgood s -> r = Ok x -> Q x s -> compl s (fun s => let! y := r in Ok (y, s)) Q.
Proof. intros G -> H. exists x, s. split; [reflexivity|split; [exact G|split; [apply pext_refl|exact H]]]. Qed.
Lemma compl_fold {A B} (f : B -> A -> csm (pstate K) A) (Inv : list B -> A -> pstate K -> Prop) : forall xs done s a,
  pgood s -> Inv done a s ->
  (forall done x rest a s, done ++ x :: rest = done ++ x :: rest -> pgood s -> Inv done a s -> In x xs -> compl s (f x a) (Inv (done ++ [x]))) ->
  compl s (cfold f xs a) (Inv (done ++ xs)).
Proof.
  induction xs as [|x xs IH]; intros done s a G H Hf; cbn [cfold].
  - rewrite app_nil_r. now apply compl_ret.
  - eapply compl_bind; [apply (Hf done x xs a s eq_refl G H); now left|]. intros a' s' G' X' I'.
    replace (done ++ x :: xs) with ((done ++ [x]) ++ xs) by now rewrite <- app_assoc. apply IH; [exact G'|exact I'|].
    intros d y rest a0 s0 _ G0 I0 Iy. apply (Hf d y rest a0 s0 eq_refl G0 I0). now right.
Qed.

Lemma nth_app_l {A} (l1 l2 : list A) i d : (i < length l1)%nat -> nth i (l1 ++ l2) d = nth i l1 d.
Proof. apply app_nth1. Qed.
Lemma nth_app_end {A} (l : list A) x d : nth (length l) (l ++ [x]) d = x.
Proof. rewrite app_nth2 by lia. now rewrite Nat.sub_diag. Qed.
Lemma nth_app_at {A} (l : list A) i x d : length l = i -> nth i (l ++ [x]) d = x.
Proof. intros <-. apply nth_app_end. Qed.

Lemma compl_alloc_vars s x y : pgood s ->
  compl s (p_alloc_vars x y (fmul x y)) (fun '(a, b, o) s' => hasv s' a x /\ hasv s' b y /\ hasv s' o (fmul x y) /\ p_pending s' = p_pending s).
Proof.
  intros G. unfold compl, p_alloc_vars.
  set (s' := mkPs (p_cons s) (p_aL s ++ [x]) (p_aR s ++ [y]) (p_aO s ++ [fmul x y]) (p_v s) (p_vbl s) (p_pending s)).
  exists (MulL (length (p_aL s)), MulR (length (p_aR s)), MulO (length (p_aO s))), s'. split; [reflexivity|].
  pose proof (pg_R s G) as LR. pose proof (pg_O s G) as LO.
  assert (pext s s') as X.
  { constructor; [|reflexivity|reflexivity]. intros v Hv. destruct v as [i|i|i|i|]; cbn [valid s' p_aL p_v p_pending pw p_aR p_aO] in *.
    - auto.
    - rewrite app_length. cbn [length]. split; [lia|]. now apply nth_app_l.
    - rewrite app_length. cbn [length]. destruct Hv. split; [split; [lia|assumption]|]. apply nth_app_l. lia.
    - rewrite app_length. cbn [length]. destruct Hv. split; [split; [lia|assumption]|]. apply nth_app_l. lia.
    - auto. }
  assert (forall i, p_pending s = Some i -> (i < length (p_aL s))%nat) as PP by apply (pg_pend s G).
  split; [|split; [exact X|]].
  - destruct G as [G1 G2 G3 G4 G5]. constructor.
    + cbn [s' p_aL p_aR]. rewrite !app_length; cbn [length]; lia.
    + cbn [s' p_aL p_aO]. rewrite !app_length; cbn [length]; lia.
    + cbn [s' p_aL p_pending]. intros i Hi. rewrite app_length; cbn [length]. specialize (PP i Hi). lia.
    + cbn [s' p_cons]. intros l Hl. eapply valid_lc_ext; [exact X|]. auto.
    + destruct G5 as (S1 & S2 & S3). split; [reflexivity|]. split.
      * cbn [s' p_aL pw p_aR p_aO]. rewrite app_length. cbn [length]. intros i Hi.
        destruct (Nat.eq_dec i (length (p_aL s))) as [->|N].
        -- rewrite !nth_app_at by (assumption || reflexivity). reflexivity.
        -- rewrite !nth_app_l by lia. apply S2. lia.
      * cbn [s' p_cons]. intros l Hl. rewrite <- (S3 l Hl). apply lv_ext. intros v c I. apply (pe_valid _ _ X). eapply G4; eauto.
  - assert (p_pending s <> Some (length (p_aL s))) as NP by (intros E; specialize (PP _ E); lia).
    unfold hasv. cbn [valid s' p_aL p_aR p_aO p_pending pw]. rewrite !app_length. cbn [length]. rewrite !nth_app_end, LR, LO.
    split; [split; [lia|reflexivity]|]. split; [split; [split; [lia|assumption]|reflexivity]|]. split; [split; [split; [lia|assumption]|reflexivity]|reflexivity].
Qed.
Lemma compl_constrain s l : pgood s -> has s l f0 -> compl s (p_constrain l) (fun _ s' => p_pending s' = p_pending s).
Proof.
  intros G [H1 H2]. set (s' := mkPs (p_cons s ++ [l]) (p_aL s) (p_aR s) (p_aO s) (p_v s) (p_vbl s) (p_pending s)). exists tt, s'. split; [reflexivity|].
  assert (pext s s') as X by (constructor; [|reflexivity|reflexivity]; intros v Hv; destruct v; cbn in *; auto).
  split; [|split; [exact X|reflexivity]]. destruct G as [G1 G2 G3 G4 (S1 & S2 & S3)]. constructor; try assumption.
  - cbn [s' p_cons]. intros l' I. apply in_app_or in I as [I|[<-|[]]]; eapply valid_lc_ext; eauto.
  - split; [reflexivity|split; [exact S2|]]. cbn [s' p_cons]. intros l' I.
    assert (forall l, lc_value (pw s') l = lc_value (pw s) l) as Q by (intros l0; apply lv_ext; intros v c _; destruct v; reflexivity).
    apply in_app_or in I as [I|[<-|[]]]; rewrite Q; auto.
Qed.
Lemma compl_multiply s l r x y : pgood s -> has s l x -> has s r y ->
  compl s (p_multiply l r) (fun '(a, b, o) s' => hasv s' a x /\ hasv s' b y /\ hasv s' o (fmul x y) /\ p_pending s' = p_pending s).
Proof.
  intros G H1 H2. unfold compl, p_multiply. rewrite (p_eval_has s l x G H1), (p_eval_has s r y G H2). cbn [rbind].
  apply (compl_bind s (p_alloc_vars x y (fmul x y)) _ _ _ (compl_alloc_vars s x y G)).
  intros [[a b] o] s1 G1 X1 (A1 & A2 & A3 & A4).
  eapply compl_bind.
  { apply compl_constrain; [exact G1|]. replace (f0 : K) with (fadd x (fadd (fmul (fopp f1) x) f0)) by ring.
    apply has_app; [eapply has_ext; eauto|]. apply has_cons; [exact A1|apply has_nil]. }
  intros [] s2 G2 X2 P2. eapply compl_bind.
  { apply compl_constrain; [exact G2|]. replace (f0 : K) with (fadd y (fadd (fmul (fopp f1) y) f0)) by ring.
    apply has_app; [eapply has_ext; [exact X2|eapply has_ext; eauto]|]. apply has_cons; [eapply hasv_ext; eauto|apply has_nil]. }
  intros [] s3 G3 X3 P3. apply compl_ret; [exact G3|].
  pose proof (pext_trans _ _ _ X2 X3) as X. split; [eapply hasv_ext; eauto|]. split; [eapply hasv_ext; eauto|]. split; [eapply hasv_ext; eauto|congruence].
Qed.
Lemma compl_allocate_multiplier s x y : pgood s ->
  compl s (p_allocate_multiplier (Some (x, y))) (fun '(a, b, o) s' => hasv s' a x /\ hasv s' b y /\ hasv s' o (fmul x y) /\ p_pending s' = p_pending s).
Proof. apply compl_alloc_vars. Qed.
Lemma compl_evaluate s l x : pgood s -> has s l x -> compl s (p_evaluate_lc l) (fun o s' => o = Some x /\ s' = s).
Proof.
  intros G H. exists (Some x), s. unfold p_evaluate_lc. rewrite (p_eval_has s l x G H). split; [reflexivity|]. split; [exact G|]. split; [apply pext_refl|auto].
Qed.

Lemma set_at_ok {A} : forall (l : list A) i x, (i < length l)%nat -> exists l' : list A, set_at i x l = Ok l' /\ length l' = length l /\ (forall d, nth i l' d = x) /\ (forall j d, j <> i -> nth j l' d = nth j l d).
Proof.
  induction l as [|y l IH]; intros i x H; [cbn in H; lia|]. destruct i as [|i]; cbn [set_at].
  - exists (x :: l). split; [reflexivity|]. split; [reflexivity|]. split; [reflexivity|]. intros [|j] d N; [congruence|reflexivity].
  - destruct (IH i x) as (l' & E & L & N1 & N2); [cbn in H; lia|]. rewrite E. cbn [rbind]. exists (y :: l'). split; [reflexivity|]. cbn [length]. split; [lia|]. split; [exact N1|].
    intros [|j] d N; [reflexivity|]. apply N2. congruence.
Qed.
(** the first of a pair of allocations *)
Lemma compl_allocate_left s x : pgood s -> p_pending s = None ->
  compl s (p_allocate (Some x)) (fun v s' => exists i, v = MulL i /\ p_pending s' = Some i /\ hasv s' v x).
Proof.
  intros G N. unfold compl, p_allocate. rewrite N.
  set (s' := mkPs (p_cons s) (p_aL s ++ [x]) (p_aR s ++ [f0]) (p_aO s ++ [f0]) (p_v s) (p_vbl s) (Some (length (p_aL s)))).
  exists (MulL (length (p_aL s))), s'. split; [reflexivity|].
  pose proof (pg_R s G) as LR. pose proof (pg_O s G) as LO.
  assert (pext s s') as X.
  { constructor; [|reflexivity|reflexivity]. intros v Hv. destruct v as [i|i|i|i|]; cbn [valid s' p_aL p_v p_pending pw p_aR p_aO] in *.
    - auto.
    - rewrite app_length. cbn [length]. split; [lia|]. now apply nth_app_l.
    - rewrite app_length. cbn [length]. destruct Hv as [Hv _]. split; [split; [lia|intros E; injection E as E; lia]|]. apply nth_app_l. lia.
    - rewrite app_length. cbn [length]. destruct Hv as [Hv _]. split; [split; [lia|intros E; injection E as E; lia]|]. apply nth_app_l. lia.
    - auto. }
  split; [|split; [exact X|]].
  - destruct G as [G1 G2 G3 G4 (S1 & S2 & S3)]. constructor.
    + cbn [s' p_aL p_aR]. rewrite !app_length; cbn [length]; lia.
    + cbn [s' p_aL p_aO]. rewrite !app_length; cbn [length]; lia.
    + cbn [s' p_aL p_pending]. intros i Hi. injection Hi as <-. rewrite app_length. cbn [length]. lia.
    + cbn [s' p_cons]. intros l Hl. eapply valid_lc_ext; [exact X|]. auto.
    + split; [reflexivity|]. split.
      * cbn [s' p_aL pw p_aR p_aO]. rewrite app_length. cbn [length]. intros i Hi.
        destruct (Nat.eq_dec i (length (p_aL s))) as [->|Ni].
        -- rewrite !nth_app_at by (assumption || reflexivity). ring.
        -- rewrite !nth_app_l by lia. apply S2. lia.
      * cbn [s' p_cons]. intros l Hl. rewrite <- (S3 l Hl). apply lv_ext. intros v c I. apply (pe_valid _ _ X). eapply G4; eauto.
  - exists (length (p_aL s)). split; [reflexivity|]. split; [reflexivity|]. split; cbn [valid s' p_aL pw]; [rewrite app_length; cbn [length]; lia|apply nth_app_end].
Qed.
(** the second of a pair: completes the pending multiplier *)
Lemma compl_allocate_right s i x y : pgood s -> p_pending s = Some i -> hasv s (MulL i) y ->
  compl s (p_allocate (Some x)) (fun v s' => v = MulR i /\ p_pending s' = None /\ hasv s' v x /\ hasv s' (MulO i) (fmul y x)).
Proof.
  intros G N [Hi Hy]. cbn [valid pw] in Hi, Hy. pose proof (pg_R s G) as LR. pose proof (pg_O s G) as LO.
  destruct (set_at_ok (p_aR s) i x) as (aR & ER & LR' & NR1 & NR2); [lia|].
  destruct (set_at_ok (p_aO s) i (fmul y x)) as (aO & EO & LO' & NO1 & NO2); [lia|].
  unfold compl, p_allocate. rewrite N, ER. cbn [rbind]. unfold idx. rewrite (nth_error_nth' _ f0 Hi), Hy. cbn [rbind].
  rewrite (nth_error_nth' aR f0) by lia. rewrite NR1. cbn [rbind]. rewrite EO. cbn [rbind].
  set (s' := mkPs (p_cons s) (p_aL s) aR aO (p_v s) (p_vbl s) None). exists (MulR i), s'. split; [reflexivity|].
  assert (pext s s') as X.
  { constructor; [|reflexivity|reflexivity]. intros v Hv. destruct v as [j|j|j|j|]; cbn [valid s' p_aL p_v p_pending pw p_aR p_aO] in *; auto.
    - destruct Hv as [Hv Np]. split; [split; [exact Hv|discriminate]|]. apply NR2. congruence.
    - destruct Hv as [Hv Np]. split; [split; [exact Hv|discriminate]|]. apply NO2. congruence. }
  split; [|split; [exact X|]].
  - destruct G as [G1 G2 G3 G4 (S1 & S2 & S3)]. constructor.
    + cbn [s' p_aL p_aR]. lia.
    + cbn [s' p_aL p_aO]. lia.
    + cbn [s' p_pending]. discriminate.
    + cbn [s' p_cons]. intros l Hl. eapply valid_lc_ext; [exact X|]. auto.
    + split; [reflexivity|]. split.
      * cbn [s' p_aL pw p_aR p_aO]. intros j Hj. destruct (Nat.eq_dec j i) as [->|Nj]; [rewrite NO1, NR1, Hy; reflexivity|]. rewrite NO2, NR2 by assumption. now apply S2.
      * cbn [s' p_cons]. intros l Hl. rewrite <- (S3 l Hl). apply lv_ext. intros v c I. apply (pe_valid _ _ X). eapply G4; eauto.
  - split; [reflexivity|]. split; [reflexivity|]. unfold hasv. cbn [valid s' p_aL p_pending pw p_aR p_aO].
    split; [split; [split; [exact Hi|discriminate]|apply NR1]|split; [split; [exact Hi|discriminate]|apply NO1]].
Qed.

(** committing *)
Lemma commit_good (s : pstate K) x bl : pgood s -> forall v s', p_commit x bl s = (v, s') ->
  pgood s' /\ hasv s' v x /\ v = Committed (length (p_v s)) /\ (forall u y, hasv s u y -> hasv s' u y) /\ p_pending s' = p_pending s /\
  p_v s' = p_v s ++ [x] /\ p_vbl s' = p_vbl s ++ [bl].
Proof.
  intros G v s' E. unfold p_commit in E. injection E as <- <-. set (s' := mkPs (p_cons s) (p_aL s) (p_aR s) (p_aO s) (p_v s ++ [x]) (p_vbl s ++ [bl]) (p_pending s)).
  assert (forall v, valid s v -> valid s' v /\ pw s' v = pw s v) as X.
  { intros v Hv. destruct v as [i|i|i|i|]; cbn [valid s' p_v p_aL p_pending pw p_aR p_aO] in *; auto. rewrite app_length. cbn [length]. split; [lia|]. now apply nth_app_l. }
  split.
  - destruct G as [G1 G2 G3 G4 (S1 & S2 & S3)]. constructor; try assumption.
    + cbn [s' p_cons]. intros l Hl u c I. apply X. eapply G4; eauto.
    + split; [reflexivity|split; [exact S2|]]. cbn [s' p_cons]. intros l Hl. rewrite <- (S3 l Hl). apply lv_ext. intros u c I. apply X. eapply G4; eauto.
  - split; [|split; [reflexivity|split; [|split; [reflexivity|split; reflexivity]]]].
    + split; cbn [valid s' p_v pw]; [rewrite app_length; cbn [length]; lia|apply nth_app_end].
    + intros u y [Hu <-]. apply (X u Hu).
Qed.
Lemma new_good : @pgood K p_new.
Proof. constructor; try reflexivity; cbn; try discriminate; try (intros l []). split; [reflexivity|split; [cbn; lia|intros l []]]. Qed.
Lemma clear_good (s : pstate K) : pgood s -> pgood (p_clear s).
Proof.
  intros [G1 G2 G3 G4 (S1 & S2 & S3)]. constructor; try assumption; try discriminate.
  - cbn. intros l Hl v c I. specialize (G4 l Hl v c I). destruct v; cbn in *; try exact G4; (destruct G4; split; [assumption|discriminate]).
  - split; [reflexivity|split; [exact S2|]]. cbn. intros l Hl. rewrite <- (S3 l Hl). apply lv_ext. intros v c _. now destruct v.
Qed.

(** ** the prover and the verifier build the same system *)
Section Sim.
Context {Pt : Type} (com : K -> K -> Pt).
Notation sim := (sim com).
Definition simM {A B} (R : A -> B -> Prop) (m : csm (pstate K) A) (m' : csm (vstate K Pt) B) : Prop :=
  forall ps vs, sim ps vs -> forall a ps', m ps = Ok (a, ps') -> exists b vs', m' vs = Ok (b, vs') /\ R a b /\ sim ps' vs'.
Lemma sim_ret {A B} (R : A -> B -> Prop) a b : R a b -> simM R (cret a) (cret b).
Proof. intros H ps vs S a0 ps' E. injection E as <- <-. exists b, vs. auto. Qed.
Lemma sim_bind {A B C D} (R : A -> B -> Prop) (R' : C -> D -> Prop) m m' k k' :
  simM R m m' -> (forall a b, R a b -> simM R' (k a) (k' b)) -> simM R' (cbind m k) (cbind m' k').
Proof.
  intros H1 H2 ps vs S c ps' E. unfold cbind in E. destruct (m ps) as [[a ps1]|] eqn:E1; [|discriminate]. cbn [rbind] in E.
  destruct (H1 ps vs S a ps1 E1) as (b & vs1 & E1' & Rab & S1). destruct (H2 a b Rab ps1 vs1 S1 c ps' E) as (d & vs2 & E2 & Rcd & S2).
  exists d, vs2. split; [unfold cbind; rewrite E1'; exact E2|auto].
Qed.
Lemma sim_lift {A B} (R : A -> B -> Prop) (r : res A) (r' : res B) : (forall x, r = Ok x -> exists y, r' = Ok y /\ R x y) ->
  simM R (fun s => let! x := r in Ok (x, s)) (fun s => let! x := r' in Ok (x, s)).
Proof.
  intros H ps vs S a ps' E. destruct r as [x|]; [|discriminate]. cbn [rbind] in E. injection E as <- <-. destruct (H x eq_refl) as (y & -> & Rxy). exists y, vs. auto.
Qed.
Lemma sim_fail {A B} e (R : A -> B -> Prop) m' : simM R (cfail (Err e)) m'.
Proof. intros ps vs S a ps' E. discriminate. Qed.
Lemma sim_fold {A B X} (R : A -> B -> Prop) (f : X -> A -> csm _ A) (g : X -> B -> csm _ B) xs : (forall x a b, R a b -> simM R (f x a) (g x b)) ->
  forall a b, R a b -> simM R (cfold f xs a) (cfold g xs b).
Proof.
  intros H. induction xs as [|x xs IH]; intros a b Rab; cbn [cfold]; [now apply sim_ret|]. eapply sim_bind; [apply H, Rab|]. intros; now apply IH.
Qed.
Lemma sim_alloc_vars x y o : simM eq (p_alloc_vars x y o) v_alloc_vars.
Proof.
  intros ps vs S a ps' E. injection E as <- <-. destruct S as [S1 S2 S3 S4 S5 S6 S7].
  exists (MulL (v_num vs), MulR (v_num vs), MulO (v_num vs)), (mkVs (v_cons vs) (Datatypes.S (v_num vs)) (v_V vs) (v_pending vs)). split; [reflexivity|].
  split; [rewrite S2, S3, S4; reflexivity|]. constructor; cbn [v_cons v_num v_pending v_V p_cons p_aL p_aR p_aO p_v p_vbl p_pending]; try rewrite !app_length; cbn [length]; try assumption; lia.
Qed.
Lemma sim_constrain l : simM eq (p_constrain l) (v_constrain l).
Proof.
  intros ps vs S a ps' E. injection E as <- <-. destruct S as [S1 S2 S3 S4 S5 S6 S7]. eexists tt, _. split; [reflexivity|]. split; [reflexivity|]. constructor; cbn; try assumption. now rewrite S1.
Qed.
Lemma sim_multiply l r : simM eq (p_multiply l r) (v_multiply l r).
Proof.
  intros ps vs S a ps' E. unfold p_multiply in E. destruct (p_eval ps l) as [x|]; [|discriminate]. cbn [rbind] in E. destruct (p_eval ps r) as [y|]; [|discriminate]. cbn [rbind] in E.
  revert ps vs S a ps' E. change (simM eq (cbind (p_alloc_vars x y (fmul x y)) (fun '(lv, rv, ov) => cbind (p_constrain (l ++ [(lv, fopp f1)])) (fun _ => cbind (p_constrain (r ++ [(rv, fopp f1)])) (fun _ => cret (lv, rv, ov))))) (v_multiply l r)).
  unfold v_multiply. eapply sim_bind; [apply sim_alloc_vars|]. intros [[lv rv] ov] ? <-. eapply sim_bind; [apply sim_constrain|]. intros ? ? _. eapply sim_bind; [apply sim_constrain|]. intros ? ? _. now apply sim_ret.
Qed.
Lemma sim_allocate x y : simM eq (p_allocate x) (v_allocate y).
Proof.
  intros ps vs S a ps' E. unfold p_allocate in E. destruct x as [x|]; [|discriminate]. destruct S as [S1 S2 S3 S4 S5 S6 S7]. unfold v_allocate. rewrite S5. destruct (p_pending ps) as [i|].
  - destruct (set_at i x (p_aR ps)) as [aR|] eqn:E1; [|discriminate]. cbn [rbind] in E. destruct (idx (p_aL ps) i) as [l|] eqn:E2; [|discriminate]. cbn [rbind] in E.
    destruct (idx aR i) as [r|]; [|discriminate]. cbn [rbind] in E. destruct (set_at i (fmul l r) (p_aO ps)) as [aO|] eqn:E4; [|discriminate]. cbn [rbind] in E. injection E as <- <-.
    assert (forall A (l : list A) i x (l' : list A), set_at i x l = Ok l' -> length l' = length l) as Q.
    { clear. induction l as [|y l IH]; intros i x l' H; [destruct i; discriminate|]. destruct i; cbn [set_at] in H; [injection H as <-; reflexivity|]. destruct (set_at i x l) as [l2|] eqn:E; [|discriminate]. cbn [rbind] in H. injection H as <-. cbn [length]. f_equal. eauto. }
    apply Q in E1, E4. eexists _, _. split; [reflexivity|]. split; [reflexivity|]. constructor; cbn; try assumption; try congruence; reflexivity.
  - injection E as <- <-. eexists _, _. split; [reflexivity|]. split; [now rewrite S2|]. constructor; cbn; try rewrite !app_length; cbn [length]; try assumption; try lia. now rewrite S2.
Qed.
Lemma sim_allocate_multiplier x y : simM eq (p_allocate_multiplier x) (v_allocate_multiplier y).
Proof. intros ps vs S a ps' E. destruct x as [[x1 x2]|]; [|discriminate]. eapply sim_alloc_vars; eauto. Qed.
Lemma sim_allocate_single x y : simM eq (p_allocate_single x) (v_allocate_single y).
Proof.
  unfold p_allocate_single, v_allocate_single. eapply sim_bind; [apply sim_allocate|]. intros v ? <-. destruct v; try apply sim_fail; now apply sim_ret.
Qed.
Lemma sim_evaluate l : simM (fun _ _ => True) (p_evaluate_lc l) (v_evaluate_lc l).
Proof. intros ps vs S a ps' E. unfold p_evaluate_lc in E. destruct (p_eval ps l); [|discriminate]. cbn [rbind] in E. injection E as <- <-. exists None, vs. split; [reflexivity|auto]. Qed.
Lemma sim_new : sim p_new v_new.
Proof. constructor; reflexivity. Qed.
Lemma sim_clear ps vs : sim ps vs -> sim (p_clear ps) (v_clear vs).
Proof. intros [S1 S2 S3 S4 S5 S6 S7]. constructor; cbn; auto. Qed.
Lemma sim_commit ps vs x bl : sim ps vs -> fst (v_commit (com x bl) vs) = fst (p_commit x bl ps) /\ sim (snd (p_commit x bl ps)) (snd (v_commit (com x bl) vs)).
Proof.
  intros [S1 S2 S3 S4 S5 S6 S7]. unfold v_commit, p_commit. cbn [fst snd]. split.
  - rewrite S7, map_length, combine_length. f_equal. lia.
  - constructor; cbn [v_cons v_num v_pending v_V p_cons p_aL p_aR p_aO p_v p_vbl p_pending]; try assumption; [rewrite !app_length; cbn [length]; lia|].
    assert (forall (l1 l2 : list K), length l2 = length l1 -> combine (l1 ++ [x]) (l2 ++ [bl]) = combine l1 l2 ++ [(x, bl)]) as Q.
    { clear. induction l1 as [|a l1 IH]; intros [|b l2] L; try discriminate; [reflexivity|]. cbn [app combine]. f_equal. apply IH. cbn in L. lia. }
    rewrite Q, map_app, S7 by assumption. reflexivity.
Qed.
End Sim.
End Lib.

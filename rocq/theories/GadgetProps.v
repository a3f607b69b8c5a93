(** Properties of the constraint systems and of the range, set, non-zero and MiMC gadgets. *)
From Verif Require Import Base Alg R1csModel R1csSpec R1csLib GadgetModel GadgetApiModel GadgetLib GadgetSim GadgetApiLib.
Open Scope list_scope.
Open Scope Z_scope.
Open Scope cs_scope.

Section Props.
Context {K : fieldOps} (HK : field_laws K).
Add Field Kf : (proj1 HK).

(** ** C78: arithmetic on linear combinations *)
Theorem C78_lc_arithmetic (w : @assignment K) (a b : lc K) (v : var) (c : K) : w VOne = f1 ->
  lc_value w (lc_add a b) = fadd (lc_value w a) (lc_value w b) /\
  lc_value w (lc_sub a b) = fsub (lc_value w a) (lc_value w b) /\
  lc_value w (lc_neg a) = fopp (lc_value w a) /\
  lc_value w (lc_scale c a) = fmul c (lc_value w a) /\
  lc_value w (lc_var v) = w v /\ lc_value w (lc_const c) = c /\
  lc_value w (lc_fadd_var c v) = fadd c (w v) /\
  lc_value w (lc_fsub_var c v) = fsub c (w v) /\
  lc_value w (lc_fmul_var c v) = fmul c (w v).
Proof.
  intros O. split; [apply (lv_add HK)|]. split; [apply (lv_sub HK)|]. split; [apply (lv_neg HK)|]. split; [apply (lv_scale HK)|]. split; [apply (lv_var HK)|]. split; [now apply (lv_const HK)|].
  unfold lc_fadd_var, lc_fsub_var, lc_fmul_var. rewrite !lv_cons, !lv_nil, O. split; [ring|]. split; ring.
Qed.
Lemma entry_add_fst v x : forall m : lc K, map fst (entry_add v x m) = map fst m \/ (~ In v (map fst m) /\ map fst (entry_add v x m) = map fst m ++ [v]).
Proof.
  induction m as [|[u y] m IH]; [right; split; [intros []|reflexivity]|]. cbn [entry_add]. destruct (var_eqb u v) eqn:E; [left; reflexivity|]. cbn [map fst].
  destruct IH as [-> |[N ->]]; [now left|]. right. split; [|reflexivity]. intros [->|I]; [|contradiction]. assert (var_eqb v v = true) as Q by now apply var_eqb_eq. congruence.
Qed.
(** simplifying keeps the value under every assignment and leaves one term per variable *)
Theorem C78_simplify (a : lc K) : (forall w, lc_value w (lc_simplify a) = lc_value w a) /\ NoDup (map fst (lc_simplify a)) /\
  (forall v, In v (map fst (lc_simplify a)) <-> In v (map fst a)).
Proof.
  split; [intros w; apply (lv_simplify HK)|]. unfold lc_simplify.
  enough (forall m : lc K, NoDup (map fst m) -> NoDup (map fst (fold_left (fun m t => entry_add (fst t) (snd t) m) a m)) /\
    (forall v, In v (map fst (fold_left (fun m t => entry_add (fst t) (snd t) m) a m)) <-> In v (map fst m) \/ In v (map fst a))) as Q.
  { destruct (Q [] ltac:(constructor)) as [Q1 Q2]. split; [exact Q1|]. intros v. rewrite Q2. cbn. tauto. }
  induction a as [|[v x] a IH]; intros m ND; cbn [fold_left fst snd map]; [split; [exact ND|cbn; tauto]|].
  destruct (entry_add_fst v x m) as [E|[N E]].
  - destruct (IH (entry_add v x m)) as [Q1 Q2]; [now rewrite E|]. split; [exact Q1|]. intros u. rewrite Q2, E. cbn [In].
    assert (In v (map fst m)) as Iv. { rewrite <- E. clear. induction m as [|[u y] m IH]; [now left|]. cbn [entry_add]. destruct (var_eqb u v) eqn:E; [apply var_eqb_eq in E; now left|]. right. exact IH. }
    split; [tauto|]. intros [H|[<-|H]]; tauto.
  - destruct (IH (entry_add v x m)) as [Q1 Q2].
    { rewrite E. clear - ND N. induction (map fst m) as [|y l IH]; [constructor; [intros []|constructor]|]. cbn [app]. inversion ND; subst. constructor; [|apply IH; [assumption|intros I; apply N; now right]].
      intros I. apply in_app_or in I as [I|[->|[]]]; [contradiction|]. apply N. now left. }
    split; [exact Q1|]. intros u. rewrite Q2, E, in_app_iff. cbn [In]. tauto.
Qed.

(** ** C79: both sides build the same system *)
Section Both.
Context {Pt : Type} (com : K -> K -> Pt).
Theorem C79_same_system (c : @circuit K) : forall ps vs ps', sim com ps vs -> run_prover c ps = Ok (tt, ps') ->
  exists vs', run_verifier c vs = Ok (tt, vs') /\ sim com ps' vs'.
Proof.
  assert (forall c, simM com eq (run_prover c) (run_verifier c)) as Q.
  { clear. induction c as [|l r k IH|x k IH|x k IH|l k IH]; cbn [run_prover run_verifier].
    - now apply sim_ret.
    - eapply sim_bind; [apply sim_multiply|]. intros t ? <-. apply IH.
    - intros ps vs S a ps' E. eapply (sim_bind com _ _ _ _ _ _ (sim_allocate com (Some (x (pw ps))) None)); [|exact S|exact E]. intros v ? <-. apply IH.
    - intros ps vs S a ps' E. eapply (sim_bind com _ _ _ _ _ _ (sim_allocate_multiplier com (Some (x (pw ps))) None)); [|exact S|exact E]. intros v ? <-. apply IH.
    - eapply sim_bind; [apply sim_constrain|]. intros ? ? _. apply IH. }
  intros ps vs ps' S E. destruct (Q c ps vs S tt ps' E) as ([] & vs' & E' & _ & S'). eauto.
Qed.
(** the verifier's side of a circuit never fails *)
Theorem C79_verifier_total (c : @circuit K) : forall vs : vstate K Pt, exists vs', run_verifier c vs = Ok (tt, vs').
Proof.
  induction c as [|l r k IH|x k IH|x k IH|l k IH]; intros vs; cbn [run_verifier cs_multiply cs_allocate cs_allocate_multiplier cs_constrain V].
  - now exists vs.
  - unfold cbind, v_multiply. cbn. apply IH.
  - unfold cbind, v_allocate. destruct (v_pending vs); cbn [rbind]; apply IH.
  - unfold cbind. cbn. apply IH.
  - unfold cbind. cbn. apply IH.
Qed.
Theorem C79_fresh : sim com (p_new (K := K)) v_new /\ @pgood K p_new.
Proof. split; [apply sim_new|apply new_good]. Qed.
(** whatever the assignments given, every multiplication gate of the prover's assignment holds *)
Theorem C79_gates_hold (c : @circuit K) : forall ps ps',
  length (p_aR ps) = length (p_aL ps) -> length (p_aO ps) = length (p_aL ps) ->
  (forall i, p_pending ps = Some i -> (i < length (p_aL ps))%nat) ->
  (forall i, (i < length (p_aL ps))%nat -> pw ps (MulO i) = fmul (pw ps (MulL i)) (pw ps (MulR i))) ->
  run_prover c ps = Ok (tt, ps') ->
  forall i, (i < length (p_aL ps'))%nat -> pw ps' (MulO i) = fmul (pw ps' (MulL i)) (pw ps' (MulR i)).
Proof.
  induction c as [|l r k IH|x k IH|x k IH|l k IH]; intros ps ps' LR LO LP G E; cbn [run_prover cs_multiply cs_allocate cs_allocate_multiplier cs_constrain P] in E.
  - injection E as <-. exact G.
  - unfold cbind at 1, p_multiply in E. destruct (p_eval ps l) as [a|]; [|discriminate]. cbn [rbind] in E. destruct (p_eval ps r) as [b|]; [|discriminate]. cbn [rbind] in E. cbn in E.
    eapply IH; [| | | |exact E]; cbn [p_aL p_aR p_aO p_pending pw]; rewrite ?app_length; cbn [length]; try lia.
    + intros i Hi. specialize (LP i Hi). lia.
    + intros i Hi. destruct (Nat.eq_dec i (length (p_aL ps))) as [->|N]; [rewrite !nth_app_at by (assumption || reflexivity); reflexivity|]. rewrite !app_nth1 by lia. apply G. lia.
  - unfold cbind at 1, p_allocate in E. destruct (p_pending ps) as [i|] eqn:EP.
    + specialize (LP i eq_refl). destruct (set_at_ok (p_aR ps) i (x (pw ps)) ltac:(lia)) as (aR & ER & LR' & NR1 & NR2). rewrite ER in E. cbn [rbind] in E.
      unfold idx in E. rewrite (nth_error_nth' (p_aL ps) f0) in E by lia. cbn [rbind] in E. rewrite (nth_error_nth' aR f0) in E by lia. cbn [rbind] in E.
      destruct (set_at_ok (p_aO ps) i (fmul (nth i (p_aL ps) f0) (nth i aR f0)) ltac:(lia)) as (aO & EO & LO' & NO1 & NO2). rewrite EO in E. cbn [rbind] in E.
      eapply IH; [| | | |exact E]; cbn [p_aL p_aR p_aO p_pending pw]; try lia; try discriminate.
      intros j Hj. destruct (Nat.eq_dec j i) as [->|N]; [now rewrite NO1|]. rewrite NO2, NR2 by assumption. now apply G.
    + cbn [rbind] in E. eapply IH; [| | | |exact E]; cbn [p_aL p_aR p_aO p_pending pw]; rewrite ?app_length; cbn [length]; try lia.
      * intros i Hi. injection Hi as <-. lia.
      * intros i Hi. destruct (Nat.eq_dec i (length (p_aL ps))) as [->|N]; [rewrite !nth_app_at by (assumption || reflexivity); ring|]. rewrite !app_nth1 by lia. apply G. lia.
  - unfold cbind at 1, p_allocate_multiplier in E. destruct (x (pw ps)) as [a b]. cbn in E. eapply IH; [| | | |exact E]; cbn [p_aL p_aR p_aO p_pending pw]; rewrite ?app_length; cbn [length]; try lia.
    + intros i Hi. specialize (LP i Hi). lia.
    + intros i Hi. destruct (Nat.eq_dec i (length (p_aL ps))) as [->|N]; [rewrite !nth_app_at by (assumption || reflexivity); reflexivity|]. rewrite !app_nth1 by lia. apply G. lia.
  - unfold cbind at 1, p_constrain in E. cbn [rbind] in E. eapply IH; [| | | |exact E]; cbn [p_aL p_aR p_aO p_pending]; assumption.
Qed.
(** on the prover, multiplying two linear combinations over its variables yields variables with
    the values of the factors and of the product, and keeps the system satisfied *)
Theorem C79_multiply (s : pstate K) (l r : lc K) : pgood s -> valid_lc s l -> valid_lc s r ->
  exists a b o s', cs_multiply P l r s = Ok ((a, b, o), s') /\ pgood s' /\
    pw s' a = lc_value (pw s) l /\ pw s' b = lc_value (pw s) r /\ pw s' o = fmul (lc_value (pw s) l) (lc_value (pw s) r).
Proof.
  intros G Hl Hr. destruct (compl_multiply HK s l r _ _ G (conj Hl eq_refl) (conj Hr eq_refl)) as ([[a b] o] & s' & E & G' & _ & (A1 & A2 & A3 & _)).
  exists a, b, o, s'. destruct A1, A2, A3. auto.
Qed.
(** and on the verifier every assignment of the resulting system has those values *)
Theorem C79_multiply_sound (s s' : vstate K Pt) (l r : lc K) a b o w : cs_multiply V l r s = Ok ((a, b, o), s') -> vsat w s' ->
  vsat w s /\ w a = lc_value w l /\ w b = lc_value w r /\ w o = fmul (lc_value w l) (lc_value w r).
Proof. intros E S. apply (sound_multiply HK w l r s _ s' E). exact S. Qed.
End Both.
End Props.

(** Set membership by selecting an item (set_membership_alt.rs): what accepted commitments say
    about the value, and what they do not. *)
From Verif Require Import Base Alg R1csModel R1csSpec R1csLib GadgetModel GadgetApiModel GadgetLib GadgetSim GadgetApiLib.
Open Scope list_scope.
Open Scope Z_scope.
Open Scope cs_scope.

Section Props.
Context {K : fieldOps} (HK : field_laws K) (ZK : zops K) (q : Z) (LZ : zlaws ZK q).
Add Field Kf : (proj1 HK).
Context {Pt : Type} (com : K -> K -> Pt).
Notation PS := (pstate K).
Notation VS := (vstate K Pt).
(** the bodies of the two loops that commit to the selection bits *)
Definition pbody (tb : K * K) (acc : list Pt * list (aq K)) : csm PS (list Pt * list (aq K)) :=
  do! (c, v) := pc com (fst tb) (snd tb) in
  let q := mkAq v (Some (fst tb)) in
  run! bit_gadget P q then cret (fst acc ++ [c], snd acc ++ [q]).
Definition vbody (_ : unit) (acc : list (aq K) * list Pt) : csm VS (list (aq K) * list Pt) :=
  do! (v, l) := pop_commit (snd acc) in
  let q := mkAq v None in
  run! bit_gadget V q then cret (fst acc ++ [q], l).

Definition vals (base : nat) (l : list (option K)) : list (aq K) := map (fun t => mkAq (Committed (fst t)) (snd t)) (combine (seq base (length l)) l).
Lemma vals_cons base x l : vals base (x :: l) = mkAq (Committed base) x :: vals (S base) l.
Proof. reflexivity. Qed.
Lemma vals_var base l : map aq_var (vals base l) = slots base (length l).
Proof. revert base. induction l as [|x l IH]; intros base; [reflexivity|]. rewrite vals_cons. cbn [map length]. now rewrite slots_cons, IH. Qed.
Lemma vals_val base l : map aq_val (vals base l) = l.
Proof. revert base. induction l as [|x l IH]; intros base; [reflexivity|]. rewrite vals_cons. cbn [map]. now rewrite IH. Qed.
Lemma vals_same base l l' : length l = length l' -> Forall2 same (vals base l) (vals base l').
Proof. revert base l'. induction l as [|x l IH]; intros base [|y l'] H; try discriminate; [constructor|]. rewrite !vals_cons. constructor; [reflexivity|]. apply IH. now injection H. Qed.

(** both loops, run together on bits *)
Lemma bits_run tbs : Forall (fun tb => fst tb = f0 \/ fst tb = f1) tbs -> forall (ps : PS) (vs : VS) ac aq rest aqv, pgood ps -> sim com ps vs ->
  exists ps' vs', cfold pbody tbs (ac, aq) ps = Ok ((ac ++ map (commitment com) tbs, aq ++ vals (length (p_v ps)) (map (fun tb => Some (fst tb)) tbs)), ps') /\
    cfold vbody (repeat tt (length tbs)) (aqv, map (commitment com) tbs ++ rest) vs = Ok ((aqv ++ vals (length (p_v ps)) (map (fun _ => None) tbs), rest), vs') /\
    pgood ps' /\ sim com ps' vs' /\ p_v ps' = p_v ps ++ map fst tbs /\ p_vbl ps' = p_vbl ps ++ map snd tbs /\
    (forall u y, hasv ps u y -> hasv ps' u y) /\ Forall2 (hasv ps') (slots (length (p_v ps)) (length tbs)) (map fst tbs).
Proof.
  induction 1 as [|[t b] tbs Hb Hbs IH]; intros ps vs ac aq rest aqv G HS.
  - exists ps, vs. cbn [cfold map length repeat app]. unfold cret. change (vals (length (p_v ps)) []) with (@nil (R1csModel.aq K)). rewrite !app_nil_r. repeat (split; [reflexivity || assumption || auto|]). constructor.
  - destruct (good_pc t b ps G) as (G1 & H1 & F1). pose proof (sim_pcs com [(t, b)] ps vs HS) as S1. cbn [map] in S1.
    destruct (run_both com (bit_gadget P (mkAq (Committed (length (p_v ps))) (Some t))) (bit_gadget V (mkAq (Committed (length (p_v ps))) None)) (fun _ s' => p_pending s' = p_pending (pcs [(t, b)] ps)) _ _ S1) as ([] & ps1 & vs1 & E1 & E2 & G2 & S2 & X & _).
    { apply sim_bit. reflexivity. } { eapply (compl_bit HK); [exact G1|exact H1|reflexivity|exact Hb]. }
    destruct (IH ps1 vs1 (ac ++ [com t b]) (aq ++ [mkAq (Committed (length (p_v ps))) (Some t)]) rest (aqv ++ [mkAq (Committed (length (p_v ps))) None]) G2 S2) as (ps' & vs' & A1 & A2 & A3 & A4 & A5 & A6 & A7 & A8).
    pose proof (pe_v _ _ X) as PV. pose proof (pe_vbl _ _ X) as PB. cbn [pcs p_v p_vbl map fst snd] in PV, PB.
    assert (length (p_v ps1) = S (length (p_v ps))) as L1 by (rewrite PV, app_length; cbn [length]; lia). rewrite L1 in A1, A2, A8.
    exists ps', vs'. split; [|split; [|split; [exact A3|split; [exact A4|]]]].
    + cbn [cfold]. unfold cbind at 1. unfold pbody at 1. cbn [fst snd]. unfold cbind at 1. rewrite pc_eq. cbn [rbind]. unfold cbind at 1. rewrite E1. cbn [rbind]. unfold cret at 1. cbn [rbind].
      rewrite A1. cbn [map fst]. rewrite vals_cons, <- !app_assoc. reflexivity.
    + cbn [map length repeat cfold app]. unfold cbind at 1. unfold vbody at 1. cbn [snd]. unfold cbind at 1. change (commitment com (t, b)) with (com t b). rewrite pop_commit_eq. cbn [rbind].
      rewrite (sim_length com _ _ HS). unfold cbind at 1. change [com t b] with [commitment com (t, b)]. rewrite E2. cbn [rbind fst]. unfold cret at 1. cbn [rbind].
      rewrite A2. rewrite vals_cons, <- !app_assoc. reflexivity.
    + split; [rewrite A5, PV, <- app_assoc; reflexivity|]. split; [rewrite A6, PB, <- app_assoc; reflexivity|]. split.
      * intros u y Hu. apply A7, (hasv_ext _ _ _ _ X), F1, Hu.
      * cbn [length map fst]. rewrite slots_cons. constructor; [apply A7, (hasv_ext _ _ _ _ X), H1|exact A8].
Qed.

(** running the verifier after commitments to bits [ts] adding up to one, for factors [bs]
    chosen freely *)
Lemma alt_core (set : list Z) (tbs : list (K * K)) (bs : list K) (x bl : K) (ps : PS) (vs : VS) :
  Forall (fun tb => fst tb = f0 \/ fst tb = f1) tbs -> length tbs = length set -> fsum (map fst tbs) = f1 -> length bs = length set ->
  (forall b i, In (b, i) (combine bs set) -> fmul b (zof ZK i) = fmul b x) ->
  fsum (map (fun bi => fmul (fst bi) (zof ZK (snd bi))) (combine bs set)) = x -> pgood ps -> sim com ps vs ->
  exists ps1 ps2 ps' vs', cfold pbody tbs ([], []) ps = Ok ((map (commitment com) tbs, vals (length (p_v ps)) (map (fun tb => Some (fst tb)) tbs)), ps1) /\
    vector_sum_constraints ZK P (slots (length (p_v ps)) (length set)) 1 ps1 = Ok (tt, ps2) /\ length (p_v ps2) = (length (p_v ps) + length set)%nat /\
    vector_product_gadget ZK P set (vals (length (p_v ps)) (map Some bs)) (mkAq (Committed (length (p_v ps) + length set)) (Some x)) (pcs [(x, bl)] ps2) = Ok (tt, ps') /\
    verify_set_membership_alt ZK set (map (commitment com) tbs ++ [com x bl]) vs = Ok (tt, vs') /\ pgood ps' /\ sim com ps' vs' /\
    p_v ps' = p_v ps ++ map fst tbs ++ [x].
Proof.
  intros Hb Lt Hs Lb H1 H2 G HS. destruct (bits_run tbs Hb ps vs [] [] [com x bl] [] G HS) as (ps1 & vs1 & A1 & A2 & A3 & A4 & A5 & A6 & A7 & A8). cbn [app] in A1, A2.
  rewrite Lt in A8. destruct (run_both com _ _ _ _ _ A4 (sim_vector_sum ZK com (slots (length (p_v ps)) (length set)) 1) (compl_vector_sum HK ZK _ _ _ 1 A3 A8 (eq_trans Hs (eq_sym (zl_1 LZ))))) as ([] & ps2 & vs2 & B1 & B2 & G2 & S2 & X2 & _).
  assert (length (p_v ps2) = (length (p_v ps) + length set)%nat) as L2 by (rewrite (pe_v _ _ X2), A5, app_length, map_length; lia).
  destruct (good_pc x bl ps2 G2) as (G3 & H3 & F3). rewrite L2 in H3. pose proof (sim_pcs com [(x, bl)] ps2 vs2 S2) as S3.
  destruct (run_both com (vector_product_gadget ZK P set (vals (length (p_v ps)) (map Some bs)) (mkAq (Committed (length (p_v ps) + length set)) (Some x)))
     (vector_product_gadget ZK V set (vals (length (p_v ps)) (map (fun _ => None) tbs)) (mkAq (Committed (length (p_v ps) + length set)) None)) (fun _ s' => p_pending s' = p_pending (pcs [(x, bl)] ps2)) _ _ S3) as ([] & ps' & vs' & C1 & C2 & G4 & S4 & X4 & _).
  { apply sim_vector_product; [|reflexivity]. apply vals_same. rewrite !map_length. lia. }
  { eapply (compl_vector_product HK ZK); [exact G3|exact H3|apply vals_val|exact Lb|exact H1|exact H2]. }
  exists ps1, ps2, ps', vs'. split; [exact A1|]. split; [exact B1|]. split; [exact L2|]. split; [exact C1|]. split; [|split; [exact G4|split; [exact S4|]]].
  - unfold verify_set_membership_alt. unfold cbind at 1. rewrite <- Lt.
    match goal with |- context [cfold ?F (repeat tt (length tbs)) ?a vs] => replace (cfold F (repeat tt (length tbs)) a vs) with (Ok ((vals (length (p_v ps)) (map (fun _ => None) tbs), [com x bl]), vs1) : res (_ * VS)) by (symmetry; exact A2) end.
    cbn [rbind]. unfold cbind at 1. rewrite vals_var, map_length, Lt, B2. cbn [rbind]. unfold cbind at 1. rewrite pop_commit_eq. cbn [rbind].
    rewrite (sim_length com _ _ S2), L2. exact C2.
  - rewrite (pe_v _ _ X4). cbn [pcs p_v map fst]. rewrite (pe_v _ _ X2), A5, <- app_assoc. reflexivity.
Qed.

(** an honest prover: the value occurs exactly once in the set *)
Theorem C83_set_membership_alt_complete value bl set rng rnd (ps : PS) (vs : VS) : count_occ Z.eq_dec set value = 1%nat -> (bl <> None \/ rng <> None) -> pgood ps -> sim com ps vs ->
  exists comms b ps' vs', prove_set_membership_alt ZK com value bl set rng rnd ps = Ok (comms, ps') /\ verify_set_membership_alt ZK set comms vs = Ok (tt, vs') /\ pgood ps' /\ sim com ps' vs' /\
    nth_error comms (length set) = Some (com (zof ZK value) b) /\ (forall x, bl = Some x -> b = x) /\ pw ps' (Committed (length (p_v ps) + length set)) = zof ZK value.
Proof.
  intros Hc Hr G HS.
  assert (exists b, blinding_or bl rng = Ok b /\ forall x, bl = Some x -> b = x) as (b & Eb & Hb).
  { unfold blinding_or. destruct bl as [x|]; [exists x; split; [reflexivity|congruence]|]. destruct rng as [r|]; [exists (r 0%nat); split; [reflexivity|discriminate]|]. destruct Hr; congruence. }
  set (toggles := map (fun e => if Z.eqb e value then 1 else 0) set).
  set (tbs := map (fun ib : nat * Z => (zof ZK (snd ib), rnd (fst ib))) (combine (seq 0 (length toggles)) toggles)).
  set (bs := map (fun e => if Z.eqb e value then f1 else f0) set : list K).
  assert (map fst tbs = bs) as Ebs.
  { unfold tbs, bs, toggles. rewrite map_map. cbn [fst]. generalize 0%nat. rewrite map_length. clear - LZ. induction set as [|e set IH]; intros k; [reflexivity|].
    cbn [length seq map combine snd]. f_equal; [destruct (Z.eqb e value); [apply (zl_1 LZ)|apply (zl_0 LZ)]|apply IH]. }
  assert (length tbs = length set) as Lt by (unfold tbs, toggles; rewrite map_length, combine_length, seq_length, map_length; lia).
  assert (fsum bs = zof ZK (Z.of_nat (count_occ Z.eq_dec set value))) as Sb.
  { unfold bs. clear - HK LZ. induction set as [|e set IH]; [cbn; symmetry; apply (zl_0 LZ)|]. cbn [map fsum count_occ]. rewrite IH. destruct (Z.eq_dec e value) as [->|N].
    - rewrite Z.eqb_refl, Nat2Z.inj_succ, <- Z.add_1_l, (zl_add LZ), (zl_1 LZ). reflexivity.
    - apply Z.eqb_neq in N. rewrite N. ring. }
  rewrite Hc in Sb. change (Z.of_nat 1) with 1 in Sb. rewrite (zl_1 LZ) in Sb.
  destruct (alt_core set tbs bs (zof ZK value) b ps vs) as (ps1 & ps2 & ps' & vs' & A1 & A2 & A3 & A4 & A5 & A6 & A7 & A8); try assumption.
  - apply Forall_forall. intros tb I. assert (In (fst tb) bs) as I2 by (rewrite <- Ebs; now apply in_map). apply in_map_iff in I2 as (e & <- & _). destruct (Z.eqb e value); auto.
  - now rewrite Ebs.
  - unfold bs. now rewrite map_length.
  - unfold bs. clear - HK. induction set as [|e set IH]; intros b i I; [destruct I|]. cbn [map combine] in I. destruct I as [E|I]; [|now apply IH]. injection E as <- <-.
    destruct (Z.eqb e value) eqn:E; [apply Z.eqb_eq in E; now subst|ring].
  - transitivity (fmul (fsum bs) (zof ZK value)); [|rewrite Sb; ring]. unfold bs. clear - HK. induction set as [|e set IH]; [cbn; ring|]. cbn [map combine fsum fst snd]. rewrite IH.
    destruct (Z.eqb e value) eqn:E; [apply Z.eqb_eq in E; subst; ring|ring].
  - exists (map (commitment com) tbs ++ [com (zof ZK value) b]), b, ps', vs'. split; [|split; [exact A5|split; [exact A6|split; [exact A7|split; [|split; [exact Hb|]]]]]].
    + unfold prove_set_membership_alt. unfold cbind at 1. unfold lift. rewrite Eb. cbn [rbind]. unfold cbind at 1. fold toggles.
      match goal with |- context [cfold ?F (combine ?a toggles) ?ii ps] => assert (forall l i s, cfold F l i s = cfold pbody (map (fun ib : nat * Z => (zof ZK (snd ib), rnd (fst ib))) l) i s) as FE end.
      { clear. induction l as [|x l IH]; intros i s; [reflexivity|]. cbn [cfold map].
        match goal with |- cbind ?m ?k s = _ => change (cbind (pbody (zof ZK (snd x), rnd (fst x)) i) k s = cbind (pbody (zof ZK (snd x), rnd (fst x)) i) (fun a' => cfold pbody (map (fun ib : nat * Z => (zof ZK (snd ib), rnd (fst ib))) l) a') s) end.
        generalize (pbody (zof ZK (snd x), rnd (fst x)) i). intros m. unfold cbind at 1. unfold cbind at 3. destruct (m s) as [[a s1]|]; cbn [rbind]; [apply IH|reflexivity]. }
      rewrite FE. fold tbs. rewrite A1. cbn [rbind]. unfold cbind at 1. rewrite vals_var, map_length, Lt, A2. cbn [rbind]. unfold cbind at 1. rewrite pc_eq. cbn [rbind]. rewrite A3. unfold cbind at 1.
      replace (map (fun tb : K * K => Some (fst tb)) tbs) with (map Some bs) by (rewrite <- Ebs, map_map; reflexivity). rewrite A4. reflexivity.
    + rewrite nth_error_app2 by (rewrite map_length; lia). rewrite map_length, Lt, Nat.sub_diag. reflexivity.
    + cbn [pw]. rewrite A8, app_assoc. rewrite app_nth2 by (rewrite app_length, map_length; lia). rewrite app_length, map_length, Lt, Nat.sub_diag. reflexivity.
Qed.

(** the loop on the verifier's side, for soundness *)
Lemma vbits_sound w n : forall comms aqv (s : VS) aqs rest s', cfold vbody (repeat tt n) (aqv, comms) s = Ok ((aqs, rest), s') ->
  (n <= length comms)%nat /\ rest = skipn n comms /\ aqs = aqv ++ vals (length (v_V s)) (repeat None n) /\ v_V s' = v_V s ++ firstn n comms /\ (vsat w s' -> vsat w s).
Proof.
  induction n as [|n IH]; intros comms aqv s aqs rest s' E.
  - cbn [repeat cfold] in E. injection E as <- <- <-. cbn. rewrite !app_nil_r. auto with arith.
  - cbn [repeat cfold] in E. unfold cbind at 1 in E. unfold vbody at 1 in E. cbn [snd] in E. destruct comms as [|c comms]; [discriminate|]. unfold cbind at 1 in E. rewrite pop_commit_eq in E. cbn [rbind] in E.
    unfold cbind at 1 in E. destruct (bit_gadget V (mkAq (Committed (length (v_V s))) None) (vcs [c] s)) as [[[] s1]|] eqn:E1; [|discriminate]. cbn [rbind fst] in E. unfold cret at 1 in E. cbn [rbind] in E.
    destruct (sound_bit HK w _ _ _ _ E1) as [V1 Q1]. destruct (IH _ _ _ _ _ _ E) as (A1 & A2 & A3 & A4 & A5).
    rewrite V1, vcs_len in A3. cbn [length] in A3. rewrite Nat.add_1_r in A3. split; [cbn [length]; lia|]. split; [exact A2|]. split; [rewrite A3, <- app_assoc; reflexivity|]. split.
    + rewrite A4, V1. cbn [vcs v_V firstn]. now rewrite <- app_assoc.
    + intros S. apply A5, Q1 in S as [S _]. exact S.
Qed.
(** accepted commitments: the committed value is an item of the set, or zero *)
Theorem C83_set_membership_alt_sound (set : list Z) comms (s s' : VS) w : verify_set_membership_alt ZK set comms s = Ok (tt, s') -> vsat w s' ->
  vsat w s /\ v_V s' = v_V s ++ firstn (length set + 1) comms /\ set <> [] /\
  (In (w (Committed (length (v_V s) + length set))) (map (zof ZK) set) \/ w (Committed (length (v_V s) + length set)) = f0).
Proof.
  intros E HS. unfold verify_set_membership_alt in E. unfold cbind at 1 in E.
  match type of E with context [cfold ?F (repeat tt (length set)) ?a s] => change (cfold F (repeat tt (length set)) a s) with (cfold vbody (repeat tt (length set)) ([], comms) s) in E end.
  destruct (cfold vbody (repeat tt (length set)) ([], comms) s) as [[[aqs rest] s1]|] eqn:E1; [|discriminate]. cbn [rbind] in E.
  destruct (vbits_sound w _ _ _ _ _ _ _ E1) as (L & -> & -> & V1 & B1). cbn [app] in E. unfold cbind at 1 in E.
  destruct (vector_sum_constraints ZK V _ 1 s1) as [[[] s2]|] eqn:E2; [|discriminate]. cbn [rbind] in E. destruct (sound_vector_sum HK ZK w _ _ _ _ _ E2) as [V2 Q2].
  unfold cbind at 1 in E. destruct (skipn (length set) comms) as [|c rest] eqn:Er; [discriminate|]. rewrite pop_commit_eq in E. cbn [rbind] in E.
  destruct (sound_vector_product HK ZK w _ _ _ _ _ _ E) as [V3 Q3]. destruct (Q3 HS) as (S2 & bs & Lb & I1 & I2). cbn [aq_var] in I1, I2. destruct (Q2 S2) as (S1 & Sum).
  assert (length (v_V s2) = (length (v_V s) + length set)%nat) as LV by (rewrite V2, V1, app_length, firstn_length; lia). rewrite LV in I1, I2.
  split; [now apply B1|]. split; [|split].
  - rewrite V3. cbn [vcs v_V]. rewrite V2, V1, <- app_assoc. f_equal. replace (firstn (length set + 1) comms) with (firstn (length set) comms ++ firstn 1 (skipn (length set) comms)); [now rewrite Er|].
    clear. generalize (length set) as n. induction comms as [|c l IH]; intros [|n]; try reflexivity; cbn [firstn skipn app Nat.add]; now rewrite IH.
  - intros ->. rewrite (zl_1 LZ) in Sum. cbn in Sum. exact (f1_neq_0 _ HK (eq_sym Sum)).
  - revert I1 I2. generalize (w (Committed (length (v_V s) + length set))). intros x I1 I2. destruct (in_dec (feq_dec _ HK) x (map (zof ZK) set)) as [I|N]; [now left|right].
    rewrite I2. clear I2. revert bs Lb I1. clear - HK N. induction set as [|e set IH]; intros bs Lb I1; [destruct bs; [reflexivity|discriminate]|]. destruct bs as [|b bs]; [discriminate|]. cbn [combine map fsum fst snd].
    rewrite IH; [|intros I; apply N; now right|cbn in Lb; lia|intros; apply I1; now right].
    assert (b = f0) as ->; [|ring]. assert (fmul b (fsub (zof ZK e) x) = f0) as M. { transitivity (fsub (fmul b (zof ZK e)) (fmul b x)); [ring|rewrite (I1 b e) by (now left); ring]. }
    apply (f_mul0 HK) in M as [M|M]; [exact M|]. exfalso. apply N. left. now apply (f_sub_eq' HK).
Qed.
(** and zero is always provable: whatever the (non-empty) set, there are commitments, the last
    of them to zero with a blinding of the prover's choice, that the verifier accepts and whose
    system the prover's assignment satisfies *)
Theorem C83_refuted_zero_in_any_set (set : list Z) (bl : K) (ps : PS) (vs : VS) : set <> [] -> pgood ps -> sim com ps vs ->
  exists comms ps' vs', verify_set_membership_alt ZK set comms vs = Ok (tt, vs') /\ nth_error comms (length set) = Some (com f0 bl) /\
    pgood ps' /\ sim com ps' vs' /\ vsat (pw ps') vs' /\ pw ps' (Committed (length (v_V vs) + length set)) = f0.
Proof.
  intros N G HS. destruct set as [|e set]; [congruence|]. clear N.
  set (tbs := (f1, f0) :: map (fun _ => (f0, f0)) set : list (K * K)). set (bs := map (fun _ => f0) (e :: set) : list K).
  assert (length tbs = length (e :: set)) as Lt by (unfold tbs; cbn [length]; now rewrite map_length).
  destruct (alt_core (e :: set) tbs bs f0 bl ps vs) as (ps1 & ps2 & ps' & vs' & A1 & A2 & A3 & A4 & A5 & A6 & A7 & A8); try assumption.
  - constructor; [now right|]. apply Forall_forall. intros tb I. apply in_map_iff in I as (? & <- & _). now left.
  - unfold tbs. cbn [map fst fsum]. rewrite map_map. cbn [fst]. enough (fsum (map (fun _ : Z => f0) set) = (f0 : K)) as -> by ring. clear - HK. induction set as [|y l IH]; [reflexivity|]. cbn [map fsum]. rewrite IH. ring.
  - unfold bs. now rewrite map_length.
  - unfold bs. intros b i I. apply in_combine_l, in_map_iff in I as (? & <- & _). ring.
  - unfold bs. generalize (e :: set). clear - HK. induction l as [|y l IH]; [reflexivity|]. cbn [map combine fsum fst snd]. rewrite IH. ring.
  - exists (map (commitment com) tbs ++ [com f0 bl]), ps', vs'. split; [exact A5|]. split; [|split; [exact A6|split; [exact A7|split]]].
    + rewrite nth_error_app2 by (rewrite map_length; lia). rewrite map_length, Lt, Nat.sub_diag. reflexivity.
    + destruct A7 as [C1 C2 _ _ _ _ _]. unfold vsat. rewrite C1, C2. exact (pg_sat _ A6).
    + cbn [pw]. rewrite A8, (sim_length com _ _ HS), app_assoc. rewrite app_nth2 by (rewrite app_length, map_length; lia). rewrite app_length, map_length, Lt, Nat.sub_diag. reflexivity.
Qed.
End Props.

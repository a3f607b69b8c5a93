(** The prove_* / verify_* functions for ranges, non-zero values, sets and MiMC preimages. *)
From Verif Require Import Base Alg R1csModel R1csSpec R1csLib GadgetModel GadgetApiModel GadgetLib GadgetSim GadgetApiLib.
Open Scope list_scope.
Open Scope Z_scope.
Open Scope cs_scope.

Section Props.
Context {K : fieldOps} (HK : field_laws K) (ZK : zops K) (q : Z) (LZ : zlaws ZK q).
Add Field Kf : (proj1 HK).
Context {Pt : Type} (com : K -> K -> Pt).
Notation PS := (pstate K).
Notation VS := (vstate K Pt).
Definition u64 (x : Z) : Prop := 0 <= x < 2 ^ 64.

(** ** C80: bounded numbers *)
(** accepting commitments to a bounded number: every assignment of the verifier's system has the
    value committed in the first of them between the bounds *)
Theorem C80_bounded_num_sound lower upper n comms (s s' : VS) w : 2 ^ 64 < q -> 2 ^ Z.of_nat (S n) <= q -> u64 lower -> u64 upper ->
  verify_bounded_num ZK lower upper n comms s = Ok (tt, s') -> vsat w s' ->
  vsat w s /\ v_V s' = v_V s ++ firstn 3 comms /\ lower <= zto ZK (w (Committed (length (v_V s)))) <= upper.
Proof.
  intros Q1 Q2 Hl Hu E S. destruct comms as [|c1 [|c2 [|c3 rest]]]; try (cbn in E; discriminate).
  change (bound_check_gadget ZK V (mkAq (Committed (length (v_V s))) None) (mkAq (Committed (length (v_V (vcs [c1] s)))) None) (mkAq (Committed (length (v_V (vcs [c2] (vcs [c1] s))))) None) upper lower n (vcs [c3] (vcs [c2] (vcs [c1] s))) = Ok (tt, s')) in E.
  destruct (sound_bound HK ZK q LZ w _ _ _ upper lower n (zl_q LZ) Q1 Q2 Hl Hu _ _ _ E) as [EV F]. destruct (F S) as [S0 B]. split; [exact S0|]. split; [|exact B].
  rewrite EV. cbn [vcs v_V firstn]. now rewrite <- !app_assoc.
Qed.
(** in particular an empty range has no proof *)
Corollary C80_empty_range lower upper n comms (s s' : VS) w : 2 ^ 64 < q -> 2 ^ Z.of_nat (S n) <= q -> u64 lower -> u64 upper -> upper < lower ->
  verify_bounded_num ZK lower upper n comms s = Ok (tt, s') -> ~ vsat w s'.
Proof. intros Q1 Q2 Hl Hu L E S. destruct (C80_bounded_num_sound _ _ _ _ _ _ _ Q1 Q2 Hl Hu E S) as (_ & _ & B). lia. Qed.

Lemma C80_core lower upper n (x xa xb bl b1 b2 : K) (ps : PS) (vs : VS) : pgood ps -> sim com ps vs ->
  xa = fsub x (zof ZK lower) -> xb = fsub (zof ZK upper) x -> zof ZK (sub64 upper lower) = fsub (zof ZK upper) (zof ZK lower) ->
  zto ZK xa < 2 ^ Z.of_nat n -> zto ZK xb < 2 ^ Z.of_nat n ->
  let ps1 := pcs [(x, bl); (xa, b1); (xb, b2)] ps in let k := length (p_v ps) in
  exists ps' vs', bound_check_gadget ZK P (mkAq (Committed k) (Some x)) (mkAq (Committed (k + 1)) (Some xa)) (mkAq (Committed (k + 2)) (Some xb)) upper lower n ps1 = Ok (tt, ps') /\
    verify_bounded_num ZK lower upper n [com x bl; com xa b1; com xb b2] vs = Ok (tt, vs') /\ pgood ps' /\ sim com ps' vs' /\
    pw ps' (Committed k) = x /\ p_v ps' = p_v ps ++ [x; xa; xb].
Proof.
  intros G S Da Db Ds Ba Bb ps1 k.
  assert (sim com ps1 (vcs [com x bl; com xa b1; com xb b2] vs)) as S1 by apply (sim_pcs com [(x, bl); (xa, b1); (xb, b2)] ps vs S).
  destruct (good_pcs [(x, bl); (xa, b1); (xb, b2)] ps G) as (G1 & _ & F). fold ps1 in G1, F. cbn [length map fst] in F. unfold slots in F. cbn [seq map] in F. fold k in F.
  inversion F as [|? ? ? ? H1 F1]; subst. inversion F1 as [|? ? ? ? H2 F2]; subst. inversion F2 as [|? ? ? ? H3 _]; subst. clear F F1 F2.
  replace (Datatypes.S k) with (k + 1)%nat in H2 by lia. replace (Datatypes.S (Datatypes.S k)) with (k + 2)%nat in H3 by lia.
  assert (length (v_V vs) = k) as Lk by apply (sim_length com ps vs S).
  destruct (run_both com (bound_check_gadget ZK P (mkAq (Committed k) (Some x)) (mkAq (Committed (k + 1)) (Some (fsub x (zof ZK lower)))) (mkAq (Committed (k + 2)) (Some (fsub (zof ZK upper) x))) upper lower n)
     (bound_check_gadget ZK V (mkAq (Committed k) None) (mkAq (Committed (k + 1)) None) (mkAq (Committed (k + 2)) None) upper lower n) (fun _ s' => p_pending s' = p_pending ps1) _ _ S1) as ([] & ps' & vs' & E1 & E2 & G2 & S2 & X & _).
  { apply sim_bound; reflexivity. }
  { eapply (compl_bound HK ZK q LZ); try exact G1; try eassumption; reflexivity. }
  exists ps', vs'. split; [exact E1|]. split.
  - replace (k + 1)%nat with (length (v_V (vcs [com x bl] vs))) in E2 by (rewrite vcs_len, Lk; reflexivity).
    replace (k + 2)%nat with (length (v_V (vcs [com (fsub x (zof ZK lower)) b1] (vcs [com x bl] vs)))) in E2 by (rewrite !vcs_len, Lk; cbn [length]; lia).
    rewrite <- Lk in E2. change [com x bl; com (fsub x (zof ZK lower)) b1; com (fsub (zof ZK upper) x) b2] with ([com x bl] ++ [com (fsub x (zof ZK lower)) b1] ++ [com (fsub (zof ZK upper) x) b2]) in E2. rewrite !vcs_app in E2. exact E2.
  - split; [exact G2|]. split; [exact S2|]. split; [apply (hasv_ext _ _ _ _ X H1)|]. rewrite (pe_v _ _ X). reflexivity.
Qed.
(** an honest prover's number in the range: both sides accept, hold the same system, and the
    prover's assignment satisfies it *)
Theorem C80_bounded_num_complete val bl rng rnd lower upper n (ps : PS) (vs : VS) : 2 ^ 64 <= q ->
  u64 lower -> u64 upper -> lower <= val <= upper -> val - lower < 2 ^ Z.of_nat n -> upper - val < 2 ^ Z.of_nat n -> (bl <> None \/ rng <> None) ->
  pgood ps -> sim com ps vs ->
  exists comms b ps' vs', prove_bounded_num ZK com val bl lower upper n rng rnd ps = Ok (comms, ps') /\
    verify_bounded_num ZK lower upper n comms vs = Ok (tt, vs') /\
    pgood ps' /\ sim com ps' vs' /\ nth_error comms 0 = Some (com (zof ZK val) b) /\ (forall x, bl = Some x -> b = x) /\ pw ps' (Committed (length (p_v ps))) = zof ZK val.
Proof.
  intros Hq Hl Hu Hv Ba Bb Hr G S. unfold u64 in *.
  assert (exists b, blinding_or bl rng = Ok b /\ forall x, bl = Some x -> b = x) as (b & Eb & Hb).
  { unfold blinding_or. destruct bl as [x|]; [exists x; split; [reflexivity|congruence]|]. destruct rng as [r|]; [exists (r 0%nat); split; [reflexivity|discriminate]|]. destruct Hr; congruence. }
  assert (sub64 val lower = val - lower) as E1 by (apply Z.mod_small; lia).
  assert (sub64 upper val = upper - val) as E2 by (apply Z.mod_small; lia).
  destruct (C80_core lower upper n (zof ZK val) (zof ZK (val - lower)) (zof ZK (upper - val)) b (rnd 0%nat) (rnd 1%nat) ps vs G S) as (ps' & vs' & F1 & F2 & F3 & F4 & F5 & F6).
  { apply (zl_sub LZ). } { apply (zl_sub LZ). } { unfold sub64. rewrite Z.mod_small by lia. apply (zl_sub LZ). }
  { rewrite (zl_to_of LZ), Z.mod_small by lia. exact Ba. } { rewrite (zl_to_of LZ), Z.mod_small by lia. exact Bb. }
  exists [com (zof ZK val) b; com (zof ZK (val - lower)) (rnd 0%nat); com (zof ZK (upper - val)) (rnd 1%nat)], b, ps', vs'.
  split; [|split; [exact F2|split; [exact F3|split; [exact F4|split; [reflexivity|split; [exact Hb|exact F5]]]]]].
  unfold prove_bounded_num. unfold cbind at 1. unfold lift. rewrite Eb. cbn [rbind]. rewrite E1, E2.
  unfold cbind at 1. rewrite pc_eq. cbn [rbind]. unfold cbind at 1. rewrite pc_eq. cbn [rbind]. unfold cbind at 1. rewrite pc_eq. cbn [rbind].
  rewrite <- !pcs_app, !pcs_len. cbn [app length]. unfold cbind at 1. rewrite F1. reflexivity.
Qed.
Lemma sim_psat ps vs : sim com ps vs -> psat ps -> vsat (pw ps) vs.
Proof. intros [S1 S2 _ _ _ _ _] H. unfold vsat. now rewrite S1, S2. Qed.
(** the width is the caller's: once it reaches the size of the field the range constrains
    nothing, and every value has a satisfying assignment *)
Theorem C80_refuted_any_width (lower upper : Z) (n : nat) (x bl b1 b2 : K) : 2 ^ 64 <= q -> u64 lower -> u64 upper -> lower <= upper -> q <= 2 ^ Z.of_nat n ->
  let comms := [com x bl; com (fsub x (zof ZK lower)) b1; com (fsub (zof ZK upper) x) b2] in
  exists ps' vs', verify_bounded_num ZK lower upper n comms v_new = Ok (tt, vs') /\ pgood ps' /\ sim com ps' vs' /\ vsat (pw ps') vs' /\ pw ps' (Committed 0) = x.
Proof.
  intros Hq Hl Hu L Hn comms. unfold u64 in *.
  destruct (C80_core lower upper n x (fsub x (zof ZK lower)) (fsub (zof ZK upper) x) bl b1 b2 p_new v_new new_good (sim_new com) eq_refl eq_refl) as (ps' & vs' & F1 & F2 & F3 & F4 & F5 & F6).
  { unfold sub64. rewrite Z.mod_small by lia. apply (zl_sub LZ). }
  { pose proof (zl_range LZ (fsub x (zof ZK lower))). lia. } { pose proof (zl_range LZ (fsub (zof ZK upper) x)). lia. }
  exists ps', vs'. split; [exact F2|]. split; [exact F3|]. split; [exact F4|]. split; [apply (sim_psat _ _ F4), (pg_sat _ F3)|exact F5].
Qed.
(** fewer than three commitments abort the verifier *)
Theorem C80_short_commitments lower upper n comms (s : VS) : (length comms < 3)%nat -> verify_bounded_num ZK lower upper n comms s = Err Panic.
Proof. intros H. destruct comms as [|c1 [|c2 [|c3 rest]]]; try reflexivity. cbn in H. lia. Qed.
(** neither a blinding nor a generator: an error, before anything is committed *)
Theorem C80_needs_randomness val lower upper n rnd ps : prove_bounded_num ZK com val None lower upper n None rnd ps = Err (BpErr BGadgetError).
Proof. reflexivity. Qed.

(** ** C81: non-zero values *)
Theorem C81_non_zero_sound comms (s s' : VS) w : verify_non_zero_val comms s = Ok (tt, s') -> vsat w s' ->
  vsat w s /\ v_V s' = v_V s ++ firstn 2 comms /\ w (Committed (length (v_V s))) <> f0.
Proof.
  intros E S. destruct comms as [|c1 [|c2 rest]]; try (cbn in E; discriminate).
  change (is_nonzero_gadget V (Committed (length (v_V s))) (Committed (length (v_V (vcs [c1] s)))) (vcs [c2] (vcs [c1] s)) = Ok (tt, s')) in E.
  destruct (sound_nonzero HK w _ _ _ _ _ E) as [EV F]. destruct (F S) as [S0 B]. split; [exact S0|]. split; [|eapply (nonzero_of_inv HK); exact B].
  rewrite EV. cbn [vcs v_V firstn]. now rewrite <- !app_assoc.
Qed.
Theorem C81_non_zero_complete (value : K) bl rng rnd (ps : PS) (vs : VS) : value <> f0 -> (bl <> None \/ rng <> None) -> pgood ps -> sim com ps vs ->
  exists comms ps' vs', prove_non_zero_val com value bl rng rnd ps = Ok (comms, ps') /\ verify_non_zero_val comms vs = Ok (tt, vs') /\ pgood ps' /\ sim com ps' vs' /\
    pw ps' (Committed (length (p_v ps))) = value.
Proof.
  intros N Hr G S.
  assert (exists b, blinding_or bl rng = Ok b) as (b & Eb) by (unfold blinding_or; destruct bl; [eauto|]; destruct rng; [eauto|]; destruct Hr; congruence).
  set (vbs := [(value, b); (finv value, rnd 0%nat)]).
  assert (sim com (pcs vbs ps) (vcs (map (commitment com) vbs) vs)) as S1 by now apply sim_pcs.
  destruct (good_pcs vbs ps G) as (G1 & _ & F). unfold vbs in F. cbn [length map fst] in F. unfold slots in F. cbn [seq map] in F.
  inversion F as [|? ? ? ? H1 F1]; subst. inversion F1 as [|? ? ? ? H2 _]; subst. clear F F1. fold vbs in H1, H2.
  destruct (run_both com (is_nonzero_gadget P (Committed (length (p_v ps))) (Committed (Datatypes.S (length (p_v ps))))) (is_nonzero_gadget V (Committed (length (p_v ps))) (Committed (Datatypes.S (length (p_v ps))))) _ _ _ S1 (sim_nonzero com _ _)
    (compl_nonzero HK _ _ _ _ _ G1 H1 H2 ltac:(rewrite (ARmul_comm (Rth_ARth (Eqsth _) (Eq_ext fadd fmul fopp) (F_R (proj1 HK)))); now apply (finv_mul_l _ HK)))) as ([] & ps' & vs' & E1 & E2 & G2 & S2 & X & _).
  exists [com value b; com (finv value) (rnd 0%nat)], ps', vs'.
  split; [|split; [|split; [exact G2|split; [exact S2|apply (hasv_ext _ _ _ _ X H1)]]]].
  - unfold prove_non_zero_val. unfold cbind at 1. unfold lift. rewrite Eb. cbn [rbind]. unfold cbind at 1. rewrite pc_eq. cbn [rbind]. unfold cbind at 1. rewrite pc_eq. cbn [rbind].
    rewrite <- !pcs_app, !pcs_len. cbn [app length]. unfold cbind at 1. rewrite Nat.add_1_r. fold vbs. rewrite E1. reflexivity.
  - unfold verify_non_zero_val. unfold cbind at 1. rewrite pop_commit_eq. cbn [rbind]. unfold cbind at 1. rewrite pop_commit_eq. cbn [rbind].
    rewrite <- vcs_app, vcs_len, (sim_length com _ _ S). cbn [length app]. rewrite Nat.add_1_r. exact E2.
Qed.

(** ** C82: set membership and non-membership *)
Theorem C82_membership_sound (set : list K) comms (s s' : VS) w : verify_set_membership set comms s = Ok (tt, s') -> vsat w s' ->
  vsat w s /\ v_V s' = v_V s ++ firstn (1 + length set) comms /\ In (w (Committed (length (v_V s)))) set.
Proof.
  intros E S. destruct comms as [|c comms]; [cbn in E; discriminate|]. unfold verify_set_membership in E. unfold cbind at 1 in E. rewrite pop_commit_eq in E. cbn [rbind] in E.
  destruct (le_lt_dec (length set) (length comms)) as [L|L]; [|unfold cbind in E; rewrite pop_commits_short in E by exact L; discriminate].
  unfold cbind in E. rewrite pop_commits_eq in E by exact L. cbn [rbind] in E.
  destruct (sound_set_membership HK w _ _ _ _ _ _ E) as [EV F]. destruct (F S) as [S0 B]. split; [exact S0|]. split; [|exact B]. rewrite EV. cbn [vcs v_V firstn Nat.add]. now rewrite <- app_assoc.
Qed.
(** the empty set has no member: no assignment at all *)
Corollary C82_empty_set comms (s s' : VS) w : verify_set_membership [] comms s = Ok (tt, s') -> ~ vsat w s'.
Proof. intros E S. now destruct (C82_membership_sound _ _ _ _ _ E S) as (_ & _ & []). Qed.

Lemma fold_commits {X} (f : X -> K * K) xs : forall ac av s,
  cfold (fun (x : X) (acc : list Pt * list var) => cbind (pc com (fst (f x)) (snd (f x))) (fun '(c, v) => cret (fst acc ++ [c], snd acc ++ [v]))) xs (ac, av) s
  = Ok ((ac ++ map (commitment com) (map f xs), av ++ slots (length (p_v s)) (length xs)), pcs (map f xs) s).
Proof.
  induction xs as [|x xs IH]; intros ac av s.
  - cbn [cfold map length]. unfold slots. cbn [seq map]. now rewrite !app_nil_r, pcs_nil.
  - cbn [cfold]. unfold cbind at 1. unfold cbind at 1. rewrite pc_eq. cbn [rbind fst snd]. unfold cret at 1. cbn [rbind]. rewrite IH, pcs_len. cbn [length map]. rewrite slots_cons.
    change (f x :: map f xs) with ([f x] ++ map f xs). rewrite pcs_app, <- !app_assoc. cbn [app]. rewrite Nat.add_1_r. destruct (f x); reflexivity.
Qed.
Lemma map_indexed {A B} (g : A -> B) (l : list A) : map (fun is : nat * A => g (snd is)) (combine (seq 0 (length l)) l) = map g l.
Proof. generalize 0%nat. induction l as [|x l IH]; intros k; [reflexivity|]. cbn. now rewrite IH. Qed.
Lemma length_indexed {A} (l : list A) : length (combine (seq 0 (length l)) l) = length l.
Proof. rewrite combine_length, seq_length. lia. Qed.
Theorem C82_membership_complete (value : K) bl set rng rnd (ps : PS) (vs : VS) : In value set -> (bl <> None \/ rng <> None) -> pgood ps -> sim com ps vs ->
  exists comms b ps' vs', prove_set_membership com value bl set rng rnd ps = Ok (comms, ps') /\ verify_set_membership set comms vs = Ok (tt, vs') /\ pgood ps' /\ sim com ps' vs' /\
    nth_error comms 0 = Some (com value b) /\ (forall x, bl = Some x -> b = x) /\ pw ps' (Committed (length (p_v ps))) = value.
Proof.
  intros Hin Hr G HS.
  assert (exists b, blinding_or bl rng = Ok b /\ forall x, bl = Some x -> b = x) as (b & Eb & Hb).
  { unfold blinding_or. destruct bl as [x|]; [exists x; split; [reflexivity|congruence]|]. destruct rng as [r|]; [exists (r 0%nat); split; [reflexivity|discriminate]|]. destruct Hr; congruence. }
  set (f := fun is : nat * K => (fsub (snd is) value, rnd (fst is))). set (xs := combine (seq 0 (length set)) set).
  set (vbs := map f xs). set (k := length (p_v ps)).
  assert (length xs = length set) as Lx by apply length_indexed. assert (length vbs = length set) as Lv by (unfold vbs; now rewrite map_length).
  assert (sim com (pcs vbs (pcs [(value, b)] ps)) (vcs (map (commitment com) vbs) (vcs [com value b] vs))) as S1 by now apply sim_pcs, (sim_pcs com [(value, b)]).
  destruct (good_pc value b ps G) as (G0 & H0 & _). destruct (good_pcs vbs _ G0) as (G1 & F1 & F). fold k in H0. apply F1 in H0. rewrite pcs_len, Lv in F. cbn [length] in F. fold k in F.
  assert (map fst vbs = map (fun e => fsub e value) set) as Ev by (unfold vbs; rewrite map_map; cbn [f fst]; apply (map_indexed (fun e => fsub e value))). rewrite Ev in F.
  destruct (run_both com _ _ _ _ _ S1 (sim_set_membership com (Committed k) (slots (k + 1) (length set)) set) (compl_set_membership HK _ _ _ _ _ G1 H0 F Hin)) as ([] & ps' & vs' & E1 & E2 & G2 & S2 & X & _).
  exists (com value b :: map (commitment com) vbs), b, ps', vs'. split; [|split; [|split; [exact G2|split; [exact S2|split; [reflexivity|split; [exact Hb|apply (hasv_ext _ _ _ _ X H0)]]]]]].
  - unfold prove_set_membership. unfold cbind at 1. unfold lift. rewrite Eb. cbn [rbind]. unfold cbind at 1. rewrite pc_eq. cbn [rbind]. unfold cbind at 1.
    fold xs. match goal with |- context [cfold ?F xs ?a ?s] => replace (cfold F xs a s) with (Ok (([com value b] ++ map (commitment com) vbs, [] ++ slots (length (p_v (pcs [(value, b)] ps))) (length xs)), pcs vbs (pcs [(value, b)] ps))) by (symmetry; apply (fold_commits f)) end.
    cbn [rbind app]. rewrite Lx, pcs_len. cbn [length]. fold k. unfold cbind at 1. rewrite E1. reflexivity.
  - unfold verify_set_membership. unfold cbind at 1. rewrite pop_commit_eq. cbn [rbind]. unfold cbind at 1. rewrite pop_commits_eq by (rewrite map_length, Lv; lia). cbn [rbind].
    rewrite vcs_len, (sim_length com _ _ HS). cbn [length]. fold k. rewrite firstn_all2 by (rewrite map_length, Lv; lia). exact E2.
Qed.

(** popping pairs of commitments *)
Lemma pop_pairs_eq n : forall l s dv iv, (2 * n <= length l)%nat ->
  cfold (fun (_ : unit) (acc : list var * list var * list Pt) =>
      let '(dv, iv, l) := acc in
      cbind (pop_commit l) (fun '(d, l1) => cbind (pop_commit l1) (fun '(i, l2) => cret (dv ++ [d], iv ++ [i], l2)))) (repeat tt n) (dv, iv, l) s
  = Ok ((dv ++ map (fun j => Committed (length (v_V s) + 2 * j)) (seq 0 n), iv ++ map (fun j => Committed (length (v_V s) + 2 * j + 1)) (seq 0 n), skipn (2 * n) l), vcs (firstn (2 * n) l) s : VS).
Proof.
  induction n as [|n IH]; intros l s dv iv H.
  - change (2 * 0)%nat with 0%nat. cbn [repeat cfold seq map firstn skipn]. unfold cret. now rewrite !app_nil_r, vcs_nil.
  - destruct l as [|c1 [|c2 l]]; try (cbn in H; lia). replace (2 * S n)%nat with (S (S (2 * n))) in * by lia. cbn [length] in H. cbn [repeat cfold].
    unfold cbind at 1. unfold cbind at 1. rewrite pop_commit_eq. cbn [rbind]. unfold cbind at 1. rewrite pop_commit_eq. cbn [rbind]. unfold cret at 1. cbn [rbind].
    rewrite IH by lia. rewrite !vcs_len. cbn [length skipn firstn seq map]. rewrite <- !app_assoc. cbn [app].
    rewrite <- seq_shift, !map_map. rewrite <- !vcs_app. cbn [app].
    rewrite Nat.mul_0_r, Nat.add_0_r.
    rewrite (map_ext (fun j => Committed (length (v_V s) + 1 + 1 + 2 * j)) (fun j => Committed (length (v_V s) + 2 * S j))) by (intros j; f_equal; lia).
    rewrite (map_ext (fun j => Committed (length (v_V s) + 1 + 1 + 2 * j + 1)) (fun j => Committed (length (v_V s) + 2 * S j + 1))) by (intros j; f_equal; lia). reflexivity.
Qed.
Lemma pop_pairs_short n : forall l s dv iv, (length l < 2 * n)%nat ->
  cfold (fun (_ : unit) (acc : list var * list var * list Pt) =>
      let '(dv, iv, l) := acc in
      cbind (pop_commit l) (fun '(d, l1) => cbind (pop_commit l1) (fun '(i, l2) => cret (dv ++ [d], iv ++ [i], l2)))) (repeat tt n) (dv, iv, l) (s : VS)
  = Err Panic.
Proof.
  induction n as [|n IH]; intros l s dv iv H; [lia|]. destruct l as [|c1 [|c2 l]]; cbn [repeat cfold]; [reflexivity|reflexivity|].
  unfold cbind at 1. unfold cbind at 1. rewrite pop_commit_eq. cbn [rbind]. unfold cbind at 1. rewrite pop_commit_eq. cbn [rbind]. unfold cret at 1. cbn [rbind].
  apply IH. cbn [length] in H. lia.
Qed.
Theorem C82_non_membership_sound (set : list K) comms (s s' : VS) w : verify_set_non_membership set comms s = Ok (tt, s') -> vsat w s' ->
  vsat w s /\ v_V s' = v_V s ++ firstn (1 + 2 * length set) comms /\ ~ In (w (Committed (length (v_V s)))) set.
Proof.
  intros E S. destruct comms as [|c comms]; [cbn in E; discriminate|]. unfold verify_set_non_membership in E. unfold cbind at 1 in E. rewrite pop_commit_eq in E. cbn [rbind] in E.
  unfold cbind at 1 in E. destruct (le_lt_dec (2 * length set) (length comms)) as [L|L]; [|rewrite pop_pairs_short in E by exact L; discriminate].
  rewrite pop_pairs_eq in E by exact L. cbn [rbind] in E.
  destruct (sound_set_non_membership HK w _ _ _ _ _ _ _ E) as [EV F]. destruct (F S) as [S0 B]. split; [exact S0|]. split; [|exact B]. rewrite EV. cbn [vcs v_V firstn Nat.add]. now rewrite <- app_assoc.
Qed.
Lemma fold_commits2 {X} (f g : X -> K * K) xs : forall ac av iv s,
  cfold (fun (x : X) (acc : list Pt * list var * list var) => let '(cm, dv, iv) := acc in
     cbind (pc com (fst (f x)) (snd (f x))) (fun '(c1, v1) => cbind (pc com (fst (g x)) (snd (g x))) (fun '(c2, v2) => cret (cm ++ [c1; c2], dv ++ [v1], iv ++ [v2])))) xs (ac, av, iv) s
  = Ok ((ac ++ map (commitment com) (flat_map (fun x => [f x; g x]) xs), av ++ map (fun j => Committed (length (p_v s) + 2 * j)) (seq 0 (length xs)), iv ++ map (fun j => Committed (length (p_v s) + 2 * j + 1)) (seq 0 (length xs))), pcs (flat_map (fun x => [f x; g x]) xs) s).
Proof.
  induction xs as [|x xs IH]; intros ac av iv s.
  - cbn [cfold flat_map map length seq]. now rewrite !app_nil_r, pcs_nil.
  - cbn [cfold]. unfold cbind at 1. unfold cbind at 1. rewrite pc_eq. cbn [rbind]. unfold cbind at 1. rewrite pc_eq. cbn [rbind]. unfold cret at 1. cbn [rbind].
    rewrite IH, !pcs_len. cbn [flat_map length seq map]. rewrite <- seq_shift, !map_map, <- !pcs_app, <- !app_assoc. cbn [app].
    replace (fst (f x), snd (f x)) with (f x) by now destruct (f x). replace (fst (g x), snd (g x)) with (g x) by now destruct (g x).
    rewrite Nat.mul_0_r, Nat.add_0_r.
    rewrite (map_ext (fun j => Committed (length (p_v s) + 1 + 1 + 2 * j)) (fun j => Committed (length (p_v s) + 2 * S j))) by (intros j; f_equal; lia).
    rewrite (map_ext (fun j => Committed (length (p_v s) + 1 + 1 + 2 * j + 1)) (fun j => Committed (length (p_v s) + 2 * S j + 1))) by (intros j; f_equal; lia). reflexivity.
Qed.
Lemma slots_even_odd (s : PS) base (f g : nat * K -> K * K) : forall xs k0, (forall x, fst (f x) = fst (f x)) ->
  Forall2 (hasv s) (slots (base + 2 * k0) (length (flat_map (fun x => [f x; g x]) xs))) (map fst (flat_map (fun x => [f x; g x]) xs)) ->
  Forall2 (hasv s) (map (fun j => Committed (base + 2 * j)) (seq k0 (length xs))) (map (fun x => fst (f x)) xs) /\
  Forall2 (hasv s) (map (fun j => Committed (base + 2 * j + 1)) (seq k0 (length xs))) (map (fun x => fst (g x)) xs).
Proof.
  induction xs as [|x xs IH]; intros k0 _ F; [split; constructor|]. cbn [flat_map app length map] in F. unfold slots in F. cbn [seq map] in F.
  inversion F as [|? ? ? ? H1 F1]; subst. inversion F1 as [|? ? ? ? H2 F2]; subst.
  destruct (IH (S k0) (fun _ => eq_refl)) as [A B]. { unfold slots. replace (base + 2 * S k0)%nat with (S (S (base + 2 * k0))) by lia. exact F2. }
  cbn [length seq map]. split; constructor; try assumption. now replace (base + 2 * k0 + 1)%nat with (S (base + 2 * k0)) by lia.
Qed.
Theorem C82_non_membership_complete (value : K) bl set rng rnd (ps : PS) (vs : VS) : ~ In value set -> (bl <> None \/ rng <> None) -> pgood ps -> sim com ps vs ->
  exists comms b ps' vs', prove_set_non_membership com value bl set rng rnd ps = Ok (comms, ps') /\ verify_set_non_membership set comms vs = Ok (tt, vs') /\ pgood ps' /\ sim com ps' vs' /\
    nth_error comms 0 = Some (com value b) /\ (forall x, bl = Some x -> b = x) /\ pw ps' (Committed (length (p_v ps))) = value.
Proof.
  intros Hin Hr G HS.
  assert (exists b, blinding_or bl rng = Ok b /\ forall x, bl = Some x -> b = x) as (b & Eb & Hb).
  { unfold blinding_or. destruct bl as [x|]; [exists x; split; [reflexivity|congruence]|]. destruct rng as [r|]; [exists (r 0%nat); split; [reflexivity|discriminate]|]. destruct Hr; congruence. }
  set (f := fun is : nat * K => (fsub (snd is) value, rnd (2 * fst is)%nat)). set (g := fun is : nat * K => (finv (fsub (snd is) value), rnd (2 * fst is + 1)%nat)). set (xs := combine (seq 0 (length set)) set).
  set (vbs := flat_map (fun x => [f x; g x]) xs). set (k := length (p_v ps)).
  assert (length xs = length set) as Lx by apply length_indexed. assert (length vbs = 2 * length set)%nat as Lv. { unfold vbs. rewrite <- Lx. clear. induction xs as [|x xs IH]; [reflexivity|]. cbn [flat_map app length]. rewrite IH. lia. }
  assert (sim com (pcs vbs (pcs [(value, b)] ps)) (vcs (map (commitment com) vbs) (vcs [com value b] vs))) as S1 by now apply sim_pcs, (sim_pcs com [(value, b)]).
  destruct (good_pc value b ps G) as (G0 & H0 & _). destruct (good_pcs vbs _ G0) as (G1 & F1 & F). fold k in H0. apply F1 in H0. rewrite pcs_len in F. cbn [length] in F. fold k in F.
  replace (k + 1)%nat with (k + 1 + 2 * 0)%nat in F by lia. unfold vbs at 2 3 in F. destruct (slots_even_odd _ _ f g xs 0 (fun _ => eq_refl) F) as [Fd Fi].
  assert (map (fun x => fst (f x)) xs = map (fun e => fsub e value) set) as Ed by (apply (map_indexed (fun e => fsub e value))). assert (map (fun x => fst (g x)) xs = map (fun e => finv (fsub e value)) set) as Ei by (apply (map_indexed (fun e => finv (fsub e value)))). rewrite Ed, Lx in Fd. rewrite Ei, Lx in Fi.
  destruct (run_both com _ _ _ _ _ S1 (sim_set_non_membership com (Committed k) _ _ set) (compl_set_non_membership HK _ _ _ _ _ _ G1 H0 Fd Fi Hin)) as ([] & ps' & vs' & E1 & E2 & G2 & S2 & X & _).
  exists (com value b :: map (commitment com) vbs), b, ps', vs'. split; [|split; [|split; [exact G2|split; [exact S2|split; [reflexivity|split; [exact Hb|apply (hasv_ext _ _ _ _ X H0)]]]]]].
  - unfold prove_set_non_membership. unfold cbind at 1. unfold lift. rewrite Eb. cbn [rbind]. unfold cbind at 1. rewrite pc_eq. cbn [rbind]. unfold cbind at 1.
    fold xs. match goal with |- context [cfold ?F xs ?a ?s] => replace (cfold F xs a s) with (Ok (([com value b] ++ map (commitment com) vbs, [] ++ map (fun j => Committed (length (p_v (pcs [(value, b)] ps)) + 2 * j)) (seq 0 (length xs)), [] ++ map (fun j => Committed (length (p_v (pcs [(value, b)] ps)) + 2 * j + 1)) (seq 0 (length xs))), pcs vbs (pcs [(value, b)] ps))) by (symmetry; apply (fold_commits2 f g)) end.
    cbn [rbind app]. rewrite Lx, pcs_len. cbn [length]. fold k. unfold cbind at 1. rewrite E1. reflexivity.
  - unfold verify_set_non_membership. unfold cbind at 1. rewrite pop_commit_eq. cbn [rbind]. unfold cbind at 1. rewrite pop_pairs_eq by (rewrite map_length, Lv; lia). cbn [rbind].
    rewrite vcs_len, (sim_length com _ _ HS). cbn [length app]. fold k. rewrite firstn_all2 by (rewrite map_length, Lv; lia). exact E2.
Qed.

(** ** C84: MiMC preimages *)
Theorem C84_mimc_sound (image : K) constants comms (s s' : VS) w : verify_mimc_preimage image constants comms s = Ok (tt, s') -> vsat w s' ->
  vsat w s /\ v_V s' = v_V s ++ firstn 2 comms /\ mimc (w (Committed (length (v_V s)))) (w (Committed (length (v_V s) + 1))) constants = image.
Proof.
  intros E S. destruct comms as [|c1 [|c2 rest]]; try (cbn in E; discriminate).
  change (mimc_gadget V (lc_var (Committed (length (v_V s)))) (lc_var (Committed (length (v_V (vcs [c1] s))))) constants image (vcs [c2] (vcs [c1] s)) = Ok (tt, s')) in E. rewrite vcs_len in E. cbn [length] in E.
  destruct (sound_mimc HK w _ _ _ _ _ _ _ E) as [EV F]. destruct (F S) as [S0 B]. rewrite !(lv_var HK) in B. split; [exact S0|]. split; [|exact B].
  rewrite EV. cbn [vcs v_V firstn]. now rewrite <- !app_assoc.
Qed.
Theorem C84_mimc_complete (l r bl br : K) constants rng (ps : PS) (vs : VS) : pgood ps -> sim com ps vs ->
  exists ps' vs', prove_mimc_preimage com [l; r] (Some [bl; br]) (mimc l r constants) constants rng ps = Ok ([com l bl; com r br], ps') /\
    verify_mimc_preimage (mimc l r constants) constants [com l bl; com r br] vs = Ok (tt, vs') /\ pgood ps' /\ sim com ps' vs'.
Proof.
  intros G HS. set (vbs := [(l, bl); (r, br)]).
  assert (sim com (pcs vbs ps) (vcs (map (commitment com) vbs) vs)) as S1 by now apply sim_pcs.
  destruct (good_pcs vbs ps G) as (G1 & _ & F). unfold vbs in F. cbn [length map fst] in F. unfold slots in F. cbn [seq map] in F.
  inversion F as [|? ? ? ? H1 F1]; subst. inversion F1 as [|? ? ? ? H2 _]; subst. clear F F1. fold vbs in H1, H2.
  destruct (run_both com _ _ _ _ _ S1 (sim_mimc com _ _ constants (mimc l r constants)) (compl_mimc HK _ _ _ constants l r _ G1 (has_var HK _ _ _ H1) (has_var HK _ _ _ H2) eq_refl)) as ([] & ps' & vs' & E1 & E2 & G2 & S2 & X & _).
  exists ps', vs'. split; [|split; [|split; [exact G2|exact S2]]].
  - unfold prove_mimc_preimage. unfold cbind at 1. unfold lift, blindings_or. cbn [rbind]. unfold cbind at 1. unfold check_lengths. cbn [length Nat.eqb negb orb rbind]. unfold cbind at 1. cbn [rbind].
    unfold cbind at 1. rewrite pc_eq. cbn [rbind]. unfold cbind at 1. rewrite pc_eq. cbn [rbind]. rewrite <- !pcs_app, !pcs_len. cbn [app length]. rewrite Nat.add_1_r. unfold cbind at 1. fold vbs. rewrite E1. reflexivity.
  - unfold verify_mimc_preimage. unfold cbind at 1. rewrite pop_commit_eq. cbn [rbind]. unfold cbind at 1. rewrite pop_commit_eq. cbn [rbind].
    rewrite <- vcs_app, vcs_len, (sim_length com _ _ HS). cbn [length app]. rewrite Nat.add_1_r. exact E2.
Qed.
(** the gadget computes the function the native implementation computes: a wrong image cannot
    be satisfied on the prover's own values *)
Theorem C84_native_agrees (l r : K) constants image (s s' : VS) c1 c2 w : verify_mimc_preimage image constants [c1; c2] s = Ok (tt, s') -> vsat w s' ->
  w (Committed (length (v_V s))) = l -> w (Committed (length (v_V s) + 1)) = r -> image = mimc l r constants.
Proof. intros E S <- <-. symmetry. now apply (C84_mimc_sound image constants [c1; c2] s s' w E S). Qed.
End Props.

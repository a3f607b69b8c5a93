(** Complete proofs with the gadgets: honest proofs are accepted (C132), and accepted proofs
    come from a known opening of the commitment with the claimed property (C133). *)
From Coq Require Import String.
From Verif Require Import Base Alg Lin TranscriptModel IppModel IppLib IppSpec IppForkSpec R1csModel R1csSpec R1csLib GadgetModel GadgetApiModel GadgetLib GadgetSim GadgetApiLib GadgetApiProps R1csProofModel R1csProofLib R1csProofSpec R1csCheckProps R1csSoundSpec R1csSoundProps R1csKnowSpec R1csKnowProps GadgetKnowLib.
Import List ListNotations.
Open Scope list_scope.
Open Scope Z_scope.

Section Props.
Context {K : fieldOps} (HK : field_laws K) (ZK : zops K) (q : Z) (LZ : zlaws ZK q) {M : modOps K} (HM : mod_laws M).
Notation com g h := (commit_elem (K := K) (M := M) g h).

Lemma v_nonmember (set : list K) (c : M) comms : (2 * length set <= length comms)%nat ->
  verify_set_non_membership set (c :: comms) v_new = Ok (tt, mkVs (nonmember_cons set 0) (2 * length set) (c :: firstn (2 * length set) comms) None).
Proof.
  intros L. unfold verify_set_non_membership. unfold cbind at 1. rewrite pop_commit_eq. cbn [rbind]. unfold cbind at 1. rewrite pop_pairs_eq by exact L. cbn [rbind].
  change (v_V (vcs [c] v_new)) with [c]. cbn [length app]. change (Committed (length (v_V (@v_new K M)))) with (Committed 0). unfold set_non_membership_gadget.
  rewrite (map_ext (fun j => Committed (1 + 2 * j)) (fun i => Committed (2 * i + 1))) by (intros; f_equal; lia). rewrite (map_ext (fun j => Committed (1 + 2 * j + 1)) (fun i => Committed (2 * i + 2))) by (intros; f_equal; lia).
  rewrite (fold_nonmember (length set) set 0); [reflexivity|reflexivity|lia].
Qed.
Lemma short_nonmember (set : list K) (c : M) comms : (length comms < 2 * length set)%nat -> verify_set_non_membership set (c :: comms) v_new = Err Panic.
Proof. intros L. unfold verify_set_non_membership. unfold cbind at 1. rewrite pop_commit_eq. cbn [rbind]. unfold cbind at 1. now rewrite pop_pairs_short by exact L. Qed.

(** ** honest proofs *)
Section Honest.
Context (T : tcode M) (HT : challenges_nonzero T) (lg : nat -> nat) (g h : M) (label : transcript) (G H : list M) (d : draws K) (r : K).
(** a number between the bounds, both distances shorter than the width *)
Theorem C132_bounded_num : forall val bl rng rnd lower upper n, 2 ^ 64 <= q -> u64 lower -> u64 upper -> lower <= val <= upper ->
  val - lower < 2 ^ Z.of_nat n -> upper - val < 2 ^ Z.of_nat n -> (bl <> None \/ rng <> None) -> enough lg (n + n) G H ->
  exists p comms b, gen_proof T (prove_bounded_num ZK (com g h) val bl lower upper n rng rnd) label g h G H d = Ok (p, comms) /\
    verify_proof T lg (verify_bounded_num ZK lower upper n comms) p label g h G H r = Ok tt /\
    nth_error comms 0 = Some (com g h (zof ZK val) b) /\ (forall x, bl = Some x -> b = x).
Proof.
  intros val bl rng rnd lower upper n Hq Hl Hu Hv B1 B2 Hr En.
  destruct (C80_bounded_num_complete HK ZK q LZ (com g h) val bl rng rnd lower upper n p_new v_new Hq Hl Hu Hv B1 B2 Hr new_good (sim_new _)) as (comms & b & ps & vs & E1 & E2 & Gd & Sm & E3 & E4 & _).
  assert (v_num vs = n + n)%nat as En'.
  { destruct comms as [|c1 [|c2 [|c3 rest]]]; try (cbn in E2; discriminate). rewrite v_bounded in E2. assert (vs = mkVs (bound_cons ZK lower upper n) (n + n) [c1; c2; c3] None) as -> by congruence. reflexivity. }
  destruct (C132_honest_proof HK HM T lg g h _ _ label G H d r comms ps vs HT E1 E2 Gd Sm) as (p & F1 & F2); [rewrite En'; exact En|].
  exists p, comms, b. auto.
Qed.
Theorem C132_non_zero : forall value bl rng rnd, value <> f0 -> (bl <> None \/ rng <> None) -> enough lg 2 G H ->
  exists p comms, gen_proof T (prove_non_zero_val (com g h) value bl rng rnd) label g h G H d = Ok (p, comms) /\ verify_proof T lg (verify_non_zero_val comms) p label g h G H r = Ok tt.
Proof.
  intros value bl rng rnd Nz Hr En.
  destruct (C81_non_zero_complete HK (com g h) value bl rng rnd p_new v_new Nz Hr new_good (sim_new _)) as (comms & ps & vs & E1 & E2 & Gd & Sm & _).
  assert (v_num vs = 2)%nat as En'.
  { destruct comms as [|c1 [|c2 rest]]; try (cbn in E2; discriminate). rewrite v_nonzero_val in E2. assert (vs = mkVs (nonzero_cons (Committed 0) (Committed 1) 0) 2 [c1; c2] None) as -> by congruence. reflexivity. }
  destruct (C132_honest_proof HK HM T lg g h _ _ label G H d r comms ps vs HT E1 E2 Gd Sm) as (p & F1 & F2); [rewrite En'; exact En|].
  exists p, comms. auto.
Qed.
Theorem C132_set_membership : forall value bl set rng rnd, In value set -> (bl <> None \/ rng <> None) -> enough lg (length set) G H ->
  exists p comms b, gen_proof T (prove_set_membership (com g h) value bl set rng rnd) label g h G H d = Ok (p, comms) /\
    verify_proof T lg (verify_set_membership set comms) p label g h G H r = Ok tt /\ nth_error comms 0 = Some (com g h value b) /\ (forall x, bl = Some x -> b = x).
Proof.
  intros value bl set rng rnd Hin Hr En.
  destruct (C82_membership_complete HK (com g h) value bl set rng rnd p_new v_new Hin Hr new_good (sim_new _)) as (comms & b & ps & vs & E1 & E2 & Gd & Sm & E3 & E4 & _).
  assert (v_num vs = length set)%nat as En'.
  { destruct comms as [|c comms]; [cbn in E2; discriminate|]. destruct (Nat.le_gt_cases (length set) (length comms)) as [L|L].
    - rewrite v_member in E2 by exact L. assert (vs = mkVs (member_cons set 0 (lc_var VOne)) (length set) (c :: firstn (length set) comms) None) as -> by congruence. reflexivity.
    - exfalso. unfold verify_set_membership in E2. unfold cbind at 1 in E2. rewrite pop_commit_eq in E2. cbn [rbind] in E2. unfold cbind at 1 in E2. rewrite pop_commits_short in E2 by exact L. discriminate. }
  destruct (C132_honest_proof HK HM T lg g h _ _ label G H d r comms ps vs HT E1 E2 Gd Sm) as (p & F1 & F2); [rewrite En'; exact En|].
  exists p, comms, b. auto.
Qed.
Theorem C132_set_non_membership : forall value bl set rng rnd, ~ In value set -> (bl <> None \/ rng <> None) -> enough lg (2 * length set) G H ->
  exists p comms b, gen_proof T (prove_set_non_membership (com g h) value bl set rng rnd) label g h G H d = Ok (p, comms) /\
    verify_proof T lg (verify_set_non_membership set comms) p label g h G H r = Ok tt /\ nth_error comms 0 = Some (com g h value b) /\ (forall x, bl = Some x -> b = x).
Proof.
  intros value bl set rng rnd Hin Hr En.
  destruct (C82_non_membership_complete HK (com g h) value bl set rng rnd p_new v_new Hin Hr new_good (sim_new _)) as (comms & b & ps & vs & E1 & E2 & Gd & Sm & E3 & E4 & _).
  assert (v_num vs = 2 * length set)%nat as En'.
  { destruct comms as [|c comms]; [cbn in E2; discriminate|]. destruct (Nat.le_gt_cases (2 * length set) (length comms)) as [L|L]; [|rewrite short_nonmember in E2 by exact L; discriminate].
    rewrite v_nonmember in E2 by exact L. assert (vs = mkVs (nonmember_cons set 0) (2 * length set) (c :: firstn (2 * length set) comms) None) as -> by congruence. reflexivity. }
  destruct (C132_honest_proof HK HM T lg g h _ _ label G H d r comms ps vs HT E1 E2 Gd Sm) as (p & F1 & F2); [rewrite En'; exact En|].
  exists p, comms, b. auto.
Qed.
End Honest.

(** ** accepted proofs *)
Section Accepted.
Context (lg : nat -> nat) (tr : transcript) (g h : M) (G H : list M) (AI1 AO1 S1' AI2 AO2 S2' : M) (t : list (fy M)).
Notation accepted vs := (r1cs_accepted lg (fun _ => []) vs (v_clear vs) tr g h G H AI1 AO1 S1' AI2 AO2 S2' t).
Notation s := (map s_y t).
Lemma scoped_of (vs : vstate K M) : scoped_list (v_num vs) (length (v_V vs)) (v_cons vs) -> v_scoped vs.
Proof. intros F l v c Il Iv. unfold scoped_list in F. rewrite Forall_forall in F. exact (F l Il v c Iv). Qed.
(** a tree of accepted range proofs: an opening of the first commitment, computed from the
    scalars of the tree, is between the bounds; or a relation between the generators *)
Theorem C133_bounded_num : forall lower upper n comms vs, 2 ^ 64 < q -> 2 ^ Z.of_nat (S n) <= q -> u64 lower -> u64 upper -> enough lg (n + n) G H ->
  verify_bounded_num ZK lower upper n comms v_new = Ok (tt, vs) -> accepted vs ->
  (exists c, nth_error comms 0 = Some c /\ let (v, b) := opening vs (bound_order n) s 0 in c = com g h v b /\ lower <= zto ZK v <= upper)
  \/ relation_known vs g h G H (bound_order n) s.
Proof.
  intros lower upper n comms vs Q1 Q2 Hl Hu En E A. destruct comms as [|c1 [|c2 [|c3 rest]]]; try (cbn in E; discriminate).
  pose proof E as E0. rewrite v_bounded in E0. assert (vs = mkVs (bound_cons ZK lower upper n) (n + n) [c1; c2; c3] None) as Evs by congruence. clear E0.
  destruct (C133_knowledge HK HM lg vs tr g h G H AI1 AO1 S1' AI2 AO2 S2' (bound_order n)) with (t := t) as [[O S]|R]; [| | | |exact A| |right; exact R].
  - rewrite Evs. exact En.
  - apply scoped_of. rewrite Evs. apply bound_scoped.
  - rewrite Evs. apply (bound_triangular HK).
  - rewrite Evs. cbn [v_V length bound_order map fst In]. intros i Hi. destruct i as [|[|[|i]]]; [tauto..|lia].
  - left. exists c1. split; [reflexivity|]. pose proof (O 0%nat) as O0. destruct (C80_bounded_num_sound HK ZK q LZ lower upper n _ v_new vs _ Q1 Q2 Hl Hu E S) as (_ & _ & B).
    assert (0 < length (v_V vs))%nat as Pm by (rewrite Evs; cbn [v_V length]; lia).
    cbn [v_new v_V length ex_assignment] in B. rewrite nth_map_seq in B by exact Pm. specialize (O0 Pm). rewrite Evs in O0 at 1. cbn [v_V nth] in O0.
    destruct (opening vs (bound_order n) s 0) as [v b]. cbn [fst snd] in *. split; [exact O0|exact B].
Qed.
Theorem C133_non_zero : forall comms vs, enough lg 2 G H -> verify_non_zero_val comms v_new = Ok (tt, vs) -> accepted vs ->
  (exists c, nth_error comms 0 = Some c /\ let (v, b) := opening vs nonzero_order s 0 in c = com g h v b /\ v <> f0) \/ relation_known vs g h G H nonzero_order s.
Proof.
  intros comms vs En E A. destruct comms as [|c1 [|c2 rest]]; try (cbn in E; discriminate).
  pose proof E as E0. rewrite v_nonzero_val in E0. assert (vs = mkVs (nonzero_cons (Committed 0) (Committed 1) 0) 2 [c1; c2] None) as Evs by congruence. clear E0.
  destruct (C133_knowledge HK HM lg vs tr g h G H AI1 AO1 S1' AI2 AO2 S2' nonzero_order) with (t := t) as [[O S]|R]; [| | | |exact A| |right; exact R].
  - rewrite Evs. exact En.
  - apply scoped_of. rewrite Evs. apply (nonzero_scoped 2 (Committed 0) (Committed 1) 0); cbn [in_range]; lia.
  - rewrite Evs. apply (nonzero_triangular HK).
  - rewrite Evs. cbn [v_V length nonzero_order map fst In]. intros i Hi. destruct i as [|[|i]]; [tauto..|lia].
  - left. exists c1. split; [reflexivity|]. pose proof (O 0%nat) as O0. destruct (C81_non_zero_sound HK _ v_new vs _ E S) as (_ & _ & B).
    assert (0 < length (v_V vs))%nat as Pm by (rewrite Evs; cbn [v_V length]; lia).
    cbn [v_new v_V length ex_assignment] in B. rewrite nth_map_seq in B by exact Pm. specialize (O0 Pm). rewrite Evs in O0 at 1. cbn [v_V nth] in O0.
    destruct (opening vs nonzero_order s 0) as [v b]. cbn [fst snd] in *. split; [exact O0|exact B].
Qed.
Theorem C133_set_membership : forall set comms vs, set <> [] -> enough lg (length set) G H -> verify_set_membership set comms v_new = Ok (tt, vs) -> accepted vs ->
  (exists c, nth_error comms 0 = Some c /\ let (v, b) := opening vs (member_order (length set)) s 0 in c = com g h v b /\ In v set) \/ relation_known vs g h G H (member_order (length set)) s.
Proof.
  intros set comms vs Ne En E A. destruct comms as [|c1 comms]; [cbn in E; discriminate|].
  destruct (Nat.le_gt_cases (length set) (length comms)) as [L|L].
  2:{ exfalso. unfold verify_set_membership in E. unfold cbind at 1 in E. rewrite pop_commit_eq in E. cbn [rbind] in E. unfold cbind at 1 in E. rewrite pop_commits_short in E by exact L. discriminate. }
  pose proof E as E0. rewrite v_member in E0 by exact L. assert (vs = mkVs (member_cons set 0 (lc_var VOne)) (length set) (c1 :: firstn (length set) comms) None) as Evs by congruence. clear E0.
  assert (length (c1 :: firstn (length set) comms) = S (length set)) as Lm by (cbn [length]; rewrite firstn_length; lia).
  destruct (C133_knowledge HK HM lg vs tr g h G H AI1 AO1 S1' AI2 AO2 S2' (member_order (length set))) with (t := t) as [[O S]|R]; [| | | |exact A| |right; exact R].
  - rewrite Evs. exact En.
  - apply scoped_of. rewrite Evs. cbn [v_num v_V v_cons]. rewrite Lm. apply (member_scoped (Datatypes.S (length set)) set 0); [lia|]. intros v c [E'|[]]. injection E' as <- _. exact I.
  - rewrite Evs. apply (member_triangular HK). exact Ne.
  - rewrite Evs. cbn [v_V]. rewrite Lm. intros i Hi. unfold member_order. rewrite map_app. apply in_app_iff. destruct i as [|i]; [right; now left|]. left. rewrite map_map. apply in_map_iff. exists i. split; [reflexivity|apply in_seq; lia].
  - left. exists c1. split; [reflexivity|]. pose proof (O 0%nat) as O0. destruct (C82_membership_sound HK set _ v_new vs _ E S) as (_ & _ & B).
    assert (0 < length (v_V vs))%nat as Pm by (rewrite Evs; cbn [v_V length]; lia).
    cbn [v_new v_V length ex_assignment] in B. rewrite nth_map_seq in B by exact Pm. specialize (O0 Pm). rewrite Evs in O0 at 1. cbn [v_V nth] in O0.
    destruct (opening vs (member_order (length set)) s 0) as [v b]. cbn [fst snd] in *. split; [exact O0|exact B].
Qed.
Theorem C133_set_non_membership : forall set comms vs, set <> [] -> enough lg (2 * length set) G H -> verify_set_non_membership set comms v_new = Ok (tt, vs) -> accepted vs ->
  (exists c, nth_error comms 0 = Some c /\ let (v, b) := opening vs (nonmember_order (length set)) s 0 in c = com g h v b /\ ~ In v set) \/ relation_known vs g h G H (nonmember_order (length set)) s.
Proof.
  intros set comms vs Ne En E A. destruct comms as [|c1 comms]; [cbn in E; discriminate|].
  destruct (Nat.le_gt_cases (2 * length set) (length comms)) as [L|L]; [|rewrite short_nonmember in E by exact L; discriminate].
  pose proof E as E0. rewrite v_nonmember in E0 by exact L. assert (vs = mkVs (nonmember_cons set 0) (2 * length set) (c1 :: firstn (2 * length set) comms) None) as Evs by congruence. clear E0.
  assert (length (c1 :: firstn (2 * length set) comms) = S (2 * length set)) as Lm by (cbn [length]; rewrite firstn_length; lia).
  destruct (C133_knowledge HK HM lg vs tr g h G H AI1 AO1 S1' AI2 AO2 S2' (nonmember_order (length set))) with (t := t) as [[O S]|R]; [| | | |exact A| |right; exact R].
  - rewrite Evs. exact En.
  - apply scoped_of. rewrite Evs. cbn [v_num v_V v_cons]. rewrite Lm. apply (nonmember_scoped (Datatypes.S (2 * length set)) set 0). lia.
  - rewrite Evs. apply (nonmember_triangular HK). exact Ne.
  - rewrite Evs. cbn [v_V]. rewrite Lm. intros i Hi. unfold nonmember_order. rewrite map_app. apply in_app_iff. destruct i as [|i]; [right; now left|]. left. apply in_map_iff.
    destruct (Nat.Even_or_Odd i) as [[j E']|[j E']].
    + exists (2 * j + 1, 7 * j + 1)%nat. split; [cbn [fst]; lia|]. apply in_flat_map. exists j. split; [apply in_seq; lia|now left].
    + exists (2 * j + 2, 7 * j + 5)%nat. split; [cbn [fst]; lia|]. apply in_flat_map. exists j. split; [apply in_seq; lia|right; now left].
  - left. exists c1. split; [reflexivity|]. pose proof (O 0%nat) as O0. destruct (C82_non_membership_sound HK set _ v_new vs _ E S) as (_ & _ & B).
    assert (0 < length (v_V vs))%nat as Pm by (rewrite Evs; cbn [v_V length]; lia).
    cbn [v_new v_V length ex_assignment] in B. rewrite nth_map_seq in B by exact Pm. specialize (O0 Pm). rewrite Evs in O0 at 1. cbn [v_V nth] in O0.
    destruct (opening vs (nonmember_order (length set)) s 0) as [v b]. cbn [fst snd] in *. split; [exact O0|exact B].
Qed.
End Accepted.
End Props.

(** Proofs that a committed value is a leaf of a Merkle tree: what acceptance implies, that honest
    proofs of the sparse Merkle tree are accepted, and what the verifier does not check. *)
From Verif Require Import Base Alg R1csModel R1csSpec R1csLib GadgetModel GadgetApiModel GadgetLib GadgetSim GadgetApiLib PoseidonLib PoseidonProps MerkleSpec MerkleLib SmtModel SmtLib SmtProps.
Open Scope list_scope.
Open Scope Z_scope.
Open Scope cs_scope.

Section Props.
Context {K : fieldOps} (HK : field_laws K) (ZK : zops K) (q : Z) (LZ : zlaws ZK q).
Add Field Kf : (proj1 HK).
Context {Pt : Type} (com : K -> K -> Pt).
Notation PS := (pstate K).
Notation VS := (vstate K Pt).

(** the number of commitments before the nodes: the index and, if hidden, the leaf *)
Definition lead (leaf : option K) : nat := match leaf with Some _ => 1 | None => 2 end.
Definition leaf_at (k : nat) (leaf : option K) : leaf_value (K := K) := match leaf with Some v => Known v | None => Hidden (Committed (k + 1)) end.
Lemma verify_eq gadget ar cap p t (root : K) leaf comms (s : VS) : (lead leaf <= length comms)%nat ->
  verify_leaf_inclusion ZK com gadget ar cap p t root leaf comms s
  = gadget (fun ins => poseidon_hash_constraints V ar ins (lc_var (Committed (length (v_V s) + length comms))) p t) root (leaf_at (length (v_V s)) leaf) (mkAq (Committed (length (v_V s))) None)
      (slots (length (v_V s) + lead leaf) (length comms - lead leaf)) (vcs (comms ++ [com (zof ZK cap) f0]) s).
Proof.
  intros L. unfold verify_leaf_inclusion. destruct leaf as [v|]; cbn [lead leaf_at] in *.
  - destruct comms as [|c nodes]; [cbn in L; lia|]. unfold cbind at 1. rewrite pop_commit_eq. cbn [rbind]. unfold cbind at 1. unfold cret at 1. cbn [rbind].
    unfold cbind at 1. rewrite pop_commits_eq by lia. cbn [rbind]. rewrite firstn_all, vcs_len. unfold cbind at 1.
    change (vc (com (zof ZK cap) f0) (vcs nodes (vcs [c] s))) with (Ok (Committed (length (v_V (vcs nodes (vcs [c] s)))), vcs [com (zof ZK cap) f0] (vcs nodes (vcs [c] s))) : res (var * VS)). cbn [rbind].
    rewrite !vcs_len. cbn [length]. replace (S (length nodes) - 1)%nat with (length nodes) by lia. replace (length (v_V s) + 1 + length nodes)%nat with (length (v_V s) + S (length nodes))%nat by lia.
    change (c :: nodes) with ([c] ++ nodes). rewrite <- app_assoc, !vcs_app. reflexivity.
  - destruct comms as [|c [|c2 nodes]]; try (cbn in L; lia). unfold cbind at 1. rewrite pop_commit_eq. cbn [rbind]. unfold cbind at 1. unfold cbind at 1. rewrite pop_commit_eq. cbn [rbind]. unfold cret at 1. cbn [rbind].
    unfold cbind at 1. rewrite pop_commits_eq by lia. cbn [rbind]. rewrite firstn_all, !vcs_len. unfold cbind at 1.
    change (vc (com (zof ZK cap) f0) (vcs nodes (vcs [c2] (vcs [c] s)))) with (Ok (Committed (length (v_V (vcs nodes (vcs [c2] (vcs [c] s))))), vcs [com (zof ZK cap) f0] (vcs nodes (vcs [c2] (vcs [c] s)))) : res (var * VS)). cbn [rbind].
    rewrite !vcs_len. cbn [length]. replace (S (S (length nodes)) - 2)%nat with (length nodes) by lia. replace (length (v_V s) + 1 + 1 + length nodes)%nat with (length (v_V s) + S (S (length nodes)))%nat by lia.
    replace (length (v_V s) + 1 + 1)%nat with (length (v_V s) + 2)%nat by lia.
    change (c :: c2 :: nodes) with ([c] ++ [c2] ++ nodes). rewrite <- !app_assoc, !vcs_app. reflexivity.
Qed.
Lemma verify_short gadget ar cap p t (root : K) leaf comms (s : VS) : (length comms < lead leaf)%nat -> verify_leaf_inclusion ZK com gadget ar cap p t root leaf comms s = Err Panic.
Proof. intros L. unfold verify_leaf_inclusion. destruct leaf as [v|]; cbn [lead] in L; destruct comms as [|c [|c2 nodes]]; cbn in L; try lia; reflexivity. Qed.

(** the hash with an explicit capacity value *)
Definition hash_from (ar : nat) (c : K) (p : poseidon_params) (t : sbox) (ins : list K) : res K :=
  if negb (Nat.eqb (length ins) ar) then Err (BpErr BIncorrectWidthForPoseidon) else
  let! out := poseidon_permutation (c :: ins) p t in idx out 1.
Lemma hash_from_eq ar cap p t ins : poseidon_hash ZK ar cap ins p t = hash_from ar (zof ZK cap) p t ins.
Proof. reflexivity. Qed.
Lemma sound_hash_from w ar c p t : t <> Inverse -> forall ins, soundM w (poseidon_hash_constraints (@V K Pt) ar ins (lc_var c) p t) (fun h => hash_from ar (w c) p t (map (lc_value w) ins) = Ok (lc_value w h)).
Proof.
  intros N ins. eapply sound_weaken; [apply (sound_hash HK w ar ins _ p t N)|]. intros h (L & outs & E1 & E2). unfold hash_from. rewrite map_length, L, Nat.eqb_refl. cbn [negb]. rewrite (lv_var HK) in E1. now rewrite E1.
Qed.

(** what an accepted list of node values says: the last nodes are the siblings of a path from the
    leaf to the root; all of them, or as many levels as the loop runs *)
Definition proves (ar n : nat) (H : list K -> res K) (root leaf index : K) (nodes : list K) : Prop :=
  exists unused steps, path_ok ar steps /\ (length steps <= n)%nat /\ (unused = [] \/ length steps = n) /\ nodes = unused ++ path_nodes steps /\
    index = zof ZK (path_index (Z.of_nat ar) steps) /\ climb H leaf steps = Ok root.

Section Sound.
Variables (ar n : nat) (gadget : (list (lc K) -> csm VS (lc K)) -> K -> leaf_value (K := K) -> aq K -> list var -> csm VS unit).
Hypothesis SG : forall w hv H, (forall ins, soundM w (hv ins) (fun h => H (map (lc_value w) ins) = Ok (lc_value w h))) ->
  forall root leaf a nodes, soundM w (gadget hv root leaf a nodes) (fun _ => accepted ZK H ar n root (leaf_val w leaf) (w (aq_var a)) (map w nodes)).
Lemma verify_sound cap p t (root : K) leaf comms (s s' : VS) w bl : t <> Inverse ->
  verify_leaf_inclusion ZK com gadget ar cap p t root leaf comms s = Ok (tt, s') -> vsat w s' -> opens com w bl s' ->
  vsat w s /\ v_V s' = v_V s ++ comms ++ [com (zof ZK cap) f0] /\ (lead leaf <= length comms)%nat /\
  (proves ar n (fun ins => poseidon_hash ZK ar cap ins p t) root
     (match leaf with Some v => v | None => w (Committed (length (v_V s) + 1)) end) (w (Committed (length (v_V s))))
     (map (fun i => w (Committed (length (v_V s) + lead leaf + i))) (seq 0 (length comms - lead leaf)))
   \/ reopens com w bl (length (v_V s) + length comms) (zof ZK cap) f0).
Proof.
  intros N E HS HO. destruct (le_lt_dec (lead leaf) (length comms)) as [L|L]; [|rewrite verify_short in E by exact L; discriminate].
  rewrite verify_eq in E by exact L. destruct (SG w _ _ (sound_hash_from w ar (Committed (length (v_V s) + length comms)) p t N) _ _ _ _ _ _ _ E) as [V1 Q]. destruct (Q HS) as (S0 & A).
  split; [exact S0|]. split; [exact V1|]. split; [exact L|].
  destruct (feq_dec _ HK (w (Committed (length (v_V s) + length comms))) (zof ZK cap)) as [Ec|Nc].
  - left. rewrite Ec in A. rewrite <- map_w_slots. replace (match leaf with Some v => v | None => w (Committed (length (v_V s) + 1)) end) with (leaf_val w (leaf_at (length (v_V s)) leaf)) by now destruct leaf. exact A.
  - right. split; [exact Nc|]. apply HO. rewrite V1. cbn [vcs v_V]. rewrite app_assoc, nth_error_app2 by (rewrite app_length; lia). now rewrite app_length, Nat.sub_diag.
Qed.
End Sound.
(** ** C87: accepted commitments *)
Theorem C87_sound_4 modbytes depth cap p t (root : K) leaf comms (s s' : VS) w bl : t <> Inverse ->
  verify_leaf_inclusion_4 ZK com modbytes depth cap p t root leaf comms s = Ok (tt, s') -> vsat w s' -> opens com w bl s' ->
  vsat w s /\ v_V s' = v_V s ++ comms ++ [com (zof ZK cap) f0] /\ (lead leaf <= length comms)%nat /\
  (proves 4 (4 * get_byte_size depth 2) (fun ins => poseidon_hash ZK 4 cap ins p t) root
     (match leaf with Some v => v | None => w (Committed (length (v_V s) + 1)) end) (w (Committed (length (v_V s))))
     (map (fun i => w (Committed (length (v_V s) + lead leaf + i))) (seq 0 (length comms - lead leaf)))
   \/ reopens com w bl (length (v_V s) + length comms) (zof ZK cap) f0).
Proof. apply verify_sound. intros w0 hv H Hh root0 leaf0 a nodes. exact (sound_merkle4 HK ZK q LZ w0 hv H Hh modbytes depth root0 leaf0 a nodes). Qed.
Theorem C87_sound_8 depth cap p t (root : K) leaf comms (s s' : VS) w bl : t <> Inverse ->
  verify_leaf_inclusion_8 ZK com depth cap p t root leaf comms s = Ok (tt, s') -> vsat w s' -> opens com w bl s' ->
  vsat w s /\ v_V s' = v_V s ++ comms ++ [com (zof ZK cap) f0] /\ (lead leaf <= length comms)%nat /\
  (proves 8 depth (fun ins => poseidon_hash ZK 8 cap ins p t) root
     (match leaf with Some v => v | None => w (Committed (length (v_V s) + 1)) end) (w (Committed (length (v_V s))))
     (map (fun i => w (Committed (length (v_V s) + lead leaf + i))) (seq 0 (length comms - lead leaf)))
   \/ reopens com w bl (length (v_V s) + length comms) (zof ZK cap) f0).
Proof. apply verify_sound. intros w0 hv H Hh root0 leaf0 a nodes. exact (sound_merkle8 HK ZK q LZ w0 hv H Hh depth root0 leaf0 a nodes). Qed.

(** ** Honest provers, for any path (the generic part) *)
Section Complete.
Variables (ar n : nat).
Variable gp : (list (lc K) -> csm PS (lc K)) -> K -> leaf_value (K := K) -> aq K -> list var -> csm PS unit.
Variable gv : (list (lc K) -> csm VS (lc K)) -> K -> leaf_value (K := K) -> aq K -> list var -> csm VS unit.
Hypothesis GS : forall hp hv, (forall ins, simM com eq (hp ins) (hv ins)) -> forall root leaf a b nodes, aq_var a = aq_var b -> aq_val b = None -> simM com eq (gp hp root leaf a nodes) (gv hv root leaf b nodes).
Hypothesis GC : forall s0 hp H, (forall s ins xs h, pext s0 s -> pgood s -> Forall2 (has s) ins xs -> H xs = Ok h -> compl s (hp ins) (fun o s' => has s' o h)) ->
  forall steps s root leaf lval a xi nodes, path_ok ar steps -> (length steps <= n)%nat -> pext s0 s -> pgood s -> Forall2 (hasv s) nodes (path_nodes steps) -> has s (leaf_lc leaf) lval -> hasv s (aq_var a) xi -> aq_val a = Some xi ->
  zto ZK xi = path_index (Z.of_nat ar) steps -> climb H lval steps = Ok root -> compl s (gp hp root leaf a nodes) (fun _ _ => True).
Definition openings (leaf index : K) (hide : bool) (b0 b1 : K) (nodes : list K) (rnd : nat -> K) : list (K * K) :=
  (index, b0) :: (if hide then [(leaf, b1)] else []) ++ combine nodes (map rnd (seq 0 (length nodes))).
Lemma combine_fst {A B} (l : list A) (l' : list B) : length l = length l' -> map fst (combine l l') = l.
Proof. revert l'. induction l as [|a l IH]; intros [|b l'] E; try discriminate; [reflexivity|]. cbn. f_equal. apply IH. now injection E. Qed.
Lemma complete cap p t (leaf index : K) (hide : bool) b0 b1 nodes root rng rnd steps (ps : PS) (vs : VS) : t <> Inverse ->
  path_ok ar steps -> (length steps <= n)%nat -> nodes = path_nodes steps -> zto ZK index = path_index (Z.of_nat ar) steps -> climb (fun ins => poseidon_hash ZK ar cap ins p t) leaf steps = Ok root ->
  pgood ps -> sim com ps vs ->
  let vbs := openings leaf index hide b0 b1 nodes rnd in
  exists ps' vs', prove_leaf_inclusion ZK com gp ar cap p t leaf index hide (Some (if hide then [b0; b1] else [b0])) nodes root rng rnd ps = Ok (map (commitment com) vbs, ps') /\
    verify_leaf_inclusion ZK com gv ar cap p t root (if hide then None else Some leaf) (map (commitment com) vbs) vs = Ok (tt, vs') /\
    pgood ps' /\ sim com ps' vs' /\ p_v ps' = p_v ps ++ map fst vbs ++ [zof ZK cap].
Proof.
  intros N Pk Ll En Ei Ec G HS vbs. set (k := length (p_v ps)). set (nl := length nodes). set (ld := lead (if hide then None else Some leaf)).
  assert (length vbs = ld + nl)%nat as Lv. { unfold vbs, openings, ld, nl. cbn [length]. rewrite app_length, combine_length, map_length, seq_length. destruct hide; cbn [length lead]; lia. }
  assert (map fst vbs = index :: (if hide then [leaf] else []) ++ nodes) as Mf. { unfold vbs, openings. cbn [map fst]. f_equal. rewrite map_app, combine_fst by (rewrite map_length, seq_length; reflexivity). now destruct hide. }
  pose proof (sim_pcs com [(zof ZK cap, f0)] _ _ (sim_pcs com vbs ps vs HS)) as S1. cbn [map] in S1.
  destruct (good_pcs vbs ps G) as (G1 & F1 & A1). destruct (good_pc (zof ZK cap) f0 _ G1) as (G2 & H2 & F2).
  set (s1 := pcs [(zof ZK cap, f0)] (pcs vbs ps)) in *. rewrite pcs_len in H2. fold k in H2, A1. rewrite Lv in H2.
  assert (Forall2 (hasv s1) (slots k (length vbs)) (map fst vbs)) as A2 by (clear - A1 F2; revert A1; generalize (slots k (length vbs)), (map fst vbs); intros l l' F; induction F; constructor; auto).
  rewrite Mf, Lv in A2.
  assert (hasv s1 (Committed k) index /\ has s1 (leaf_lc (leaf_at k (if hide then None else Some leaf))) leaf /\ Forall2 (hasv s1) (slots (k + ld) nl) nodes) as (HI & HL & HN).
  { unfold ld in A2 |- *. destruct hide; cbn [lead] in A2 |- *.
    - change (2 + nl)%nat with (S (S nl)) in A2. rewrite !slots_cons in A2. cbn [app] in A2. inversion A2 as [|? ? ? ? B1 B2]; subst. inversion B2 as [|? ? ? ? B3 B4]; subst. split; [exact B1|]. replace (k + 2)%nat with (S (S k)) by lia. split; [|exact B4].
      cbn [leaf_at leaf_lc]. replace (k + 1)%nat with (S k) by lia. now apply (has_var HK).
    - change (1 + nl)%nat with (S nl) in A2. rewrite slots_cons in A2. cbn [app] in A2. inversion A2 as [|? ? ? ? B1 B2]; subst. split; [exact B1|]. replace (k + 1)%nat with (S k) by lia. split; [apply (has_const HK)|exact B2]. }
  set (capv := Committed (k + (ld + nl))) in *.
  destruct (run_both com (gp (fun ins => poseidon_hash_constraints P ar ins (lc_var capv) p t) root (leaf_at k (if hide then None else Some leaf)) (mkAq (Committed k) (Some index)) (slots (k + ld) nl))
     (gv (fun ins => poseidon_hash_constraints V ar ins (lc_var capv) p t) root (leaf_at k (if hide then None else Some leaf)) (mkAq (Committed k) None) (slots (k + ld) nl)) (fun _ _ => True) _ _ S1) as ([] & ps' & vs' & E1 & E2 & G3 & S3 & X3 & _).
  { apply GS; [intros; apply sim_hash|reflexivity|reflexivity]. }
  { eapply (GC s1 _ (fun ins => poseidon_hash ZK ar cap ins p t)); try eassumption; try reflexivity; [|apply pext_refl|rewrite En in HN; exact HN].
    intros s ins xs h X Gs Fx Eh. rewrite hash_from_eq in Eh. unfold hash_from in Eh. destruct (Nat.eqb (length xs) ar) eqn:El; [|discriminate]. cbn [negb] in Eh. apply Nat.eqb_eq in El. destruct (poseidon_permutation (zof ZK cap :: xs) p t) as [outs|] eqn:Ep; [|discriminate]. cbn [rbind] in Eh.
    eapply compl_weaken; [eapply (compl_hash HK s ar ins (lc_var capv) xs (zof ZK cap) outs h p t N Gs); try eassumption; apply (has_var HK), (hasv_ext _ _ _ _ X), H2|]. intros ? ? _ _ (Q & _). exact Q. }
  exists ps', vs'. split; [|split; [|split; [exact G3|split; [exact S3|]]]].
  - unfold prove_leaf_inclusion. unfold cbind at 1. unfold lift at 1. assert (merkle_blindings hide (Some (if hide then [b0; b1] else [b0])) rng = Ok (if hide then [b0; b1] else [b0])) as -> by now destruct hide. cbn [rbind].
    unfold cbind at 1. unfold lift at 1. destruct hide; cbn [rbind]; unfold cbind at 1; rewrite pc_eq; cbn [rbind]; unfold cbind at 1.
    + unfold cbind at 1. unfold lift at 1. cbn [rbind]. unfold cbind at 1. rewrite pc_eq. cbn [rbind]. unfold cret at 1. cbn [rbind]. unfold cbind at 1. rewrite commit_all_eq. cbn [rbind]. unfold cbind at 1. rewrite pc_eq. cbn [rbind].
      unfold cbind at 1. rewrite !pcs_len. cbn [length]. rewrite combine_length, map_length, seq_length, Nat.min_id. fold k nl. unfold ld in *. cbn [lead leaf_at] in *. replace (k + 1 + 1)%nat with (k + 2)%nat by lia. replace (k + 2 + nl)%nat with (k + (2 + nl))%nat by lia. fold capv.
      rewrite <- !pcs_app. unfold s1 in E1. rewrite <- pcs_app in E1. unfold vbs, openings in E1 |- *. fold nl in E1. fold nl. cbn [app] in E1 |- *. rewrite E1. reflexivity.
    + unfold cret at 1. cbn [rbind]. unfold cbind at 1. rewrite commit_all_eq. cbn [rbind]. unfold cbind at 1. rewrite pc_eq. cbn [rbind].
      unfold cbind at 1. rewrite !pcs_len. cbn [length]. rewrite combine_length, map_length, seq_length, Nat.min_id. fold k nl. unfold ld in *. cbn [lead leaf_at] in *. replace (k + 1 + nl)%nat with (k + (1 + nl))%nat by lia. fold capv.
      rewrite <- !pcs_app. unfold s1 in E1. rewrite <- pcs_app in E1. unfold vbs, openings in E1 |- *. fold nl in E1. fold nl. cbn [app] in E1 |- *. rewrite E1. reflexivity.
  - rewrite verify_eq by (rewrite map_length, Lv; fold ld; lia). fold ld. rewrite map_length, Lv, (sim_length com _ _ HS). fold k. replace (ld + nl - ld)%nat with nl by lia. rewrite vcs_app. exact E2.
  - rewrite (pe_v _ _ X3). unfold s1. cbn [pcs p_v map fst]. now rewrite <- app_assoc.
Qed.
End Complete.

Theorem C87_complete_4 modbytes depth cap p t (leaf index : K) (hide : bool) b0 b1 root rng rnd steps (ps : PS) (vs : VS) : t <> Inverse ->
  path_ok 4 steps -> (length steps <= 4 * get_byte_size depth 2)%nat -> (get_byte_size depth 2 <= modbytes)%nat ->
  zto ZK index = path_index 4 steps -> climb (fun ins => poseidon_hash ZK 4 cap ins p t) leaf steps = Ok root ->
  pgood ps -> sim com ps vs ->
  let vbs := openings leaf index hide b0 b1 (path_nodes steps) rnd in
  exists ps' vs', prove_leaf_inclusion_4 ZK com modbytes depth cap p t leaf index hide (Some (if hide then [b0; b1] else [b0])) (path_nodes steps) root rng rnd ps = Ok (map (commitment com) vbs, ps') /\
    verify_leaf_inclusion_4 ZK com modbytes depth cap p t root (if hide then None else Some leaf) (map (commitment com) vbs) vs = Ok (tt, vs') /\
    pgood ps' /\ sim com ps' vs' /\ p_v ps' = p_v ps ++ map fst vbs ++ [zof ZK cap].
Proof.
  intros N Pk Ll Lm Ei Ec G HS. eapply (complete 4 (4 * get_byte_size depth 2)); try eassumption; try reflexivity.
  - intros hp hv Hh root0 leaf0 a b nodes E1 E2. now apply sim_merkle4.
  - intros s0 hp H Hh steps0 s root0 leaf0 lval a xi nodes. intros. eapply (compl_merkle4 HK ZK q LZ s0 hp H Hh); eassumption.
Qed.
Theorem C87_complete_8 depth cap p t (leaf index : K) (hide : bool) b0 b1 root rng rnd steps (ps : PS) (vs : VS) : t <> Inverse ->
  path_ok 8 steps -> (length steps <= depth)%nat ->
  zto ZK index = path_index 8 steps -> climb (fun ins => poseidon_hash ZK 8 cap ins p t) leaf steps = Ok root ->
  pgood ps -> sim com ps vs ->
  let vbs := openings leaf index hide b0 b1 (path_nodes steps) rnd in
  exists ps' vs', prove_leaf_inclusion_8 ZK com depth cap p t leaf index hide (Some (if hide then [b0; b1] else [b0])) (path_nodes steps) root rng rnd ps = Ok (map (commitment com) vbs, ps') /\
    verify_leaf_inclusion_8 ZK com depth cap p t root (if hide then None else Some leaf) (map (commitment com) vbs) vs = Ok (tt, vs') /\
    pgood ps' /\ sim com ps' vs' /\ p_v ps' = p_v ps ++ map fst vbs ++ [zof ZK cap].
Proof.
  intros N Pk Ll Ei Ec G HS. eapply (complete 8 depth); try eassumption; try reflexivity.
  - intros hp hv Hh root0 leaf0 a b nodes E1 E2. now apply sim_merkle8.
  - intros s0 hp H Hh steps0 s root0 leaf0 lval a xi nodes. intros. eapply (compl_merkle8 HK ZK q LZ s0 hp H Hh); eassumption.
Qed.

(** ** The sparse Merkle tree the proofs are about *)
Section Tree.
Variables (sb : nat) (enc : K -> list Z) (cap : Z) (p : poseidon_params (K := K)) (t : sbox).
Hypothesis Henc : forall a b, enc a = enc b -> a = b.
(** the tree of arity 2^sb whose hash is Poseidon with that many inputs *)
Definition tree : smt_params := mkSmtParams K f0 feqb enc (zto ZK) sb (fun ins => poseidon_hash ZK (2 ^ sb) cap ins p t).
Lemma tree_ok : smt_ok tree.
Proof.
  constructor; cbn; [|exact Henc|intros a; apply (zl_range LZ)].
  intros a b. split; intros E; [now apply (feqb_eq _ HK)|now apply (feqb_eq _ HK)].
Qed.
Let ar := (2 ^ sb)%nat.
Let H := fun ins => poseidon_hash ZK ar cap ins p t.
Lemma ar_Z : Z.of_nat ar = 2 ^ Z.of_nat sb.
Proof. unfold ar. now rewrite Nat2Z.inj_pow. Qed.
Lemma ar_pos : (0 < ar)%nat.
Proof. unfold ar. pose proof (Nat.pow_nonzero 2 sb). lia. Qed.
Lemma climb_fold (steps : list (nat * list K)) (x : K) : path_ok ar steps -> fold_up tree (map fst steps) (map snd steps) x = climb H x steps.
Proof.
  intros Pk. revert x. induction Pk as [|[d sibs] steps [P1 P2] Pk IH]; intros x; [reflexivity|]. cbn [map fst snd fold_up climb] in *.
  assert (vec_insert tree d x sibs = Ok (children d sibs x)) as ->. { assert ((length sibs <? d)%nat = false) as E by (apply Nat.ltb_ge; lia). unfold vec_insert. cbn [sK tree]. rewrite E. reflexivity. }
  cbn [rbind]. change (shash tree (children d sibs x)) with (H (children d sibs x)). destruct (H (children d sibs x)) as [y|e]; cbn [rbind]; [apply IH|reflexivity].
Qed.
Lemma path_lsb (steps : list (nat * list K)) : path_ok ar steps -> map fst steps = lsb_digits sb (path_index (Z.of_nat ar) steps) (length steps).
Proof.
  intros Pk. rewrite lsb_digits_eq by apply (path_index_bound ar ar_pos steps Pk). rewrite (path_digits ar ar_pos steps Pk) at 1. apply map_ext. intros k. rewrite ar_Z. now rewrite Z.pow_mul_r by lia.
Qed.
Lemma path_index_lsb k : forall x (l : list (list K)), 0 <= x -> length l = k -> path_index (Z.of_nat ar) (combine (lsb_digits sb x k) l) = x mod Z.of_nat ar ^ Z.of_nat k.
Proof.
  induction k as [|k IH]; intros x [|a l] Hx L; try discriminate; [cbn; now rewrite Z.mod_1_r|]. injection L as L. cbn [lsb_digits]. destruct (Z.eqb_spec x 0) as [->|Nx].
  - rewrite Z.mod_0_l by (apply Z.pow_nonzero; [pose proof ar_pos|]; lia). cbn [repeat combine path_index]. clear. revert l. induction k as [|k IH]; intros [|b l]; cbn [repeat combine path_index]; try lia. specialize (IH l). lia.
  - cbn [combine path_index]. rewrite <- ar_Z. pose proof ar_pos as Ap. rewrite IH by (try exact L; apply Z.div_pos; lia). rewrite Nat2Z.inj_succ, Z.pow_succ_r by lia. rewrite Z2Nat.id by (apply Z.mod_pos_bound; lia). symmetry. apply Z.rem_mul_r; [lia|apply Z.pow_pos_nonneg; lia].
Qed.
(** verifying a path against the tree is climbing it *)
Lemma tree_verify depth (root idx v : K) (steps : list (nat * list K)) : path_ok ar steps -> length steps = depth -> path_index (Z.of_nat ar) steps = zto ZK idx ->
  smt_verify_proof tree (mkSmt tree depth root) idx v (rev (map snd steps)) None = let! c := climb H v steps in Ok (feqb c root).
Proof.
  intros Pk L E. unfold smt_verify_proof. cbn [sdepth sroot]. rewrite verify_loop_fold by (rewrite rev_length, ?path_length, ?rev_length, ?map_length; lia).
  rewrite Nat.sub_0_r, firstn_all2, rev_involutive by (rewrite rev_length, map_length; lia). unfold leaf_index_to_path, repr_in_power_2_base. rewrite rev_involutive. cbn [stoZ sbits tree].
  rewrite <- E, <- L, <- path_lsb by exact Pk. now rewrite climb_fold.
Qed.
(** the path a stored value lies on *)
Lemma get_steps db (tr : smt tree) (idx v : K) (pf : list (list K)) : honest_db tree db -> smt_get tree tr idx (Some []) db = Ok (v, Some pf) -> zto ZK idx < Z.of_nat ar ^ Z.of_nat (sdepth _ tr) ->
  exists steps : list (nat * list K), path_ok ar steps /\ length steps = sdepth _ tr /\ path_nodes steps = concat pf /\ path_index (Z.of_nat ar) steps = zto ZK idx /\ climb H v steps = Ok (sroot _ tr).
Proof.
  intros Hh G B. unfold smt_get in G. apply rbind_ok in G as ([v0 pf0] & G & E). injection E as -> E. cbn [app] in E. subst pf0.
  pose proof (path_lt tree idx (sdepth _ tr)) as Pl. destruct (get_loop_nodes tree _ _ _ _ _ Hh Pl G) as [L Fn]. rewrite path_length in L.
  pose proof (get_loop_fold tree tree_ok _ _ _ _ _ Hh Pl G) as F. unfold leaf_index_to_path, repr_in_power_2_base in F, Pl. rewrite rev_involutive in F. cbn [stoZ sbits tree] in F, Pl.
  exists (combine (lsb_digits sb (zto ZK idx) (sdepth _ tr)) (rev pf)).
  assert (length (lsb_digits sb (zto ZK idx) (sdepth _ tr)) = length (rev pf)) as L2 by (rewrite lsb_digits_length, rev_length; auto).
  assert (path_ok ar (combine (lsb_digits sb (zto ZK idx) (sdepth _ tr)) (rev pf))) as Pk.
  { apply Forall_forall. intros [d s] I. cbn [fst snd]. split.
    - apply in_combine_l in I. pose proof (lsb_digits_lt sb (zto ZK idx) (sdepth _ tr)) as F0. rewrite Forall_forall in F0. now apply F0.
    - apply in_combine_r, in_rev in I. rewrite Forall_forall in Fn. specialize (Fn _ I). unfold node_len, arity in Fn. cbn [sbits tree] in Fn. fold ar in Fn. pose proof ar_pos. cbn [sK tree] in *. lia. }
  assert (map snd (combine (lsb_digits sb (zto ZK idx) (sdepth _ tr)) (rev pf)) = rev pf) as Ms. { revert L2. generalize (lsb_digits sb (zto ZK idx) (sdepth _ tr)), (rev pf). induction l as [|a l IH]; intros [|b l0] L2; try discriminate; [reflexivity|]. cbn. f_equal. apply IH. now injection L2. }
  split; [exact Pk|]. split; [rewrite combine_length, <- L2, Nat.min_id; apply lsb_digits_length|]. split; [|split].
  - unfold path_nodes. rewrite map_rev, Ms, rev_involutive. reflexivity.
  - rewrite path_index_lsb by (try (rewrite rev_length; exact L); apply (zl_range LZ)). apply Z.mod_small. split; [apply (zl_range LZ)|exact B].
  - rewrite <- climb_fold by exact Pk. rewrite Ms, combine_fst by exact L2. exact F.
Qed.
(** what checking the path as a proof of the tree hashes *)
Lemma climb_hashed (steps : list (nat * list K)) : path_ok ar steps -> forall x : K, hashed_up tree (map fst steps) (map snd steps) x = climb_inputs H x steps.
Proof.
  intros Pk. induction Pk as [|[d sibs] steps [P1 P2] Pk IH]; intros x; [reflexivity|]. cbn [map fst snd hashed_up climb_inputs] in *.
  change (firstn d sibs ++ x :: skipn d sibs) with (children d sibs x). change (shash tree (children d sibs x)) with (H (children d sibs x)). cbn [sK tree] in *. apply f_equal. destruct (H (children d sibs x)); [apply IH|reflexivity].
Qed.
(** commitments to one value per level and no more: the value at that index of the tree *)
Lemma stored db (tr : smt tree) n (root leaf index : K) (nodes : list K) (v : K) (pf : list (list K)) : Z.of_nat ar ^ Z.of_nat (sdepth _ tr) <= q -> (sdepth _ tr <= n)%nat -> honest_db tree db ->
  proves ar n H root leaf index nodes -> length nodes = ((ar - 1) * sdepth _ tr)%nat -> (1 < ar)%nat -> root = sroot _ tr ->
  smt_get tree tr index (Some []) db = Ok (v, Some pf) -> leaf = v \/
  exists steps : list (nat * list K), path_ok ar steps /\ nodes = path_nodes steps /\ path_index (Z.of_nat ar) steps = zto ZK index /\
    collision_between tree (climb_inputs H leaf steps) (hashed_by_proof tree (sdepth _ tr) index v pf).
Proof.
  intros Bq Ln Hh (unused & steps & Pk & Lk & Hu & En & Ei & Ec) Lno A1 -> G.
  assert (length (path_nodes steps) = ((ar - 1) * length steps)%nat) as Lp. { clear - Pk. unfold path_nodes. rewrite <- (rev_length steps). apply Forall_rev in Pk. induction Pk as [|[d s] l [P1 P2] F IH]; cbn [map concat length]; [lia|]. rewrite app_length. cbn [snd] in *. rewrite IH. nia. }
  assert (length steps = sdepth _ tr) as Ls. { apply (f_equal (@length K)) in En. rewrite app_length, Lno, Lp in En. destruct Hu as [-> | E]; [cbn in En|]; nia. }
  assert (unused = []) as Eu. { apply (f_equal (@length K)) in En. rewrite app_length, Lno, Lp, Ls in En. destruct unused; [reflexivity|cbn in En; nia]. }
  assert (path_index (Z.of_nat ar) steps = zto ZK index) as Ez. { rewrite Ei, (zl_to_of LZ), Z.mod_small; [reflexivity|]. pose proof (path_index_bound ar ar_pos steps Pk) as B. rewrite Ls in B. lia. }
  destruct (C74_accepted_value_is_stored tree tree_ok db tr index v leaf pf (rev (map snd steps)) Hh G) as [E|C].
  - apply Forall_rev, Forall_map. eapply Forall_impl; [|exact Pk]. intros [d s] [P1 P2]. cbn [snd] in *. unfold arity. cbn [sbits tree]. fold ar. cbn [sK tree]. lia.
  - destruct tr as [dp rt]. cbn [sdepth sroot] in *. rewrite tree_verify by assumption. rewrite Ec. cbn [rbind]. now rewrite (feqb_refl _ HK).
  - now left.
  - right. exists steps. split; [exact Pk|]. split; [now rewrite En, Eu|]. split; [exact Ez|].
    assert (hashed_by_proof tree (sdepth _ tr) index leaf (rev (map snd steps)) = climb_inputs H leaf steps) as <-; [|exact C].
    unfold hashed_by_proof. rewrite firstn_all2, rev_involutive by (rewrite rev_length, map_length; lia). unfold leaf_index_to_path, repr_in_power_2_base. rewrite rev_involutive. cbn [stoZ sbits tree].
    rewrite <- Ez, <- Ls, <- path_lsb by exact Pk. now apply climb_hashed.
Qed.
End Tree.

Lemma byte_size_4 depth : get_byte_size depth 2 = ((depth + 3) / 4)%nat.
Proof.
  unfold get_byte_size. pose proof (Nat.div_mod (depth * 2) 8). pose proof (Nat.mod_upper_bound (depth * 2) 8). pose proof (Nat.div_mod (depth + 3) 4). pose proof (Nat.mod_upper_bound (depth + 3) 4). destruct (Nat.eqb_spec ((depth * 2) mod 8) 0); lia.
Qed.
Lemma depth_bytes depth : (depth <= 4 * get_byte_size depth 2)%nat.
Proof. rewrite byte_size_4. pose proof (Nat.div_mod (depth + 3) 4). pose proof (Nat.mod_upper_bound (depth + 3) 4). lia. Qed.
Lemma climb_app {A} (H : list A -> res A) l1 : forall l2 x, climb H x (l1 ++ l2) = let! y := climb H x l1 in climb H y l2.
Proof. induction l1 as [|[d s] l1 IH]; intros l2 x; [reflexivity|]. cbn [app climb]. destruct (H (children d s x)); [apply IH|reflexivity]. Qed.
Lemma slots_length k n : length (slots k n) = n.
Proof. unfold slots. now rewrite map_length, seq_length. Qed.
(** how many nodes a step and the loop consume *)
Lemma cbind_inv {T A B} (m : csm T A) (f : A -> csm T B) s b s' : cbind m f s = Ok (b, s') -> exists a s1, m s = Ok (a, s1) /\ f a s1 = Ok (b, s').
Proof. unfold cbind. destruct (m s) as [[a s1]|e]; [|discriminate]. intros E. exists a, s1. auto. Qed.
Definition counts (c : nat) (step : mstate (K := K) -> csm VS (mstate (K := K))) : Prop := forall m s m' s', step m s = Ok (m', s') -> (ms_nodes m = [] /\ m' = m) \/ (ms_nodes m <> [] /\ length (ms_nodes m) = (c + length (ms_nodes m'))%nat).
Lemma count_step4 hv bytes ij : counts 3 (merkle4_step ZK (@V K Pt) hv bytes ij).
Proof.
  intros m s m' s' E. unfold merkle4_step in E. destruct (ms_nodes m) as [|v3 rest] eqn:En; [injection E as <- <-; auto|]. right. destruct ij as [i j].
  apply cbind_inv in E as (x0 & s0 & _ & E). apply cbind_inv in E as ([b0 b0_1] & s1 & _ & E). apply cbind_inv in E as (x1 & s2 & _ & E). apply cbind_inv in E as ([b1 b1_1] & s3 & _ & E). cbv zeta in E.
  destruct rest as [|v2 [|v1 nodes]]; [discriminate E|discriminate E|]. apply cbind_inv in E as (input & s4 & _ & E). apply cbind_inv in E as (h & s5 & _ & E). unfold cret in E. assert (m' = mkMs nodes (ms_cli m ++ [(b1, fmul (zof ZK 2) (ms_exp m)); (b0, ms_exp m)]) (fmul (ms_exp m) (zof ZK 4)) (lc_simplify h)) as -> by congruence. split; [discriminate|reflexivity].
Qed.
Lemma count_step8 hv oct k : counts 7 (merkle8_step ZK (@V K Pt) hv oct k).
Proof.
  intros m s m' s' E. unfold merkle8_step in E. destruct (ms_nodes m) as [|v7 rest] eqn:En; [injection E as <- <-; auto|]. right.
  apply cbind_inv in E as (x0 & s0 & _ & E). cbv zeta in E. apply cbind_inv in E as ([b0 b0_1] & s1 & _ & E). apply cbind_inv in E as ([b1 b1_1] & s3 & _ & E). apply cbind_inv in E as ([b2 b2_1] & s2 & _ & E).
  destruct rest as [|v6 [|v5 [|v4 [|v3 [|v2 [|v1 nodes]]]]]]; [discriminate E|discriminate E|discriminate E|discriminate E|discriminate E|discriminate E|]. apply cbind_inv in E as (input & s4 & _ & E). apply cbind_inv in E as (h & s5 & _ & E). unfold cret in E.
  assert (nodes = ms_nodes m') as -> by (apply (f_equal (fun r => match r with Ok (x, _) => ms_nodes x | Err _ => [] end)) in E; exact E). split; [discriminate|reflexivity].
Qed.
Lemma count_loop {X} c (step : X -> mstate (K := K) -> csm VS (mstate (K := K))) : (forall x, counts c (step x)) -> forall xs m s m' s', cfold step xs m s = Ok (m', s') ->
  exists k, (0 <= k)%nat /\ (k <= length xs)%nat /\ length (ms_nodes m) = (c * k + length (ms_nodes m'))%nat /\ (ms_nodes m' = [] \/ k = length xs).
Proof.
  intros Hc. induction xs as [|x xs IH]; intros m s m' s' E; cbn [cfold] in E; [unfold cret in E; assert (m' = m) as -> by congruence; exists 0%nat; split; [lia|]; split; [lia|]; split; [lia|now right]|].
  apply cbind_inv in E as (m1 & s1 & E1 & E2). destruct (Hc x _ _ _ _ E1) as [[Z ->] | [Nz L]]; destruct (IH _ _ _ _ E2) as (k & _ & Lk & Ek & C); cbn [length].
  - rewrite Z in *. cbn [length] in Ek. exists k. split; [lia|]. split; [lia|]. split; [exact Ek|]. left. destruct (ms_nodes m') as [|? ?]; [reflexivity|cbn [length] in Ek; lia].
  - exists (S k). split; [lia|]. split; [lia|]. split; [nia|]. destruct C as [C|C]; [now left|right; lia].
Qed.

(** a value and the proof nodes read from a tree make a proof that verifies *)
Theorem C87_tree_proofs_accepted_4 enc modbytes cap p t db (tr : smt (tree 2 enc cap p t)) (v index : K) (pf : list (list K)) (hide : bool) b0 b1 rng rnd (ps : PS) (vs : VS) : t <> Inverse -> (forall a b, enc a = enc b -> a = b) ->
  honest_db _ db -> smt_get _ tr index (Some []) db = Ok (v, Some pf) -> zto ZK index < 4 ^ Z.of_nat (sdepth _ tr) -> (get_byte_size (sdepth _ tr) 2 <= modbytes)%nat -> pgood ps -> sim com ps vs ->
  let vbs := openings v index hide b0 b1 (concat pf) rnd in
  exists ps' vs', prove_leaf_inclusion_4 ZK com modbytes (sdepth _ tr) cap p t v index hide (Some (if hide then [b0; b1] else [b0])) (concat pf) (sroot _ tr) rng rnd ps = Ok (map (commitment com) vbs, ps') /\
    verify_leaf_inclusion_4 ZK com modbytes (sdepth _ tr) cap p t (sroot _ tr) (if hide then None else Some v) (map (commitment com) vbs) vs = Ok (tt, vs') /\
    pgood ps' /\ sim com ps' vs' /\ p_v ps' = p_v ps ++ map fst vbs ++ [zof ZK cap].
Proof.
  intros N He Hh G B Lm Gp HS. destruct (get_steps 2 enc cap p t He db tr index v pf Hh G B) as (steps & Pk & Ls & En & Ei & Ec). rewrite <- En.
  apply C87_complete_4; auto. rewrite Ls. apply depth_bytes.
Qed.
Theorem C87_tree_proofs_accepted_8 enc cap p t db (tr : smt (tree 3 enc cap p t)) (v index : K) (pf : list (list K)) (hide : bool) b0 b1 rng rnd (ps : PS) (vs : VS) : t <> Inverse -> (forall a b, enc a = enc b -> a = b) ->
  honest_db _ db -> smt_get _ tr index (Some []) db = Ok (v, Some pf) -> zto ZK index < 8 ^ Z.of_nat (sdepth _ tr) -> pgood ps -> sim com ps vs ->
  let vbs := openings v index hide b0 b1 (concat pf) rnd in
  exists ps' vs', prove_leaf_inclusion_8 ZK com (sdepth _ tr) cap p t v index hide (Some (if hide then [b0; b1] else [b0])) (concat pf) (sroot _ tr) rng rnd ps = Ok (map (commitment com) vbs, ps') /\
    verify_leaf_inclusion_8 ZK com (sdepth _ tr) cap p t (sroot _ tr) (if hide then None else Some v) (map (commitment com) vbs) vs = Ok (tt, vs') /\
    pgood ps' /\ sim com ps' vs' /\ p_v ps' = p_v ps ++ map fst vbs ++ [zof ZK cap].
Proof.
  intros N He Hh G B Gp HS. destruct (get_steps 3 enc cap p t He db tr index v pf Hh G B) as (steps & Pk & Ls & En & Ei & Ec). rewrite <- En.
  apply C87_complete_8; auto. now rewrite Ls.
Qed.
(** commitments accepted against the root of a tree, as many as the depth of the tree requires:
    the leaf is the value the tree holds at the committed index, or the assignment reopens the
    verifier's commitment to the capacity constant, or a list of children on the committed path
    and a different one on the path stored in the tree have the same hash *)
Theorem C87_accepted_value_is_stored_4 enc modbytes cap p t db (tr : smt (tree 2 enc cap p t)) leaf comms (s s' : VS) w bl (v : K) (pf : list (list K)) : t <> Inverse -> (forall a b, enc a = enc b -> a = b) ->
  verify_leaf_inclusion_4 ZK com modbytes (sdepth _ tr) cap p t (sroot _ tr) leaf comms s = Ok (tt, s') -> vsat w s' -> opens com w bl s' ->
  length comms = (lead leaf + 3 * sdepth _ tr)%nat -> 4 ^ Z.of_nat (sdepth _ tr) <= q -> honest_db _ db ->
  smt_get _ tr (w (Committed (length (v_V s)))) (Some []) db = Ok (v, Some pf) ->
  let x := match leaf with Some x => x | None => w (Committed (length (v_V s) + 1)) end in let index := w (Committed (length (v_V s))) in
  x = v \/ reopens com w bl (length (v_V s) + length comms) (zof ZK cap) f0 \/
  exists steps : list (nat * list K), path_ok 4 steps /\ map (fun i => w (Committed (length (v_V s) + lead leaf + i))) (seq 0 (length comms - lead leaf)) = path_nodes steps /\ path_index 4 steps = zto ZK index /\
    collision_between (tree 2 enc cap p t) (climb_inputs (fun ins => poseidon_hash ZK 4 cap ins p t) x steps) (hashed_by_proof (tree 2 enc cap p t) (sdepth _ tr) index v pf).
Proof.
  intros N He E HS HO L Bq Hh G x index. destruct (C87_sound_4 _ _ _ _ _ _ _ _ _ _ _ _ N E HS HO) as (_ & _ & _ & [A|A]); [|now right; left].
  destruct (stored 2 enc cap p t He db tr (4 * get_byte_size (sdepth _ tr) 2) _ _ _ _ v pf Bq (depth_bytes _) Hh A) as [X|X]; try exact G; auto.
  - rewrite map_length, seq_length. change (2 ^ 2)%nat with 4%nat. cbn [sK tree] in *. lia.
  - cbn; lia.
Qed.
Theorem C87_accepted_value_is_stored_8 enc cap p t db (tr : smt (tree 3 enc cap p t)) leaf comms (s s' : VS) w bl (v : K) (pf : list (list K)) : t <> Inverse -> (forall a b, enc a = enc b -> a = b) ->
  verify_leaf_inclusion_8 ZK com (sdepth _ tr) cap p t (sroot _ tr) leaf comms s = Ok (tt, s') -> vsat w s' -> opens com w bl s' ->
  length comms = (lead leaf + 7 * sdepth _ tr)%nat -> 8 ^ Z.of_nat (sdepth _ tr) <= q -> honest_db _ db ->
  smt_get _ tr (w (Committed (length (v_V s)))) (Some []) db = Ok (v, Some pf) ->
  let x := match leaf with Some x => x | None => w (Committed (length (v_V s) + 1)) end in let index := w (Committed (length (v_V s))) in
  x = v \/ reopens com w bl (length (v_V s) + length comms) (zof ZK cap) f0 \/
  exists steps : list (nat * list K), path_ok 8 steps /\ map (fun i => w (Committed (length (v_V s) + lead leaf + i))) (seq 0 (length comms - lead leaf)) = path_nodes steps /\ path_index 8 steps = zto ZK index /\
    collision_between (tree 3 enc cap p t) (climb_inputs (fun ins => poseidon_hash ZK 8 cap ins p t) x steps) (hashed_by_proof (tree 3 enc cap p t) (sdepth _ tr) index v pf).
Proof.
  intros N He E HS HO L Bq Hh G x index. destruct (C87_sound_8 _ _ _ _ _ _ _ _ _ _ _ N E HS HO) as (_ & _ & _ & [A|A]); [|now right; left].
  destruct (stored 3 enc cap p t He db tr (sdepth _ tr) _ _ _ _ v pf Bq (le_n _) Hh A) as [X|X]; try exact G; auto.
  - rewrite map_length, seq_length. change (2 ^ 3)%nat with 8%nat. cbn [sK tree] in *. lia.
  - cbn; lia.
Qed.

(** ** C88: the length of the path is not checked *)
(** whatever the depth, the root itself is accepted as the leaf of index 0, with no node at all *)
Theorem C88_refuted_root_is_a_leaf_4 modbytes depth cap p t (root : K) (hide : bool) b0 b1 rng rnd (ps : PS) (vs : VS) : t <> Inverse -> (get_byte_size depth 2 <= modbytes)%nat -> pgood ps -> sim com ps vs ->
  let comms := com f0 b0 :: if hide then [com root b1] else [] in
  exists ps' vs', prove_leaf_inclusion_4 ZK com modbytes depth cap p t root f0 hide (Some (if hide then [b0; b1] else [b0])) [] root rng rnd ps = Ok (comms, ps') /\
    verify_leaf_inclusion_4 ZK com modbytes depth cap p t root (if hide then None else Some root) comms vs = Ok (tt, vs') /\ pgood ps' /\ sim com ps' vs'.
Proof.
  intros N Lm G HS. destruct (C87_complete_4 modbytes depth cap p t root f0 hide b0 b1 root rng rnd [] ps vs N) as (ps' & vs' & E1 & E2 & G' & S' & _); auto; try (cbn; lia); [constructor|now rewrite <- (zl_0 LZ), (zl_to_of LZ)|].
  exists ps', vs'. destruct hide; auto.
Qed.
Theorem C88_refuted_root_is_a_leaf_8 depth cap p t (root : K) (hide : bool) b0 b1 rng rnd (ps : PS) (vs : VS) : t <> Inverse -> pgood ps -> sim com ps vs ->
  let comms := com f0 b0 :: if hide then [com root b1] else [] in
  exists ps' vs', prove_leaf_inclusion_8 ZK com depth cap p t root f0 hide (Some (if hide then [b0; b1] else [b0])) [] root rng rnd ps = Ok (comms, ps') /\
    verify_leaf_inclusion_8 ZK com depth cap p t root (if hide then None else Some root) comms vs = Ok (tt, vs') /\ pgood ps' /\ sim com ps' vs'.
Proof.
  intros N G HS. destruct (C87_complete_8 depth cap p t root f0 hide b0 b1 root rng rnd [] ps vs N) as (ps' & vs' & E1 & E2 & G' & S' & _); auto; try (cbn; lia); [constructor|now rewrite <- (zl_0 LZ), (zl_to_of LZ)|].
  exists ps', vs'. destruct hide; auto.
Qed.
(** more generally the inner node above any leaf, at any height, is accepted as a leaf *)
Theorem C88_refuted_inner_nodes_are_leaves_4 modbytes depth cap p t (leaf inner root : K) lower upper (hide : bool) b0 b1 rng rnd (ps : PS) (vs : VS) : t <> Inverse -> (get_byte_size depth 2 <= modbytes)%nat -> pgood ps -> sim com ps vs ->
  path_ok 4 (lower ++ upper) -> length (lower ++ upper) = depth -> 4 ^ Z.of_nat depth <= q -> climb (fun ins => poseidon_hash ZK 4 cap ins p t) leaf (lower ++ upper) = Ok root -> climb (fun ins => poseidon_hash ZK 4 cap ins p t) leaf lower = Ok inner ->
  let index := zof ZK (path_index 4 upper) in let vbs := openings inner index hide b0 b1 (path_nodes upper) rnd in
  exists ps' vs', prove_leaf_inclusion_4 ZK com modbytes depth cap p t inner index hide (Some (if hide then [b0; b1] else [b0])) (path_nodes upper) root rng rnd ps = Ok (map (commitment com) vbs, ps') /\
    verify_leaf_inclusion_4 ZK com modbytes depth cap p t root (if hide then None else Some inner) (map (commitment com) vbs) vs = Ok (tt, vs') /\ pgood ps' /\ sim com ps' vs'.
Proof.
  intros N Lm G HS Pk Ld Bq Ec El. apply Forall_app in Pk as [Pl Pu]. rewrite app_length in Ld. rewrite climb_app, El in Ec. cbn [rbind] in Ec.
  destruct (C87_complete_4 modbytes depth cap p t inner (zof ZK (path_index 4 upper)) hide b0 b1 root rng rnd upper ps vs N Pu) as (ps' & vs' & E1 & E2 & G' & S' & _); auto.
  - pose proof (depth_bytes depth). lia.
  - rewrite (zl_to_of LZ). apply Z.mod_small. pose proof (path_index_bound 4 ltac:(lia) upper Pu) as B. change (Z.of_nat 4) with 4 in B. pose proof (Z.pow_le_mono_r 4 (Z.of_nat (length upper)) (Z.of_nat depth)). lia.
  - exists ps', vs'. auto.
Qed.
Theorem C88_refuted_inner_nodes_are_leaves_8 depth cap p t (leaf inner root : K) lower upper (hide : bool) b0 b1 rng rnd (ps : PS) (vs : VS) : t <> Inverse -> pgood ps -> sim com ps vs ->
  path_ok 8 (lower ++ upper) -> length (lower ++ upper) = depth -> 8 ^ Z.of_nat depth <= q -> climb (fun ins => poseidon_hash ZK 8 cap ins p t) leaf (lower ++ upper) = Ok root -> climb (fun ins => poseidon_hash ZK 8 cap ins p t) leaf lower = Ok inner ->
  let index := zof ZK (path_index 8 upper) in let vbs := openings inner index hide b0 b1 (path_nodes upper) rnd in
  exists ps' vs', prove_leaf_inclusion_8 ZK com depth cap p t inner index hide (Some (if hide then [b0; b1] else [b0])) (path_nodes upper) root rng rnd ps = Ok (map (commitment com) vbs, ps') /\
    verify_leaf_inclusion_8 ZK com depth cap p t root (if hide then None else Some inner) (map (commitment com) vbs) vs = Ok (tt, vs') /\ pgood ps' /\ sim com ps' vs'.
Proof.
  intros N G HS Pk Ld Bq Ec El. apply Forall_app in Pk as [Pl Pu]. rewrite app_length in Ld. rewrite climb_app, El in Ec. cbn [rbind] in Ec.
  destruct (C87_complete_8 depth cap p t inner (zof ZK (path_index 8 upper)) hide b0 b1 root rng rnd upper ps vs N Pu) as (ps' & vs' & E1 & E2 & G' & S' & _); auto.
  - lia.
  - rewrite (zl_to_of LZ). apply Z.mod_small. pose proof (path_index_bound 8 ltac:(lia) upper Pu) as B. change (Z.of_nat 8) with 8 in B. pose proof (Z.pow_le_mono_r 8 (Z.of_nat (length upper)) (Z.of_nat depth)). lia.
  - exists ps', vs'. auto.
Qed.
(** the four-ary verifier rounds its depth up to a multiple of four: leaves below that depth are
    accepted too *)
Theorem C88_refuted_depth_bound_4 modbytes depth cap p t (leaf index : K) (hide : bool) b0 b1 root rng rnd steps (ps : PS) (vs : VS) : t <> Inverse ->
  (depth < length steps <= 4 * ((depth + 3) / 4))%nat -> path_ok 4 steps -> (get_byte_size depth 2 <= modbytes)%nat ->
  zto ZK index = path_index 4 steps -> climb (fun ins => poseidon_hash ZK 4 cap ins p t) leaf steps = Ok root -> pgood ps -> sim com ps vs ->
  let vbs := openings leaf index hide b0 b1 (path_nodes steps) rnd in
  exists ps' vs', prove_leaf_inclusion_4 ZK com modbytes depth cap p t leaf index hide (Some (if hide then [b0; b1] else [b0])) (path_nodes steps) root rng rnd ps = Ok (map (commitment com) vbs, ps') /\
    verify_leaf_inclusion_4 ZK com modbytes depth cap p t root (if hide then None else Some leaf) (map (commitment com) vbs) vs = Ok (tt, vs') /\ pgood ps' /\ sim com ps' vs'.
Proof.
  intros N [Ld Ll] Pk Lm Ei Ec G HS. destruct (C87_complete_4 modbytes depth cap p t leaf index hide b0 b1 root rng rnd steps ps vs N Pk) as (ps' & vs' & E1 & E2 & G' & S' & _); auto; [|exists ps', vs'; auto].
  now rewrite byte_size_4.
Qed.
(** a number of nodes which is no multiple of arity - 1, up to the number of levels: never Ok *)
Theorem C88_node_count_4 modbytes depth cap p t (root : K) leaf comms (s s' : VS) :
  verify_leaf_inclusion_4 ZK com modbytes depth cap p t root leaf comms s = Ok (tt, s') ->
  (exists k, length comms = lead leaf + 3 * k)%nat \/ (lead leaf + 3 * (4 * ((depth + 3) / 4)) <= length comms)%nat.
Proof.
  intros E. destruct (le_lt_dec (lead leaf) (length comms)) as [L|L]; [|unfold verify_leaf_inclusion_4 in E; rewrite verify_short in E by exact L; discriminate].
  unfold verify_leaf_inclusion_4 in E. rewrite verify_eq in E by exact L. unfold merkle4_gadget in E. apply cbind_inv in E as (m & s1 & E & _).
  destruct (count_loop 3 _ (count_step4 _ _) _ _ _ _ _ E) as (k & _ & Lk & Ek & C); cbn [ms_nodes] in *. rewrite rev_length, slots_length in Ek.
  fold (quads (get_byte_size depth 2)) in *. rewrite quads_length, byte_size_4 in *. destruct C as [C|C]; [left; exists k; rewrite C in Ek; cbn in Ek; lia|right]. lia.
Qed.
Theorem C88_node_count_8 depth cap p t (root : K) leaf comms (s s' : VS) :
  verify_leaf_inclusion_8 ZK com depth cap p t root leaf comms s = Ok (tt, s') ->
  (exists k, length comms = lead leaf + 7 * k)%nat \/ (lead leaf + 7 * depth <= length comms)%nat.
Proof.
  intros E. destruct (le_lt_dec (lead leaf) (length comms)) as [L|L]; [|unfold verify_leaf_inclusion_8 in E; rewrite verify_short in E by exact L; discriminate].
  unfold verify_leaf_inclusion_8 in E. rewrite verify_eq in E by exact L. unfold merkle8_gadget in E. apply cbind_inv in E as (m & s1 & E & _).
  destruct (count_loop 7 _ (count_step8 _ _) _ _ _ _ _ E) as (k & _ & Lk & Ek & C); cbn [ms_nodes] in *. rewrite rev_length, slots_length in Ek.
  rewrite seq_length in *. destruct C as [C|C]; [left; exists k; rewrite C in Ek; cbn in Ek; lia|right]. lia.
Qed.
End Props.

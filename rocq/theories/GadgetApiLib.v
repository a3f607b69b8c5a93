(** Committing on either side, and the prove_* / verify_* functions as gadget runs on the
    committed states. *)
From Verif Require Import Base Alg R1csModel R1csSpec R1csLib GadgetModel GadgetApiModel GadgetLib GadgetSim.
Open Scope list_scope.
Open Scope Z_scope.
Open Scope cs_scope.

Section Lib.
Context {K : fieldOps} (HK : field_laws K) (ZK : zops K) {Pt : Type} (com : K -> K -> Pt).
Add Field Kf : (proj1 HK).
Notation PS := (pstate K).
Notation VS := (vstate K Pt).
(** the states after committing to a list of openings / of points *)
Definition pcs (vbs : list (K * K)) (s : PS) : PS := mkPs (p_cons s) (p_aL s) (p_aR s) (p_aO s) (p_v s ++ map fst vbs) (p_vbl s ++ map snd vbs) (p_pending s).
Definition vcs (cs : list Pt) (s : VS) : VS := mkVs (v_cons s) (v_num s) (v_V s ++ cs) (v_pending s).
Definition slots (base n : nat) : list var := map Committed (seq base n).
Definition commitment (vb : K * K) : Pt := com (fst vb) (snd vb).

Lemma pc_eq v bl s : pc com v bl s = Ok ((com v bl, Committed (length (p_v s))), pcs [(v, bl)] s).
Proof. reflexivity. Qed.
Lemma pop_commit_eq c l s : pop_commit (c :: l) s = Ok ((Committed (length (v_V s)), l), vcs [c] s).
Proof. reflexivity. Qed.
Lemma pop_commit_nil (s : VS) : pop_commit [] s = Err Panic.
Proof. reflexivity. Qed.
Lemma pcs_app a b s : pcs (a ++ b) s = pcs b (pcs a s).
Proof. unfold pcs. cbn. now rewrite !map_app, !app_assoc. Qed.
Lemma vcs_app a b s : vcs (a ++ b) s = vcs b (vcs a s).
Proof. unfold vcs. cbn. now rewrite !app_assoc. Qed.
Lemma pcs_nil s : pcs [] s = s.
Proof. unfold pcs. cbn. rewrite !app_nil_r. now destruct s. Qed.
Lemma vcs_nil s : vcs [] s = s.
Proof. unfold vcs. cbn. rewrite !app_nil_r. now destruct s. Qed.
Lemma vsat_vcs w cs s : vsat w (vcs cs s) <-> vsat w s.
Proof. reflexivity. Qed.
Lemma slots_S base n : slots base (S n) = slots base n ++ [Committed (base + n)].
Proof. unfold slots. now rewrite seq_S, map_app. Qed.
Lemma slots_cons base n : slots base (S n) = Committed base :: slots (S base) n.
Proof. reflexivity. Qed.

Lemma sim_pcs vbs : forall ps vs, sim com ps vs -> sim com (pcs vbs ps) (vcs (map commitment vbs) vs).
Proof.
  induction vbs as [|[v b] vbs IH]; intros ps vs S; [cbn [map]; now rewrite pcs_nil, vcs_nil|].
  cbn [map]. change (commitment (v, b) :: map commitment vbs) with ([com v b] ++ map commitment vbs). change ((v, b) :: vbs) with ([(v, b)] ++ vbs).
  rewrite pcs_app, vcs_app. apply IH. apply (sim_commit com ps vs v b S).
Qed.
Lemma sim_length ps vs : sim com ps vs -> length (v_V vs) = length (p_v ps).
Proof. intros [S1 S2 S3 S4 S5 S6 S7]. rewrite S7, map_length, combine_length. lia. Qed.
Lemma good_pc v b s : pgood s -> pgood (pcs [(v, b)] s) /\ hasv (pcs [(v, b)] s) (Committed (length (p_v s))) v /\ forall u y, hasv s u y -> hasv (pcs [(v, b)] s) u y.
Proof.
  intros G. destruct (commit_good s v b G _ _ eq_refl) as (A1 & A2 & A3 & A4 & _). split; [exact A1|]. split; [exact A2|exact A4].
Qed.
Lemma good_pcs vbs : forall s, pgood s -> pgood (pcs vbs s) /\ (forall u y, hasv s u y -> hasv (pcs vbs s) u y) /\ Forall2 (hasv (pcs vbs s)) (slots (length (p_v s)) (length vbs)) (map fst vbs).
Proof.
  induction vbs as [|[v b] vbs IH]; intros s G.
  - rewrite pcs_nil. split; [exact G|]. split; [auto|constructor].
  - change ((v, b) :: vbs) with ([(v, b)] ++ vbs). rewrite pcs_app. destruct (good_pc v b s G) as (G1 & H1 & F1). destruct (IH _ G1) as (G2 & F2 & S2).
    split; [exact G2|]. split; [auto|]. cbn [app length map fst]. rewrite slots_cons. constructor; [apply F2, H1|].
    replace (S (length (p_v s))) with (length (p_v (pcs [(v, b)] s))) by (cbn; rewrite app_length; cbn; lia). exact S2.
Qed.
Lemma pcs_pending vbs s : p_pending (pcs vbs s) = p_pending s.
Proof. reflexivity. Qed.
Lemma pcs_len vbs s : length (p_v (pcs vbs s)) = (length (p_v s) + length vbs)%nat.
Proof. cbn. now rewrite app_length, map_length. Qed.
Lemma vcs_len cs s : length (v_V (vcs cs s)) = (length (v_V s) + length cs)%nat.
Proof. cbn. now rewrite app_length. Qed.

Lemma commit_all_eq vbs : forall s, commit_all com vbs s = Ok ((map commitment vbs, slots (length (p_v s)) (length vbs)), pcs vbs s).
Proof.
  unfold commit_all. enough (forall s ac av, cfold (fun (vb : K * K) (acc : list Pt * list var) => cbind (pc com (fst vb) (snd vb)) (fun '(c, v) => cret (fst acc ++ [c], snd acc ++ [v]))) vbs (ac, av) s
     = Ok ((ac ++ map commitment vbs, av ++ slots (length (p_v s)) (length vbs)), pcs vbs s)) as Q by (intros s; rewrite Q; reflexivity).
  induction vbs as [|[v b] vbs IH]; intros s ac av.
  - cbn [cfold map length slots seq]. unfold slots. cbn [seq map]. now rewrite !app_nil_r, pcs_nil.
  - cbn [cfold fst snd]. unfold cbind at 1. unfold cbind at 1. rewrite pc_eq. cbn [rbind cret fst snd]. unfold cret at 1. cbn [rbind]. rewrite IH.
    rewrite pcs_len. cbn [length map]. rewrite slots_cons. change ((v, b) :: vbs) with ([(v, b)] ++ vbs). rewrite pcs_app, <- !app_assoc. cbn [app]. rewrite Nat.add_1_r. reflexivity.
Qed.
Lemma pop_commits_eq n : forall l s, (n <= length l)%nat -> pop_commits n l s = Ok ((slots (length (v_V s)) n, skipn n l), vcs (firstn n l) s).
Proof.
  unfold pop_commits.
  enough (forall n l s av, (n <= length l)%nat -> cfold (fun (_ : unit) (acc : list var * list Pt) => cbind (pop_commit (snd acc)) (fun '(v, l') => cret (fst acc ++ [v], l'))) (repeat tt n) (av, l) s
     = Ok ((av ++ slots (length (v_V s)) n, skipn n l), vcs (firstn n l) s)) as Q by (intros l s H; now rewrite Q).
  clear n. induction n as [|n IH]; intros l s av H.
  - cbn [repeat cfold]. unfold slots. cbn [seq map firstn skipn]. now rewrite app_nil_r, vcs_nil.
  - destruct l as [|c l]; [cbn in H; lia|]. cbn [repeat cfold]. unfold cbind at 1. unfold cbind at 1. cbn [snd]. rewrite pop_commit_eq. cbn [rbind fst]. unfold cret at 1. cbn [rbind].
    rewrite IH by (cbn in H; lia). rewrite vcs_len. cbn [length skipn firstn]. rewrite slots_cons, <- app_assoc. cbn [app]. rewrite Nat.add_1_r.
    change (c :: firstn n l) with ([c] ++ firstn n l). now rewrite vcs_app.
Qed.
Lemma pop_commits_short n : forall (l : list Pt) (s : VS), (length l < n)%nat -> pop_commits n l s = Err Panic.
Proof.
  unfold pop_commits. enough (forall n (l : list Pt) (s : VS) av, (length l < n)%nat -> cfold (fun (_ : unit) (acc : list var * list Pt) => cbind (pop_commit (snd acc)) (fun '(v, l') => cret (fst acc ++ [v], l'))) (repeat tt n) (av, l) s = Err Panic) as Q by auto.
  clear n. induction n as [|n IH]; intros l s av H; [lia|]. destruct l as [|c l]; cbn [repeat cfold]; [reflexivity|].
  unfold cbind at 1. unfold cbind at 1. cbn [snd]. rewrite pop_commit_eq. cbn [rbind fst]. unfold cret at 1. cbn [rbind]. apply IH. cbn in H. lia.
Qed.
Lemma sound_run {A} w (m : csm VS A) Q s a s' : soundM w m Q -> m s = Ok (a, s') -> v_V s' = v_V s /\ (vsat w s' -> vsat w s /\ Q a).
Proof. intros H. apply H. Qed.
(** run the prover's gadget to completion and the verifier's along with it *)
Lemma run_both {A} (mp : csm PS A) (mv : csm VS A) Q ps vs : sim com ps vs -> simM com eq mp mv -> compl ps mp Q ->
  exists a ps' vs', mp ps = Ok (a, ps') /\ mv vs = Ok (a, vs') /\ pgood ps' /\ sim com ps' vs' /\ pext ps ps' /\ Q a ps'.
Proof.
  intros S M (a & ps' & E & G & X & HQ). destruct (M ps vs S a ps' E) as (b & vs' & E2 & <- & S2). exists a, ps', vs'. auto 10.
Qed.
End Lib.

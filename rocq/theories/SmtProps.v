(** Properties of the sparse Merkle trees (C72-C77), for every arity 2^sbits (4 and 8 in the
    code), depth, hash function and history.

    A hash into a finite field cannot be injective, so every statement that needs collision
    resistance says: the claim holds, or two different child lists that were hashed have the
    same hash ([collision]). *)
From Coq Require Import NArith.
From Verif Require Import Base SmtModel SmtLib.

(** Specification *)

(** The hash function accepts every list of [arity] children. *)
Definition hash_total (P : smt_params) : Prop :=
  forall l, length l = arity P -> exists h, shash P l = Ok h.

(** Two different lists of the collection have the same hash. *)
Definition collision (P : smt_params) (L : list (list (sK P))) : Prop :=
  exists l1 l2 h, In l1 L /\ In l2 L /\ l1 <> l2 /\ shash P l1 = Ok h /\ shash P l2 = Ok h.

(** A list of the first collection and a different list of the second have the same hash. *)
Definition collision_between (P : smt_params) (L1 L2 : list (list (sK P))) : Prop :=
  exists l1 l2 h, In l1 L1 /\ In l2 L2 /\ l1 <> l2 /\ shash P l1 = Ok h /\ shash P l2 = Ok h.

(** The lists of children that checking a proof hashes, leaf level first: at every level the
    value reached so far is put at its place among the nodes of the proof. *)
Fixpoint hashed_up (P : smt_params) (path_rev : list nat) (pf_rev : list (list (sK P))) (cur : sK P) : list (list (sK P)) :=
  match path_rev, pf_rev with
  | d :: path', s :: pf' =>
      let l := firstn d s ++ cur :: skipn d s in
      l :: match shash P l with Ok h => hashed_up P path' pf' h | Err _ => [] end
  | _, _ => []
  end.
Definition hashed_by_proof (P : smt_params) (depth : nat) (idx v : sK P) (pf : list (list (sK P))) : list (list (sK P)) :=
  hashed_up P (rev (leaf_index_to_path P idx depth)) (rev (firstn depth pf)) v.

(** The leaf an index denotes. *)
Definition leaf_number (P : smt_params) (depth : nat) (idx : sK P) : Z :=
  stoZ P idx mod Z.of_nat (arity P) ^ Z.of_nat depth.

(** The value a map would hold: the last value written to the leaf, or zero. *)
Definition last_written (P : smt_params) (depth : nat) (ops : list (sK P * sK P)) (idx : sK P) : sK P :=
  match find (fun '(i, _) => leaf_number P depth i =? leaf_number P depth idx) (rev ops) with
  | Some (_, v) => v
  | None => s0 P
  end.

(** A history: a sequence of updates of one tree. *)
Fixpoint run_updates (P : smt_params) (t : smt P) (db : hash_db P) (ops : list (sK P * sK P))
  : (smt P * hash_db P) * list (res (sK P)) :=
  match ops with
  | [] => ((t, db), [])
  | (idx, v) :: rest =>
      let '((t', db'), r) := smt_update P t idx v db in
      let '(st, rs) := run_updates P t' db' rest in
      (st, r :: rs)
  end.

(** Any use of a database: creating trees and updating trees, with any outcome. *)
Inductive db_op (P : smt_params) : Type :=
| OpNew (depth : nat)
| OpUpdate (t : smt P) (idx v : sK P).
Definition apply_op (P : smt_params) (db : hash_db P) (o : db_op P) : hash_db P :=
  match o with
  | OpNew _ depth => fst (smt_new P depth db)
  | OpUpdate _ t idx v => snd (fst (smt_update P t idx v db))
  end.

Section Props.
Context (P : smt_params) (OK : smt_ok P).
Notation K := (sK P).

Local Lemma K_dec (a b : K) : {a = b} + {a <> b}.
Proof. destruct (seqb P a b) eqn:E; [left; now apply (ok_eqb P OK)|right; intros ->]. rewrite (proj2 (ok_eqb P OK b b) eq_refl) in E. discriminate. Qed.

Local Lemma collision_cons l L : collision P L -> collision P (l :: L).
Proof. intros (l1 & l2 & h & H1 & H2 & H3). exists l1, l2, h. split; [now right|]. split; [now right|assumption]. Qed.
Local Lemma collision_app l L : collision P L -> collision P (l ++ L).
Proof. induction l; cbn [app]; [tauto|]. intros; now apply collision_cons; auto. Qed.

Local Lemma consistent_or_collision db : honest_db P db -> consistent P db \/ collision P (map snd db).
Proof.
  induction db as [|[k l] db IH]; intros H; [left; intros ? ? ? []|].
  apply honest_cons in H as [(Ll & h & Eh & Ek) H]. destruct (IH H) as [C|C].
  2:{ right. now apply collision_cons. }
  assert ((forall l2, In (k, l2) db -> l2 = l) \/ exists l2, In (k, l2) db /\ l2 <> l) as [A|A].
  { clear - OK. induction db as [|[k' l'] db IH]; [left; intros ? []|].
    destruct IH as [A|(l2 & H1 & H2)]; [|right; exists l2; split; [now right|assumption]].
    destruct (list_eq_dec Z.eq_dec k' k) as [->|N].
    - destruct (list_eq_dec K_dec l' l) as [->|N].
      + left. intros l2 [E|Hin]; [congruence|auto].
      + right. exists l'. split; [now left|assumption].
    - left. intros l2 [E|Hin]; [congruence|auto]. }
  - left. intros k0 l1 l2 [E1|H1] [E2|H2].
    + congruence.
    + injection E1 as <- <-. symmetry. auto.
    + injection E2 as <- <-. auto.
    + apply (C k0); assumption.
  - right. destruct A as (l2 & H1 & H2). destruct (H _ _ H1) as (_ & h2 & Eh2 & Ek2).
    exists l, l2, h. cbn [map snd]. split; [now left|]. split; [right; apply in_map_iff; exists (k, l2); auto|].
    split; [congruence|]. split; [exact Eh|]. rewrite Ek in Ek2. apply (ok_bytes P OK) in Ek2 as ->. exact Eh2.
Qed.

(** Updates extend an honest log honestly. *)
Local Lemma update_extends t idx v db t' db' r : honest_db P db -> smt_update P t idx v db = ((t', db'), r) ->
  honest_db P db' /\ (exists new, db' = new ++ db) /\ sdepth P t' = sdepth P t.
Proof.
  intros Hh. unfold smt_update.
  destruct (smt_get P t idx (Some []) db) as [[v0 [sibs|]]|e] eqn:G.
  2,3: injection 1 as <- <- _; split; [assumption|]; split; [exists []; reflexivity|reflexivity].
  unfold smt_get in G. apply rbind_ok in G as ([v1 pf] & G & E). injection E as _ <-.
  destruct (get_loop_nodes P _ _ _ _ _ Hh (path_lt P _ _) G) as [L F]. cbn [app].
  destruct (update_loop P (rev (leaf_index_to_path P idx (sdepth P t))) (rev pf) v db) as [db1 r1] eqn:U.
  pose proof (update_loop_extends P _ _ _ _ _ _ U) as Hx.
  apply update_loop_honest in U; [|apply Forall_rev; apply path_lt|now apply Forall_rev|assumption].
  destruct r1 as [root|e]; injection 1 as <- <- _; auto.
Qed.

Local Lemma new_extends depth db db' r : honest_db P db -> smt_new P depth db = (db', r) ->
  honest_db P db' /\ exists new, db' = new ++ db.
Proof.
  intros Hh. unfold smt_new. destruct (new_loop P depth (s0 P) db) as [db1 r1] eqn:E. injection 1 as <- _.
  split; [exact (new_loop_honest P _ _ _ _ _ Hh E)|exact (new_loop_extends P _ _ _ _ _ E)].
Qed.

(** The tree [t] holds the contents [f] (by path). *)
Local Definition holds (t : smt P) db f := reads P db (sdepth P t) (sroot P t) f.

Local Lemma update_holds t idx v db f t' db' r : hash_total P -> honest_db P db -> holds t db f ->
  smt_update P t idx v db = ((t', db'), r) -> consistent P db' ->
  (exists root, r = Ok root /\ sroot P t' = root) /\
  holds t' db' (fun q => if list_nat_eqb q (leaf_index_to_path P idx (sdepth P t)) then v else f q).
Proof.
  intros Ht Hh R U C. unfold smt_update, smt_get in U.
  destruct (reads_get P db _ _ f (leaf_index_to_path P idx (sdepth P t)) R (path_length P _ _) (path_lt P _ _)) as (pf & G & L).
  rewrite G in U. cbn [rbind app] in U.
  destruct (get_loop_nodes P _ _ _ _ _ Hh (path_lt P _ _) G) as [Lp F].
  destruct (update_loop_total P (rev (leaf_index_to_path P idx (sdepth P t))) (rev pf) v db Ht) as (db1 & root & U1);
    [apply Forall_rev; apply path_lt|now apply Forall_rev|now rewrite !rev_length|].
  rewrite U1 in U. injection U as <- <- <-. split; [eexists; split; reflexivity|].
  unfold holds. cbn [sdepth sroot].
  exact (update_reads P _ _ _ _ _ _ _ _ _ _ R (path_length P _ _) (path_lt P _ _) G U1 C).
Qed.

(** Contents by path after a history. *)
Local Fixpoint path_content (d : nat) (ops : list (K * K)) (f : list nat -> K) : list nat -> K :=
  match ops with
  | [] => f
  | (idx, v) :: rest => path_content d rest (fun q => if list_nat_eqb q (leaf_index_to_path P idx d) then v else f q)
  end.

Local Lemma run_holds ops : hash_total P -> forall t db f st rs, honest_db P db -> holds t db f ->
  run_updates P t db ops = (st, rs) ->
  (honest_db P (snd st) /\ exists new, snd st = new ++ db) /\
  (consistent P (snd st) ->
     Forall (fun r => is_ok r = true) rs /\ holds (fst st) (snd st) (path_content (sdepth P t) ops f) /\ sdepth P (fst st) = sdepth P t).
Proof.
  intros Ht. induction ops as [|[idx v] ops IH]; intros t db f st rs Hh R; cbn [run_updates].
  - injection 1 as <- <-. cbn [fst snd path_content]. split; [split; [assumption|exists []; reflexivity]|]. auto.
  - destruct (smt_update P t idx v db) as [[t1 db1] r1] eqn:U.
    destruct (run_updates P t1 db1 ops) as [st1 rs1] eqn:E. injection 1 as <- <-.
    destruct (update_extends _ _ _ _ _ _ _ Hh U) as (Hh1 & [new1 E1] & Hd).
    assert (exists new, snd st1 = new ++ db1) as [new2 E2].
    { clear - E OK Hh1. revert t1 db1 st1 rs1 Hh1 E; induction ops as [|[i w] ops IH]; intros t1 db1 st1 rs1 Hh1; cbn [run_updates].
      - injection 1 as <- _. exists []; reflexivity.
      - destruct (smt_update P t1 i w db1) as [[t2 db2] r2] eqn:U2.
        destruct (run_updates P t2 db2 ops) as [st2 rs2] eqn:E2. injection 1 as <- _.
        destruct (update_extends _ _ _ _ _ _ _ Hh1 U2) as (Hh2 & [nw E3] & _).
        destruct (IH _ _ _ _ Hh2 E2) as [nw2 E4]. exists (nw2 ++ nw). rewrite E4, E3. apply app_assoc. }
    assert (honest_db P (snd st1)) as Hhs.
    { clear - E OK Hh1. revert t1 db1 st1 rs1 Hh1 E; induction ops as [|[i w] ops IH]; intros t1 db1 st1 rs1 Hh1; cbn [run_updates].
      - injection 1 as <- _. assumption.
      - destruct (smt_update P t1 i w db1) as [[t2 db2] r2] eqn:U2.
        destruct (run_updates P t2 db2 ops) as [st2 rs2] eqn:E2. injection 1 as <- _.
        destruct (update_extends _ _ _ _ _ _ _ Hh1 U2) as (Hh2 & _ & _). exact (IH _ _ _ _ Hh2 E2). }
    split; [split; [assumption|exists (new2 ++ new1); rewrite E2, E1; apply app_assoc]|].
    intros C. assert (consistent P db1) as C1 by (rewrite E2 in C; now apply consistent_app in C).
    destruct (update_holds _ _ _ _ _ _ _ _ Ht Hh R U C1) as [(root & -> & _) R1].
    destruct (IH _ _ _ _ _ Hh1 R1 E) as [_ H]. destruct (H C) as (F & R2 & Hd2).
    split; [constructor; [reflexivity|assumption]|]. cbn [path_content]. rewrite Hd in R2. split; [assumption|congruence].
Qed.

Local Lemma path_content_app d ops1 ops2 f : path_content d (ops1 ++ ops2) f = path_content d ops2 (path_content d ops1 f).
Proof. revert f; induction ops1 as [|[i v] ops1 IH]; intros f; cbn [app path_content]; [reflexivity|apply IH]. Qed.

Local Lemma path_content_last d ops idx :
  path_content d ops (fun _ => s0 P) (leaf_index_to_path P idx d) = last_written P d ops idx.
Proof.
  induction ops as [|[i v] ops IH] using rev_ind; [reflexivity|].
  rewrite path_content_app. cbn [path_content]. unfold last_written. rewrite rev_app_distr. cbn [rev app find].
  destruct (list_nat_eqb (leaf_index_to_path P idx d) (leaf_index_to_path P i d)) eqn:E.
  - apply list_nat_eqb_spec in E. apply (path_eq P OK) in E.
    unfold leaf_number. rewrite (proj2 (Z.eqb_eq _ _) (eq_sym E)). reflexivity.
  - destruct (Z.eqb_spec (leaf_number P d i) (leaf_number P d idx)) as [E1|N]; [|exact IH].
    exfalso. symmetry in E1. apply (path_eq P OK) in E1. apply list_nat_eqb_spec in E1. congruence.
Qed.

Local Lemma new_holds depth db0 : hash_total P -> honest_db P db0 ->
  exists t db1, smt_new P depth db0 = (db1, Ok t) /\ sdepth P t = depth /\ honest_db P db1 /\
    (exists new, db1 = new ++ db0) /\ (consistent P db1 -> holds t db1 (fun _ => s0 P)).
Proof.
  intros Ht Hh. unfold smt_new. destruct (new_loop_total P depth (s0 P) db0 Ht) as (db1 & root & E). rewrite E. cbn [rbind].
  destruct (new_loop_spec P depth 0 (s0 P) db0 db1 (Ok root) ltac:(reflexivity) Hh E) as (Hh1 & Hx & Hr).
  exists (mkSmt P depth root), db1. split; [reflexivity|]. split; [reflexivity|]. split; [assumption|]. split; [assumption|]. intros C. specialize (Hr root eq_refl C).
  rewrite Nat.add_0_r in Hr. exact Hr.
Qed.

(** C72: a tree behaves as a map from leaves to values: whatever the sequence of updates, every
    update succeeds and reading any index returns the last value written to its leaf, or zero;
    unless two different lists of children stored in the database have the same hash. *)
Theorem C72_reads_the_last_write (db0 : hash_db P) (depth : nat) (ops : list (K * K)) :
  hash_total P -> honest_db P db0 ->
  exists t0 db1, smt_new P depth db0 = (db1, Ok t0) /\
    forall t db rs, run_updates P t0 db1 ops = ((t, db), rs) ->
      collision P (map snd db) \/
      (Forall (fun r => is_ok r = true) rs /\
       forall idx pf0, exists pf, smt_get P t idx pf0 db = Ok (last_written P depth ops idx, pf)).
Proof.
  intros Ht Hh. destruct (new_holds depth db0 Ht Hh) as (t0 & db1 & E & Hd & Hh1 & _ & R).
  exists t0, db1. split; [exact E|]. intros t db rs Hrun.
  destruct (consistent_or_collision db1 Hh1) as [C1|C1].
  2:{ left.
      assert (exists new, db = new ++ db1) as [new ->].
      { clear - Hrun OK Hh1. revert t0 db1 rs Hh1 Hrun; induction ops as [|[i w] ops IH]; intros t0 db1 rs Hh1; cbn [run_updates].
        - injection 1 as _ <- _. exists []; reflexivity.
        - destruct (smt_update P t0 i w db1) as [[t2 db2] r2] eqn:U2.
          destruct (run_updates P t2 db2 ops) as [st2 rs2] eqn:E2. injection 1 as -> _.
          destruct (update_extends _ _ _ _ _ _ _ Hh1 U2) as (Hh2 & [nw E3] & _).
          destruct (IH _ _ _ Hh2 E2) as [nw2 E4]. exists (nw2 ++ nw). rewrite E4, E3. apply app_assoc. }
      rewrite map_app. now apply collision_app. }
  destruct (run_holds ops Ht t0 db1 (fun _ => s0 P) _ _ Hh1 (R C1) Hrun) as [[Hh2 _] Hc]. cbn [fst snd] in *.
  destruct (consistent_or_collision db Hh2) as [C2|C2]; [|now left].
  right. destruct (Hc C2) as (F & R2 & Hd2). split; [exact F|]. intros idx pf0.
  unfold holds in R2. rewrite Hd2, Hd in R2.
  destruct (reads_get P db depth _ _ (leaf_index_to_path P idx depth) R2 (path_length P _ _) (path_lt P _ _)) as (pf & G & _).
  unfold smt_get. rewrite Hd2, Hd, G. cbn [rbind]. rewrite path_content_last. eauto.
Qed.

(** C73: what could be read from a tree - by its root - stays readable with the same result
    whatever is done afterwards with the same database: later updates of the tree, creation and
    updates of other trees, successful or not.  (So old roots stay valid, and trees can share a
    database.) *)
Theorem C73_old_roots_stay_readable (db : hash_db P) (ops : list (db_op P)) (t : smt P) idx pf0 x :
  honest_db P db -> smt_get P t idx pf0 db = Ok x ->
  let db' := fold_left (apply_op P) ops db in
  collision P (map snd db') \/ smt_get P t idx pf0 db' = Ok x.
Proof.
  intros Hh G db'.
  assert (honest_db P db' /\ exists new, db' = new ++ db) as [Hh' [new E]].
  { subst db'. clear G. revert db Hh; induction ops as [|o ops IH]; intros db Hh; cbn [fold_left].
    - split; [assumption|exists []; reflexivity].
    - assert (honest_db P (apply_op P db o) /\ exists nw, apply_op P db o = nw ++ db) as [Hh1 [nw E1]].
      { destruct o as [depth|t0 i v]; cbn [apply_op].
        - destruct (smt_new P depth db) as [db1 r] eqn:E. cbn [fst]. exact (new_extends _ _ _ _ Hh E).
        - destruct (smt_update P t0 i v db) as [[t1 db1] r] eqn:E. cbn [fst snd].
          destruct (update_extends _ _ _ _ _ _ _ Hh E) as (A & B & _). auto. }
      destruct (IH _ Hh1) as [Hh2 [nw2 E2]]. split; [assumption|]. exists (nw2 ++ nw). rewrite E2, E1. apply app_assoc. }
  destruct (consistent_or_collision db' Hh') as [C|C]; [|now left]. right.
  unfold smt_get in *. apply rbind_ok in G as (y & G & H). rewrite E in C |- *.
  rewrite (get_loop_mono P new db _ _ _ C G). exact H.
Qed.

(** C74: the proof returned with a value is accepted, for the tree's root and for the same root
    given explicitly; no assumption on the hash. *)
Theorem C74_proofs_verify (db : hash_db P) (t : smt P) idx v pf :
  honest_db P db -> smt_get P t idx (Some []) db = Ok (v, Some pf) ->
  smt_verify_proof P t idx v pf None = Ok true /\ smt_verify_proof P t idx v pf (Some (sroot P t)) = Ok true.
Proof.
  intros Hh G. unfold smt_get in G. apply rbind_ok in G as ([v0 pf0] & G & E). injection E as -> E. cbn [app] in E. subst pf0.
  destruct (get_loop_nodes P _ _ _ _ _ Hh (path_lt P _ _) G) as [L _]. rewrite path_length in L.
  unfold smt_verify_proof.
  rewrite verify_loop_fold by (rewrite ?rev_length, ?path_length; lia).
  rewrite Nat.sub_0_r, firstn_all2 by lia.
  rewrite (get_loop_fold P OK _ _ _ _ _ Hh (path_lt P _ _) G). cbn [rbind].
  rewrite (proj2 (ok_eqb P OK _ _) eq_refl). auto.
Qed.

Local Lemma fold_up_collision path : forall pf1 pf2 v1 v2 r,
  Forall (fun d => (d < arity P)%nat) path -> Forall (node_len P) pf1 -> Forall (node_len P) pf2 ->
  fold_up P path pf1 v1 = Ok r -> fold_up P path pf2 v2 = Ok r -> v1 <> v2 ->
  collision_between P (hashed_up P path pf1 v1) (hashed_up P path pf2 v2).
Proof.
  induction path as [|d path IH]; intros pf1 pf2 v1 v2 r Fp F1 F2 H1 H2 N.
  - destruct pf1, pf2; cbn [fold_up] in H1, H2; congruence.
  - destruct pf1 as [|s1 pf1]; [discriminate|]. destruct pf2 as [|s2 pf2]; [discriminate|]. cbn [fold_up] in H1, H2.
    inversion Fp as [|? ? Hd Fp']; subst. inversion F1 as [|? ? Hs1 F1']; subst. inversion F2 as [|? ? Hs2 F2']; subst.
    destruct (vec_insert_ok P d v1 s1 Hs1 Hd) as (l1 & E1 & L1). destruct (vec_insert_ok P d v2 s2 Hs2 Hd) as (l2 & E2 & L2).
    pose proof (vec_insert_inj P d v1 v2 s1 s2) as Inj.
    assert (l1 = firstn d s1 ++ v1 :: skipn d s1 /\ l2 = firstn d s2 ++ v2 :: skipn d s2) as [Q1 Q2] by (unfold vec_insert in E1, E2; destruct (_ <? _)%nat; [discriminate|]; destruct (_ <? _)%nat; [discriminate|]; split; congruence).
    rewrite E1 in H1. rewrite E2 in H2. cbn [rbind] in H1, H2. cbn [hashed_up]. rewrite <- Q1, <- Q2.
    apply rbind_ok in H1 as (h1 & Eh1 & H1). apply rbind_ok in H2 as (h2 & Eh2 & H2). rewrite Eh1, Eh2.
    destruct (K_dec h1 h2) as [->|Nh].
    2:{ destruct (IH pf1 pf2 h1 h2 r Fp' F1' F2' H1 H2 Nh) as (a & b & h & Ia & Ib & R). exists a, b, h. split; [now right|]. split; [now right|exact R]. }
    exists l1, l2, h2. split; [now left|]. split; [now left|]. repeat split; try assumption. intros E. rewrite E in E1. apply N.
    exact (proj1 (Inj l2 E1 E2)).
Qed.

(** C74: a proof binds the value: two accepted proofs against one root, for the same leaf and
    trees of the same depth, with different values: a list of children hashed in checking the one
    and a different one hashed in checking the other have the same hash.  (The proof nodes have arity-1 elements by their type.) *)
Theorem C74_proofs_are_binding (t1 t2 : smt P) idx1 idx2 v1 v2 pf1 pf2 root :
  sdepth P t1 = sdepth P t2 ->
  leaf_number P (sdepth P t1) idx1 = leaf_number P (sdepth P t1) idx2 ->
  Forall (fun n => length n = (arity P - 1)%nat) pf1 -> Forall (fun n => length n = (arity P - 1)%nat) pf2 ->
  smt_verify_proof P t1 idx1 v1 pf1 (Some root) = Ok true ->
  smt_verify_proof P t2 idx2 v2 pf2 (Some root) = Ok true ->
  v1 <> v2 ->
  collision_between P (hashed_by_proof P (sdepth P t1) idx1 v1 pf1) (hashed_by_proof P (sdepth P t2) idx2 v2 pf2).
Proof.
  intros Hd Hl F1 F2 V1 V2 N. apply (path_eq P OK) in Hl. unfold smt_verify_proof in *.
  rewrite <- Hd in V2. rewrite <- Hl in V2. set (path := leaf_index_to_path P idx1 (sdepth P t1)) in *.
  apply rbind_ok in V1 as (c1 & V1 & E1). apply rbind_ok in V2 as (c2 & V2 & E2).
  injection E1 as E1. injection E2 as E2. apply (ok_eqb P OK) in E1 as ->. apply (ok_eqb P OK) in E2 as ->.
  assert (forall v pf c, verify_loop P (sdepth P t1) 0 (rev path) pf v = Ok c -> (sdepth P t1 <= length pf)%nat) as Hlen.
  { intros v pf c H. destruct (sdepth P t1) as [|d] eqn:Ed; [lia|]. 
    assert (length (rev path) = S d) as Lr by (rewrite rev_length; apply path_length).
    destruct (rev path) as [|x rest]; [discriminate|]. cbn [verify_loop] in H.
    apply rbind_ok in H as (nd & H & _). unfold at_index in H.
    destruct (nth_error pf (S d - 1 - 0)) eqn:En; [|discriminate].
    assert ((S d - 1 - 0 < length pf)%nat) by (apply nth_error_Some; now rewrite En). lia. }
  pose proof (Hlen _ _ _ V1) as L1. pose proof (Hlen _ _ _ V2) as L2.
  rewrite verify_loop_fold in V1, V2 by (rewrite ?rev_length; unfold path; rewrite ?path_length; lia). rewrite Nat.sub_0_r in V1, V2.
  assert (forall n pf, Forall (node_len P) pf -> Forall (node_len P) (rev (firstn n pf))) as Hf.
  { intros n pf F. apply Forall_rev. apply Forall_forall. intros x Hx. rewrite Forall_forall in F. apply F.
    rewrite <- (firstn_skipn n pf). apply in_or_app. now left. }
  unfold hashed_by_proof. rewrite <- Hd, <- Hl.
  refine (fold_up_collision (rev path) _ _ _ _ _ _ _ _ V1 V2 N); [apply Forall_rev; apply path_lt|apply Hf; assumption|apply Hf; assumption].
Qed.

(** C74: in particular a proof accepted against a tree's root shows the value the tree holds. *)
Theorem C74_accepted_value_is_stored (db : hash_db P) (t : smt P) idx v v' pf pf' :
  honest_db P db -> smt_get P t idx (Some []) db = Ok (v, Some pf) ->
  Forall (fun n => length n = (arity P - 1)%nat) pf' ->
  smt_verify_proof P t idx v' pf' None = Ok true ->
  v' = v \/
  collision_between P (hashed_by_proof P (sdepth P t) idx v' pf') (hashed_by_proof P (sdepth P t) idx v pf).
Proof.
  intros Hh G F V. destruct (K_dec v' v) as [->|N]; [now left|]. right.
  destruct (C74_proofs_verify db t idx v pf Hh G) as [_ V2].
  assert (smt_verify_proof P t idx v' pf' (Some (sroot P t)) = Ok true) as V1 by exact V.
  unfold smt_get in G. apply rbind_ok in G as ([v0 pf0] & G & E). injection E as -> E. cbn [app] in E. subst pf0.
  destruct (get_loop_nodes P _ _ _ _ _ Hh (path_lt P _ _) G) as [_ Fn].
  exact (C74_proofs_are_binding t t idx idx v' v pf' pf (sroot P t) eq_refl eq_refl F Fn V1 V2 N).
Qed.

(** C75: the root is a function of the contents: two histories, over any two databases, that
    leave the same value at every index leave the same root. *)
Theorem C75_root_depends_on_contents_only (dbA dbB : hash_db P) depth opsA opsB :
  hash_total P -> honest_db P dbA -> honest_db P dbB ->
  (forall idx, last_written P depth opsA idx = last_written P depth opsB idx) ->
  forall tA0 dbA1 tB0 dbB1 tA dbA' rsA tB dbB' rsB,
  smt_new P depth dbA = (dbA1, Ok tA0) -> smt_new P depth dbB = (dbB1, Ok tB0) ->
  run_updates P tA0 dbA1 opsA = ((tA, dbA'), rsA) -> run_updates P tB0 dbB1 opsB = ((tB, dbB'), rsB) ->
  collision P (map snd dbA') \/ collision P (map snd dbB') \/ sroot P tA = sroot P tB.
Proof.
  intros Ht HA HB Same tA0 dbA1 tB0 dbB1 tA dbA' rsA tB dbB' rsB NA NB RA RB.
  assert (forall db0 ops t0 db1 t db rs, honest_db P db0 -> smt_new P depth db0 = (db1, Ok t0) ->
    run_updates P t0 db1 ops = ((t, db), rs) ->
    collision P (map snd db) \/ mroot P depth (path_content depth ops (fun _ => s0 P)) = Ok (sroot P t)) as Key.
  { intros db0 ops t0 db1 t db rs Hh N R.
    destruct (new_holds depth db0 Ht Hh) as (t0' & db1' & E & Hd & Hh1 & _ & R0). rewrite N in E. injection E as <- <-.
    assert (honest_db P db /\ exists new, db = new ++ db1) as [Hh' [new Enew]].
    { clear - R OK Hh1. revert t0 db1 rs Hh1 R; induction ops as [|[i w] ops IH]; intros t0 db1 rs Hh1; cbn [run_updates].
      - injection 1 as _ <- _. split; [assumption|exists []; reflexivity].
      - destruct (smt_update P t0 i w db1) as [[t2 db2] r2] eqn:U2.
        destruct (run_updates P t2 db2 ops) as [st2 rs2] eqn:E2. injection 1 as -> _.
        destruct (update_extends _ _ _ _ _ _ _ Hh1 U2) as (Hh2 & [nw E3] & _).
        destruct (IH _ _ _ Hh2 E2) as [Hh3 [nw2 E4]]. split; [assumption|]. exists (nw2 ++ nw). rewrite E4, E3. apply app_assoc. }
    destruct (consistent_or_collision db Hh') as [C|C]; [|now left]. right.
    assert (consistent P db1) as C1 by (rewrite Enew in C; now apply consistent_app in C).
    destruct (run_holds ops Ht t0 db1 _ _ _ Hh1 (R0 C1) R) as [_ Hc]. cbn [fst snd] in Hc.
    destruct (Hc C) as (_ & R2 & Hd2). unfold holds in R2. rewrite Hd2, Hd in R2.
    exact (reads_mroot P OK _ _ _ _ Hh' R2). }
  destruct (Key _ _ _ _ _ _ _ HA NA RA) as [C|KA]; [now left|].
  destruct (Key _ _ _ _ _ _ _ HB NB RB) as [C|KB]; [right; now left|].
  right. right. cut (Ok (sroot P tA) = Ok (sroot P tB)); [now injection 1|]. rewrite <- KA, <- KB.
  apply mroot_ext. intros p _ _.
  assert (forall ops, (forall i v, In (i, v) ops -> leaf_index_to_path P i depth <> p) ->
    forall f, path_content depth ops f p = f p) as Hnone.
  { induction ops as [|[i v] ops IH]; intros H f; cbn [path_content]; [reflexivity|].
    rewrite IH by (intros j w Hj; apply (H j w); now right).
    destruct (list_nat_eqb p (leaf_index_to_path P i depth)) eqn:E; [|reflexivity].
    apply list_nat_eqb_spec in E. exfalso. apply (H i v (or_introl eq_refl)). now symmetry. }
  assert (forall ops : list (K * K), (exists i v, In (i, v) ops /\ leaf_index_to_path P i depth = p) \/
            (forall i v, In (i, v) ops -> leaf_index_to_path P i depth <> p)) as Dec.
  { induction ops as [|[i v] ops [(j & w & Hj & Ej)|IH]]; [right; intros ? ? []|left; exists j, w; split; [now right|assumption]|].
    destruct (list_eq_dec Nat.eq_dec (leaf_index_to_path P i depth) p) as [E|N]; [left; exists i, v; split; [now left|assumption]|].
    right. intros j w [E|Hj]; [injection E as <- <-; assumption|now apply (IH j w)]. }
  destruct (Dec opsA) as [(i & v & _ & <-)|NoA]; [rewrite !path_content_last; apply Same|].
  destruct (Dec opsB) as [(i & v & _ & <-)|NoB]; [rewrite !path_content_last; apply Same|].
  rewrite !Hnone by assumption. reflexivity.
Qed.

(** C75: conversely trees with the same depth and root hold the same values, or the lists of
    children on the way from the root to the leaf collide. *)
Theorem C75_equal_roots_equal_contents (dbA dbB : hash_db P) (tA tB : smt P) idx vA vB pfA pfB :
  honest_db P dbA -> honest_db P dbB -> sdepth P tA = sdepth P tB -> sroot P tA = sroot P tB ->
  smt_get P tA idx (Some []) dbA = Ok (vA, Some pfA) -> smt_get P tB idx (Some []) dbB = Ok (vB, Some pfB) ->
  vA = vB \/
  collision_between P (hashed_by_proof P (sdepth P tA) idx vA pfA) (hashed_by_proof P (sdepth P tB) idx vB pfB).
Proof.
  intros HA HB Hd Hr GA GB. destruct (K_dec vA vB) as [->|N]; [now left|]. right.
  destruct (C74_proofs_verify _ _ _ _ _ HA GA) as [_ VA]. destruct (C74_proofs_verify _ _ _ _ _ HB GB) as [_ VB].
  rewrite <- Hr in VB. rewrite Hr in VA.
  assert (forall db (t : smt P) v pf, honest_db P db -> smt_get P t idx (Some []) db = Ok (v, Some pf) -> Forall (node_len P) pf) as Hn.
  { intros db t v pf Hh G. unfold smt_get in G. apply rbind_ok in G as ([v0 pf0] & G & E). injection E as -> E. cbn [app] in E. subst pf0.
    exact (proj2 (get_loop_nodes P _ _ _ _ _ Hh (path_lt P _ _) G)). }
  rewrite <- Hr in VA.
  exact (C74_proofs_are_binding tA tB idx idx vA vB pfA pfB (sroot P tA) Hd eq_refl (Hn _ _ _ _ HA GA) (Hn _ _ _ _ HB GB) VA VB N).
Qed.

(** C76: indices are leaves only modulo arity^depth: after writing [v] at [i], reading any index
    [j] congruent to [i] returns [v], although [j] was never written. *)
Theorem C76_congruent_indices_share_a_leaf (db0 : hash_db P) depth ops i j v :
  hash_total P -> honest_db P db0 ->
  stoZ P i mod Z.of_nat (arity P) ^ Z.of_nat depth = stoZ P j mod Z.of_nat (arity P) ^ Z.of_nat depth ->
  forall t0 db1 t db rs, smt_new P depth db0 = (db1, Ok t0) ->
  run_updates P t0 db1 (ops ++ [(i, v)]) = ((t, db), rs) ->
  collision P (map snd db) \/ exists pf, smt_get P t j None db = Ok (v, pf).
Proof.
  intros Ht Hh Hl t0 db1 t db rs N R.
  destruct (C72_reads_the_last_write db0 depth (ops ++ [(i, v)]) Ht Hh) as (t0' & db1' & E & H).
  rewrite N in E. injection E as <- <-. destruct (H _ _ _ R) as [C|[_ G]]; [now left|]. right.
  destruct (G j None) as (pf & G'). exists pf. rewrite G'. do 2 f_equal.
  unfold last_written. rewrite rev_app_distr. cbn [rev app find]. unfold leaf_number.
  rewrite (proj2 (Z.eqb_eq _ _) Hl). reflexivity.
Qed.

(** C77: a failed update leaves the tree as it was, and (C73) everything that could be read
    still can; a successful one returns the new root. *)
Theorem C77_update_root (t : smt P) idx v db t' db' r :
  smt_update P t idx v db = ((t', db'), r) ->
  sdepth P t' = sdepth P t /\ match r with Ok root => sroot P t' = root | Err _ => t' = t end.
Proof.
  unfold smt_update. destruct (smt_get P t idx (Some []) db) as [[v0 [sibs|]]|e].
  - destruct (update_loop P _ _ v db) as [db1 [root|e]]; injection 1 as <- _ <-; auto.
  - injection 1 as <- _ <-; auto.
  - injection 1 as <- _ <-; auto.
Qed.

(** C77: reading needs every node of the path in the database: with an empty database any tree
    of positive depth reports a missing hash, and so does an update. *)
Theorem C77_missing_nodes_are_reported (t : smt P) idx v pf0 : (0 < sdepth P t)%nat ->
  smt_get P t idx pf0 [] = Err (BpErr BHashNotFoundInDB) /\
  smt_update P t idx v [] = ((t, []), Err (BpErr BHashNotFoundInDB)).
Proof.
  intros Hd. assert (forall o, smt_get P t idx o [] = Err (BpErr BHashNotFoundInDB)) as G.
  { intros o. unfold smt_get. pose proof (path_length P idx (sdepth P t)) as L.
    destruct (leaf_index_to_path P idx (sdepth P t)); [cbn [length] in L; lia|]. reflexivity. }
  split; [apply G|]. unfold smt_update. rewrite G. reflexivity.
Qed.

(** C77: [verify_proof] panics on a proof with fewer nodes than levels, and ignores nodes after
    the first [depth] ones. *)
Theorem C77_short_proofs_panic (t : smt P) idx v pf root :
  (length pf < sdepth P t)%nat -> smt_verify_proof P t idx v pf root = Err Panic.
Proof.
  intros L. unfold smt_verify_proof. pose proof (path_length P idx (sdepth P t)) as Lp.
  destruct (rev (leaf_index_to_path P idx (sdepth P t))) as [|d rest] eqn:E.
  - apply (f_equal (@length nat)) in E. rewrite rev_length in E. cbn [length] in E. lia.
  - cbn [verify_loop]. unfold at_index.
    assert (nth_error pf (sdepth P t - 1 - 0) = None) as -> by (apply nth_error_None; lia). reflexivity.
Qed.
Theorem C77_extra_nodes_are_ignored (t : smt P) idx v pf extra root :
  (sdepth P t <= length pf)%nat -> smt_verify_proof P t idx v (pf ++ extra) root = smt_verify_proof P t idx v pf root.
Proof.
  intros L. unfold smt_verify_proof.
  rewrite !verify_loop_fold by (rewrite ?rev_length, ?path_length, ?app_length; lia).
  rewrite Nat.sub_0_r, firstn_app. replace (sdepth P t - length pf)%nat with 0%nat by lia.
  cbn [firstn]. now rewrite app_nil_r.
Qed.

(** C77: [get] appends its proof to the vector it is given; what it appends does not depend on
    what was there. *)
Theorem C77_get_appends_its_proof (t : smt P) idx old db v pf :
  smt_get P t idx (Some []) db = Ok (v, Some pf) <-> smt_get P t idx (Some old) db = Ok (v, Some (old ++ pf)).
Proof.
  unfold smt_get. destruct (get_loop P db (sroot P t) _) as [[v0 pf0]|e]; cbn [rbind app]; [|split; discriminate].
  split; intros H; injection H as -> H; subst; [reflexivity|].
  apply app_inv_head in H as ->. reflexivity.
Qed.

End Props.

(** Instances: natural numbers with a hash that writes its arguments in a large base (used only
    to show that the hypotheses can be met and what the conclusions say). *)
Definition ex_params (bits : nat) : smt_params :=
  mkSmtParams N 0%N N.eqb (fun n => [Z.of_N n]) Z.of_N bits
    (fun l => Ok (fold_left (fun acc x => acc * 65537 + x + 1) l 5)%N).
Lemma ex_params_ok bits : smt_ok (ex_params bits).
Proof.
  constructor; cbn [ex_params sK seqb sbytes stoZ].
  - intros a b. apply N.eqb_eq.
  - intros a b [= H]. now apply N2Z.inj.
  - intros a. apply N2Z.is_nonneg.
Qed.
Lemma ex_params_total bits : hash_total (ex_params bits).
Proof. intros l _. eexists; reflexivity. Qed.
Lemma ex_honest bits : honest_db (ex_params bits) [].
Proof. intros k l []. Qed.

Definition ex_ops : list (N * N) := [(5, 50); (6, 60); (5, 51); (21, 70); (0, 9)]%N.
Definition ex_state (bits depth : nat) :=
  let (db1, r) := smt_new (ex_params bits) depth [] in
  match r with
  | Ok t0 => Some (fst (run_updates (ex_params bits) t0 db1 ex_ops))
  | Err _ => None
  end.
Definition ex_reads (bits depth : nat) (idxs : list N) : list (option N) :=
  match ex_state bits depth with
  | Some (t, db) => map (fun i => match smt_get (ex_params bits) t i None db with Ok (v, _) => Some v | Err _ => None end) idxs
  | None => []
  end.

(** C72, C76: in the 4-ary tree of depth 2 there are 16 leaves: 21 overwrites leaf 5. *)
Example C72_ex_four_ary : ex_reads 2 2 [0; 5; 6; 21; 7; 16]%N = [Some 9; Some 70; Some 60; Some 70; Some 0; Some 9]%N.
Proof. vm_compute. reflexivity. Qed.
(** In the 8-ary tree of depth 2 there are 64. *)
Example C72_ex_eight_ary : ex_reads 3 2 [0; 5; 6; 21; 7; 16]%N = [Some 9; Some 51; Some 60; Some 70; Some 0; Some 0]%N.
Proof. vm_compute. reflexivity. Qed.

Definition ex_proof_ok (bits depth : nat) (i v : N) : option bool :=
  match ex_state bits depth with
  | Some (t, db) =>
      match smt_get (ex_params bits) t i (Some []) db with
      | Ok (_, Some pf) => match smt_verify_proof (ex_params bits) t i v pf None with Ok b => Some b | Err _ => None end
      | _ => None
      end
  | None => None
  end.
Example C74_ex_proof : ex_proof_ok 2 2 6 60 = Some true /\ ex_proof_ok 2 2 6 61 = Some false /\ ex_proof_ok 3 2 21 70 = Some true.
Proof. vm_compute. auto. Qed.

(** C76, refutation of "different indices are different leaves". *)
Theorem C76_refuted_indices_are_distinct_leaves :
  ~ (forall P, smt_ok P -> hash_total P -> forall depth i j v t0 db1 t db rs,
       i <> j -> smt_new P depth [] = (db1, Ok t0) -> run_updates P t0 db1 [(i, v)] = ((t, db), rs) ->
       exists pf, smt_get P t j None db = Ok (s0 P, pf)).
Proof.
  intros H.
  specialize (H (ex_params 2) (ex_params_ok 2) (ex_params_total 2) 1%nat 1%N 5%N 7%N).
  destruct (smt_new (ex_params 2) 1 []) as [db1 [t0|e]] eqn:E; [|vm_compute in E; discriminate].
  destruct (run_updates (ex_params 2) t0 db1 [(1, 7)]%N) as [[t db] rs] eqn:R.
  destruct (H _ _ _ _ _ ltac:(discriminate) eq_refl R) as [pf G].
  vm_compute in E. injection E as <- <-. vm_compute in R. injection R as <- <- <-. vm_compute in G. discriminate.
Qed.

(** C75: two orders of the same writes give the same root; C73: the root before is readable
    after. *)
Definition ex_root (bits depth : nat) (ops : list (N * N)) : option N :=
  let (db1, r) := smt_new (ex_params bits) depth [] in
  match r with Ok t0 => Some (sroot _ (fst (fst (run_updates (ex_params bits) t0 db1 ops)))) | Err _ => None end.
Example C75_ex_orders : ex_root 2 2 [(1, 7); (2, 8)]%N = ex_root 2 2 [(2, 3); (1, 7); (2, 8)]%N /\ ex_root 2 2 [(1, 7)]%N <> ex_root 2 2 [(1, 8)]%N.
Proof. vm_compute. split; [reflexivity|discriminate]. Qed.
Definition ex_old (bits : nat) : option (N * N) :=
  let (db1, r) := smt_new (ex_params bits) 2 [] in
  match r with
  | Ok t0 =>
      let '((t1, db2), _) := run_updates (ex_params bits) t0 db1 [(1, 7)]%N in
      let '((t2, db3), _) := run_updates (ex_params bits) t1 db2 [(1, 8); (3, 4)]%N in
      match smt_get _ t1 1%N None db3, smt_get _ t2 1%N None db3 with
      | Ok (a, _), Ok (b, _) => Some (a, b)
      | _, _ => None
      end
  | Err _ => None
  end.
Example C73_ex_old_root : ex_old 2 = Some (7, 8)%N /\ ex_old 3 = Some (7, 8)%N.
Proof. vm_compute. auto. Qed.
Example C77_ex_short : match ex_state 2 2 with Some (t, _) => smt_verify_proof (ex_params 2) t 6%N 60%N [] None | None => Ok true end = Err Panic.
Proof. vm_compute. reflexivity. Qed.

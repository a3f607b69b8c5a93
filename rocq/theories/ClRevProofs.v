(** Proofs about the revocation registry, deltas, witnesses and tails (C34-C38). *)
From Verif Require Import Base BnModel BnProofs StrMap HelpersModel HelpersProofs ClModel Alg ClRevModel ClRevSpec ClNonRevoc.
From Coq Require Import Permutation.
Open Scope list_scope.
Open Scope Z_scope.

Lemma zs_mem_in x s : zs_mem x s = true <-> In x s.
Proof.
  unfold zs_mem. rewrite existsb_exists. split.
  - intros (y & Hy & E). apply Z.eqb_eq in E. now subst.
  - intros Hx. exists x. split; [assumption|]. apply Z.eqb_refl.
Qed.
Lemma zs_mem_out x s : zs_mem x s = false <-> ~ In x s.
Proof. rewrite <- zs_mem_in. destruct (zs_mem x s); split; intros; try congruence. Qed.
Lemma zs_insert_in x y s : In x (zs_insert y s) <-> x = y \/ In x s.
Proof.
  unfold zs_insert. destruct (zs_mem y s) eqn:E.
  - apply zs_mem_in in E. split; [tauto|]. intros [->|]; assumption.
  - rewrite in_app_iff. cbn [In]. split; [intros [|[->|[]]]; tauto|intros [->|]; tauto].
Qed.
Lemma zs_extend_in x l s : In x (zs_extend s l) <-> In x s \/ In x l.
Proof.
  unfold zs_extend. revert s. induction l as [|y l IH]; intros s; cbn [fold_left In]; [tauto|].
  rewrite IH, zs_insert_in. split; [intros [[->|]|]; tauto|intros [|[->|]]; tauto].
Qed.
Lemma zs_diff_in x a b : In x (zs_diff a b) <-> In x a /\ ~ In x b.
Proof. unfold zs_diff. rewrite filter_In, negb_true_iff, zs_mem_out. tauto. Qed.
Lemma zs_remove_in x y s : In x (zs_remove y s) <-> x <> y /\ In x s.
Proof.
  unfold zs_remove. rewrite filter_In, negb_true_iff, Z.eqb_neq. split; intros [A B]; split; auto.
Qed.
Lemma zs_removes_in x l s : In x (fold_left (fun s i => zs_remove i s) l s) <-> In x s /\ ~ In x l.
Proof.
  revert s. induction l as [|y l IH]; intros s; cbn [fold_left In]; [tauto|].
  rewrite IH, zs_remove_in. split; [intros [[A B] D]; split; [assumption|intros [->|]; tauto]|intros [A B]; repeat split; auto].
Qed.
Lemma nodup_app {A} (a b : list A) : NoDup a -> NoDup b -> (forall x, In x a -> ~ In x b) -> NoDup (a ++ b).
Proof.
  induction 1 as [|x a Hx _ IH]; cbn [app]; intros Nb D; [assumption|].
  constructor; [rewrite in_app_iff; intros [|]; [contradiction|]; apply (D x); [now left|assumption]|].
  apply IH; [assumption|]. intros y Hy. apply D. now right.
Qed.
Lemma zs_insert_nodup y s : NoDup s -> NoDup (zs_insert y s).
Proof.
  intros N. unfold zs_insert. destruct (zs_mem y s) eqn:E; [assumption|]. apply zs_mem_out in E.
  apply nodup_app; [assumption|repeat constructor; intros []|]. intros x Hx [->|[]]. contradiction.
Qed.
Lemma zs_extend_nodup l s : NoDup s -> NoDup (zs_extend s l).
Proof. unfold zs_extend. revert s. induction l as [|y l IH]; intros s N; cbn [fold_left]; [assumption|]. apply IH. now apply zs_insert_nodup. Qed.
Lemma zs_removes_nodup l s : NoDup s -> NoDup (fold_left (fun s i => zs_remove i s) l s).
Proof. revert s. induction l as [|y l IH]; intros s N; cbn [fold_left]; [assumption|]. apply IH. now apply NoDup_filter. Qed.
Lemma without_in r V x : In x (without r V) <-> In x V /\ ~ In x r.
Proof.
  unfold without. rewrite filter_In, negb_true_iff. fold (zs_mem x r). rewrite zs_mem_out. tauto.
Qed.
Lemma without_nodup r V : NoDup V -> NoDup (without r V).
Proof. apply NoDup_filter. Qed.
Lemma zs_remove_nodup r V : NoDup V -> NoDup (zs_remove r V).
Proof. apply NoDup_filter. Qed.
Lemma idx_range_in L i : In i (idx_range L) <-> 1 <= i <= L.
Proof.
  unfold idx_range. rewrite in_map_iff. split.
  - intros (n & <- & Hn). apply in_seq in Hn. lia.
  - intros Hi. exists (Z.to_nat i). split; [lia|]. apply in_seq. lia.
Qed.
Lemma idx_range_nodup L : NoDup (idx_range L).
Proof. apply FinFun.Injective_map_NoDup; [intros a b; apply Nat2Z.inj|apply seq_NoDup]. Qed.

Section Rev.
Variable C : curve.
Hypothesis LW : curve_laws C.
Notation K := (cK C). Notation G1 := (cG1 C). Notation G2 := (cG2 C). Notation GT := (cGT C).
Let HK := cl_field C LW.
Let H1 := cl_g1 C LW.
Let H2 := cl_g2 C LW.
Let HT := cl_gt C LW.
Add Field KfRP : (proj1 HK).

Lemma gpow_eq (gamma : K) i : 0 <= i < 2 ^ 32 -> gpow C gamma i = fpow gamma (Z.to_nat i).
Proof. intros Hi. unfold gpow. destruct (transform_u32_spec i Hi) as (_ & _ & ->). reflexivity. Qed.
Lemma new_tail_eq i g_dash gamma : 0 <= i < 2 ^ 32 -> new_tail C i g_dash gamma = tail_at C g_dash gamma i.
Proof. intros Hi. unfold new_tail, tail_at. now rewrite gpow_eq. Qed.
Lemma fpow_add (g : K) a b : fpow g (a + b)%nat = fmul (fpow g a) (fpow g b).
Proof. induction a as [|a IH]; cbn [fpow Nat.add]; [ring|rewrite IH; ring]. Qed.
Lemma get_index_eq L i : 0 <= L -> L + 1 < 2 ^ 32 -> 1 <= i <= L -> get_index L i = L + 1 - i.
Proof. intros. unfold get_index, u32w. apply Z.mod_small. lia. Qed.
Lemma wit_index_eq L j i : 0 <= L -> 2 * L + 1 < 2 ^ 32 -> 1 <= j <= L -> 1 <= i <= L -> wit_index L j i = L + 1 - j + i.
Proof. intros. unfold wit_index, u32w. apply Z.mod_small. lia. Qed.

(** sums *)
Lemma msum_perm (l l' : list G2) : Permutation l l' -> msum l = msum l'.
Proof.
  induction 1 as [|x l l' _ IH|x y l|l1 l2 l3 _ IH1 _ IH2]; cbn [msum]; [reflexivity|now rewrite IH| |congruence].
  module_coefs HK H2; ring.
Qed.
Lemma msum_filter (f : Z -> G2) p V : msum (map f V) = madd (msum (map f (filter p V))) (msum (map f (filter (fun x => negb (p x)) V))).
Proof.
  induction V as [|x V IH]; cbn [map filter msum]; [module_coefs HK H2; ring|].
  rewrite IH. destruct (p x); cbn [negb map msum]; module_coefs HK H2; ring.
Qed.
Lemma msum_set (f : Z -> G2) V V' : NoDup V -> NoDup V' -> same_set V V' -> msum (map f V) = msum (map f V').
Proof. intros N N' S. apply msum_perm, Permutation_map, NoDup_Permutation; assumption. Qed.
(** removing a subset *)
Lemma msum_without (f : Z -> G2) R V : NoDup V -> NoDup R -> (forall x, In x R -> In x V) ->
  msum (map f (without R V)) = msub (msum (map f V)) (msum (map f R)).
Proof.
  intros NV NR S. rewrite (msum_filter f (fun x => zs_mem x R) V). unfold without.
  change (fun j => negb (existsb (Z.eqb j) R)) with (fun x => negb (zs_mem x R)).
  rewrite (msum_set f (filter (fun x => zs_mem x R) V) R); [|now apply NoDup_filter|assumption|].
  - unfold msub. module_coefs HK H2; ring.
  - intros x. rewrite filter_In, zs_mem_in. split; [tauto|]. auto.
Qed.
Lemma msum_remove (f : Z -> G2) i V : NoDup V -> In i V -> msum (map f (zs_remove i V)) = msub (msum (map f V)) (f i).
Proof.
  intros N I. rewrite <- (msum_set f (without [i] V)).
  - rewrite msum_without; [|assumption|repeat constructor; intros []|intros x [->|[]]; assumption].
    cbn [map msum]. unfold msub. module_coefs HK H2; ring.
  - now apply without_nodup.
  - now apply zs_remove_nodup.
  - intros x. rewrite without_in, zs_remove_in. cbn [In]. split; [intros [A B]; split; [intros ->; tauto|assumption]|].
    intros [A B]. split; [assumption|]. intros [->|[]]. contradiction.
Qed.
Lemma zs_remove_id i V : ~ In i V -> zs_remove i V = V.
Proof.
  intros N. unfold zs_remove. induction V as [|x V IH]; [reflexivity|]. cbn [filter].
  destruct (Z.eqb_spec i x); [subst; exfalso; apply N; now left|]. cbn [negb]. rewrite IH; [reflexivity|]. intros Q. apply N. now right.
Qed.

(** the access loop *)
Lemma access_loop_add access (t : Z -> G2) idxs a : (forall i, In i idxs -> access i = Ok (t i)) ->
  access_loop C access madd idxs a = (madd a (msum (map t idxs)), Ok tt).
Proof.
  revert a. induction idxs as [|i idxs IH]; intros a E; cbn [access_loop map msum].
  - f_equal. module_coefs HK H2; ring.
  - rewrite (E i) by now left. rewrite IH by (intros; apply E; now right). f_equal. module_coefs HK H2; ring.
Qed.
Lemma access_loop_sub access (t : Z -> G2) idxs a : (forall i, In i idxs -> access i = Ok (t i)) ->
  access_loop C access msub idxs a = (msub a (msum (map t idxs)), Ok tt).
Proof.
  revert a. induction idxs as [|i idxs IH]; intros a E; cbn [access_loop map msum].
  - f_equal. unfold msub. module_coefs HK H2; ring.
  - rewrite (E i) by now left. rewrite IH by (intros; apply E; now right). f_equal. unfold msub. module_coefs HK H2; ring.
Qed.

(** ** one call each *)
Section Reg.
Variables (L : Z) (g_dash : G2) (gamma : K) (access : Z -> res G2).
Hypothesis HL : 0 <= L.
Hypothesis HL32 : 2 * L + 1 < 2 ^ 32.
Hypothesis HA : serves_tails C access g_dash gamma L.
Notation tail := (tail_at C g_dash gamma).
Notation acc := (accum_of C g_dash gamma L).

Lemma access_index i : 1 <= i <= L -> access (get_index L i) = Ok (tail (L + 1 - i)).
Proof. intros Hi. rewrite get_index_eq by lia. apply HA. lia. Qed.
Lemma map_get_index V : (forall i, In i V -> 1 <= i <= L) -> map (get_index L) V = map (fun j => L + 1 - j) V.
Proof. intros R. apply map_ext_in. intros i Hi. apply get_index_eq; auto; lia. Qed.
Lemma acc_eq V : acc V = msum (map tail (map (fun j => L + 1 - j) V)).
Proof. unfold accum_of. now rewrite map_map. Qed.

Lemma new_registry_eq (pk : rpk C) dflt : rk_g_dash pk = g_dash ->
  new_revocation_registry C pk gamma L dflt = acc (initial_valid L dflt).
Proof.
  intros E. unfold new_revocation_registry, initial_valid. rewrite E. destruct dflt; [|reflexivity].
  fold (idx_range L). rewrite acc_eq.
  assert (forall l a, (forall i, In i l -> 1 <= i <= L) ->
    fold_left (fun accum i => madd accum (new_tail C (get_index L i) g_dash gamma)) l a = madd a (msum (map tail (map (fun j => L + 1 - j) l)))) as G.
  { induction l as [|i l IH]; intros a R; cbn [fold_left map msum]; [module_coefs HK H2; ring|].
    rewrite IH by (intros; apply R; now right).
    rewrite get_index_eq, new_tail_eq; try lia; [|specialize (R i (or_introl eq_refl)); lia..].
    module_coefs HK H2; ring. }
  rewrite G by (intros i; apply idx_range_in). module_coefs HK H2; ring.
Qed.

Lemma revoke_ok i accum : 1 <= i <= L ->
  revoke_credential C accum L i access =
    (msub accum (tail (L + 1 - i)), Ok (mkDelta (Some accum) (msub accum (tail (L + 1 - i))) [] [i])).
Proof.
  intros Hi. unfold revoke_credential. rewrite (access_loop_sub access tail); [|].
  - rewrite get_index_eq by lia. cbn [map msum].
    replace (msub accum (madd (tail (L + 1 - i)) m0)) with (msub accum (tail (L + 1 - i))) by (unfold msub; module_coefs HK H2; ring). reflexivity.
  - intros j [<-|[]]. rewrite access_index by assumption. now rewrite get_index_eq by lia.
Qed.
Lemma recovery_ok i accum : 1 <= i <= L ->
  recovery_credential C accum L i access =
    (madd accum (tail (L + 1 - i)), Ok (mkDelta (Some accum) (madd accum (tail (L + 1 - i))) [i] [])).
Proof.
  intros Hi. unfold recovery_credential. rewrite (access_loop_add access tail); [|].
  - rewrite get_index_eq by lia. cbn [map msum].
    replace (madd accum (madd (tail (L + 1 - i)) m0)) with (madd accum (tail (L + 1 - i))) by (module_coefs HK H2; ring). reflexivity.
  - intros j [<-|[]]. rewrite access_index by assumption. now rewrite get_index_eq by lia.
Qed.
Lemma update_ok issued revoked accum :
  (forall i, In i issued -> 1 <= i <= L) -> (forall i, In i revoked -> 1 <= i <= L) ->
  update_revocation_registry C accum L issued revoked access =
    let a := msub (madd accum (acc issued)) (acc revoked) in (a, Ok (mkDelta (Some accum) a issued revoked)).
Proof.
  intros RI RR. unfold update_revocation_registry. rewrite !map_get_index by assumption.
  rewrite (access_loop_add access tail).
  - rewrite (access_loop_sub access tail); [now rewrite !acc_eq|].
    intros j Hj. apply in_map_iff in Hj as (i & <- & Hi). apply HA. specialize (RR i Hi). lia.
  - intros j Hj. apply in_map_iff in Hj as (i & <- & Hi). apply HA. specialize (RI i Hi). lia.
Qed.
Lemma acc_cons i V : acc (i :: V) = madd (acc V) (tail (L + 1 - i)).
Proof. unfold accum_of. cbn [map msum]. module_coefs HK H2; ring. Qed.
Lemma acc_app V W : acc (V ++ W) = madd (acc V) (acc W).
Proof. unfold accum_of. now rewrite map_app, (msum_app K G2 H2). Qed.
Lemma acc_without R V : NoDup V -> NoDup R -> (forall x, In x R -> In x V) -> acc (without R V) = msub (acc V) (acc R).
Proof. intros. unfold accum_of. now apply msum_without. Qed.
Lemma acc_set V V' : NoDup V -> NoDup V' -> same_set V V' -> acc V = acc V'.
Proof. intros. unfold accum_of. now apply msum_set. Qed.

(** ** the invariant *)
Definition reg_inv (s : G2 * list Z) : Prop :=
  NoDup (snd s) /\ (forall i, In i (snd s) -> 1 <= i <= L) /\ fst s = acc (snd s).
Lemma issue_accum i ctx ur pk sk dflt accum gamma' vr c accum' cred d : 1 <= i <= L ->
  new_non_revocation_credential C i ctx ur pk sk L dflt accum gamma' access vr c = (accum', Ok (cred, d)) ->
  if dflt then accum' = accum /\ d = None
  else accum' = madd accum (tail (L + 1 - i)) /\ d = Some (mkDelta (Some accum) accum' [i] []).
Proof.
  intros Hi. unfold new_non_revocation_credential.
  destruct ur, pk, sk; try (intros; congruence). destruct (goe_from_bytes C _); [|congruence].
  destruct dflt; [intros E; inversion E; auto|].
  rewrite (access_loop_add access tail).
  - rewrite get_index_eq by lia. cbn [map msum]. intros E.
    assert (accum' = madd accum (madd (tail (L + 1 - i)) m0)) as -> by congruence.
    assert (d = Some (mkDelta (Some accum) (madd accum (madd (tail (L + 1 - i)) m0)) [i] [])) as -> by congruence.
    replace (madd accum (madd (tail (L + 1 - i)) m0)) with (madd accum (tail (L + 1 - i))) by (module_coefs HK H2; ring). auto.
  - intros j [<-|[]]. rewrite access_index by assumption. now rewrite get_index_eq by lia.
Qed.
Lemma step_inv dflt s d s' : reg_step C L dflt access s d s' -> reg_inv s ->
  reg_inv s' /\
  match d with
  | None => s' = s
  | Some d => rd_prev d = Some (fst s) /\ rd_accum d = fst s'
  end.
Proof.
  intros St (N & R & A). destruct St as [V accum accum' i ctx ur pk sk gm vr c cred d Hi Hn E|V accum accum' i d Hi E|V accum accum' i d Hi Hn E|V accum accum' issued revoked d NI RI NR RR E];
    cbn [fst snd] in N, R, A; unfold reg_inv; cbn [fst snd].
  - apply issue_accum in E; [|assumption]. destruct dflt.
    + destruct E as [-> ->]. auto.
    + destruct E as [-> ->]. cbn [rd_prev rd_accum]. split; [|auto]. specialize (Hn eq_refl). split; [now constructor|]. split.
      * intros j [<-|Hj]; auto.
      * now rewrite acc_cons, A.
  - rewrite revoke_ok in E by auto. assert (accum' = msub accum (tail (L + 1 - i))) as -> by congruence.
    assert (d = mkDelta (Some accum) (msub accum (tail (L + 1 - i))) [] [i]) as -> by congruence. cbn [rd_prev rd_accum].
    split; [|auto]. split; [now apply without_nodup|]. split.
    + intros j Hj. apply without_in in Hj as [Hj _]. auto.
    + rewrite acc_without, A; [|assumption|repeat constructor; intros []|intros x [<-|[]]; assumption].
      f_equal. rewrite acc_cons. unfold accum_of. cbn [map msum]. module_coefs HK H2; ring.
  - rewrite recovery_ok in E by auto. assert (accum' = madd accum (tail (L + 1 - i))) as -> by congruence.
    assert (d = mkDelta (Some accum) (madd accum (tail (L + 1 - i))) [i] []) as -> by congruence. cbn [rd_prev rd_accum].
    split; [|auto]. split; [now constructor|]. split; [intros j [<-|Hj]; auto|]. now rewrite acc_cons, A.
  - rewrite update_ok in E; [|intros j Hj; apply RI, Hj|auto].
    cbv zeta in E.
    assert (accum' = msub (madd accum (acc issued)) (acc revoked)) as -> by congruence.
    match type of E with (?a, Ok ?x) = _ => assert (d = x) as -> by congruence end. clear E. cbn [rd_prev rd_accum].
    assert (NoDup (issued ++ V)) as NA by (apply nodup_app; auto; intros x Hx; apply RI, Hx).
    split; [|auto]. split; [now apply without_nodup|]. split.
    + intros j Hj. apply without_in in Hj as [Hj _]. apply in_app_iff in Hj as [Hj|Hj]; [apply RI, Hj|auto].
    + rewrite acc_without; [|assumption|assumption|intros x Hx; apply in_app_iff; right; auto].
      rewrite acc_app, A. unfold msub. module_coefs HK H2; ring.
Qed.
Lemma step_net dflt s d s' : reg_step C L dflt access s d s' -> reg_inv s ->
  match d with
  | None => s' = s
  | Some d => net_change C d (snd s) (snd s') /\ NoDup (rd_issued d) /\ NoDup (rd_revoked d)
  end.
Proof.
  intros St (N & R & A). destruct St as [V accum accum' i ctx ur pk sk gm vr c cred d Hi Hn E|V accum accum' i d Hi E|V accum accum' i d Hi Hn E|V accum accum' issued revoked d NI RI NR RR E];
    cbn [fst snd] in *.
  - apply issue_accum in E; [|assumption]. destruct dflt; destruct E as [-> ->]; [reflexivity|].
    cbn [rd_issued rd_revoked]. specialize (Hn eq_refl). split; [|split; repeat constructor; intros []].
    intros j. cbn [rd_issued rd_revoked In]. split; [split; [intros [<-|[]]; tauto|intros [[<-|]]; tauto]|tauto].
  - rewrite revoke_ok in E by auto.
    match type of E with (?a, Ok ?x) = _ => assert (d = x) as -> by congruence end. clear E.
    cbn [rd_issued rd_revoked]. split; [|split; repeat constructor; intros []].
    intros j. cbn [rd_issued rd_revoked]. rewrite !without_in. cbn [In]. split; [tauto|].
    split; [intros [<-|[]]; tauto|]. intros [J1 J2]. destruct (Z.eq_dec i j); [tauto|]. exfalso. apply J2. tauto.
  - rewrite recovery_ok in E by auto.
    match type of E with (?a, Ok ?x) = _ => assert (d = x) as -> by congruence end. clear E.
    cbn [rd_issued rd_revoked]. split; [|split; repeat constructor; intros []].
    intros j. cbn [rd_issued rd_revoked In]. split; [split; [intros [<-|[]]; tauto|intros [[<-|]]; tauto]|tauto].
  - rewrite update_ok in E; [|intros j Hj; apply RI, Hj|auto]. cbv zeta in E.
    match type of E with (?a, Ok ?x) = _ => assert (d = x) as -> by congruence end. clear E.
    cbn [rd_issued rd_revoked]. split; [|auto].
    intros j. cbn [rd_issued rd_revoked]. rewrite !without_in, !in_app_iff.
    destruct (in_dec Z.eq_dec j V) as [Hj|Hj], (in_dec Z.eq_dec j issued) as [Hi|Hi], (in_dec Z.eq_dec j revoked) as [Hr|Hr]; try tauto.
    + exfalso. apply (RI j); assumption.
    + exfalso. apply (RI j); assumption.
    + exfalso. apply Hj, RR, Hr.
    + exfalso. apply Hj, RR, Hr.
Qed.
Lemma history_inv dflt s ds s' : reg_history C L dflt access s ds s' -> reg_inv s -> reg_inv s'.
Proof. induction 1 as [|s s' s'' d ds St _ IH]; intros I; [assumption|]. apply IH. apply (step_inv _ _ _ _ St I). Qed.
Lemma initial_inv (pk : rpk C) dflt : rk_g_dash pk = g_dash ->
  reg_inv (new_revocation_registry C pk gamma L dflt, initial_valid L dflt).
Proof.
  intros E. unfold reg_inv. cbn [fst snd]. rewrite (new_registry_eq pk dflt E).
  split; [|split; [|reflexivity]].
  - unfold initial_valid. destruct dflt; [apply idx_range_nodup|constructor].
  - unfold initial_valid. destruct dflt; [intros i; apply idx_range_in|intros i []].
Qed.

(** ** witnesses *)
Notation wit := (witness_of C g_dash gamma L).
Lemma map_wit_index i V : 1 <= i <= L -> (forall j, In j V -> 1 <= j <= L) ->
  map (fun j => wit_index L j i) V = map (fun j => L + 1 - j + i) V.
Proof. intros Hi R. apply map_ext_in. intros j Hj. apply wit_index_eq; auto; lia. Qed.
Lemma wit_eq i V : wit i V = msum (map tail (map (fun j => L + 1 - j + i) (zs_remove i V))).
Proof. unfold witness_of, zs_remove. now rewrite map_map. Qed.
Lemma wit_loop i V : 1 <= i <= L -> (forall j, In j V -> 1 <= j <= L) ->
  access_loop C access madd (map (fun j => wit_index L j i) (zs_remove i V)) m0 = (wit i V, Ok tt).
Proof.
  intros Hi R. rewrite map_wit_index; [|assumption|intros j Hj; apply zs_remove_in in Hj; apply R, Hj].
  rewrite (access_loop_add access tail).
  - rewrite wit_eq. f_equal. module_coefs HK H2; ring.
  - intros k Hk. apply in_map_iff in Hk as (j & <- & Hj). apply zs_remove_in in Hj as [_ Hj]. specialize (R j Hj). apply HA. lia.
Qed.
Lemma wit_set i V V' : NoDup V -> NoDup V' -> same_set V V' -> wit i V = wit i V'.
Proof.
  intros N N' S. unfold witness_of. apply (msum_set (fun j => tail (L + 1 - j + i))); [now apply NoDup_filter|now apply NoDup_filter|].
  intros x. rewrite !filter_In. now rewrite (S x).
Qed.
Lemma witness_new_ok i (dflt : bool) d V : 1 <= i <= L -> NoDup V -> (forall j, In j V -> 1 <= j <= L) ->
  (if dflt then forall j, In j V <-> 1 <= j <= L /\ ~ In j (rd_revoked d) else NoDup (rd_issued d) /\ same_set (rd_issued d) V) ->
  witness_new C i L dflt d access = Ok (wit i V).
Proof.
  intros Hi N R S. unfold witness_new.
  set (W := if dflt then filter (fun i0 => negb (zs_mem i0 (rd_revoked d))) (idx_range L) else rd_issued d).
  assert (NoDup W /\ same_set W V) as [NW SW].
  { subst W. destruct dflt.
    - split; [apply NoDup_filter, idx_range_nodup|]. intros x. rewrite filter_In, idx_range_in, negb_true_iff, zs_mem_out. now rewrite S.
    - exact S. }
  rewrite wit_loop; [|assumption|intros j Hj; apply R, SW, Hj]. cbn [rbind]. f_equal. now apply wit_set.
Qed.
Lemma witness_update_ok i d omega V V' : 1 <= i <= L -> NoDup V -> NoDup V' ->
  (forall j, In j V -> 1 <= j <= L) -> (forall j, In j V' -> 1 <= j <= L) ->
  NoDup (rd_issued d) -> NoDup (rd_revoked d) -> net_change C d V V' ->
  omega = wit i V -> witness_update C omega i L d access = Ok (wit i V').
Proof.
  intros Hi N N' R R' NI NR NC ->. unfold witness_update.
  rewrite !wit_loop; try assumption;
    [|intros j Hj; apply NC in Hj; apply R', Hj|intros j Hj; apply NC in Hj; apply R, Hj].
  cbn [rbind]. f_equal.
  set (f := fun j => tail (L + 1 - j + i)).
  assert (forall W, wit i W = msum (map f (zs_remove i W))) as WE by reflexivity.
  rewrite !WE.
  rewrite (msum_filter f (fun x => zs_mem x V') (zs_remove i V)).
  rewrite (msum_filter f (fun x => zs_mem x V) (zs_remove i V')).
  rewrite (msum_set f (filter (fun x => zs_mem x V') (zs_remove i V)) (filter (fun x => zs_mem x V) (zs_remove i V'))).
  - rewrite (msum_set f (filter (fun x => negb (zs_mem x V')) (zs_remove i V)) (zs_remove i (rd_revoked d))).
    + rewrite (msum_set f (filter (fun x => negb (zs_mem x V)) (zs_remove i V')) (zs_remove i (rd_issued d))).
      * unfold msub. module_coefs HK H2; ring.
      * now apply NoDup_filter, NoDup_filter.
      * now apply NoDup_filter.
      * intros x. rewrite filter_In, !zs_remove_in, negb_true_iff, zs_mem_out. rewrite (proj1 (NC x)). tauto.
    + now apply NoDup_filter, NoDup_filter.
    + now apply NoDup_filter.
    + intros x. rewrite filter_In, !zs_remove_in, negb_true_iff, zs_mem_out. rewrite (proj2 (NC x)). tauto.
  - now apply NoDup_filter, NoDup_filter.
  - now apply NoDup_filter, NoDup_filter.
  - intros x. rewrite !filter_In, !zs_remove_in, !zs_mem_in. tauto.
Qed.

(** the pairing equation *)
Section Pairing.
Variable g : G1.
Let g_i (i : Z) : G1 := smul (fpow gamma (Z.to_nat i)) g.
Let z : GT := smul (fpow gamma (Z.to_nat (L + 1))) (pair g g_dash).
Lemma pair_msum (l : list G2) : pair g (msum l) = msum (map (pair g) l).
Proof.
  induction l as [|x l IH]; cbn [msum map]; [apply (pr_0_r C LW)|]. now rewrite (pr_add_r C LW), IH.
Qed.
Lemma shift_tail i j : 1 <= i <= L -> 1 <= j <= L -> smul (fpow gamma (Z.to_nat i)) (tail (L + 1 - j)) = tail (L + 1 - j + i).
Proof.
  intros Hi Hj. unfold tail_at. replace (Z.to_nat (L + 1 - j + i)) with (Z.to_nat i + Z.to_nat (L + 1 - j))%nat by lia.
  rewrite fpow_add. module_coefs HK H2; ring.
Qed.
(** gamma^i times the accumulator *)
Lemma shift_acc i V : 1 <= i <= L -> (forall j, In j V -> 1 <= j <= L) ->
  smul (fpow gamma (Z.to_nat i)) (acc V) = msum (map (fun j => tail (L + 1 - j + i)) V).
Proof.
  intros Hi R. unfold accum_of. induction V as [|j V IH]; cbn [map msum]; [module_coefs HK H2; ring|].
  rewrite <- IH by (intros; apply R; now right). rewrite <- (shift_tail i j) by (auto; apply R; now left). module_coefs HK H2; ring.
Qed.
Lemma shift_wit i V : 1 <= i <= L -> NoDup V -> (forall j, In j V -> 1 <= j <= L) ->
  smul (fpow gamma (Z.to_nat i)) (acc V) = madd (wit i V) (if zs_mem i V then tail (L + 1) else m0).
Proof.
  intros Hi N R. rewrite shift_acc by assumption. unfold witness_of. fold (zs_remove i V).
  destruct (zs_mem i V) eqn:M.
  - apply zs_mem_in in M. rewrite (msum_remove (fun j => tail (L + 1 - j + i))) by assumption.
    replace (L + 1 - i + i) with (L + 1) by lia. unfold msub. module_coefs HK H2; ring.
  - apply zs_mem_out in M. rewrite zs_remove_id by assumption. module_coefs HK H2; ring.
Qed.
Lemma z_tail : z = pair g (tail (L + 1)).
Proof. unfold z, tail_at. now rewrite (pr_mul_r C LW). Qed.
(** for an index in the set the witness equation holds *)
Lemma witness_equation i V : 1 <= i <= L -> NoDup V -> (forall j, In j V -> 1 <= j <= L) -> In i V ->
  pair (g_i i) (acc V) = madd (pair g (wit i V)) z.
Proof.
  intros Hi N R I. unfold g_i. rewrite (pr_mul_l C LW), <- (pr_mul_r C LW), shift_wit by assumption.
  apply zs_mem_in in I. rewrite I. now rewrite (pr_add_r C LW), z_tail.
Qed.
Lemma smul_nz (x : K) (v : GT) : smul x v = m0 -> x <> f0 -> v = m0.
Proof. intros E Nx. replace v with (smul (finv x) (smul x v)) by (module_coefs HK HT; field; exact Nx). rewrite E. module_coefs HK HT; ring. Qed.
Lemma fpow_nz (x : K) n : x <> f0 -> fpow x n <> f0.
Proof. intros Nx. induction n as [|n IH]; cbn [fpow]; [apply (f1_neq_0 K HK)|]. intros E. apply (fmul_integral K HK) in E as [|]; contradiction. Qed.
Lemma witness_equation_iff i V : gamma <> f0 -> pair g g_dash <> m0 ->
  1 <= i <= L -> NoDup V -> (forall j, In j V -> 1 <= j <= L) ->
  (pair (g_i i) (acc V) = madd (pair g (wit i V)) z <-> In i V).
Proof.
  intros Ng Np Hi N R. split; [|now apply witness_equation].
  intros E. destruct (zs_mem i V) eqn:M; [now apply zs_mem_in|exfalso].
  unfold g_i in E. rewrite (pr_mul_l C LW), <- (pr_mul_r C LW), shift_wit, M in E by assumption.
  assert (z = m0) as Z0.
  { replace z with (madd (madd (pair g (wit i V)) z) (mopp (pair g (wit i V)))) by (module_coefs HK HT; ring).
    rewrite <- E, (pr_add_r C LW), (pr_0_r C LW). module_coefs HK HT; ring. }
  unfold z in Z0. apply smul_nz in Z0; [contradiction|]. now apply fpow_nz.
Qed.
(** the witness is unique when [pair g] is injective; for an absent index any accepted
    witness is the honest sum minus the tail L+1 *)
Lemma witness_unique i V omega : (forall a b : G2, pair g a = pair g b -> a = b) ->
  1 <= i <= L -> NoDup V -> (forall j, In j V -> 1 <= j <= L) ->
  (pair (g_i i) (acc V) = madd (pair g omega) z <->
   omega = if zs_mem i V then wit i V else msub (wit i V) (tail (L + 1))).
Proof.
  intros Inj Hi N R. unfold g_i. rewrite (pr_mul_l C LW), <- (pr_mul_r C LW), shift_wit, z_tail by assumption.
  rewrite <- (pr_add_r C LW). split.
  - intros E. apply Inj in E.
    replace omega with (msub (madd omega (tail (L + 1))) (tail (L + 1))) by (unfold msub; module_coefs HK H2; ring). rewrite <- E.
    destruct (zs_mem i V); unfold msub; module_coefs HK H2; ring.
  - intros ->. f_equal. destruct (zs_mem i V); unfold msub; module_coefs HK H2; ring.
Qed.
(** hence the tail L+1, which the tails file contains, makes an accepted witness for
    any absent index *)
Lemma witness_forgery i V : 1 <= i <= L -> NoDup V -> (forall j, In j V -> 1 <= j <= L) -> ~ In i V ->
  pair (g_i i) (acc V) = madd (pair g (msub (wit i V) (tail (L + 1)))) z.
Proof.
  intros Hi N R I. unfold g_i. rewrite (pr_mul_l C LW), <- (pr_mul_r C LW), shift_wit, z_tail by assumption.
  apply zs_mem_out in I. rewrite I, <- (pr_add_r C LW). f_equal. unfold msub. module_coefs HK H2; ring.
Qed.
End Pairing.
End Reg.

(** ** deltas *)
Lemma merge_refused (a b : rdelta C) : is_ok (delta_merge C a b) = true <-> rd_prev b = Some (rd_accum a).
Proof.
  unfold delta_merge. destruct (rd_prev b) as [p|]; [|split; discriminate].
  destruct (meqb (rd_accum a) p) eqn:E; cbn [negb is_ok].
  - apply (meqb_eq K G2 H2) in E. subst. tauto.
  - split; [discriminate|]. intros Q. assert (p = rd_accum a) as -> by congruence.
    assert (meqb (rd_accum a) (rd_accum a) = true) by now apply (meqb_eq K G2 H2). congruence.
Qed.
Lemma merge_net a b m V0 V1 V2 : delta_merge C a b = Ok m -> net_change C a V0 V1 -> net_change C b V1 V2 ->
  rd_prev m = rd_prev a /\ rd_accum m = rd_accum b /\ net_change C m V0 V2.
Proof.
  unfold delta_merge. destruct (rd_prev b) as [p|]; [|discriminate]. destruct (negb _); [discriminate|].
  intros E NA NB.
  match type of E with Ok ?x = _ => assert (m = x) as -> by congruence end. clear E.
  cbn [rd_prev rd_accum]. split; [reflexivity|]. split; [reflexivity|].
  intros i. cbn [rd_issued rd_revoked]. rewrite !zs_removes_in, !zs_extend_in, !zs_diff_in, !zs_extend_in, !zs_diff_in.
  destruct (NA i) as [A1 A2]. destruct (NB i) as [B1 B2].
  destruct (in_dec Z.eq_dec i V0), (in_dec Z.eq_dec i V1), (in_dec Z.eq_dec i V2); tauto.
Qed.
Lemma merge_nodup a b m : delta_merge C a b = Ok m ->
  NoDup (rd_issued a) -> NoDup (rd_revoked a) -> NoDup (rd_issued m) /\ NoDup (rd_revoked m).
Proof.
  unfold delta_merge. destruct (rd_prev b) as [p|]; [|discriminate]. destruct (negb _); [discriminate|].
  intros E NI NR. match type of E with Ok ?x = _ => assert (m = x) as -> by congruence end. clear E.
  cbn [rd_issued rd_revoked]. split; apply zs_removes_nodup, zs_extend_nodup; assumption.
Qed.
Lemma net_change_unique a b V V' : net_change C a V V' -> net_change C b V V' ->
  same_set (rd_issued a) (rd_issued b) /\ same_set (rd_revoked a) (rd_revoked b).
Proof. intros A B. split; intros i; [rewrite (proj1 (A i)), (proj1 (B i))|rewrite (proj2 (A i)), (proj2 (B i))]; tauto. Qed.


(** ** whole histories *)
Section Hist.
Variables (L : Z) (g_dash : G2) (gamma : K) (access : Z -> res G2) (dflt : bool).
Hypothesis HL : 0 <= L.
Hypothesis HL32 : 2 * L + 1 < 2 ^ 32.
Hypothesis HA : serves_tails C access g_dash gamma L.
Notation inv := (reg_inv L g_dash gamma).
Lemma net_refl d V : rd_issued d = [] -> rd_revoked d = [] -> net_change C d V V.
Proof. intros E1 E2 i. rewrite E1, E2. cbn [In]. tauto. Qed.
Lemma merge_history s ds s' : reg_history C L dflt access s ds s' -> inv s ->
  forall d V0, net_change C d V0 (snd s) -> rd_accum d = fst s -> NoDup (rd_issued d) -> NoDup (rd_revoked d) ->
  exists m, merge_all C d (flat_map (keep_delta C) ds) = Ok m /\ rd_prev m = rd_prev d /\ rd_accum m = fst s' /\
    net_change C m V0 (snd s') /\ NoDup (rd_issued m) /\ NoDup (rd_revoked m).
Proof.
  induction 1 as [s|s s1 s' o ds St _ IH]; intros I d V0 ND EA NI NR; cbn [flat_map].
  - exists d. cbn [merge_all]. repeat split; auto; apply ND; auto.
  - destruct (step_inv L g_dash gamma access HL HL32 HA _ _ _ _ St I) as [I1 Q].
    pose proof (step_net L g_dash gamma access HL HL32 HA _ _ _ _ St I) as Q2.
    destruct o as [x|]; cbn [keep_delta app].
    + destruct Q as [P1 P2]. destruct Q2 as (NX & NIx & NRx). cbn [merge_all].
      destruct (delta_merge C d x) as [m|e] eqn:M.
      * cbn [rbind]. destruct (merge_net d x m V0 (snd s) (snd s1) M ND NX) as (E1 & E2 & E3).
        destruct (merge_nodup d x m M NI NR) as [Nm1 Nm2].
        destruct (IH I1 m V0 E3) as (m' & A1 & A2 & A3 & A4); [congruence|assumption|assumption|].
        exists m'. rewrite A2, E1. auto 10.
      * assert (is_ok (delta_merge C d x) = true) as O by (apply merge_refused; now rewrite P1, EA).
        rewrite M in O. discriminate.
    + subst s1. auto.
Qed.
Lemma update_history i s ds s' : 1 <= i <= L -> reg_history C L dflt access s ds s' -> inv s ->
  update_all C (witness_of C g_dash gamma L i (snd s)) i L access (flat_map (keep_delta C) ds) = Ok (witness_of C g_dash gamma L i (snd s')).
Proof.
  intros Hi. induction 1 as [s|s s1 s' o ds St _ IH]; intros I; cbn [flat_map update_all]; [reflexivity|].
  destruct (step_inv L g_dash gamma access HL HL32 HA _ _ _ _ St I) as [I1 _].
  pose proof (step_net L g_dash gamma access HL HL32 HA _ _ _ _ St I) as Q2.
  destruct o as [x|]; cbn [keep_delta app update_all].
  - destruct Q2 as (NX & NIx & NRx). destruct I as (N & R & _). pose proof I1 as (N1 & R1 & _).
    rewrite (witness_update_ok L g_dash gamma access HL HL32 HA i x _ (snd s) (snd s1)); auto.
  - subst s1. auto.
Qed.
(** deltas published since the registry was created, merged into the initial
    (empty) delta, give the witness of the current set *)
Lemma witness_from_history i (pk : rpk C) ds accum V d0 : 1 <= i <= L -> rk_g_dash pk = g_dash ->
  d0 = delta_from_parts C None (new_revocation_registry C pk gamma L dflt) [] [] ->
  reg_history C L dflt access (new_revocation_registry C pk gamma L dflt, initial_valid L dflt) ds (accum, V) ->
  exists m, merge_all C d0 (flat_map (keep_delta C) ds) = Ok m /\ rd_accum m = accum /\
    witness_new C i L dflt m access = Ok (witness_of C g_dash gamma L i V).
Proof.
  intros Hi E0 -> Hh. pose proof (initial_inv L g_dash gamma HL HL32 pk dflt E0) as I0.
  pose proof (history_inv L g_dash gamma access HL HL32 HA dflt _ _ _ Hh I0) as (N & R & A). cbn [fst snd] in *.
  destruct (merge_history _ _ _ Hh I0 (delta_from_parts C None (new_revocation_registry C pk gamma L dflt) [] []) (initial_valid L dflt))
    as (m & M1 & _ & M2 & M3 & M4 & M5); [now apply net_refl|reflexivity|constructor|constructor|].
  exists m. split; [assumption|]. split; [assumption|].
  apply (witness_new_ok L g_dash gamma access HL HL32 HA); auto. cbn [fst snd] in *.
  destruct dflt; unfold initial_valid in M3; fold (idx_range L) in M3.
  - intros j. destruct (M3 j) as [_ M]. rewrite (idx_range_in L j) in M. rewrite M. split; [intros Hj; split; [auto|tauto]|].
    intros [Hj Nj]. destruct (in_dec Z.eq_dec j V); [assumption|]. exfalso. apply Nj. split; assumption.
  - split; [assumption|]. intros j. destruct (M3 j) as [M _]. rewrite M. cbn [In]. tauto.
Qed.
End Hist.

(** ** tails *)
Lemma tails_collect_eq n : forall cur size g_dash gamma, Z.of_nat n = size - cur -> 0 <= cur -> size < 2 ^ 32 ->
  forall fuel, (n < fuel)%nat ->
  tails_collect C fuel (mkTailGen C size cur g_dash gamma) =
    (map (fun k => tail_at C g_dash gamma (cur + Z.of_nat k)) (seq 0 n), mkTailGen C size size g_dash gamma).
Proof.
  induction n as [|n IH]; intros cur size g_dash gamma E Hc Hs fuel Hf; destruct fuel as [|fuel]; try lia;
    cbn [tails_collect]; unfold tailgen_next; cbn [tg_size tg_cur tg_g_dash tg_gamma].
  - destruct (Z.leb_spec size cur); [|lia]. cbn [seq map]. do 2 f_equal. lia.
  - destruct (Z.leb_spec size cur); [lia|]. unfold u32w. rewrite Z.mod_small by lia.
    rewrite (IH (cur + 1)) by lia. cbn [seq map]. rewrite new_tail_eq by lia. f_equal. f_equal.
    + f_equal. lia.
    + rewrite <- seq_shift, map_map. apply map_ext. intros k. f_equal. lia.
Qed.
End Rev.

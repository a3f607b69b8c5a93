(** Further lemmas about the primary protocol used by the property files. *)
From Verif Require Import Base BnModel BnProofs UMod Fermat StrMap HelpersModel HelpersSpec HelpersProofs ClModel ClSpec ClLib ClKey ClIssue ClBlind ClSign
  ClPresent ClPred Alg ClRevModel ClRevSpec ClProofModel ClPresSpec ClPrimary ClPresentation ClVerify ClForge.
Open Scope string_scope.
Open Scope list_scope.
Open Scope Z_scope.

(** ** the key correctness proof and the master secret *)
Lemma kcp_master_secret H pk pr r : check_key_correctness_proof H pk pr = Ok tt -> ~ In "master_secret" (map fst (kc_xr_cap pr)) ->
  check_key_correctness_proof H (mkPPK (pk_n pk) (pk_s pk) (hm_insert "master_secret" r (pk_r pk)) (pk_rctxt pk) (pk_z pk)) pr = Ok tt.
Proof.
  intros E N. pose proof (kcp_names H pk pr E) as [N1 N2]. unfold check_key_correctness_proof in *. cbn [pk_n pk_s pk_r pk_rctxt pk_z].
  rewrite (existsb_false (fun k => negb (ss_mem k (map fst (kc_xr_cap pr))) && negb (String.eqb k "master_secret")) (sm_keys (hm_insert "master_secret" r (pk_r pk)))).
  2:{ intros k Hk. apply hm_insert_keys in Hk as [->|Hk]; [now rewrite String.eqb_refl, andb_false_r|].
      destruct (String.eqb_spec k "master_secret") as [->|Nk]; [now rewrite andb_false_r|]. apply N1 in Hk; [|assumption]. apply ss_mem_in in Hk. now rewrite Hk. }
  destruct (existsb _ (sm_keys (pk_r pk))); [discriminate|].
  rewrite (existsb_false (fun k => negb (sm_mem k (hm_insert "master_secret" r (pk_r pk))))).
  2:{ intros k Hk. apply N2 in Hk. apply negb_false_iff, sm_mem_keys, hm_insert_keys. now right. }
  destruct (existsb _ (map fst (kc_xr_cap pr))); [discriminate|].
  destruct (bn_inverse (pk_z pk) (pk_n pk)) as [zi|]; [|discriminate]. cbn [rbind] in *.
  destruct (get_pedersen_commitment zi _ _ _ _) as [zc|]; [|discriminate]. cbn [rbind] in *.
  assert (forall l, (forall x, In x l -> fst x <> "master_secret") ->
    rmap (fun '(k, x) =>
                 let! r_value := sm_index k (hm_insert "master_secret" r (pk_r pk)) in
                 let! r_inverse := bn_inverse r_value (pk_n pk) in
                 let! v := get_pedersen_commitment r_inverse (kc_c pr) (pk_s pk) x (pk_n pk) in
                 Ok (r_value, v)) l =
    rmap (fun '(k, x) =>
                 let! r_value := sm_index k (pk_r pk) in
                 let! r_inverse := bn_inverse r_value (pk_n pk) in
                 let! v := get_pedersen_commitment r_inverse (kc_c pr) (pk_s pk) x (pk_n pk) in
                 Ok (r_value, v)) l) as G.
  { induction l as [|[k x] l IH]; intros Hl; cbn [rmap]; [reflexivity|].
    rewrite IH by (intros; apply Hl; now right).
    assert (sm_index k (hm_insert "master_secret" r (pk_r pk)) = sm_index k (pk_r pk)) as ->; [|reflexivity].
    unfold sm_index, sm_get_or. rewrite sm_get_hm_insert. destruct (String.eqb_spec k "master_secret") as [->|Nk]; [|reflexivity].
    exfalso. now apply (Hl ("master_secret", x) ltac:(now left)). }
  rewrite G; [exact E|]. intros [k x] Hx Ek. cbn [fst] in Ek. subst k. apply N. apply in_map_iff. exists ("master_secret", x). auto.
Qed.

(** ** an issued credential without commitment attributes is presentable *)
Lemma signed_all vals : (forall k cv, In (k, cv) vals -> is_commitment cv = false) -> signed_values vals = attribute_values vals.
Proof.
  intros Hc. unfold signed_values, attribute_values. f_equal.
  induction vals as [|[k cv] vals IH]; cbn [filter snd]; [reflexivity|].
  pose proof (Hc k cv ltac:(now left)) as E. destruct cv; cbn [is_known is_hidden orb] in *; try discriminate; (f_equal; apply IH; intros; eapply Hc; right; eassumption).
Qed.

(** ** when the equality proof recomputes the commitment *)
Section Defect.
Variables (pk : ppk) (V : valid_pk pk) (sg : psig) (vals : cred_values) (schema non_schema : sset) (req : subreq).
Notation n := (pk_n pk).
Let Hn : 2 <= n := vk_n pk V.
Local Notation "a ** b" := (umul n Hn a b) (at level 40, left associativity).
Local Notation "a ^^ k" := (zpow n Hn a k) (at level 30).
Local Notation "a ^-1" := (uinv n Hn a) (at level 25).
Hypothesis Hs1 : ssorted schema.
Hypothesis Hs2 : ssorted non_schema.
Hypothesis Hs3 : ssorted (rq_revealed req).
Hypothesis Hs4 : ssorted (sm_keys vals).
Hypothesis Hattrs : forall k, In k (sm_keys vals) <-> In k schema \/ In k non_schema.
Hypothesis Hrev : forall k, In k (rq_revealed req) -> In k (sm_keys vals).
Hypothesis Hpk : forall k, In k (sm_keys vals) -> In k (sm_keys (pk_r pk)).
Hypothesis HA : unit_mod n (sg_a sg).

Lemma equation_power_u c l : (forall k, In k (map fst l) -> In k (sm_keys (pk_r pk))) ->
  (cl_equation_power c pk sg l <-> uZ pk V ^^ (- c) ** ((uA pk V sg ^^ (c * sg_e sg)) ** (uS pk V ^^ (c * sg_v sg) ** (uC pk V ^^ (c * sg_m2 sg) ** aprod pk V l ^^ c))) = u1 n Hn).
Proof.
  intros Hk. unfold cl_equation_power.
  assert (map (fun kv => (base_of pk (fst kv), c * snd kv)) l
          = map (fun ak => (uv (fst ak), snd ak)) (map (fun kv => (uR pk V (fst kv), c * snd kv)) l)) as E1.
  { rewrite map_map. apply map_ext_in. intros [k v] Hin. cbn [fst snd]. rewrite (base_of_u pk V); [reflexivity|].
    apply Hk. apply in_map_iff. exists (k, v). auto. }
  rewrite E1, (uZ_eq pk V), (uS_eq pk V), (uC_eq pk V), (uA_eq pk V sg HA).
  change ((uv (uZ pk V), - c) :: (uv (uA pk V sg), c * sg_e sg) :: (uv (uS pk V), c * sg_v sg) :: (uv (uC pk V), c * sg_m2 sg)
    :: map (fun ak => (uv (fst ak), snd ak)) (map (fun kv => (uR pk V (fst kv), c * snd kv)) l))
  with (map (fun ak => (uv (fst ak), snd ak)) ((uZ pk V, - c) :: (uA pk V sg, c * sg_e sg) :: (uS pk V, c * sg_v sg) :: (uC pk V, c * sg_m2 sg)
    :: map (fun kv => (uR pk V (fst kv), c * snd kv)) l)).
  rewrite (product_is_one_u n Hn). unfold lprod. cbn [fold_right fst snd].
  assert (fold_right (fun ak acc => fst ak ^^ snd ak ** acc) (u1 n Hn) (map (fun kv => (uR pk V (fst kv), c * snd kv)) l) = aprod pk V l ^^ c) as ->.
  { clear. induction l as [|[k v] l IH]; unfold aprod in *; cbn [map fold_right fst snd].
    - fold Hn. now rewrite (zpow_one n Hn).
    - rewrite IH. fold Hn. umod_ring. }
  reflexivity.
Qed.

Lemma eq_recomputes_iff common m2_t rnd c : exists ei ep t, init_eq_proof common pk sg schema non_schema req m2_t rnd = Ok ei /\
  finalize_eq_proof ei c schema non_schema vals req = Ok ep /\ verify_equality pk ep c schema non_schema req = Ok [t] /\
  (t = ei_t ei <-> cl_equation_power c pk sg (attribute_values vals)).
Proof.
  do 3 eexists. split; [exact (init_eq_u pk V sg vals schema non_schema req Hattrs Hpk HA common m2_t rnd)|].
  split; [exact (finalize_eq_u pk V sg vals schema non_schema req Hs2 Hs3 Hattrs Hrev common m2_t rnd c)|].
  split; [exact (verify_eq_defect pk V sg vals schema non_schema req Hs1 Hs2 Hs3 Hs4 Hattrs Hrev Hpk common m2_t rnd c)|].
  cbn [the_eqinit ei_t].
  rewrite (equation_power_u c (attribute_values vals)) by (unfold attribute_values; rewrite map_map; exact Hpk).
  change (attribute_values vals) with (int_values vals). rewrite (int_values_aprod pk V vals Hs4).
  unfold udefect. fold Hn. set (P := uprod n Hn (uR pk V) (val_of vals) (sm_keys vals)). set (T := uT pk V sg schema non_schema req common m2_t rnd).
  set (D := umul n Hn (uinv n Hn (uZ pk V)) _).
  assert (D ^^ c = uZ pk V ^^ (- c) ** ((uA pk V sg ^^ (c * sg_e sg)) ** (uS pk V ^^ (c * sg_v sg) ** (uC pk V ^^ (c * sg_m2 sg) ** P ^^ c)))) as <- by (unfold D; umod_ring).
  split.
  - intros E. apply uv_inj in E. apply (umul_cancel_l n Hn) with (a := T). rewrite E. umod_ring.
  - intros ->. f_equal. umod_ring.
Qed.

(** with commitment attributes: the signature covers only the others *)
Definition committed_values : list (string * Z) := map (fun kv => (fst kv, cv_value (snd kv))) (committed_of vals).
Lemma committed_split : aprod pk V (attribute_values vals) = aprod pk V (signed_values vals) ** aprod pk V committed_values.
Proof.
  unfold attribute_values, signed_values, committed_values, committed_of. clear. induction vals as [|[k cv] l IH]; cbn [map filter fst snd].
  - unfold aprod. cbn [fold_right]. fold Hn. umod_ring.
  - destruct cv; cbn [is_known is_hidden is_commitment orb map fst snd]; unfold aprod in *; cbn [fold_right fst snd]; rewrite IH; fold Hn; umod_ring.
Qed.
Lemma committed_equation c : cl_signature pk sg (signed_values vals) ->
  (cl_equation_power c pk sg (attribute_values vals) <->
   product_is_one n (map (fun kv => (base_of pk (fst kv), c * snd kv)) committed_values)).
Proof.
  intros Hsig.
  assert (forall k, In k (map fst (attribute_values vals)) -> In k (sm_keys (pk_r pk))) as K1 by (unfold attribute_values; rewrite map_map; exact Hpk).
  assert (forall f k, In k (map fst (map (fun kv : string * cred_value => (fst kv, cv_value (snd kv))) (filter f vals))) -> In k (sm_keys (pk_r pk))) as K0.
  { intros f k Hk. apply Hpk. rewrite map_map in Hk. cbn [fst] in Hk. eapply filter_keys. exact Hk. }
  assert (forall k, In k (map fst (signed_values vals)) -> In k (sm_keys (pk_r pk))) as K2 by (intros k; apply K0).
  rewrite (equation_power_u c _ K1). rewrite committed_split.
  apply (cl_signature_u pk V sg _ HA K2) in Hsig. fold Hn in Hsig.
  assert (map (fun kv => (base_of pk (fst kv), c * snd kv)) committed_values
          = map (fun ak => (uv (fst ak), snd ak)) (map (fun kv => (uR pk V (fst kv), c * snd kv)) committed_values)) as E1.
  { rewrite map_map. apply map_ext_in. intros [k v] Hin. cbn [fst snd]. rewrite (base_of_u pk V); [reflexivity|].
    eapply K0. apply in_map_iff. exists (k, v). split; [reflexivity|]. exact Hin. }
  rewrite E1, (product_is_one_u n Hn). unfold lprod.
  assert (fold_right (fun ak acc => fst ak ^^ snd ak ** acc) (u1 n Hn) (map (fun kv => (uR pk V (fst kv), c * snd kv)) committed_values) = aprod pk V committed_values ^^ c) as ->.
  { clear. induction committed_values as [|[k v] l IH]; unfold aprod in *; cbn [map fold_right fst snd].
    - fold Hn. now rewrite (zpow_one n Hn).
    - rewrite IH. fold Hn. umod_ring. }
  set (PC := aprod pk V committed_values).
  assert (uZ pk V ^^ (- c) ** ((uA pk V sg ^^ (c * sg_e sg)) ** (uS pk V ^^ (c * sg_v sg) ** (uC pk V ^^ (c * sg_m2 sg) ** (aprod pk V (signed_values vals) ** PC) ^^ c))) = PC ^^ c) as ->.
  { transitivity (uZ pk V ^^ (- c) ** ((uA pk V sg ^^ sg_e sg ** uS pk V ^^ sg_v sg ** uC pk V ^^ sg_m2 sg ** aprod pk V (signed_values vals)) ^^ c ** PC ^^ c)); [umod_ring|].
    rewrite <- Hsig. umod_ring. }
  reflexivity.
Qed.
End Defect.

(** ** predicates *)
Lemma ne_refuses pk mtm vals p rnd cv : sm_get (p_attr p) vals = Some cv ->
  is_i32 (true_delta (p_type p) (cv_value cv) (p_value p)) -> is_i32 (cv_value cv) -> ~ holds (p_type p) (cv_value cv) (p_value p) ->
  init_ne_proof pk mtm vals p rnd = Err InvalidStructure.
Proof.
  intros E It Ia Nh. unfold init_ne_proof. rewrite (sm_get_or_some _ _ _ _ E). cbn [rbind]. unfold parse_i32.
  replace ((- 2 ^ 31 <=? cv_value cv) && (cv_value cv <? 2 ^ 31)) with true.
  2:{ symmetry. apply andb_true_iff. unfold is_i32 in Ia. split; [apply Z.leb_le; lia|apply Z.ltb_lt; lia]. }
  cbn [rbind]. pose proof (get_delta_iff (p_type p) (p_value p) (cv_value cv) It) as G.
  destruct (Z.ltb_spec (get_delta (p_type p) (p_value p) (cv_value cv)) 0) as [L|L]; [reflexivity|]. now apply G in L.
Qed.
Lemma wrap_is x y : is_i32 y -> (exists k, x = y + k * 2 ^ 32) -> wrap_i32 x = y.
Proof.
  intros Hy (k & ->). unfold wrap_i32, is_i32 in *.
  replace (y + k * 2 ^ 32 + 2 ^ 31) with (y + 2 ^ 31 + k * 2 ^ 32) by ring.
  rewrite Z_mod_plus_full, Z.mod_small by lia. lia.
Qed.
Lemma wrapped_provable vals p : wrapped_predicate vals p -> predicate_provable vals p /\
  exists cv, sm_get (p_attr p) vals = Some cv /\ ~ holds (p_type p) (cv_value cv) (p_value p).
Proof.
  intros (cv & E & D). set (a := cv_value cv) in *. split.
  - exists cv. fold a. split; [exact E|]. destruct D as [(Et & Ev & Ba)|(Et & Ev & Ba)]; rewrite Et, Ev; cbn [is_less get_delta get_delta_prime];
      (split; [unfold is_i32; lia|]).
    + assert (wrap_i32 (wrap_i32 (a - (2 ^ 31 - 1)) - 1) = a + 2 ^ 31) as ->.
      { apply wrap_is; [unfold is_i32; lia|].
        unfold wrap_i32. pose proof (Z.div_mod (a - (2 ^ 31 - 1) + 2 ^ 31) (2 ^ 32) ltac:(lia)) as DM.
        set (q := (a - (2 ^ 31 - 1) + 2 ^ 31) / 2 ^ 32) in *. exists (- q - 1). lia. }
      assert (wrap_i32 (2 ^ 31 - 1 + 1) = - 2 ^ 31) as -> by (apply wrap_is; [unfold is_i32; lia|exists 1; lia]). lia.
    + assert (wrap_i32 (wrap_i32 (- 2 ^ 31 - a) - 1) = 2 ^ 31 - 1 - a) as ->.
      { apply wrap_is; [unfold is_i32; lia|].
        unfold wrap_i32. pose proof (Z.div_mod (- 2 ^ 31 - a + 2 ^ 31) (2 ^ 32) ltac:(lia)) as DM.
        set (q := (- 2 ^ 31 - a + 2 ^ 31) / 2 ^ 32) in *. exists (- q - 1). lia. }
      assert (wrap_i32 (- 2 ^ 31 - 1) = 2 ^ 31 - 1) as -> by (apply wrap_is; [unfold is_i32; lia|exists (-1); lia]). lia.
  - exists cv. split; [exact E|]. fold a. destruct D as [(Et & Ev & Ba)|(Et & Ev & Ba)]; rewrite Et, Ev; cbn [holds]; lia.
Qed.

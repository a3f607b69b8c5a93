(** Proofs for presentations: equality and predicate sub-proofs (C26, C27). *)
From Verif Require Import Base BnModel BnProofs UMod StrMap HelpersModel HelpersSpec HelpersProofs ClModel ClSpec ClLib ClKey ClIssue ClBlind.
From Coq Require Import Permutation.
Open Scope string_scope.
Open Scope list_scope.
Open Scope Z_scope.

(** all attribute values, as integers *)
Definition int_values (vals : cred_values) : list (string * Z) := map (fun kv => (fst kv, cv_value (snd kv))) vals.

Lemma get_mtilde_get draw : forall l m k,
  sm_get k (get_mtilde draw l m) = match sm_get k m with Some x => Some x | None => if ss_mem k l then Some (draw k) else None end.
Proof.
  unfold get_mtilde. induction l as [|a l IH]; intros m k; cbn [fold_left]; [destruct (sm_get k m); reflexivity|].
  rewrite IH. unfold sm_mem. destruct (sm_get a m) as [x|] eqn:E.
  - destruct (sm_get k m) eqn:Ek; [reflexivity|]. unfold ss_mem. cbn [existsb].
    destruct (String.eqb_spec k a) as [->|]; [congruence|reflexivity].
  - rewrite sm_get_hm_insert. unfold ss_mem. cbn [existsb]. destruct (String.eqb_spec k a) as [->|].
    + now rewrite E.
    + reflexivity.
Qed.

Section Present.
Variables (pk : ppk) (V : valid_pk pk).
Notation n := (pk_n pk).
Let Hn : 2 <= n := vk_n pk V.
Local Notation "a ** b" := (umul n Hn a b) (at level 40, left associativity).
Local Notation "a ^^ k" := (zpow n Hn a k) (at level 30).
Local Notation "a ^-1" := (uinv n Hn a) (at level 25).
Notation S_ := (uS pk V).
Notation Z_ := (uZ pk V).
Notation C_ := (uC pk V).
Notation R_ := (uR pk V).
Notation RP := (uprod n Hn R_).

Lemma calc_teq_u (a : U n) e v m m2 (f : string -> Z) l :
  (forall k, In k l -> In k (sm_keys (pk_r pk)) /\ sm_get k m = Some (f k)) ->
  calc_teq pk (uv a) e v m m2 l = Ok (uv (a ^^ e ** RP f l ** S_ ^^ v ** C_ ^^ m2)).
Proof.
  intros Hl. unfold calc_teq. rewrite (mod_exp_u n Hn). cbn [rbind].
  rewrite (rfold_uprod n Hn _ (fun k => k) R_ f).
  2:{ intros acc k Hk. destruct (Hl k Hk) as [H1 H2]. rewrite (uR_get_or pk V) by assumption. cbn [rbind].
      rewrite (sm_get_or_some _ _ _ _ H2). cbn [rbind]. rewrite (mod_exp_u n Hn). cbn [rbind]. rewrite (mod_mul_u n Hn).
      do 2 f_equal. umod_ring. }
  cbn [rbind]. rewrite map_id. rewrite (uS_eq pk V), (mod_exp_u n Hn). cbn [rbind]. rewrite (mod_mul_u n Hn). cbn [rbind].
  rewrite (uC_eq pk V), (mod_exp_u n Hn). cbn [rbind]. rewrite (mod_mul_u n Hn). do 2 f_equal. umod_ring.
Qed.

(** ** equality proof *)
Section Eq.
Variables (sg : psig) (vals : cred_values) (schema non_schema : sset) (req : subreq).
Hypothesis Hs1 : ssorted schema.
Hypothesis Hs2 : ssorted non_schema.
Hypothesis Hs3 : ssorted (rq_revealed req).
Hypothesis Hs4 : ssorted (sm_keys vals).
Hypothesis Hattrs : forall k, In k (sm_keys vals) <-> In k schema \/ In k non_schema.
Hypothesis Hrev : forall k, In k (rq_revealed req) -> In k (sm_keys vals).
Hypothesis Hpk : forall k, In k (sm_keys vals) -> In k (sm_keys (pk_r pk)).
Hypothesis HA : unit_mod n (sg_a sg).
Hypothesis Hsig : cl_signature pk sg (int_values vals).
Notation A := (uA pk V sg).
Let val := val_of vals.
Let unrev := unrevealed non_schema schema req.

Lemma unrev_in k : In k unrev <-> In k (sm_keys vals) /\ ~ In k (rq_revealed req).
Proof. unfold unrev, unrevealed. rewrite ss_diff_in, ss_union_in, Hattrs. tauto. Qed.
Lemma unrev_sorted : ssorted unrev.
Proof. unfold unrev, unrevealed. apply ss_diff_sorted, ss_union_sorted, Hs2. Qed.
Lemma unrev_verifier : ss_diff (ss_union schema non_schema) (rq_revealed req) = unrev.
Proof.
  apply sorted_ext; [apply ss_diff_sorted, ss_union_sorted, Hs1|apply unrev_sorted|].
  intros x. unfold unrev, unrevealed. rewrite !ss_diff_in, !ss_union_in. tauto.
Qed.
Lemma val_get k : In k (sm_keys vals) -> exists cv, sm_get k vals = Some cv /\ cv_value cv = val k.
Proof. intros Hk. apply sm_get_keys in Hk as [cv E]. exists cv. split; [assumption|]. unfold val, val_of. now rewrite E. Qed.

Lemma split_attrs : RP val (sm_keys vals) = RP val unrev ** RP val (rq_revealed req).
Proof.
  rewrite (uprod_filter n Hn R_ val (fun k => ss_mem k (rq_revealed req))).
  rewrite (umul_comm n Hn). f_equal.
  - f_equal. apply sorted_ext.
    + now apply sorted_filter.
    + apply unrev_sorted.
    + intros x. rewrite filter_In, unrev_in. rewrite negb_true_iff, <- not_true_iff_false, ss_mem_in. tauto.
  - f_equal. apply sorted_ext; [now apply sorted_filter|assumption|]. intros x. rewrite filter_In, ss_mem_in. split; [tauto|].
    intros Hx. auto.
Qed.
Lemma int_values_aprod : aprod pk V (int_values vals) = RP val (sm_keys vals).
Proof.
  transitivity (aprod pk V (map (fun k => (k, val k)) (sm_keys vals))); [|apply aprod_uprod].
  f_equal. unfold int_values, sm_keys. rewrite map_map. apply map_ext_in. intros [k cv] Hin. cbn [fst snd].
  f_equal. unfold val, val_of. rewrite (sm_in_get k vals cv); [reflexivity|now apply sorted_nodup|assumption].
Qed.
Lemma sig_u : Z_ = A ^^ sg_e sg ** S_ ^^ sg_v sg ** C_ ^^ sg_m2 sg ** (RP val unrev ** RP val (rq_revealed req)).
Proof.
  rewrite <- split_attrs, <- int_values_aprod. apply (cl_signature_u pk V); [exact HA| |exact Hsig].
  unfold int_values. rewrite map_map. cbn [fst]. exact Hpk.
Qed.

Variables (common : smap Z) (m2_t : option Z) (rnd : eqrand).
Let m2t := match m2_t with Some x => x | None => er_m2_tilde rnd end.
Let mtm := get_mtilde (er_m rnd) unrev common.
Definition eq_mt (k : string) : Z := match sm_get k common with Some x => x | None => er_m rnd k end.
Lemma mt_get k : In k unrev -> sm_get k mtm = Some (eq_mt k).
Proof.
  intros Hk. unfold mtm. rewrite get_mtilde_get. unfold eq_mt. destruct (sm_get k common); [reflexivity|].
  apply ss_mem_in in Hk. now rewrite Hk.
Qed.
Definition uA' : U n := S_ ^^ er_r rnd ** A.
Definition uT : U n := uA' ^^ er_e_tilde rnd ** RP eq_mt unrev ** S_ ^^ er_v_tilde rnd ** C_ ^^ m2t.
Definition the_eqinit : eqinit :=
  mkEqInit (uv uA') (uv uT) (er_e_tilde rnd) (sg_e sg - LARGE_E_START_VALUE) (er_v_tilde rnd) (sg_v sg - sg_e sg * er_r rnd) mtm m2t (sg_m2 sg).

Lemma init_eq_u : init_eq_proof common pk sg schema non_schema req m2_t rnd = Ok the_eqinit.
Proof.
  unfold init_eq_proof. rewrite (uS_eq pk V), (mod_exp_u n Hn). cbn [rbind]. rewrite (uA_eq pk V sg HA), (mod_mul_u n Hn). cbn [rbind].
  fold uA'. fold unrev. fold mtm. fold m2t. rewrite (calc_teq_u uA' _ _ mtm m2t eq_mt).
  2:{ intros k Hk. split; [apply Hpk, unrev_in, Hk|now apply mt_get]. }
  reflexivity.
Qed.

Definition the_eqproof (c : Z) : eqproof :=
  mkEqProof (map (fun k => (k, val k)) (rq_revealed req)) (uv uA')
    (c * (sg_e sg - LARGE_E_START_VALUE) + er_e_tilde rnd) (c * (sg_v sg - sg_e sg * er_r rnd) + er_v_tilde rnd)
    (map (fun k => (k, c * val k + eq_mt k)) unrev) (c * sg_m2 sg + m2t).

Lemma finalize_eq_u c : finalize_eq_proof the_eqinit c schema non_schema vals req = Ok (the_eqproof c).
Proof.
  unfold finalize_eq_proof. fold unrev. cbn [the_eqinit ei_m_tilde ei_e_prime ei_e_tilde ei_v_prime ei_v_tilde ei_m2 ei_m2_tilde ei_a_prime].
  assert (forall (f : string -> res Z) (g : string -> Z) l acc, (forall k, In k l -> f k = Ok (g k)) -> NoDup l -> (forall k, In k l -> ~ In k (sm_keys acc)) ->
    rfold (fun m k => let! y := f k in Ok (hm_insert k y m)) l acc = Ok (acc ++ map (fun k => (k, g k)) l)) as RH.
  { intros f g. induction l as [|k l IH]; intros acc Hf ND D; cbn [rfold]; [now rewrite app_nil_r|].
    rewrite Hf by now left. cbn [rbind]. inversion ND as [|? ? N1 N2]; subst. rewrite hm_insert_new by (apply D; now left). rewrite IH.
    - cbn [map]. now rewrite <- app_assoc.
    - intros; apply Hf; now right.
    - assumption.
    - intros k' Hk' Hin. rewrite sm_keys_app in Hin. apply in_app_iff in Hin as [Hin|[<-|[]]]; [|contradiction]. apply (D k'); [now right|assumption]. }
  assert (forall (f : string -> res Z) (g : string -> Z) l acc, (forall k, In k l -> f k = Ok (g k)) -> ssorted l -> (forall k k', In k l -> In k' (sm_keys acc) -> slt k' k) ->
    rfold (fun m k => let! y := f k in Ok (bt_insert k y m)) l acc = Ok (acc ++ map (fun k => (k, g k)) l)) as RB.
  { intros f g. induction l as [|k l IH]; intros acc Hf ND D; cbn [rfold]; [now rewrite app_nil_r|].
    rewrite Hf by now left. cbn [rbind]. apply ssorted_cons_inv in ND as [N1 N2]. rewrite bt_insert_last by (intros; apply D; [now left|assumption]). rewrite IH.
    - cbn [map]. now rewrite <- app_assoc.
    - intros; apply Hf; now right.
    - assumption.
    - intros k' k'' Hk' Hin. rewrite sm_keys_app in Hin. apply in_app_iff in Hin as [Hin|[<-|[]]]; [|now apply N2]. apply D; [now right|assumption]. }
  rewrite (rfold_ext _ (fun m k => let! y := (let! a := sm_get_or InvalidStructure k mtm in let! b := sm_get_or InvalidStructure k vals in Ok (bn_add (bn_mul c (cv_value b)) a)) in Ok (hm_insert k y m))).
  2:{ intros m k _. destruct (sm_get_or _ k mtm); cbn [rbind]; [|reflexivity]. destruct (sm_get_or _ k vals); reflexivity. }
  rewrite (RH _ (fun k => c * val k + eq_mt k)).
  2:{ intros k Hk. rewrite (sm_get_or_some _ _ _ _ (mt_get k Hk)). cbn [rbind].
      destruct (val_get k) as (cv & E1 & E2); [now apply unrev_in|]. rewrite (sm_get_or_some _ _ _ _ E1). cbn [rbind]. now rewrite E2. }
  2:{ apply sorted_nodup, unrev_sorted. }
  2:{ intros ? _ []. }
  cbn [rbind app].
  rewrite (rfold_ext _ (fun m k => let! y := (let! b := sm_get_or InvalidStructure k vals in Ok (cv_value b)) in Ok (bt_insert k y m))).
  2:{ intros m k _. destruct (sm_get_or _ k vals); reflexivity. }
  rewrite (RB _ val).
  2:{ intros k Hk. destruct (val_get k) as (cv & E1 & E2); [now apply Hrev|]. rewrite (sm_get_or_some _ _ _ _ E1). cbn [rbind]. now rewrite E2. }
  2:{ assumption. }
  2:{ intros ? ? _ []. }
  cbn [rbind app]. reflexivity.
Qed.

(** how far (A, e, v, m2) is from a signature on the values *)
Definition udefect : U n := Z_ ^-1 ** (A ^^ sg_e sg ** S_ ^^ sg_v sg ** C_ ^^ sg_m2 sg ** RP val (sm_keys vals)).
Lemma verify_eq_defect c : verify_equality pk (the_eqproof c) c schema non_schema req = Ok [uv (uT ** udefect ^^ c)].
Proof.
  unfold verify_equality. rewrite unrev_verifier. cbn [the_eqproof ep_a_prime ep_e ep_v ep_m ep_m2 ep_revealed].
  rewrite (calc_teq_u uA' _ _ _ _ (fun k => c * val k + eq_mt k)).
  2:{ intros k Hk. split; [apply Hpk, unrev_in, Hk|]. rewrite (sm_get_map (fun k => c * val k + eq_mt k)). apply ss_mem_in in Hk. now rewrite Hk. }
  cbn [rbind]. rewrite (mod_exp_u n Hn). cbn [rbind].
  rewrite (rfold_uprod n Hn _ fst R_ val).
  2:{ intros acc [k x] Hk. apply in_map_iff in Hk as (k' & E & Hk). assert (k' = k) as -> by congruence. assert (x = val k) as -> by congruence.
      rewrite (uR_get_or pk V) by (apply Hpk, Hrev, Hk). cbn [rbind]. rewrite (mod_exp_u n Hn). cbn [rbind]. rewrite (mod_mul_u n Hn).
      do 2 f_equal. cbn [fst]. umod_ring. }
  cbn [rbind]. rewrite map_map. cbn [fst]. rewrite map_id. rewrite (uZ_eq pk V), (mod_div_u n Hn). cbn [rbind].
  rewrite (inverse_u n Hn). cbn [rbind]. rewrite (mod_exp_u n Hn). cbn [rbind]. rewrite (mod_mul_u n Hn). cbn [rbind]. do 3 f_equal.
  rewrite uprod_add, uprod_scale. unfold udefect. rewrite split_attrs. unfold uT, uA'. umod_ring.
Qed.
Lemma defect_one : udefect = u1 n Hn.
Proof. unfold udefect. rewrite split_attrs, <- sig_u. umod_ring. Qed.
Lemma verify_eq_u c : verify_equality pk (the_eqproof c) c schema non_schema req = Ok [uv uT].
Proof. rewrite verify_eq_defect, defect_one. do 3 f_equal. rewrite (zpow_one n Hn). umod_ring. Qed.
End Eq.
End Present.

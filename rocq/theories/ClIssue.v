(** Proofs for key correctness, blinded secrets and signatures (C23, C24, C25). *)
From Verif Require Import Base BnModel BnProofs UMod Fermat StrMap HelpersModel ClModel ClSpec ClLib ClKey.
From Coq Require Import Permutation ZArith.Zpow_facts.
Open Scope string_scope.
Open Scope list_scope.
Open Scope Z_scope.

(** same key up to the iteration order of the attribute map *)
Definition same_key (pk pk' : ppk) : Prop :=
  pk_n pk' = pk_n pk /\ pk_s pk' = pk_s pk /\ pk_z pk' = pk_z pk /\ pk_rctxt pk' = pk_rctxt pk /\
  (forall k, sm_get k (pk_r pk') = sm_get k (pk_r pk)).

Lemma sm_mem_get {V} k (m : smap V) : sm_mem k m = match sm_get k m with Some _ => true | None => false end.
Proof. reflexivity. Qed.

Lemma existsb_false {A} (f : A -> bool) l : (forall x, In x l -> f x = false) -> existsb f l = false.
Proof. induction l as [|x l IH]; cbn [existsb]; intros E; [reflexivity|]. rewrite E by now left. apply IH. intros; apply E. now right. Qed.

Lemma concat_map_map {A B C} (f : B -> list C) (g : A -> B) l : concat (map f (map g l)) = concat (map (fun x => f (g x)) l).
Proof. now rewrite map_map. Qed.

Section Kcp.
Variable H : list Z -> list Z.
Variables (pk : ppk) (V : valid_pk pk).
Notation n := (pk_n pk).
Let Hn : 2 <= n := vk_n pk V.
Local Notation "a ** b" := (umul n Hn a b) (at level 40, left associativity).
Local Notation "a ^^ k" := (zpow n Hn a k) (at level 30).
Local Notation "a ^-1" := (uinv n Hn a) (at level 25).
Notation S_ := (uS pk V).
Notation Z_ := (uZ pk V).
Notation R_ := (uR pk V).

Lemma kcp_complete sk meta xzd xrd :
  NoDup (sm_keys (pk_r pk)) ->
  Z_ = S_ ^^ xz meta -> (forall k, In k (sm_keys (pk_r pk)) -> exists x, sm_get k (xr meta) = Some x /\ R_ k = S_ ^^ x) ->
  exists pr, new_key_correctness_proof H pk sk meta xzd xrd = Ok pr /\ map fst (kc_xr_cap pr) = sm_keys (pk_r pk) /\
    forall pk', same_key pk pk' -> check_key_correctness_proof H pk' pr = Ok tt.
Proof.
  intros ND EZ ER.
  pose (g k := gen_x (sk_p sk) (sk_q sk) (xrd k)).
  pose (t0 := gen_x (sk_p sk) (sk_q sk) xzd).
  pose (keys := sm_keys (pk_r pk)).
  unfold new_key_correctness_proof. fold t0. fold keys.
  change (fun (m : smap Z) (k : string) => hm_insert k (gen_x (sk_p sk) (sk_q sk) (xrd k)) m) with (fun (m : smap Z) (k : string) => hm_insert k (g k) m).
  rewrite (fold_hm_map g keys []) by (auto; intros ? _ []). cbn [app].
  rewrite (uS_eq pk V), (mod_exp_u n Hn). cbn [rbind].
  rewrite (rfold_hm_map (fun x => bn_mod_exp (uv S_) x n) (fun k x => uv (S_ ^^ x))).
  2:{ intros k x _. apply (mod_exp_u n Hn). }
  2:{ now rewrite sm_keys_map. }
  2:{ intros k _ []. }
  cbn [rbind app]. rewrite map_map. cbn [fst snd].
  rewrite (rmap_ok _ (fun a => bn_to_bytes (uv (S_ ^^ g a)))).
  2:{ intros a Ha. rewrite (sm_index_some _ _ (uv (S_ ^^ g a))); [reflexivity|].
      rewrite (sm_get_map (fun k => uv (S_ ^^ g k))). apply ss_mem_in in Ha. now rewrite Ha. }
  cbn [rbind].
  set (c := get_hash_as_int H _).
  assert (forall k, In k keys -> R_ k = S_ ^^ mget (xr meta) k) as ER'.
  { intros k Hk. destruct (ER k Hk) as (x & E1 & E2). rewrite E2. unfold mget. now rewrite E1. }
  rewrite (rmap_ok _ (fun k => (k, bn_add (bn_mul c (mget (xr meta) k)) (g k)))).
  2:{ intros k Hk. rewrite (sm_index_some _ _ (g k)).
      - cbn [rbind]. destruct (ER k Hk) as (x & E1 & E2). rewrite (sm_index_some _ _ x E1). cbn [rbind].
        unfold mget. now rewrite E1.
      - rewrite (sm_get_map g). apply ss_mem_in in Hk. now rewrite Hk. }
  cbn [rbind]. eexists. split; [reflexivity|]. cbn [kc_xr_cap]. split.
  { rewrite map_map. cbn [fst]. apply map_id. }
  intros pk' (En & Es & Ez & Ec & Eg). unfold check_key_correctness_proof. cbn [kc_xr_cap kc_c kc_xz_cap].
  rewrite En, Es, Ez. rewrite map_map. cbn [fst]. rewrite map_id.
  assert (forall k, In k (sm_keys (pk_r pk')) <-> In k keys) as EK.
  { intros k. unfold keys. rewrite !sm_get_keys. now rewrite Eg. }
  rewrite existsb_false.
  2:{ intros k Hk. apply EK in Hk. apply ss_mem_in in Hk. now rewrite Hk. }
  rewrite existsb_false.
  2:{ intros k Hk. apply EK in Hk. apply sm_mem_keys in Hk. now rewrite Hk. }
  rewrite (uZ_eq pk V), (uS_eq pk V), (inverse_u n Hn). cbn [rbind]. rewrite (pedersen_u n Hn). cbn [rbind].
  rewrite (rmap_ok _ (fun kx => (uv (R_ (fst kx)), uv (S_ ^^ g (fst kx))))).
  2:{ intros [k x] Hin. apply in_map_iff in Hin as (k' & E & Hk). injection E as <- <-. cbn [fst].
      rename k' into k. rewrite (sm_index_some k _ (uv (R_ k))) by (rewrite Eg; now apply uR_get). cbn [rbind].
      rewrite (inverse_u n Hn). cbn [rbind]. rewrite (pedersen_u n Hn). cbn [rbind]. do 3 f_equal.
      rewrite (ER' k Hk). unfold bn_add, bn_mul. umod_ring. }
  cbn [rbind]. rewrite !map_map. cbn [fst snd].
  replace (uinv n Hn Z_ ^^ c ** S_ ^^ bn_add (bn_mul c (xz meta)) t0) with (S_ ^^ t0).
  2:{ rewrite EZ. unfold bn_add, bn_mul. umod_ring. }
  match goal with |- (if c =? ?d then _ else _) = _ => replace d with c; [now rewrite Z.eqb_refl|] end.
  unfold c. do 3 f_equal. rewrite (uZ_eq pk V). f_equal. f_equal.
  unfold keys, sm_keys. rewrite map_map. f_equal. apply map_ext_in. intros [k r] Hin. cbn [fst snd].
  f_equal. apply (uR_some pk V). now apply sm_in_get.
Qed.

(** the attribute names of key and proof *)
Lemma kcp_names pk0 pr : check_key_correctness_proof H pk0 pr = Ok tt ->
  (forall k, In k (sm_keys (pk_r pk0)) -> k <> "master_secret" -> In k (map fst (kc_xr_cap pr))) /\
  (forall k, In k (map fst (kc_xr_cap pr)) -> In k (sm_keys (pk_r pk0))).
Proof.
  unfold check_key_correctness_proof. destruct (existsb _ (sm_keys (pk_r pk0))) eqn:E1; [discriminate|].
  destruct (existsb _ (map fst (kc_xr_cap pr))) eqn:E2; [discriminate|]. intros _. split.
  - intros k Hk Hm. destruct (ss_mem k (map fst (kc_xr_cap pr))) eqn:M; [now apply ss_mem_in|].
    exfalso. apply not_true_iff_false in E1. apply E1. apply existsb_exists. exists k. split; [assumption|].
    rewrite M. apply String.eqb_neq in Hm. now rewrite Hm.
  - intros k Hk. destruct (sm_mem k (pk_r pk0)) eqn:M; [now apply sm_mem_keys|].
    exfalso. apply not_true_iff_false in E2. apply E2. apply existsb_exists. exists k. split; [assumption|]. now rewrite M.
Qed.
Lemma kcp_names_reject pk0 pr k :
  (In k (sm_keys (pk_r pk0)) /\ k <> "master_secret" /\ ~ In k (map fst (kc_xr_cap pr))) \/
  (In k (map fst (kc_xr_cap pr)) /\ ~ In k (sm_keys (pk_r pk0))) ->
  check_key_correctness_proof H pk0 pr = Err InvalidStructure.
Proof.
  unfold check_key_correctness_proof. intros [(H1 & H2 & H3)|(H1 & H2)].
  - replace (existsb _ (sm_keys (pk_r pk0))) with true; [reflexivity|]. symmetry. apply existsb_exists. exists k.
    split; [assumption|]. rewrite andb_true_iff. split.
    + destruct (ss_mem k _) eqn:M; [|reflexivity]. apply ss_mem_in in M. contradiction.
    + apply String.eqb_neq in H2. now rewrite H2.
  - destruct (existsb _ (sm_keys (pk_r pk0))); [reflexivity|].
    replace (existsb _ (map fst (kc_xr_cap pr))) with true; [reflexivity|]. symmetry. apply existsb_exists. exists k.
    split; [assumption|]. destruct (sm_mem k _) eqn:M; [|reflexivity]. apply sm_mem_keys in M. contradiction.
Qed.
End Kcp.

(** ** key generation *)
Lemma gcd_sqr a n : Z.gcd a n = 1 -> Z.gcd (a * a) n = 1.
Proof. intros E. now apply gcd_mul_1. Qed.
Lemma unit_of n x : 2 <= n -> Z.gcd x n = 1 -> unit_mod n (x mod n).
Proof. intros Hn E. split; [apply Z.mod_pos_bound; lia|]. now rewrite Z.gcd_mod, Z.gcd_comm by lia. Qed.

Definition xr_map (p q : Z) (xr_draw : string -> Z) (names : list string) : smap Z :=
  fold_left (fun m a => hm_insert a (gen_x p q (xr_draw a)) m) names [].

Lemma keygen_ok schema non_schema ps qs sd xzd xrd xcd :
  schema <> [] -> 2 <= ps * qs -> Z.gcd sd (ps * qs) = 1 ->
  exists pk sk meta,
    new_credential_primary_keys schema non_schema ps qs sd xzd xrd xcd = Ok (pk, sk, meta) /\
    pk_n pk = ps * qs /\ pk_s pk = (sd * sd) mod (ps * qs) /\ sk_p sk = bn_rshift1 ps /\ sk_q sk = bn_rshift1 qs /\
    NoDup (sm_keys (pk_r pk)) /\ (forall k, In k (sm_keys (pk_r pk)) <-> In k schema \/ In k non_schema) /\
    exists V : valid_pk pk,
      uZ pk V = zpow (pk_n pk) (vk_n pk V) (uS pk V) (xz meta) /\
      xz meta = xzd + 2 /\ uC pk V = zpow (pk_n pk) (vk_n pk V) (uS pk V) (xcd + 2) /\
      (forall k, In k (sm_keys (pk_r pk)) -> sm_get k (xr meta) = Some (xrd k + 2) /\
         uR pk V k = zpow (pk_n pk) (vk_n pk V) (uS pk V) (xrd k + 2)).
Proof.
  intros Hs Hn0 Hg. unfold new_credential_primary_keys. destruct schema as [|a0 sc]; [congruence|]. set (schema := a0 :: sc) in *. clear Hs.
  unfold bn_mul. set (n := ps * qs) in *. set (p := bn_rshift1 ps). set (q := bn_rshift1 qs).
  pose proof (unit_of n (sd * sd) Hn0 (gcd_sqr _ _ Hg)) as Us.
  unfold bn_random_qr, bn_sqr. rewrite bn_modulus_pos by lia. cbn [rbind].
  pose (S0 := lift n ((sd * sd) mod n) Hn0). pose proof (uv_lift n _ Hn0 Us : uv S0 = _) as ES. rewrite <- ES.
  pose (g k := gen_x p q (xrd k)).
  change (fun (m : smap Z) (a : string) => hm_insert a (gen_x p q (xrd a)) m) with (fun (m : smap Z) (a : string) => hm_insert a (g a) m).
  set (xrm := fold_left (fun m a => hm_insert a (g a) m) (non_schema ++ schema) []).
  assert (NoDup (sm_keys xrm)) as NDx by (apply fold_hm_nodup; constructor).
  assert (forall k, sm_get k xrm = if ss_mem k (non_schema ++ schema) then Some (g k) else None) as Gx.
  { intros k. unfold xrm. rewrite fold_hm_get. reflexivity. }
  rewrite (rfold_hm_map (fun x => bn_mod_exp (uv S0) x n) (fun k x => uv (zpow n Hn0 S0 x))); auto.
  2:{ intros k x _. apply (mod_exp_u n Hn0). }
  cbn [rbind app]. rewrite (mod_exp_u n Hn0). cbn [rbind]. rewrite (mod_exp_u n Hn0). cbn [rbind].
  set (r := map _ xrm).
  assert (sm_keys r = sm_keys xrm) as Kr by (unfold r, sm_keys; now rewrite map_map).
  assert (forall k, In k (sm_keys xrm) <-> In k schema \/ In k non_schema) as Kx.
  { intros k. rewrite sm_get_keys, Gx. destruct (ss_mem k _) eqn:M.
    - apply ss_mem_in in M. apply in_app_iff in M. split; [tauto|eauto].
    - split; [now intros [v Hv]|]. intros D. exfalso. apply not_true_iff_false in M. apply M. apply ss_mem_in, in_app_iff. tauto. }
  assert (forall k v, sm_get k r = Some v -> v = uv (zpow n Hn0 S0 (g k))) as Gr.
  { intros k v Hv. apply sm_get_in in Hv. unfold r in Hv. apply in_map_iff in Hv as ([k' x] & E & Hin). cbn [fst snd] in E.
    injection E as -> <-. do 2 f_equal. apply (sm_in_get _ _ _ NDx) in Hin. rewrite Gx in Hin. destruct (ss_mem k _); congruence. }
  set (z := uv (zpow n Hn0 S0 (gen_x p q xzd))). set (rc := uv (zpow n Hn0 S0 (gen_x p q xcd))).
  set (pk := mkPPK n (uv S0) r rc z).
  assert (valid_pk pk) as VV.
  { constructor; cbn [pk pk_n pk_s pk_r pk_z pk_rctxt]; try apply unit_uv; [assumption|].
    intros k v Hv. rewrite (Gr _ _ Hv). apply unit_uv. }
  exists pk, (mkPSK p q), (mkPMeta (gen_x p q xzd) xrm). split; [reflexivity|]. split; [reflexivity|]. split; [reflexivity|].
  split; [reflexivity|]. split; [reflexivity|]. change (pk_r pk) with r. rewrite Kr. split; [assumption|]. split; [assumption|].
  exists VV. cbn [xz xr].
  assert (uS pk VV = S0) as E1 by (apply uv_inj; now rewrite <- (uS_eq pk VV)).
  rewrite E1. split; [|split; [reflexivity|split]].
    + apply uv_inj. rewrite <- (uZ_eq pk VV). change (pk_z pk) with z. unfold z. f_equal. apply zpow_irr.
    + apply uv_inj. rewrite <- (uC_eq pk VV). change (pk_rctxt pk) with rc. unfold rc. f_equal. apply zpow_irr.
    + intros k Hk. change (xrd k + 2) with (g k). split.
      * rewrite Gx. replace (ss_mem k _) with true; [reflexivity|]. symmetry. apply ss_mem_in, in_app_iff.
        apply Kx in Hk. tauto.
      * apply uv_inj. rewrite <- Kr in Hk. pose proof (uR_get pk VV k Hk) as E. apply Gr in E. rewrite E.
        f_equal. apply zpow_irr.
Qed.

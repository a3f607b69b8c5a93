(** Proofs for the blinded secrets correctness proof (C24). *)
From Verif Require Import Base BnModel BnProofs UMod StrMap HelpersModel ClModel ClSpec ClLib ClKey.
Open Scope string_scope.
Open Scope list_scope.
Open Scope Z_scope.

(** integer value / blinding factor of an attribute *)
Definition val_of (vals : cred_values) (k : string) : Z := match sm_get k vals with Some cv => cv_value cv | None => 0 end.
Definition bf_of (vals : cred_values) (k : string) : Z := match sm_get k vals with Some (Commitment _ b) => b | _ => 0 end.
Definition hidden_of (vals : cred_values) : smap cred_value := filter (fun kv => is_hidden (snd kv)) vals.
Definition committed_of (vals : cred_values) : smap cred_value := filter (fun kv => is_commitment (snd kv)) vals.

Lemma filter_keys {V} (f : string * V -> bool) (m : smap V) k : In k (sm_keys (filter f m)) -> In k (sm_keys m).
Proof. unfold sm_keys. intros Hk. apply in_map_iff in Hk as (x & <- & Hx). apply filter_In in Hx as [Hx _]. now apply in_map. Qed.

Section Blind.
Variable H : list Z -> list Z.
Variables (pk : ppk) (V : valid_pk pk).
Notation n := (pk_n pk).
Let Hn : 2 <= n := vk_n pk V.
Local Notation "a ** b" := (umul n Hn a b) (at level 40, left associativity).
Local Notation "a ^^ k" := (zpow n Hn a k) (at level 30).
Local Notation "a ^-1" := (uinv n Hn a) (at level 25).
Notation S_ := (uS pk V).
Notation Z_ := (uZ pk V).
Notation R_ := (uR pk V).

Variable vals : cred_values.
Hypothesis Hsort : ssorted (sm_keys vals).
Hypothesis Hkeys : forall k cv, In (k, cv) vals -> is_known cv = false -> In k (sm_keys (pk_r pk)).

Let ND : NoDup (sm_keys vals) := sorted_nodup _ Hsort.
Lemma vals_get k cv : In (k, cv) vals -> sm_get k vals = Some cv.
Proof. now apply sm_in_get. Qed.
Lemma val_in k cv : In (k, cv) vals -> val_of vals k = cv_value cv.
Proof. intros E. unfold val_of. now rewrite (vals_get _ _ E). Qed.
Lemma hidden_in k : In k (sm_keys (hidden_of vals)) -> In k (sm_keys (pk_r pk)) /\ exists x, In (k, Hidden x) vals.
Proof.
  unfold sm_keys at 1, hidden_of. intros Hk. apply in_map_iff in Hk as ([k' cv] & <- & Hx). apply filter_In in Hx as [Hx Hh].
  cbn [fst snd] in *. destruct cv; try discriminate. split; [eapply Hkeys; [eassumption|reflexivity]|eauto].
Qed.

Definition uU (v_prime : Z) : U n := S_ ^^ v_prime ** uprod n Hn R_ (val_of vals) (sm_keys (hidden_of vals)).
Definition uComm (k : string) : U n := S_ ^^ bf_of vals k ** Z_ ^^ val_of vals k.
Definition the_blinded v_prime : blinded :=
  mkBlinded (uv (uU v_prime)) (sm_keys (hidden_of vals)) (map (fun x => (fst x, uv (uComm (fst x)))) (committed_of vals)).

Lemma generate_blinded_u v_prime : generate_blinded_primary_factors pk vals v_prime = Ok (the_blinded v_prime).
Proof.
  unfold generate_blinded_primary_factors. fold (hidden_of vals). fold (committed_of vals).
  rewrite (uS_eq pk V), (mod_exp_u n Hn). cbn [rbind].
  rewrite (rfold_uprod n Hn _ (fun k => k) R_ (val_of vals)).
  2:{ intros acc k Hk. apply hidden_in in Hk as (Hk & x & Hx).
      rewrite (uR_get_or pk V) by assumption. cbn [rbind].
      rewrite (sm_index_some _ _ _ (vals_get _ _ Hx)). cbn [rbind]. rewrite (mod_exp_u n Hn). cbn [rbind].
      rewrite (mod_mul_u n Hn). rewrite (val_in _ _ Hx). reflexivity. }
  cbn [rbind]. rewrite map_id.
  rewrite (rfold_ext _ (fun m' x => let! y := (match snd x with Commitment value bf => get_pedersen_commitment (uv S_) bf (pk_z pk) value n | _ => Err Panic end) in Ok (bt_insert (fst x) y m'))).
  2:{ intros m [k cv] Hin. apply filter_In in Hin as [Hin Hc]. cbn [fst snd] in *. destruct cv; try discriminate. reflexivity. }
  rewrite (rfold_bt_map _ (fun x => uv (uComm (fst x)))).
  - reflexivity.
  - intros [k cv] Hin. apply filter_In in Hin as [Hin Hc]. cbn [fst snd] in *. destruct cv as [x|x|x b]; try discriminate.
    rewrite (uZ_eq pk V), (pedersen_u n Hn). unfold uComm, bf_of. rewrite (val_in _ _ Hin), (vals_get _ _ Hin). reflexivity.
  - now apply sm_keys_filter_sorted.
  - intros ? ? _ [].
Qed.

Lemma s_exp a : bn_mod_exp (pk_s pk) a n = Ok (uv (S_ ^^ a)).
Proof. rewrite (uS_eq pk V). apply (mod_exp_u n Hn). Qed.
Lemma ped_zs a b : get_pedersen_commitment (pk_z pk) a (pk_s pk) b n = Ok (uv (Z_ ^^ a ** S_ ^^ b)).
Proof. rewrite (uZ_eq pk V), (uS_eq pk V). apply (pedersen_u n Hn). Qed.

(** first loop of the proof *)
Section Loop.
Variables (v_prime : Z) (m_t r_t : string -> Z).
Definition hc (l : cred_values) := forall x, In x l -> In x vals /\ is_known (snd x) = false.
Definition cbytes (l : cred_values) : list Z :=
  concat (map (fun x => bn_to_bytes (uv (Z_ ^^ m_t (fst x) ** S_ ^^ r_t (fst x))) ++ bn_to_bytes (uv (uComm (fst x)))) (committed_of l)).

Lemma committed_get k : In k (sm_keys (committed_of vals)) -> sm_get k (bl_committed (the_blinded v_prime)) = Some (uv (uComm k)).
Proof.
  intros Hk. cbn [the_blinded bl_committed].
  rewrite <- (map_map fst (fun k => (k, uv (uComm k)))). rewrite (sm_get_map (fun k => uv (uComm k))).
  apply ss_mem_in in Hk. unfold sm_keys in Hk. now rewrite Hk.
Qed.

Lemma loop1 : forall l ut values mts rts, hc l ->
  exists mts' rts',
  rfold (fun '(u_tilde, values, m_tildes, r_tildes) '(attr, cv) =>
      let m_tilde := m_t attr in
      let! pk_r := sm_get_or InvalidStructure attr (pk_r pk) in
      match cv with
      | Hidden _ =>
          let! y := bn_mod_exp pk_r m_tilde (pk_n pk) in
          let! u_tilde' := bn_mod_mul u_tilde y (pk_n pk) in
          Ok (u_tilde', values, bt_insert attr m_tilde m_tildes, r_tildes)
      | Commitment _ _ =>
          let r_tilde := r_t attr in
          let! commitment_tilde := get_pedersen_commitment (pk_z pk) m_tilde (pk_s pk) r_tilde (pk_n pk) in
          let! ca_value := sm_get_or InvalidStructure attr (bl_committed (the_blinded v_prime)) in
          Ok (u_tilde, values ++ bn_to_bytes commitment_tilde ++ bn_to_bytes ca_value,
              bt_insert attr m_tilde m_tildes, bt_insert attr r_tilde r_tildes)
      | Known _ => Ok (u_tilde, values, bt_insert attr m_tilde m_tildes, r_tildes)
      end) l (uv ut, values, mts, rts)
  = Ok (uv (ut ** uprod n Hn R_ m_t (sm_keys (hidden_of l))), values ++ cbytes l, mts', rts') /\
  (forall k, sm_get k mts' = if ss_mem k (sm_keys l) then Some (m_t k) else sm_get k mts) /\
  (forall k, sm_get k rts' = if ss_mem k (sm_keys (committed_of l)) then Some (r_t k) else sm_get k rts) /\
  (forall k x, In (k, x) mts' -> In (k, x) mts \/ (x = m_t k /\ In k (sm_keys l))).
Proof.
  induction l as [|[k cv] l IH]; intros ut values mts rts Hl; cbn [rfold].
  - exists mts, rts. unfold cbytes. cbn [committed_of hidden_of filter sm_keys map concat uprod]. rewrite app_nil_r. split; [|split; [reflexivity|split; [reflexivity|auto]]].
    do 5 f_equal. umod_ring.
  - destruct (Hl (k, cv)) as [Hin Hk]; [now left|]. cbn [snd] in Hk.
    assert (hc l) as Hl' by (intros x Hx; apply Hl; now right).
    rewrite (uR_get_or pk V) by (eapply Hkeys; eassumption). cbn [rbind]. destruct cv as [x|x|x b]; [discriminate| |].
    + rewrite (mod_exp_u n Hn). cbn [rbind]. rewrite (mod_mul_u n Hn). cbn [rbind].
      destruct (IH (ut ** R_ k ^^ m_t k) values (bt_insert k (m_t k) mts) rts Hl') as (mts' & rts' & E & E1 & E2 & E3).
      exists mts', rts'. split; [|split; [|split]].
      * etransitivity; [exact E|]. unfold cbytes. cbn [committed_of hidden_of filter snd is_hidden is_commitment sm_keys map fst uprod].
        fold (hidden_of l). fold (sm_keys (hidden_of l)). do 5 f_equal. umod_ring.
      * intros k'. rewrite E1. unfold ss_mem. cbn [sm_keys map fst existsb]. fold (sm_keys l). rewrite sm_get_bt_insert.
        destruct (existsb _ (sm_keys l)); [now rewrite orb_true_r|]. rewrite orb_false_r. destruct (String.eqb_spec k' k) as [->|]; reflexivity.
      * intros k'. apply E2.
      * intros k' x' Hx. apply E3 in Hx as [Hx|[-> Hx]]; [|right; split; [reflexivity|now right]].
        apply bt_insert_in in Hx as [Hx|Hx]; [injection Hx as -> ->; right; split; [reflexivity|now left]|now left].
    + rewrite (ped_zs (m_t k) (r_t k)). cbn [rbind].
      rewrite (sm_get_or_some _ _ _ (uv (uComm k))).
      2:{ apply committed_get. apply (in_map fst (committed_of vals) (k, Commitment x b)). apply filter_In. split; [assumption|reflexivity]. }
      cbn [rbind].
      destruct (IH ut (values ++ bn_to_bytes (uv (Z_ ^^ m_t k ** S_ ^^ r_t k)) ++ bn_to_bytes (uv (uComm k))) (bt_insert k (m_t k) mts) (bt_insert k (r_t k) rts) Hl') as (mts' & rts' & E & E1 & E2 & E3).
      exists mts', rts'. split; [|split; [|split]].
      * etransitivity; [exact E|]. unfold cbytes.
        cbn [committed_of hidden_of filter snd is_hidden is_commitment sm_keys map fst concat]. rewrite <- !app_assoc. reflexivity.
      * intros k'. rewrite E1. unfold ss_mem. cbn [sm_keys map fst existsb]. fold (sm_keys l). rewrite sm_get_bt_insert.
        destruct (existsb _ (sm_keys l)); [now rewrite orb_true_r|]. rewrite orb_false_r. destruct (String.eqb_spec k' k) as [->|]; reflexivity.
      * intros k'. rewrite E2. unfold ss_mem. cbn [committed_of filter snd is_commitment sm_keys map fst existsb]. fold (committed_of l). fold (sm_keys (committed_of l)). rewrite sm_get_bt_insert.
        destruct (existsb _ (sm_keys (committed_of l))); [now rewrite orb_true_r|]. rewrite orb_false_r. destruct (String.eqb_spec k' k) as [->|]; reflexivity.
      * intros k' x' Hx. apply E3 in Hx as [Hx|[-> Hx]]; [|right; split; [reflexivity|now right]].
        apply bt_insert_in in Hx as [Hx|Hx]; [injection Hx as -> ->; right; split; [reflexivity|now left]|now left].
Qed.

(** second loop: the responses *)
Lemma loop2 c rts : (forall k, In k (sm_keys (committed_of vals)) -> sm_get k rts = Some (r_t k)) ->
  forall (mts : smap Z) mc rc,
  (forall k x, In (k, x) mts -> x = m_t k /\ exists cv, In (k, cv) vals /\ is_known cv = false) ->
  exists mc' rc',
  rfold (fun '(m_caps, r_caps) '(attr, m_tilde) =>
      let! ca := sm_get_or InvalidStructure attr vals in
      match ca with
      | Hidden value => Ok (bt_insert attr (bn_add m_tilde (bn_mul c value)) m_caps, r_caps)
      | Commitment value blinding_factor =>
          let! rt := sm_index attr rts in
          Ok (bt_insert attr (bn_add m_tilde (bn_mul c value)) m_caps,
              bt_insert attr (bn_add rt (bn_mul c blinding_factor)) r_caps)
      | Known _ => Ok (m_caps, r_caps)
      end) mts (mc, rc) = Ok (mc', rc') /\
  (forall k, sm_get k mc' = if ss_mem k (sm_keys mts) then Some (m_t k + c * val_of vals k) else sm_get k mc) /\
  (forall k, In k (sm_keys (committed_of vals)) -> sm_get k rc' = if ss_mem k (sm_keys mts) then Some (r_t k + c * bf_of vals k) else sm_get k rc).
Proof.
  intros Hr. induction mts as [|[k x] mts IH]; intros mc rc Hm; cbn [rfold].
  - exists mc, rc. now repeat split.
  - destruct (Hm k x) as (-> & cv & Hin & Hk); [now left|].
    assert (forall k x, In (k, x) mts -> x = m_t k /\ exists cv, In (k, cv) vals /\ is_known cv = false) as Hm' by (intros; apply Hm; now right).
    rewrite (sm_get_or_some _ _ _ _ (vals_get _ _ Hin)). cbn [rbind]. pose proof (val_in _ _ Hin) as Hv.
    destruct cv as [v|v|v b]; [discriminate| |].
    + destruct (IH (bt_insert k (bn_add (m_t k) (bn_mul c v)) mc) rc Hm') as (mc' & rc' & E & E1 & E2).
      exists mc', rc'. split; [exact E|split].
      * intros k'. rewrite E1. unfold ss_mem. cbn [sm_keys map fst existsb]. fold (sm_keys mts). rewrite sm_get_bt_insert.
        destruct (existsb _ (sm_keys mts)); [now rewrite orb_true_r|]. rewrite orb_false_r. destruct (String.eqb_spec k' k) as [->|]; [|reflexivity].
        now rewrite Hv.
      * intros k' Hk'. rewrite E2 by assumption. unfold ss_mem. cbn [sm_keys map fst existsb]. fold (sm_keys mts).
        destruct (existsb _ (sm_keys mts)); [now rewrite orb_true_r|]. rewrite orb_false_r. destruct (String.eqb_spec k' k) as [->|]; [|reflexivity].
        exfalso. apply in_map_iff in Hk' as ([k'' cv] & E3 & Hf). cbn [fst] in E3. subst k''. apply filter_In in Hf as [Hf Hc].
        apply vals_get in Hf, Hin. rewrite Hf in Hin. injection Hin as ->. discriminate.
    + assert (In k (sm_keys (committed_of vals))) as Hkc.
      { apply (in_map fst (committed_of vals) (k, Commitment v b)). apply filter_In. split; [assumption|reflexivity]. }
      rewrite (sm_index_some _ _ _ (Hr k Hkc)). cbn [rbind].
      destruct (IH (bt_insert k (bn_add (m_t k) (bn_mul c v)) mc) (bt_insert k (bn_add (r_t k) (bn_mul c b)) rc) Hm') as (mc' & rc' & E & E1 & E2).
      exists mc', rc'. split; [exact E|split].
      * intros k'. rewrite E1. unfold ss_mem. cbn [sm_keys map fst existsb]. fold (sm_keys mts). rewrite sm_get_bt_insert.
        destruct (existsb _ (sm_keys mts)); [now rewrite orb_true_r|]. rewrite orb_false_r. destruct (String.eqb_spec k' k) as [->|]; [|reflexivity].
        now rewrite Hv.
      * intros k' Hk'. rewrite E2 by assumption. unfold ss_mem. cbn [sm_keys map fst existsb]. fold (sm_keys mts). rewrite sm_get_bt_insert.
        destruct (existsb _ (sm_keys mts)); [now rewrite orb_true_r|]. rewrite orb_false_r. destruct (String.eqb_spec k' k) as [->|]; [|reflexivity].
        unfold bf_of. now rewrite (vals_get _ _ Hin).
Qed.
End Loop.

Lemma sm_keys_of_get {A B} (m : smap A) (m' : smap B) : (forall k, sm_get k m = None <-> sm_get k m' = None) -> forall k, In k (sm_keys m) <-> In k (sm_keys m').
Proof.
  intros E k. rewrite !sm_get_keys. specialize (E k). destruct (sm_get k m), (sm_get k m'); split; intros [v Hv]; try discriminate; eauto;
  exfalso; destruct E as [E1 E2]; try (specialize (E1 eq_refl); discriminate); specialize (E2 eq_refl); discriminate.
Qed.

Lemma blinded_proof_accepted v_prime nonce vdt m_t r_t :
  exists pr, new_blinded_correctness_proof H pk (the_blinded v_prime) v_prime nonce vals vdt m_t r_t = Ok pr /\
    check_blinded_correctness_proof H (the_blinded v_prime) pr nonce pk = Ok tt.
Proof.
  unfold new_blinded_correctness_proof. rewrite s_exp. cbn [rbind].
  set (hcs := filter (fun kv => is_hidden (snd kv) || is_commitment (snd kv)) vals).
  assert (hc hcs) as Hhc.
  { intros [k cv] Hx. apply filter_In in Hx as [Hx Hc]. split; [assumption|]. cbn [snd] in *. now destruct cv. }
  destruct (loop1 v_prime m_t r_t hcs (S_ ^^ vdt) [] [] [] Hhc) as (mts & rts & E & E1 & E2 & E5).
  lazymatch type of E with _ = ?rhs => match goal with |- context [rfold ?f hcs ?s] => replace (rfold f hcs s) with rhs by (symmetry; exact E) end end.
  clear E. cbn [rbind app].
  assert (hidden_of hcs = hidden_of vals) as EH.
  { unfold hcs, hidden_of. clear. induction vals as [|[k cv] l IH]; [reflexivity|]. cbn [filter snd]. destruct cv; cbn [is_hidden is_commitment orb filter snd]; congruence. }
  assert (committed_of hcs = committed_of vals) as EC.
  { unfold hcs, committed_of. clear. induction vals as [|[k cv] l IH]; [reflexivity|]. cbn [filter snd]. destruct cv; cbn [is_hidden is_commitment orb filter snd]; congruence. }
  set (c := get_hash_as_int H _).
  assert (forall k, In k (sm_keys (committed_of vals)) -> sm_get k rts = Some (r_t k)) as Hr.
  { intros k Hk. rewrite E2, EC. apply ss_mem_in in Hk. now rewrite Hk. }
  destruct (loop2 m_t r_t c rts Hr mts [] []) as (mc & rc & E & E3 & E4).
  { intros k x Hin. apply E5 in Hin as [[]|[-> Hk]]. split; [reflexivity|].
    apply in_map_iff in Hk as ([k' cv] & <- & Hx). exists cv. destruct (Hhc _ Hx). split; assumption. }
  lazymatch type of E with _ = ?rhs => match goal with |- context [rfold ?f mts ?s] => replace (rfold f mts s) with rhs by (symmetry; exact E) end end.
  clear E. cbn [rbind]. eexists. split; [reflexivity|].
  unfold check_blinded_correctness_proof. cbn [bp_c bp_v_dash_cap bp_m_caps bp_r_caps the_blinded bl_u bl_hidden bl_committed].
  rewrite (inverse_u n Hn). cbn [rbind]. rewrite (mod_exp_u n Hn). cbn [rbind]. rewrite s_exp. cbn [rbind].
  rewrite (mod_mul_u n Hn). cbn [rbind].
  assert (forall k, In k (sm_keys hcs) -> sm_get k mc = Some (m_t k + c * val_of vals k)) as Gm.
  { intros k Hk. rewrite E3. replace (ss_mem k (sm_keys mts)) with true; [reflexivity|]. symmetry. apply ss_mem_in, sm_get_keys.
    exists (m_t k). rewrite E1. apply ss_mem_in in Hk. now rewrite Hk. }
  assert (forall k, In k (sm_keys (committed_of vals)) -> sm_get k rc = Some (r_t k + c * bf_of vals k)) as Gr.
  { intros k Hk. rewrite E4 by assumption. replace (ss_mem k (sm_keys mts)) with true; [reflexivity|]. symmetry. apply ss_mem_in, sm_get_keys.
    exists (m_t k). rewrite E1. rewrite <- EC in Hk. apply filter_keys in Hk. apply ss_mem_in in Hk. now rewrite Hk. }
  rewrite (rfold_uprod n Hn _ (fun k => k) R_ (fun k => m_t k + c * val_of vals k)).
  2:{ intros acc k Hk. destruct (hidden_in _ Hk) as (Hkr & x & Hx). rewrite (uR_get_or pk V) by assumption. cbn [rbind].
      rewrite (sm_index_some _ _ _ (Gm k ltac:(rewrite <- EH in Hk; now apply filter_keys in Hk))). cbn [rbind].
      rewrite (mod_exp_u n Hn). cbn [rbind]. apply (mod_mul_u n Hn). }
  cbn [rbind]. rewrite map_id.
  rewrite (rfold_ext _ (fun values x => Ok (values ++ bn_to_bytes (uv (Z_ ^^ m_t (fst x) ** S_ ^^ r_t (fst x))) ++ bn_to_bytes (snd x)))).
  2:{ intros values [k y] Hin. apply in_map_iff in Hin as ([k' cv] & Ek & Hx). cbn [fst] in Ek. assert (k' = k) as -> by congruence. assert (y = uv (uComm k)) as -> by congruence. clear Ek. cbn [fst snd].
      assert (In k (sm_keys (committed_of vals))) as Hk by (apply (in_map fst) in Hx; exact Hx).
      rewrite (sm_index_some _ _ _ (Gm k ltac:(rewrite <- EC in Hk; now apply filter_keys in Hk))). cbn [rbind].
      rewrite (inverse_u n Hn). cbn [rbind]. rewrite (mod_exp_u n Hn). cbn [rbind]. rewrite (sm_index_some _ _ _ (Gr k Hk)). cbn [rbind].
      rewrite ped_zs. cbn [rbind]. rewrite (mod_mul_u n Hn). cbn [rbind]. unfold uComm. do 4 f_equal. f_equal. umod_ring. }
  assert (forall (f : string * Z -> list Z) l acc, rfold (fun values x => Ok (values ++ f x)) l acc = Ok (acc ++ concat (map f l))) as RF.
  { intros f. induction l as [|x l IH]; intros acc; cbn [rfold rbind map concat]; [now rewrite app_nil_r|]. rewrite IH. now rewrite <- app_assoc. }
  rewrite (RF (fun x => bn_to_bytes (uv (Z_ ^^ m_t (fst x) ** S_ ^^ r_t (fst x))) ++ bn_to_bytes (snd x))). cbn [rbind app].
  match goal with |- (if c =? ?d then _ else _) = _ => replace d with c; [now rewrite Z.eqb_refl|] end.
  unfold c at 1.
  match goal with |- get_hash_as_int H [?x] = get_hash_as_int H [?y] => replace y with x; [reflexivity|] end.
  unfold cbytes. rewrite EC, EH, map_map. cbn [fst snd]. do 3 f_equal. f_equal. f_equal.
  rewrite uprod_add, uprod_scale. unfold uU, bn_add, bn_mul. umod_ring.
Qed.
End Blind.

(** Proofs for the primary signature (C25). *)
From Verif Require Import Base BnModel BnProofs UMod Fermat StrMap HelpersModel ClModel ClSpec ClLib ClKey ClIssue ClBlind.
From Coq Require Import Permutation Znumtheory ZArith.Zpow_facts.
Open Scope string_scope.
Open Scope list_scope.
Open Scope Z_scope.

Lemma gcd_pow_1 x n k : 0 <= k -> Z.gcd x n = 1 -> Z.gcd (x ^ k) n = 1.
Proof.
  intros Hk E. revert Hk. revert k. apply (natlike_ind (fun k => Z.gcd (x ^ k) n = 1)).
  - rewrite Z.pow_0_r. apply Z.gcd_1_l.
  - intros k Hk IH. rewrite Z.pow_succ_r by assumption. now apply gcd_mul_1.
Qed.

Lemma prime_half p : prime (2 * p + 1) -> 1 <= p.
Proof. intros [H1 _]. lia. Qed.
Lemma issuer_n_ge pk sk : issuer_key pk sk -> 2 <= pk_n pk /\ 2 <= sk_p sk * sk_q sk.
Proof.
  intros K. pose proof (prime_half _ (ik_p _ _ K)). pose proof (prime_half _ (ik_q _ _ K)). pose proof (ik_pq _ _ K).
  rewrite (ik_n _ _ K). generalize (sk_p sk) (sk_q sk) H H0 H1. clear. intros p q Hp Hq N. split; nia.
Qed.
Lemma issuer_key_valid pk sk : issuer_key pk sk -> valid_pk pk.
Proof.
  intros K. destruct (issuer_n_ge _ _ K) as [Hn _]. destruct (ik_s _ _ K) as (x & Gx & Es).
  assert (unit_mod (pk_n pk) (pk_s pk)) as Us by (rewrite Es; apply unit_of; [assumption|now apply gcd_mul_1]).
  assert (forall k, 0 <= k -> unit_mod (pk_n pk) (pk_s pk ^ k mod pk_n pk)) as Up.
  { intros k Hk. apply unit_of; [assumption|]. apply gcd_pow_1; [assumption|apply Us]. }
  constructor; try assumption.
  - destruct (ik_z _ _ K) as (k & Hk & ->). auto.
  - destruct (ik_rctxt _ _ K) as (k & Hk & ->). auto.
  - intros a r Ha. destruct (ik_r _ _ K a r Ha) as (k & Hk & ->). auto.
Qed.

Section Sign.
Variable H : list Z -> list Z.
Variable isp : Z -> bool.
Variables (pk : ppk) (sk : psk) (K : issuer_key pk sk).
Let V : valid_pk pk := issuer_key_valid pk sk K.
Notation n := (pk_n pk).
Let Hn : 2 <= n := vk_n pk V.
Local Notation "a ** b" := (umul n Hn a b) (at level 40, left associativity).
Local Notation "a ^^ k" := (zpow n Hn a k) (at level 30).
Local Notation "a ^-1" := (uinv n Hn a) (at level 25).
Notation S_ := (uS pk V).
Notation Z_ := (uZ pk V).
Notation C_ := (uC pk V).
Notation R_ := (uR pk V).
Notation ord := (sk_p sk * sk_q sk).

Definition pw (x : U n) : Prop := exists k, x = S_ ^^ k.
Lemma pw_mul x y : pw x -> pw y -> pw (x ** y).
Proof. intros [a ->] [b ->]. exists (a + b). umod_ring. Qed.
Lemma pw_inv x : pw x -> pw (x ^-1).
Proof. intros [a ->]. exists (- a). umod_ring. Qed.
Lemma pw_pow x k : pw x -> pw (x ^^ k).
Proof. intros [a ->]. exists (a * k). umod_ring. Qed.
Lemma pw_one : pw (u1 n Hn).
Proof. exists 0. umod_ring. Qed.
Lemma pw_S : pw S_. Proof. exists 1. umod_ring. Qed.
Lemma pw_of x k : 0 <= k -> uv x = pk_s pk ^ k mod n -> pw x.
Proof. intros Hk E. exists k. apply uv_inj. rewrite E, (uS_eq pk V). symmetry. now apply uv_zpow_nonneg. Qed.
Lemma pw_Z : pw Z_.
Proof. destruct (ik_z _ _ K) as (k & Hk & E). apply (pw_of _ k); [assumption|]. now rewrite <- (uZ_eq pk V). Qed.
Lemma pw_C : pw C_.
Proof. destruct (ik_rctxt _ _ K) as (k & Hk & E). apply (pw_of _ k); [assumption|]. now rewrite <- (uC_eq pk V). Qed.
Lemma pw_R k : In k (sm_keys (pk_r pk)) -> pw (R_ k).
Proof.
  intros Hk. pose proof (uR_get pk V k Hk) as E. destruct (ik_r _ _ K _ _ E) as (j & Hj & Ej). now apply (pw_of _ j).
Qed.
Lemma pw_uprod m l : (forall k, In k l -> In k (sm_keys (pk_r pk))) -> pw (uprod n Hn R_ m l).
Proof.
  induction l as [|k l IH]; cbn [uprod]; intros E; [apply pw_one|]. apply pw_mul; [apply pw_pow, pw_R, E; now left|]. apply IH. intros; apply E. now right.
Qed.
Lemma S_order : S_ ^^ ord = u1 n Hn.
Proof.
  destruct (ik_s _ _ K) as (x & Gx & Es). destruct (issuer_n_ge _ _ K) as [_ Ho].
  apply uv_inj. rewrite uv_zpow_nonneg by lia. rewrite (uv_1 n Hn), <- (uS_eq pk V), Es.
  rewrite <- Zpower_mod by lia. rewrite (ik_n _ _ K) in *. apply qr_order; try assumption; apply K.
Qed.
Lemma pw_order x j : pw x -> x ^^ (ord * j) = u1 n Hn.
Proof.
  intros [k ->]. replace ((S_ ^^ k) ^^ (ord * j)) with ((S_ ^^ ord) ^^ (k * j)) by umod_ring. rewrite S_order. umod_ring.
Qed.
Lemma pw_cong x a b : pw x -> (a - b) mod ord = 0 -> x ^^ a = x ^^ b.
Proof.
  intros Px E. destruct (issuer_n_ge _ _ K) as [_ Ho]. apply Z_div_exact_full_2 in E; [|lia].
  replace a with (b + ord * ((a - b) / ord)) by lia. rewrite (zpow_add n Hn), pw_order by assumption. umod_ring.
Qed.

(** signing *)
Variables (ctx v_draw : Z) (e : Z).
Hypothesis He : 0 <= e.
Hypothesis Hge : Z.gcd e ord = 1.
Definition e_inv : Z := match bn_inverse e ord with Ok x => x | Err _ => 0 end.
Lemma e_inv_ok : bn_inverse e ord = Ok e_inv /\ (e * e_inv - 1) mod ord = 0.
Proof.
  destruct (issuer_n_ge _ _ K) as [_ Ho]. destruct (bn_inverse_ok e ord He Ho Hge) as (x & E & Hx & M).
  unfold e_inv. rewrite E. split; [reflexivity|]. rewrite Zminus_mod, M. rewrite (Z.mod_small 1) by lia. reflexivity.
Qed.

Variable ivals : cred_values.
Hypothesis Hik : forall k, In k (map fst (known_values ivals)) -> In k (sm_keys (pk_r pk)).
Variable bl : blinded.
Variable uu : U n.
Hypothesis Hu : bl_u bl = uv uu.
Hypothesis Pu : pw uu.

Lemma known_aprod : forall l acc, (forall k, In k (map fst (known_values l)) -> In k (sm_keys (pk_r pk))) ->
  rfold (fun rx '(key, attr) =>
      let! pk_r := sm_get_or InvalidStructure key (pk_r pk) in
      let! y := bn_mod_exp pk_r (cv_value attr) (pk_n pk) in
      bn_mod_mul y rx (pk_n pk)) (filter (fun kv => is_known (snd kv)) l) (uv acc)
  = Ok (uv (acc ** aprod pk V (known_values l))).
Proof.
  induction l as [|[k cv] l IH]; intros acc Hk; cbn [filter rfold]; [do 2 f_equal; unfold aprod, known_values; cbn [filter map fold_right]; fold Hn; umod_ring|].
  unfold known_values in *. cbn [filter snd] in *. destruct cv as [x|x|x b]; cbn [is_known] in *; try (now apply IH).
  cbn [map fst snd cv_value] in *. cbn [rfold]. rewrite (uR_get_or pk V) by (apply Hk; now left). cbn [rbind cv_value].
  rewrite (mod_exp_u n Hn). cbn [rbind]. rewrite (mod_mul_u n Hn). cbn [rbind]. rewrite IH by (intros; apply Hk; now right).
  do 2 f_equal. unfold aprod. cbn [fold_right fst snd]. fold Hn. umod_ring.
Qed.
Lemma pw_aprod l : (forall k, In k (map fst l) -> In k (sm_keys (pk_r pk))) -> pw (aprod pk V l).
Proof.
  induction l as [|[k x] l IH]; unfold aprod in *; cbn [map fst snd fold_right] in *; intros E; [apply pw_one|].
  apply pw_mul; [apply pw_pow, pw_R, E; now left|]. apply IH. intros; apply E. now right.
Qed.

Definition uQ (v : Z) : U n := Z_ ** (S_ ^^ v ** uu ** C_ ^^ ctx ** aprod pk V (known_values ivals)) ^-1.
Lemma pw_uQ v : pw (uQ v).
Proof.
  apply pw_mul; [apply pw_Z|]. apply pw_inv. repeat apply pw_mul; auto using pw_pow, pw_S, pw_C. now apply pw_aprod.
Qed.
Lemma sign_u v : sign_primary_credential pk sk ctx ivals v bl e = Ok (uv (uQ v ^^ e_inv), uv (uQ v)).
Proof.
  unfold sign_primary_credential. rewrite (uS_eq pk V), (mod_exp_u n Hn). cbn [rbind].
  rewrite Hu. replace (uv uu =? 0) with false.
  2:{ symmetry. apply Z.eqb_neq. intros E. pose proof (uv_gcd n uu) as G. rewrite E in G. rewrite Z.gcd_0_l in G. lia. }
  rewrite (mod_mul_u n Hn). cbn [rbind]. rewrite (uC_eq pk V), (mod_exp_u n Hn). cbn [rbind]. rewrite (mod_mul_u n Hn). cbn [rbind].
  rewrite known_aprod by assumption. cbn [rbind]. rewrite (uZ_eq pk V), (mod_div_u n Hn). cbn [rbind].
  unfold bn_mul. rewrite (proj1 e_inv_ok). cbn [rbind]. fold (uQ v). rewrite (mod_exp_u n Hn). reflexivity.
Qed.

(** the signature equation *)
Lemma sign_eq v : (uQ v ^^ e_inv) ^^ e = uQ v.
Proof.
  replace ((uQ v ^^ e_inv) ^^ e) with (uQ v ^^ (e * e_inv)) by umod_ring.
  rewrite (pw_cong _ _ 1 (pw_uQ v) (proj2 e_inv_ok)). umod_ring.
Qed.

Lemma sig_proof_u v m2 nonce r :
  exists se, new_signature_correctness_proof H pk sk (mkPSig m2 (uv (uQ v ^^ e_inv)) e v) (uv (uQ v)) nonce r =
    Ok (mkSCP se (get_hash_as_int H [bn_to_bytes (uv (uQ v)) ++ bn_to_bytes (uv (uQ v ^^ e_inv)) ++ bn_to_bytes (uv (uQ v ^^ r)) ++ bn_to_bytes nonce])) /\
    (uQ v ^^ e_inv) ^^ (get_hash_as_int H [bn_to_bytes (uv (uQ v)) ++ bn_to_bytes (uv (uQ v ^^ e_inv)) ++ bn_to_bytes (uv (uQ v ^^ r)) ++ bn_to_bytes nonce] + se * e) = uQ v ^^ r.
Proof.
  destruct (issuer_n_ge _ _ K) as [_ Ho]. destruct e_inv_ok as [E1 E2].
  unfold new_signature_correctness_proof. cbn [sg_a sg_e]. rewrite (mod_exp_u n Hn). cbn [rbind]. unfold bn_mul.
  rewrite E1. cbn [rbind]. set (c := get_hash_as_int H _). unfold bn_mod_mul. rewrite bn_modulus_pos by lia. cbn [rbind].
  unfold bn_mod_sub. rewrite bn_modulus_pos by lia. cbn [rbind]. eexists. split; [reflexivity|].
  unfold bn_mul, bn_sub.
  set (se := (r - (c * e_inv) mod ord) mod ord).
  replace ((uQ v ^^ e_inv) ^^ (c + se * e)) with (uQ v ^^ (e_inv * c + se * (e * e_inv))) by umod_ring.
  apply pw_cong; [apply pw_uQ|].
  apply Z.mod_divide in E2; [|lia]. destruct E2 as [t Et]. apply Z.mod_divide; [lia|].
  assert (exists j, se = r - c * e_inv + j * ord) as [j Ej].
  { unfold se. exists (c * e_inv / ord - (r - (c * e_inv) mod ord) / ord).
    pose proof (Z.div_mod (r - (c * e_inv) mod ord) ord ltac:(lia)). pose proof (Z.div_mod (c * e_inv) ord ltac:(lia)). lia. }
  exists (se * t + j). replace (e * e_inv) with (t * ord + 1) by lia. rewrite Ej. ring.
Qed.
End Sign.

Lemma prime_search_isp isp : forall draws c, prime_search isp draws = Ok c -> isp c = true.
Proof.
  induction draws as [|d ds IH]; cbn [prime_search]; intros c E; [discriminate|]. destruct (isp (Z.lor d 1)) eqn:I; [|now apply IH].
  injection E as <-. exact I.
Qed.
Lemma gen_prime_isp isp s e draws c : bn_generate_prime_in_range isp s e draws = Ok c -> isp c = true.
Proof.
  unfold bn_generate_prime_in_range. destruct (s <? 0); [discriminate|]. destruct (e <? 0); [discriminate|].
  destruct (_ =? _); [discriminate|]. apply prime_search_isp.
Qed.

Section Issue.
Variable H : list Z -> list Z.
Variable isp : Z -> bool.
Variables (pk : ppk) (sk : psk) (K : issuer_key pk sk).
Let V : valid_pk pk := issuer_key_valid pk sk K.
Notation n := (pk_n pk).
Let Hn : 2 <= n := vk_n pk V.
Local Notation "a ** b" := (umul n Hn a b) (at level 40, left associativity).
Local Notation "a ^^ k" := (zpow n Hn a k) (at level 30).
Local Notation "a ^-1" := (uinv n Hn a) (at level 25).
Notation S_ := (uS pk V).
Notation Z_ := (uZ pk V).
Notation C_ := (uC pk V).
Notation R_ := (uR pk V).

Lemma signed_aprod (vals : cred_values) : NoDup (sm_keys vals) ->
  aprod pk V (signed_values vals) = aprod pk V (known_values vals) ** uprod n Hn R_ (val_of vals) (sm_keys (hidden_of vals)).
Proof.
  intros ND. assert (forall l, (forall x, In x l -> In x vals) ->
    aprod pk V (signed_values l) = aprod pk V (known_values l) ** uprod n Hn R_ (val_of vals) (sm_keys (hidden_of l))) as G; [|now apply G].
  induction l as [|[k cv] l IH]; intros Hl; unfold signed_values, known_values, hidden_of in *; cbn [filter snd is_known is_hidden].
  - unfold aprod. cbn [map fold_right sm_keys uprod]. fold Hn. umod_ring.
  - assert (forall x, In x l -> In x vals) as Hl' by (intros; apply Hl; now right). specialize (IH Hl').
    destruct cv as [x|x|x b]; cbn [is_known is_hidden orb map fst snd sm_keys uprod cv_value]; [| |exact IH].
    + fold (sm_keys (filter (fun kv => is_hidden (snd kv)) l)). unfold aprod in *. cbn [fold_right fst snd]. rewrite IH. fold Hn. umod_ring.
    + assert (val_of vals k = x) as Ex.
      { unfold val_of. rewrite (sm_in_get k vals (Hidden x)); [reflexivity|assumption|apply Hl; now left]. }
      fold (sm_keys (filter (fun kv => is_hidden (snd kv)) l)). rewrite Ex. unfold aprod in *. cbn [fold_right fst snd]. rewrite IH. fold Hn. umod_ring.
Qed.

Lemma check_loop : forall (l : cred_values) acc, (forall k, In k (map fst (signed_values l)) -> In k (sm_keys (pk_r pk))) ->
  rfold (fun acc '(attr, value) =>
        let! pk_r := sm_index attr (pk_r pk) in
        let! y := bn_mod_exp pk_r (cv_value value) (pk_n pk) in
        bn_mod_mul acc y (pk_n pk))
      (filter (fun kv => (is_known (snd kv) || is_hidden (snd kv)) && sm_mem (fst kv) (pk_r pk)) l) (uv acc)
  = Ok (uv (acc ** aprod pk V (signed_values l))).
Proof.
  induction l as [|[k cv] l IH]; intros acc Hk.
  - cbn [filter rfold]. do 2 f_equal. unfold aprod, signed_values. cbn [filter map fold_right]. fold Hn. umod_ring.
  - unfold signed_values in *. cbn [filter snd fst] in *. destruct (is_known cv || is_hidden cv) eqn:Ekh; cbn [andb]; [|now apply IH].
    cbn [map fst snd] in *. assert (In k (sm_keys (pk_r pk))) as Hkk by (apply Hk; now left).
    pose proof (proj2 (sm_mem_keys k (pk_r pk)) Hkk) as Em. rewrite Em. cbn [rfold].
    rewrite (uR_index pk V) by assumption. cbn [rbind].
    rewrite (mod_exp_u n Hn). cbn [rbind]. rewrite (mod_mul_u n Hn). cbn [rbind]. rewrite IH by (intros; apply Hk; now right).
    do 2 f_equal. unfold aprod. cbn [fold_right fst snd]. fold Hn. umod_ring.
Qed.

Variable vals : cred_values.
Hypothesis Hsort : ssorted (sm_keys vals).
Hypothesis Hkeys : forall k, In k (sm_keys vals) -> In k (sm_keys (pk_r pk)).

Lemma vals_keys' : forall k cv, In (k, cv) vals -> is_known cv = false -> In k (sm_keys (pk_r pk)).
Proof. intros k cv Hin _. apply Hkeys. apply (in_map fst) in Hin. exact Hin. Qed.
Lemma signed_keys k : In k (map fst (signed_values vals)) -> In k (sm_keys (pk_r pk)).
Proof.
  unfold signed_values. rewrite map_map. cbn [fst]. intros Hk. apply Hkeys. apply (filter_keys _ _ _ Hk).
Qed.

Lemma issue_ok ivals prover_id v_prime nonce vdt m_t r_t issuance_nonce v_draw e_draws e r_draw :
  known_values ivals = known_values vals ->
  bn_generate_prime_in_range isp LARGE_E_START_VALUE LARGE_E_END_RANGE_VALUE e_draws = Ok e ->
  0 <= e -> Z.gcd e (sk_p sk * sk_q sk) = 1 ->
  exists bl pr sg sp,
    generate_blinded_primary_factors pk vals v_prime = Ok bl /\
    new_blinded_correctness_proof H pk bl v_prime nonce vals vdt m_t r_t = Ok pr /\
    sign_credential H isp prover_id bl pr nonce issuance_nonce ivals pk sk v_draw e_draws r_draw = Ok (sg, sp) /\
    sg_e sg = e /\ sg_v sg = generate_v_prime_prime v_draw /\ sg_m2 sg = gen_credential_context H prover_id None /\
    unit_mod n (sg_a sg) /\
    cl_signature pk (process_primary_credential sg v_prime) (signed_values vals) /\
    check_signature_correctness_proof H isp (process_primary_credential sg v_prime) vals sp pk issuance_nonce = Ok tt.
Proof.
  intros Eiv Ee He Hg. pose proof vals_keys' as Hkeys'.
  pose proof (generate_blinded_u pk V vals Hsort Hkeys' v_prime) as Gb.
  destruct (blinded_proof_accepted H pk V vals Hsort Hkeys' v_prime nonce vdt m_t r_t) as (pr & Gp & Gc).
  set (bl := the_blinded pk V vals v_prime) in *. set (uu := uU pk V vals v_prime).
  assert (bl_u bl = uv uu) as Hu by reflexivity.
  assert (pw pk sk K uu) as Pu.
  { unfold uu, uU. apply pw_mul; [apply pw_pow, pw_S|]. apply pw_uprod. intros k Hk. apply Hkeys, (filter_keys _ _ _ Hk). }
  assert (forall k, In k (map fst (known_values ivals)) -> In k (sm_keys (pk_r pk))) as Hik.
  { rewrite Eiv. unfold known_values. rewrite map_map. cbn [fst]. intros k Hk. apply Hkeys, (filter_keys _ _ _ Hk). }
  set (ctx := gen_credential_context H prover_id None).
  set (v := generate_v_prime_prime v_draw).
  pose proof (sign_u pk sk K ctx e He Hg ivals Hik bl uu Hu v) as Gs.
  pose proof (sign_eq pk sk K ctx e He Hg ivals Hik uu Pu v) as Geq.
  destruct (sig_proof_u H pk sk K ctx e He Hg ivals Hik uu Pu v ctx issuance_nonce r_draw) as (se & Gsp & Gse).
  set (Q := uQ pk sk K ctx ivals uu v) in *. set (A := zpow n (vk_n pk (issuer_key_valid pk sk K)) Q (e_inv sk e)) in *.
  set (c := get_hash_as_int H _) in Gsp, Gse.
  exists bl, pr, (mkPSig ctx (uv A) e v), (mkSCP se c).
  split; [exact Gb|]. split; [exact Gp|]. split.
  { unfold sign_credential. rewrite Gc. cbn [rbind]. unfold new_primary_credential. rewrite Ee. cbn [rbind]. fold ctx. fold v.
    rewrite Gs. cbn [rbind]. rewrite Gsp. reflexivity. }
  cbn [sg_e sg_v sg_m2 sg_a process_primary_credential]. split; [reflexivity|]. split; [reflexivity|]. split; [reflexivity|]. split; [apply unit_uv|].
  assert (Z_ = A ^^ e ** S_ ^^ (v_prime + v) ** C_ ^^ ctx ** aprod pk V (signed_values vals)) as MAIN.
  { rewrite signed_aprod by now apply sorted_nodup. change (A ^^ e = Q) in Geq. rewrite Geq. unfold Q, uQ, uu, uU. rewrite Eiv. fold V. fold Hn. umod_ring. }
  split.
  - apply (cl_signature_u pk V); [cbn [sg_a process_primary_credential]; apply unit_uv|apply signed_keys|].
    unfold uA, bn_add. cbn [sg_a process_primary_credential sg_e sg_v sg_m2]. rewrite lift_uv. exact MAIN.
  - unfold check_signature_correctness_proof. cbn [sg_e sg_v sg_m2 sg_a process_primary_credential].
    rewrite (gen_prime_isp _ _ _ _ _ Ee). cbn [negb].
    rewrite existsb_false.
    2:{ intros [k cv] Hin. cbn [fst snd]. assert (In k (sm_keys (pk_r pk))) as Hk by (apply Hkeys; apply (in_map fst) in Hin; exact Hin).
        apply sm_mem_keys in Hk. rewrite Hk. apply andb_false_r. }
    rewrite (uS_eq pk V), (uC_eq pk V), (pedersen_u n Hn). cbn [rbind].
    rewrite check_loop by apply signed_keys. cbn [rbind]. rewrite (uZ_eq pk V), (mod_div_u n Hn). cbn [rbind].
    rewrite (mod_exp_u n Hn). cbn [rbind]. unfold bn_add, bn_mul. cbn [sc_c sc_se].
    replace (Z_ ** (S_ ^^ (v_prime + v) ** C_ ^^ ctx ** aprod pk V (signed_values vals)) ^-1) with Q.
    2:{ change (A ^^ e = Q) in Geq. rewrite MAIN, <- Geq. umod_ring. }
    change (A ^^ e = Q) in Geq. rewrite Geq, Z.eqb_refl. cbn [negb]. rewrite (mod_exp_u n Hn). cbn [rbind].
    change (A ^^ (c + se * e) = Q ^^ r_draw) in Gse. rewrite Gse.
    match goal with |- (if c =? ?d then _ else _) = _ => change d with c end. now rewrite Z.eqb_refl.
Qed.
End Issue.

(** ** key generation yields an issuer key *)
Lemma rshift1_odd p : 1 <= p -> bn_rshift1 (2 * p + 1) = p.
Proof.
  intros Hp. unfold bn_rshift1. rewrite Z.shiftr_div_pow2 by lia. change (2 ^ 1) with 2.
  replace (2 * p + 1) with (1 + p * 2) by ring. rewrite Z.div_add by lia. reflexivity.
Qed.
Lemma keygen_issuer schema non_schema p q sd xzd xrd xcd :
  schema <> [] -> prime (2 * p + 1) -> prime (2 * q + 1) -> p <> q -> Z.gcd sd ((2 * p + 1) * (2 * q + 1)) = 1 ->
  0 <= xzd -> (forall k, 0 <= xrd k) -> 0 <= xcd ->
  exists pk sk meta,
    new_credential_primary_keys schema non_schema (2 * p + 1) (2 * q + 1) sd xzd xrd xcd = Ok (pk, sk, meta) /\
    issuer_key pk sk /\ sk_p sk = p /\ sk_q sk = q /\ NoDup (sm_keys (pk_r pk)) /\
    (forall k, In k (sm_keys (pk_r pk)) <-> In k schema \/ In k non_schema).
Proof.
  intros Hs Pp Pq N G D1 D2 D3. pose proof (prime_half _ Pp) as Hp. pose proof (prime_half _ Pq) as Hq.
  destruct (keygen_ok schema non_schema (2 * p + 1) (2 * q + 1) sd xzd xrd xcd Hs ltac:(nia) G)
    as (pk & sk & meta & E & En & Es & Ep & Eq & ND & Ek & V & EZ & Exz & EC & ER).
  rewrite rshift1_odd in Ep, Eq by assumption.
  exists pk, sk, meta. split; [exact E|]. split; [|auto].
  constructor; rewrite ?Ep, ?Eq; try assumption.
  - exists sd. rewrite En. auto.
  - exists (xz meta). split; [lia|]. rewrite (uZ_eq pk V), EZ, (uS_eq pk V) at 1. apply uv_zpow_nonneg. lia.
  - exists (xcd + 2). split; [lia|]. rewrite (uC_eq pk V), EC, (uS_eq pk V) at 1. apply uv_zpow_nonneg. lia.
  - intros a r Ha. exists (xrd a + 2). specialize (D2 a). split; [lia|].
    rewrite (uR_some pk V _ _ Ha). destruct (ER a) as [_ ->]; [apply sm_get_keys; eauto|]. rewrite (uS_eq pk V). apply uv_zpow_nonneg. lia.
Qed.
Lemma prime_gcd_pq e p q : prime e -> prime p -> prime q -> e <> p -> e <> q -> Z.gcd e (p * q) = 1.
Proof.
  intros He Hp Hq N1 N2. apply Zgcd_1_rel_prime. apply rel_prime_mult; (apply rel_prime_sym, prime_rel_prime; [assumption|];
  intros D; apply prime_div_prime in D; [congruence|assumption|assumption]).
Qed.

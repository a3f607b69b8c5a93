(** What a key correctness proof does not settle (C156). *)
Require Import String.
From Verif Require Import Base BnModel BnProofs NumTheory UMod Fermat StrMap HelpersModel ClModel ClSpec ClLib ClKey ClIssue.
From Coq Require Import ZArith.Zpow_facts ZArith.Znumtheory.
Open Scope string_scope.
Open Scope list_scope.
Open Scope Z_scope.

(** [l] is a power of [s] modulo [n] *)
Definition power_of (n s l : Z) : Prop := exists x, 0 <= x /\ l mod n = s ^ x mod n.
(** [y^d = s^(d x)] modulo [n]: [y] equals [s^x] up to a factor whose order divides [d] *)
Definition power_up_to (n s y d x : Z) : Prop := y ^ d mod n = s ^ (d * x) mod n.

Section Kcp.
Variable H : list Z -> list Z.
Variables (pk : ppk) (V : valid_pk pk).
Notation n := (pk_n pk).
Let Hn : 2 <= n := vk_n pk V.
Local Notation "a ** b" := (umul n Hn a b) (at level 40, left associativity).
Local Notation "a ^^ k" := (zpow n Hn a k) (at level 30).
Notation S_ := (uS pk V).
Notation Z_ := (uZ pk V).
Notation R_ := (uR pk V).

Lemma power_up_to_u (a : U n) d x : 0 <= d -> 0 <= x -> power_up_to n (uv S_) (uv a) d x -> a ^^ d = S_ ^^ (d * x).
Proof.
  intros Hd Hx E. apply uv_inj. rewrite !(uv_zpow_nonneg n Hn) by lia. exact E.
Qed.

Lemma dividing_power (a : U n) d c x : a ^^ d = S_ ^^ (d * x) -> (d | c) -> a ^^ c = S_ ^^ (c * x).
Proof.
  intros E [k ->]. rewrite <- (zpow_mul n Hn a k d), <- !Z.mul_assoc, (Z.mul_comm k (d * x)).
  rewrite <- (zpow_mul n Hn S_ (d * x) k), <- E. rewrite !(zpow_mul n Hn). f_equal. lia.
Qed.

Lemma kcp_shape sk meta xzd xrd :
  NoDup (sm_keys (pk_r pk)) ->
  (forall k, In k (sm_keys (pk_r pk)) -> exists x, sm_get k (xr meta) = Some x) ->
  exists pr, new_key_correctness_proof H pk sk meta xzd xrd = Ok pr /\
    kc_xz_cap pr = kc_c pr * xz meta + gen_x (sk_p sk) (sk_q sk) xzd /\
    map fst (kc_xr_cap pr) = sm_keys (pk_r pk) /\
    (forall k s, In (k, s) (kc_xr_cap pr) -> exists x, sm_get k (xr meta) = Some x /\ s = kc_c pr * x + gen_x (sk_p sk) (sk_q sk) (xrd k)) /\
    (Z_ ^^ kc_c pr = S_ ^^ (kc_c pr * xz meta) ->
     (forall k x, sm_get k (xr meta) = Some x -> In k (sm_keys (pk_r pk)) -> R_ k ^^ kc_c pr = S_ ^^ (kc_c pr * x)) ->
     check_key_correctness_proof H pk pr = Ok tt).
Proof.
  intros ND EX.
  pose (g k := gen_x (sk_p sk) (sk_q sk) (xrd k)).
  pose (t0 := gen_x (sk_p sk) (sk_q sk) xzd).
  pose (keys := sm_keys (pk_r pk)).
  unfold new_key_correctness_proof. fold t0. fold keys.
  change (fun (m : smap Z) (k : string) => hm_insert k (gen_x (sk_p sk) (sk_q sk) (xrd k)) m) with (fun (m : smap Z) (k : string) => hm_insert k (g k) m).
  rewrite (fold_hm_map g keys []) by (auto; intros ? _ []). cbn [app].
  rewrite (uS_eq pk V), (mod_exp_u n Hn). cbn [rbind].
  rewrite (rfold_hm_map (fun x => bn_mod_exp (uv S_) x n) (fun k x => uv (S_ ^^ x))).
  2:{ intros k x _. apply (mod_exp_u n Hn). }
  2:{ now rewrite sm_keys_map. }
  2:{ intros k _ []. }
  cbn [rbind app]. rewrite map_map. cbn [fst snd].
  rewrite (rmap_ok _ (fun a => bn_to_bytes (uv (S_ ^^ g a)))).
  2:{ intros a Ha. rewrite (sm_index_some _ _ (uv (S_ ^^ g a))); [reflexivity|].
      rewrite (sm_get_map (fun k => uv (S_ ^^ g k))). apply ss_mem_in in Ha. now rewrite Ha. }
  cbn [rbind].
  set (c := get_hash_as_int H _).
  rewrite (rmap_ok _ (fun k => (k, bn_add (bn_mul c (mget (xr meta) k)) (g k)))).
  2:{ intros k Hk. rewrite (sm_index_some _ _ (g k)).
      - cbn [rbind]. destruct (EX k Hk) as (x & E1). rewrite (sm_index_some _ _ x E1). cbn [rbind].
        unfold mget. now rewrite E1.
      - rewrite (sm_get_map g). apply ss_mem_in in Hk. now rewrite Hk. }
  cbn [rbind]. eexists. split; [reflexivity|]. cbn [kc_xr_cap kc_c kc_xz_cap]. split; [reflexivity|]. split.
  { rewrite map_map. cbn [fst]. apply map_id. }
  split.
  { intros k s Hin. apply in_map_iff in Hin as (k' & E & Hk). injection E as -> <-.
    destruct (EX k Hk) as (x & E1). exists x. split; [exact E1|]. unfold mget. now rewrite E1. }
  intros EZ ER. unfold check_key_correctness_proof. cbn [kc_xr_cap kc_c kc_xz_cap].
  rewrite map_map. cbn [fst]. rewrite map_id. fold keys.
  rewrite existsb_false.
  2:{ intros k Hk. apply ss_mem_in in Hk. now rewrite Hk. }
  rewrite existsb_false.
  2:{ intros k Hk. apply sm_mem_keys in Hk. now rewrite Hk. }
  rewrite (uZ_eq pk V), (uS_eq pk V), (inverse_u n Hn). cbn [rbind]. rewrite (pedersen_u n Hn). cbn [rbind].
  rewrite (rmap_ok _ (fun kx => (uv (R_ (fst kx)), uv (S_ ^^ g (fst kx))))).
  2:{ intros [k x] Hin. apply in_map_iff in Hin as (k' & E & Hk). injection E as <- <-. cbn [fst].
      rename k' into k. rewrite (sm_index_some k _ (uv (R_ k))) by (now apply uR_get). cbn [rbind].
      rewrite (inverse_u n Hn). cbn [rbind]. rewrite (pedersen_u n Hn). cbn [rbind]. do 3 f_equal.
      destruct (EX k Hk) as (x' & E1). unfold mget. rewrite E1.
      rewrite (zpow_inv n Hn), (ER k x' E1 Hk). unfold bn_add, bn_mul. umod_ring. }
  cbn [rbind]. rewrite !map_map. cbn [fst snd].
  replace (uinv n Hn Z_ ^^ c ** S_ ^^ bn_add (bn_mul c (xz meta)) t0) with (S_ ^^ t0).
  2:{ rewrite (zpow_inv n Hn), EZ. unfold bn_add, bn_mul. umod_ring. }
  match goal with |- (if c =? ?d then _ else _) = _ => replace d with c; [now rewrite Z.eqb_refl|] end.
  unfold c. do 3 f_equal. rewrite (uZ_eq pk V). f_equal. f_equal.
  unfold keys, sm_keys. rewrite map_map. f_equal. apply map_ext_in. intros [k r] Hin. cbn [fst snd].
  f_equal. apply (uR_some pk V). now apply sm_in_get.
Qed.
End Kcp.

(** REFUTED: "the issuer can prove a key correct only if Z and every R_k are powers of S". The proof the
    code builds from exponents that are right only up to a factor whose order divides [d] is accepted
    whenever [d] divides the challenge; for [d = 2] that is every second attempt. *)
Theorem C156_refuted_bases_powers_of_s : forall H pk sk meta xz_draw xr_draw d,
  valid_pk pk -> NoDup (sm_keys (pk_r pk)) -> 0 <= d -> 0 <= xz meta ->
  power_up_to (pk_n pk) (pk_s pk) (pk_z pk) d (xz meta) ->
  (forall k r, sm_get k (pk_r pk) = Some r -> exists x, sm_get k (xr meta) = Some x /\ 0 <= x /\ power_up_to (pk_n pk) (pk_s pk) r d x) ->
  exists pr, new_key_correctness_proof H pk sk meta xz_draw xr_draw = Ok pr /\
    ((d | kc_c pr) -> check_key_correctness_proof H pk pr = Ok tt).
Proof.
  intros H pk sk meta xzd xrd d V ND Hd Hx EZ ER.
  destruct (kcp_shape H pk V sk meta xzd xrd ND) as (pr & E & _ & _ & _ & F).
  { intros k Hk. apply sm_get_keys in Hk as [r Hr]. destruct (ER k r Hr) as (x & Ex & _). eauto. }
  exists pr. split; [exact E|]. intros Dv. apply F.
  - apply (dividing_power pk V _ d); [|exact Dv]. apply power_up_to_u; auto. now rewrite <- (uS_eq pk V), <- (uZ_eq pk V).
  - intros k x Ex Hk. apply sm_get_keys in Hk as [r Hr]. destruct (ER k r Hr) as (x' & Ex' & Hx' & Ep).
    assert (x' = x) as -> by congruence.
    apply (dividing_power pk V _ d); [|exact Dv]. apply power_up_to_u; auto. now rewrite <- (uS_eq pk V), <- (uR_some pk V k r Hr).
Qed.
Print Assumptions C156_refuted_bases_powers_of_s.

(** REFUTED: "the key correctness proof hides the issuer's exponents". Nothing is reduced modulo the
    (secret) group order, so dividing a response by the published challenge leaves the exponent up to
    [bound / c], where [bound] bounds the blinding numbers. *)
Theorem C156_refuted_exponents_hidden : forall H pk sk meta xz_draw xr_draw pr bound,
  valid_pk pk -> NoDup (sm_keys (pk_r pk)) ->
  (forall k, In k (sm_keys (pk_r pk)) -> exists x, sm_get k (xr meta) = Some x) ->
  new_key_correctness_proof H pk sk meta xz_draw xr_draw = Ok pr -> 0 < kc_c pr ->
  (0 <= xz_draw + 2 <= bound -> kc_xz_cap pr / kc_c pr - bound / kc_c pr - 1 <= xz meta <= kc_xz_cap pr / kc_c pr) /\
  (forall k s, In (k, s) (kc_xr_cap pr) -> 0 <= xr_draw k + 2 <= bound ->
     exists x, sm_get k (xr meta) = Some x /\ s / kc_c pr - bound / kc_c pr - 1 <= x <= s / kc_c pr).
Proof.
  intros H pk sk meta xzd xrd pr B V ND EX E Hc.
  destruct (kcp_shape H pk V sk meta xzd xrd ND EX) as (pr' & E' & E1 & _ & E3 & _).
  assert (pr' = pr) as -> by congruence.
  assert (forall x t, 0 <= t <= B -> (kc_c pr * x + t) / kc_c pr - B / kc_c pr - 1 <= x <= (kc_c pr * x + t) / kc_c pr) as A.
  { intros x t Ht. rewrite (Z.mul_comm (kc_c pr) x), Z.div_add_l by lia.
    pose proof (Z.div_pos t (kc_c pr) ltac:(lia) Hc). pose proof (Z.div_le_mono t B (kc_c pr) Hc ltac:(lia)). lia. }
  split.
  - intros Hb. rewrite E1. apply A. exact Hb.
  - intros k s Hin Hb. destruct (E3 k s Hin) as (x & Ex & ->). exists x. split; [exact Ex|]. apply A. exact Hb.
Qed.
Print Assumptions C156_refuted_exponents_hidden.

(** for a key whose first prime is odd, [-1] times a power of a square is not a power of that square *)
Theorem C156_negated_power_is_no_power : forall p q y x,
  0 < p -> Z.odd p = true -> prime (2 * p + 1) -> Z.gcd y ((2 * p + 1) * q) = 1 -> 2 <= (2 * p + 1) * q -> 0 <= x ->
  ~ power_of ((2 * p + 1) * q) (y ^ 2) (- (y ^ 2) ^ x) /\
  power_up_to ((2 * p + 1) * q) (y ^ 2) (- (y ^ 2) ^ x) 2 x.
Proof.
  intros p q y x Hp0 Ho HP Hg Hn2 Hx. set (P := 2 * p + 1) in *. set (N := P * q) in *.
  split.
  - intros (k & Hk & E).
    assert (HPN : (P | N)) by (exists q; unfold N; lia).
    assert (q <> 0) as Hq by (intros ->; unfold N in Hn2; lia).
    assert (Ep : (- (y ^ 2) ^ x) mod P = (y ^ 2) ^ k mod P).
    { assert (forall z, (z mod N) mod P = z mod P) as MM.
      { intros z. symmetry. apply Znumtheory.Zmod_div_mod; try exact HPN; lia. }
      rewrite <- (MM (- (y ^ 2) ^ x)), E. apply MM. }
    assert (Hy : y mod P <> 0).
    { intros E0. apply Z.mod_divide in E0; [|lia]. assert (P | 1) as D.
      { rewrite <- Hg. apply Z.gcd_greatest; [exact E0|exact HPN]. }
      apply Z.divide_1_r_nonneg in D; lia. }
    assert (Hf : forall j, 0 <= j -> ((y ^ 2) ^ j) ^ p mod P = 1).
    { intros j Hj. replace (((y ^ 2) ^ j) ^ p) with ((y ^ (P - 1)) ^ j).
      2:{ rewrite <- !Z.pow_mul_r by (unfold P; lia). f_equal. unfold P. lia. }
      rewrite (Zpower_mod (y ^ (P - 1)) j) by lia.
      replace (y ^ (P - 1) mod P) with 1.
      - rewrite Z.pow_1_l by lia. apply Z.mod_1_l. lia.
      - symmetry. apply fermat; [exact HP|]. intros D. apply Hy. apply Z.mod_divide; [lia|exact D]. }
    assert (E2 : (- (y ^ 2) ^ x) ^ p mod P = ((y ^ 2) ^ k) ^ p mod P).
    { rewrite (Zpower_mod (- (y ^ 2) ^ x)) by lia. rewrite Ep. symmetry. apply Zpower_mod. lia. }
    rewrite (Hf k Hk) in E2.
    assert ((- (y ^ 2) ^ x) ^ p = - ((y ^ 2) ^ x) ^ p) as E3.
    { replace (- (y ^ 2) ^ x) with (-1 * (y ^ 2) ^ x) by lia. rewrite Z.pow_mul_l.
      replace ((-1) ^ p) with (-1); [lia|]. symmetry. apply Z.odd_spec in Ho. destruct Ho as [m Hm]. rewrite Hm, Z.pow_add_r, Z.pow_mul_r by lia.
      change ((-1) ^ 2) with 1. rewrite Z.pow_1_l by lia. reflexivity. }
    rewrite E3 in E2. pose proof (Hf x Hx) as E4.
    set (w := ((y ^ 2) ^ x) ^ p) in *.
    assert ((- w + w) mod P = 2 mod P) as E5.
    { rewrite Zplus_mod, E2, E4. reflexivity. }
    replace (- w + w) with 0 in E5 by lia. rewrite Z.mod_0_l, Z.mod_small in E5 by (unfold P; lia). lia.
  - unfold power_up_to. f_equal. rewrite (Z.mul_comm 2 x), Z.pow_mul_r by lia.
    rewrite !Z.pow_2_r. lia.
Qed.
Print Assumptions C156_negated_power_is_no_power.

(** REFUTED: "the proof ties every R_k to its attribute name". Names are not hashed: renaming the attributes
    of key and proof alike (also swapping two of them) changes nothing for the check. *)
Definition rename_key (f : string -> string) (pk : ppk) : ppk :=
  mkPPK (pk_n pk) (pk_s pk) (map (fun kr => (f (fst kr), snd kr)) (pk_r pk)) (pk_rctxt pk) (pk_z pk).
Definition rename_proof (f : string -> string) (pr : kcp) : kcp :=
  mkKCP (kc_c pr) (kc_xz_cap pr) (map (fun kx => (f (fst kx), snd kx)) (kc_xr_cap pr)).

Lemma eqb_rename f (I : forall a b, f a = f b -> a = b) a b : String.eqb (f a) (f b) = String.eqb a b.
Proof.
  destruct (String.eqb_spec a b) as [->|N]; [apply String.eqb_refl|].
  apply String.eqb_neq. intros E. apply N. now apply I.
Qed.
Lemma sm_get_rename f (I : forall a b, f a = f b -> a = b) k (m : smap Z) :
  sm_get (f k) (map (fun kr => (f (fst kr), snd kr)) m) = sm_get k m.
Proof. induction m as [|[k' v] m IH]; cbn [map sm_get fst snd]; [reflexivity|]. rewrite eqb_rename by exact I. now rewrite IH. Qed.
Lemma ss_mem_rename f (I : forall a b, f a = f b -> a = b) k l : ss_mem (f k) (map f l) = ss_mem k l.
Proof.
  destruct (ss_mem k l) eqn:E.
  - apply ss_mem_in. apply ss_mem_in in E. now apply in_map.
  - destruct (ss_mem (f k) (map f l)) eqn:E'; [|reflexivity].
    apply ss_mem_in in E'. apply in_map_iff in E' as (x & Ex & Hx). apply I in Ex. subst x.
    apply ss_mem_in in Hx. congruence.
Qed.
Lemma existsb_map_ext {A B} (g : A -> B) (p : B -> bool) (q : A -> bool) l :
  (forall x, p (g x) = q x) -> existsb p (map g l) = existsb q l.
Proof. intros E. induction l as [|x l IH]; cbn [map existsb]; [reflexivity|]. now rewrite E, IH. Qed.
Lemma rmap_map_ext {A B C} (g : A -> B) (p : B -> res C) (q : A -> res C) l :
  (forall x, p (g x) = q x) -> rmap p (map g l) = rmap q l.
Proof. intros E. induction l as [|x l IH]; cbn [map rmap]; [reflexivity|]. now rewrite E, IH. Qed.

Theorem C156_refuted_names_bound : forall H f pk pr,
  (forall a b, f a = f b -> a = b) -> f "master_secret" = "master_secret" ->
  check_key_correctness_proof H (rename_key f pk) (rename_proof f pr) = check_key_correctness_proof H pk pr.
Proof.
  intros H f pk pr I M. unfold check_key_correctness_proof, rename_key, rename_proof.
  cbn [pk_n pk_s pk_r pk_z kc_c kc_xz_cap kc_xr_cap].
  assert (map fst (map (fun kx : string * Z => (f (fst kx), snd kx)) (kc_xr_cap pr)) = map f (map fst (kc_xr_cap pr))) as -> by now rewrite !map_map.
  assert (sm_keys (map (fun kr : string * Z => (f (fst kr), snd kr)) (pk_r pk)) = map f (sm_keys (pk_r pk))) as ->
    by (unfold sm_keys; now rewrite !map_map).
  rewrite (existsb_map_ext f _ (fun k => negb (ss_mem k (map fst (kc_xr_cap pr))) && negb (String.eqb k "master_secret"))).
  2:{ intros k. rewrite ss_mem_rename by exact I. rewrite <- M at 1. now rewrite eqb_rename by exact I. }
  rewrite (existsb_map_ext f _ (fun k => negb (sm_mem k (pk_r pk)))).
  2:{ intros k. unfold sm_mem. now rewrite sm_get_rename by exact I. }
  destruct (existsb _ (sm_keys (pk_r pk))); [reflexivity|].
  destruct (existsb _ (map fst (kc_xr_cap pr))); [reflexivity|].
  destruct (bn_inverse (pk_z pk) (pk_n pk)); cbn [rbind]; [|reflexivity].
  destruct (get_pedersen_commitment _ _ _ _ _); cbn [rbind]; [|reflexivity].
  erewrite (rmap_map_ext (fun kx : string * Z => (f (fst kx), snd kx))); [reflexivity|].
  intros [k x]. cbn [fst snd]. unfold sm_index, sm_get_or. now rewrite sm_get_rename by exact I.
Qed.
Print Assumptions C156_refuted_names_bound.

(** REFUTED: "the challenge fixes the generator S the proof is about". Neither S nor n is hashed: for a key whose
    only attribute is "master_secret", Z and the commitment [t] are fixed first, the challenge follows from them, and
    every S that is a [k]-th root of [t * Z^c] makes the proof (c, k) an accepted one. *)
Theorem C156_refuted_s_bound : forall H pk t k,
  valid_pk pk -> (forall a, In a (sm_keys (pk_r pk)) -> a = "master_secret") ->
  unit_mod (pk_n pk) t -> 0 <= k ->
  let c := get_hash_as_int H [bn_to_bytes (pk_z pk) ++ bn_to_bytes t] in
  0 <= c -> pk_s pk ^ k mod pk_n pk = t * pk_z pk ^ c mod pk_n pk ->
  check_key_correctness_proof H pk (mkKCP c k []) = Ok tt.
Proof.
  intros H pk t k V ND Ht Hk c Hc E. pose proof (vk_n pk V) as Hn0.
  unfold check_key_correctness_proof. cbn [kc_xr_cap kc_c kc_xz_cap map existsb].
  rewrite existsb_false.
  2:{ intros a Ha. rewrite (ND a Ha). reflexivity. }
  rewrite (uZ_eq pk V), (uS_eq pk V), (inverse_u (pk_n pk) (vk_n pk V)). cbn [rbind].
  rewrite (pedersen_u (pk_n pk) (vk_n pk V)). cbn [rbind rmap map concat].
  rewrite <- (uZ_eq pk V).
  match goal with |- context[bn_to_bytes (uv ?u)] => replace u with (lift (pk_n pk) t (vk_n pk V)) end.
  - rewrite uv_lift by exact Ht. rewrite app_nil_r. cbn [app]. fold c. now rewrite Z.eqb_refl.
  - assert (zpow (pk_n pk) (vk_n pk V) (uS pk V) k = umul (pk_n pk) (vk_n pk V) (lift (pk_n pk) t (vk_n pk V)) (zpow (pk_n pk) (vk_n pk V) (uZ pk V) c)) as E'.
    { apply uv_inj. rewrite uv_mul, !(uv_zpow_nonneg (pk_n pk) (vk_n pk V)) by lia. rewrite uv_lift by exact Ht.
      rewrite <- (uS_eq pk V), <- (uZ_eq pk V), E. rewrite Zmult_mod_idemp_r. reflexivity. }
    rewrite E'. rewrite (zpow_inv (pk_n pk) (vk_n pk V)). umod_ring.
Qed.
Print Assumptions C156_refuted_s_bound.

(** ** Concrete: n = 77 = 7 * 11, S = 4, Z = 61 = -16; 61 is no power of 4, yet the proof is accepted *)
Definition bad_key : ppk := mkPPK 77 4 [("name", 61); ("master_secret", 16)] 16 61.
Definition bad_meta : pmeta := mkPMeta 2 [("name", 2); ("master_secret", 2)].
Definition exH156 (l : list Z) : list Z := repeat 0 31 ++ [2 * (fold_left Z.add l 0 mod 128)].
Example C156_ex_key : valid_pk bad_key /\ NoDup (sm_keys (pk_r bad_key)) /\
  power_up_to 77 4 61 2 2 /\ ~ power_of 77 4 61 /\
  match new_key_correctness_proof exH156 bad_key (mkPSK 3 5) bad_meta 5 (fun _ => 6) with
  | Ok pr => 0 < kc_c pr /\ (2 | kc_c pr) /\ check_key_correctness_proof exH156 bad_key pr = Ok tt
  | Err _ => False end.
Proof.
  split; [|split; [|split; [|split]]].
  - constructor; try (split; [cbn [bad_key pk_n pk_s pk_z pk_rctxt]; lia|reflexivity]).
    + cbn [bad_key pk_n]. lia.
    + intros k r. cbn [bad_key pk_r pk_n]. cbn [sm_get].
      destruct (String.eqb k "name"); [intros [= <-]; split; [lia|reflexivity]|].
      destruct (String.eqb k "master_secret"); [intros [= <-]; split; [lia|reflexivity]|discriminate].
  - cbn [bad_key pk_r sm_keys map fst]. apply NoDup_cons; [|apply NoDup_cons; [|apply NoDup_nil]].
    + intros [E|[]]. discriminate E.
    + intros [].
  - reflexivity.
  - intros (k & Hk & E).
    destruct (C156_negated_power_is_no_power 3 11 2 2 ltac:(lia) eq_refl (isprimeb_prime 7 eq_refl) eq_refl ltac:(lia) ltac:(lia)) as [N _].
    apply N. exists k. split; [exact Hk|]. change ((2 * 3 + 1) * 11) with 77. change (2 ^ 2) with 4. rewrite <- E. reflexivity.
  - vm_compute. split; [reflexivity|]. split; [|reflexivity].
    match goal with |- exists z, ?c = _ => exists (c / 2) end. reflexivity.
Qed.

(** swapping "age" and "height": the hypotheses of [C156_refuted_names_bound] hold *)
Definition swap_names (k : string) : string :=
  if String.eqb k "age" then "height" else if String.eqb k "height" then "age" else k.
Example C156_ex_swap : (forall a b, swap_names a = swap_names b -> a = b) /\ swap_names "master_secret" = "master_secret" /\
  sm_keys (pk_r (rename_key swap_names (mkPPK 77 4 [("age", 16); ("height", 25)] 16 16))) = ["height"; "age"].
Proof.
  split; [|split; reflexivity]. intros a b. unfold swap_names.
  destruct (String.eqb_spec a "age"); destruct (String.eqb_spec b "age"); destruct (String.eqb_spec a "height"); destruct (String.eqb_spec b "height");
    subst; try reflexivity; try congruence; try discriminate.
Qed.
(** Z = 16 and t = 4 give the challenge 20; S = 37 (k = 1) and S = 53 (k = 2) are then both accepted *)
Definition free_s (s : Z) : ppk := mkPPK 77 s [("master_secret", 16)] 16 16.
Definition exH156s (l : list Z) : list Z := repeat 0 31 ++ [fold_left Z.add l 0 mod 256].
Lemma free_s_valid s : unit_mod 77 s -> valid_pk (free_s s).
Proof.
  intros Hs. constructor; cbn [free_s pk_n pk_s pk_z pk_rctxt pk_r]; try exact Hs; try (split; [lia|reflexivity]); [lia|].
  intros k r. cbn [sm_get]. destruct (String.eqb k "master_secret"); [intros [= <-]; split; [lia|reflexivity]|discriminate].
Qed.
Example C156_ex_s :
  get_hash_as_int exH156s [bn_to_bytes 16 ++ bn_to_bytes 4] = 20 /\
  check_key_correctness_proof exH156s (free_s 37) (mkKCP 20 1 []) = Ok tt /\
  check_key_correctness_proof exH156s (free_s 53) (mkKCP 20 2 []) = Ok tt.
Proof.
  assert (A : forall s k, unit_mod 77 s -> 0 <= k -> s ^ k mod 77 = 4 * 16 ^ 20 mod 77 ->
              check_key_correctness_proof exH156s (free_s s) (mkKCP 20 k []) = Ok tt).
  { intros s k Hs Hk E. apply (C156_refuted_s_bound exH156s (free_s s) 4 k (free_s_valid s Hs)); auto.
    - cbn [free_s pk_r sm_keys map fst]. intros a [<-|[]]. reflexivity.
    - split; [cbn [free_s pk_n]; lia|reflexivity].
    - vm_compute. discriminate. }
  split; [vm_compute; reflexivity|]. split; apply A; try lia; try reflexivity; split; try lia; reflexivity.
Qed.

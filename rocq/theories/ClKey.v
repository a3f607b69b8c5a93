(** The CL primary key in the group of units: rewriting lemmas that turn the code's
    modular arithmetic into group elements. *)
From Verif Require Import Base BnModel BnProofs UMod StrMap HelpersModel ClModel ClSpec ClLib.

Lemma sm_index_some {V} k (m : smap V) v : sm_get k m = Some v -> sm_index k m = Ok v.
Proof. unfold sm_index, sm_get_or. now intros ->. Qed.

(** ** product_is_one in the unit group *)
Section One.
Variables (n : Z) (Hn : 2 <= n).
Local Notation "a ** b" := (umul n Hn a b) (at level 40, left associativity).
Local Notation "a ^^ k" := (zpow n Hn a k) (at level 30).
Definition lprod (l : list (U n * Z)) : U n := fold_right (fun ak acc => fst ak ^^ snd ak ** acc) (u1 n Hn) l.
Lemma uv_zpow_nonneg (a : U n) k : 0 <= k -> uv (a ^^ k) = uv a ^ k mod n.
Proof.
  intros Hk. rewrite <- (Z2Nat.id k Hk) at 1. rewrite (zpow_nat n Hn), (uv_upow n Hn). now rewrite Z2Nat.id.
Qed.
Lemma pos_part_u l : pos_part (map (fun ak => (uv (fst ak), snd ak)) l) mod n = uv (lprod (map (fun ak => (fst ak, Z.max (snd ak) 0)) l)).
Proof.
  induction l as [|[a k] l IH]; unfold pos_part, lprod in *; cbn [map fold_right fst snd] in *.
  - reflexivity.
  - rewrite uv_mul, <- IH, uv_zpow_nonneg by lia. rewrite <- Zmult_mod. reflexivity.
Qed.
Lemma neg_part_u l : neg_part (map (fun ak => (uv (fst ak), snd ak)) l) mod n = uv (lprod (map (fun ak => (fst ak, Z.max (- snd ak) 0)) l)).
Proof.
  induction l as [|[a k] l IH]; unfold neg_part, lprod in *; cbn [map fold_right fst snd] in *.
  - reflexivity.
  - rewrite uv_mul, <- IH, uv_zpow_nonneg by lia. rewrite <- Zmult_mod. reflexivity.
Qed.
Lemma lprod_split l : lprod l ** lprod (map (fun ak => (fst ak, Z.max (- snd ak) 0)) l) = lprod (map (fun ak => (fst ak, Z.max (snd ak) 0)) l).
Proof.
  induction l as [|[a k] l IH]; unfold lprod in *; cbn [map fold_right fst snd] in *; [umod_ring|].
  rewrite <- IH. replace (Z.max k 0) with (k + Z.max (- k) 0) by lia. umod_ring.
Qed.
Lemma product_is_one_u l : product_is_one n (map (fun ak => (uv (fst ak), snd ak)) l) <-> lprod l = u1 n Hn.
Proof.
  unfold product_is_one. rewrite pos_part_u, neg_part_u. split.
  - intros E. apply uv_inj in E. rewrite <- (lprod_split l) in E.
    rewrite <- (umul_1_l n Hn (lprod (map _ l))) in E at 2.
    apply (umul_cancel_l n Hn) with (a := lprod (map (fun ak => (fst ak, Z.max (- snd ak) 0)) l)).
    rewrite (umul_comm n Hn _ (lprod l)), E. umod_ring.
  - intros E. f_equal. rewrite <- (lprod_split l), E. umod_ring.
Qed.
Lemma lprod_uprod (f : string -> U n) (m : list (string * Z)) :
  lprod (map (fun kv => (f (fst kv), snd kv)) m) = fold_right (fun kv acc => f (fst kv) ^^ snd kv ** acc) (u1 n Hn) m.
Proof. induction m as [|[k v] m IH]; unfold lprod in *; cbn [map fold_right fst snd] in *; [reflexivity|]. now rewrite IH. Qed.
End One.
Arguments lprod {n} Hn l.

(** ** key elements *)
Section Key.
Variable pk : ppk.
Hypothesis V : valid_pk pk.
Notation n := (pk_n pk).
Let Hn : 2 <= n := vk_n pk V.
Definition uS : U n := lift n (pk_s pk) Hn.
Definition uZ : U n := lift n (pk_z pk) Hn.
Definition uC : U n := lift n (pk_rctxt pk) Hn.
Definition uR (k : string) : U n := lift n (mget (pk_r pk) k) Hn.
Lemma uS_eq : pk_s pk = uv uS. Proof. symmetry. apply uv_lift, (vk_s pk V). Qed.
Lemma uZ_eq : pk_z pk = uv uZ. Proof. symmetry. apply uv_lift, (vk_z pk V). Qed.
Lemma uC_eq : pk_rctxt pk = uv uC. Proof. symmetry. apply uv_lift, (vk_rctxt pk V). Qed.
Lemma uR_get k : In k (sm_keys (pk_r pk)) -> sm_get k (pk_r pk) = Some (uv (uR k)).
Proof.
  intros Hk. apply sm_get_keys in Hk as [r Hr]. rewrite Hr. f_equal. symmetry. unfold uR.
  rewrite (mget_some _ _ _ Hr). apply uv_lift. eapply vk_r; eassumption.
Qed.
Lemma uR_some k r : sm_get k (pk_r pk) = Some r -> r = uv (uR k).
Proof. intros E. assert (In k (sm_keys (pk_r pk))) as Hk by (apply sm_get_keys; eauto). apply uR_get in Hk. congruence. Qed.
Lemma uR_get_or e k : In k (sm_keys (pk_r pk)) -> sm_get_or e k (pk_r pk) = Ok (uv (uR k)).
Proof. intros Hk. now apply sm_get_or_some, uR_get. Qed.
Lemma uR_index k : In k (sm_keys (pk_r pk)) -> sm_index k (pk_r pk) = Ok (uv (uR k)).
Proof. intros Hk. now apply sm_index_some, uR_get. Qed.
Lemma base_of_u k : In k (sm_keys (pk_r pk)) -> base_of pk k = uv (uR k).
Proof. intros Hk. unfold base_of. now rewrite uR_get. Qed.

Local Notation "a ** b" := (umul n Hn a b) (at level 40, left associativity).
Local Notation "a ^^ k" := (zpow n Hn a k) (at level 30).
Local Notation "a ^-1" := (uinv n Hn a) (at level 25).

(** attribute values as a function *)
Definition aprod (vals : list (string * Z)) : U n := fold_right (fun kv acc => uR (fst kv) ^^ snd kv ** acc) (u1 n Hn) vals.
Lemma aprod_app a b : aprod (a ++ b) = aprod a ** aprod b.
Proof. unfold aprod. induction a as [|[k v] a IH]; cbn [app fold_right fst snd]; [umod_ring|]. rewrite IH. umod_ring. Qed.
Lemma aprod_uprod (f : string -> Z) l : aprod (map (fun k => (k, f k)) l) = uprod n Hn uR f l.
Proof. unfold aprod. induction l as [|k l IH]; cbn [map fold_right fst snd uprod]; [reflexivity|]. now rewrite IH. Qed.

Definition unit_sig (sg : psig) := unit_mod n (sg_a sg).
Definition uA (sg : psig) : U n := lift n (sg_a sg) Hn.
Lemma uA_eq sg : unit_sig sg -> sg_a sg = uv (uA sg).
Proof. intros Hs. symmetry. now apply uv_lift. Qed.
Lemma cl_signature_u sg vals : unit_sig sg -> (forall k, In k (map fst vals) -> In k (sm_keys (pk_r pk))) ->
  (cl_signature pk sg vals <-> uZ = uA sg ^^ sg_e sg ** uS ^^ sg_v sg ** uC ^^ sg_m2 sg ** aprod vals).
Proof.
  intros Hs Hk. unfold cl_signature.
  assert (map (fun kv => (base_of pk (fst kv), snd kv)) vals
          = map (fun ak => (uv (fst ak), snd ak)) (map (fun kv => (uR (fst kv), snd kv)) vals)) as E1.
  { rewrite map_map. apply map_ext_in. intros [k v] Hin. cbn [fst snd]. rewrite base_of_u; [reflexivity|].
    apply Hk. apply (in_map fst) in Hin. exact Hin. }
  rewrite E1, (uA_eq sg Hs), uS_eq, uZ_eq, uC_eq.
  change ((uv uZ, -1) :: (uv (uA sg), sg_e sg) :: (uv uS, sg_v sg) :: (uv uC, sg_m2 sg) ::
    map (fun ak => (uv (fst ak), snd ak)) (map (fun kv => (uR (fst kv), snd kv)) vals))
  with (map (fun ak => (uv (fst ak), snd ak)) ((uZ, -1) :: (uA sg, sg_e sg) :: (uS, sg_v sg) :: (uC, sg_m2 sg) :: map (fun kv => (uR (fst kv), snd kv)) vals)).
  rewrite (product_is_one_u n Hn). unfold lprod at 1. cbn [fold_right fst snd]. fold (lprod Hn (map (fun kv => (uR (fst kv), snd kv)) vals)).
  rewrite lprod_uprod. fold (aprod vals).
  generalize (aprod vals) as P. intros P. split.
  - intros E. replace uZ with (uZ ** u1 n Hn) by umod_ring. rewrite <- E. umod_ring.
  - intros ->. umod_ring.
Qed.
End Key.

(** Lemmas shared by the proofs about the CL model: loops over maps, products of
    powers over attribute lists, and lifting of key material into the unit group. *)
From Verif Require Import Base BnModel BnProofs UMod StrMap ClModel ClSpec.
From Coq Require Import Permutation.

(** ** maps built by loops *)
Lemma hm_insert_new {V} k (v : V) m : ~ In k (sm_keys m) -> hm_insert k v m = m ++ [(k, v)].
Proof.
  induction m as [|[k1 v1] m IH]; cbn [hm_insert sm_keys map fst app In]; intros N; [reflexivity|].
  destruct (String.eqb_spec k k1) as [->|]; [tauto|]. rewrite IH; [reflexivity|]. unfold sm_keys. tauto.
Qed.
Lemma sm_keys_app {V} (a b : smap V) : sm_keys (a ++ b) = sm_keys a ++ sm_keys b.
Proof. apply map_app. Qed.

Lemma rfold_hm_map {A B} (f : A -> res B) (g : string -> A -> B) : forall (m : smap A) (acc : smap B),
  (forall k x, In (k, x) m -> f x = Ok (g k x)) -> NoDup (sm_keys m) -> (forall k, In k (sm_keys m) -> ~ In k (sm_keys acc)) ->
  rfold (fun m' '(k, x) => let! y := f x in Ok (hm_insert k y m')) m acc = Ok (acc ++ map (fun kx => (fst kx, g (fst kx) (snd kx))) m).
Proof.
  induction m as [|[k x] m IH]; intros acc Hf N D; cbn [rfold]; [now rewrite app_nil_r|].
  rewrite (Hf k x) by now left. cbn [rbind]. cbn [sm_keys map fst] in N, D. inversion N as [|? ? N1 N2]; subst.
  rewrite hm_insert_new by (apply D; now left).
  rewrite IH.
  - cbn [map fst snd]. now rewrite <- app_assoc.
  - intros k' x' H. apply Hf. now right.
  - assumption.
  - intros k' Hk' Hin. rewrite sm_keys_app in Hin. apply in_app_iff in Hin as [Hin|[<-|[]]]; [|contradiction].
    apply (D k'); [now right|assumption].
Qed.
Lemma fold_hm_map {B} (g : string -> B) : forall (l : list string) (acc : smap B),
  NoDup l -> (forall k, In k l -> ~ In k (sm_keys acc)) ->
  fold_left (fun m k => hm_insert k (g k) m) l acc = acc ++ map (fun k => (k, g k)) l.
Proof.
  induction l as [|k l IH]; intros acc N D; cbn [fold_left map]; [now rewrite app_nil_r|].
  inversion N as [|? ? N1 N2]; subst. rewrite hm_insert_new by (apply D; now left). rewrite IH.
  - now rewrite <- app_assoc.
  - assumption.
  - intros k' Hk' Hin. rewrite sm_keys_app in Hin. apply in_app_iff in Hin as [Hin|[<-|[]]]; [|contradiction].
    apply (D k'); [now right|assumption].
Qed.
Lemma fold_hm_get {B} (g : string -> B) : forall (l : list string) (acc : smap B) k,
  sm_get k (fold_left (fun m k => hm_insert k (g k) m) l acc) = if ss_mem k l then Some (g k) else sm_get k acc.
Proof.
  induction l as [|x l IH]; intros acc k; cbn [fold_left]; [reflexivity|]. rewrite IH, sm_get_hm_insert.
  unfold ss_mem. cbn [existsb]. destruct (existsb (String.eqb k) l); [now rewrite orb_true_r|].
  rewrite orb_false_r. destruct (String.eqb_spec k x) as [->|]; reflexivity.
Qed.
Lemma fold_hm_nodup {B} (g : string -> B) : forall (l : list string) (acc : smap B),
  NoDup (sm_keys acc) -> NoDup (sm_keys (fold_left (fun m k => hm_insert k (g k) m) l acc)).
Proof.
  induction l as [|x l IH]; intros acc N; cbn [fold_left]; [assumption|]. apply IH. now apply hm_insert_nodup.
Qed.
Lemma sm_get_map {A} (g : string -> A) : forall (l : list string) k,
  sm_get k (map (fun k => (k, g k)) l) = if ss_mem k l then Some (g k) else None.
Proof.
  induction l as [|x l IH]; intros k; cbn [map sm_get ss_mem existsb]; [reflexivity|].
  destruct (String.eqb_spec k x) as [->|]; [reflexivity|]. cbn [orb]. apply IH.
Qed.
Lemma sm_keys_map {A} (g : string -> A) l : sm_keys (map (fun k => (k, g k)) l) = l.
Proof. unfold sm_keys. rewrite map_map. cbn [fst]. apply map_id. Qed.
Lemma sm_get_or_some {V} e k (m : smap V) v : sm_get k m = Some v -> sm_get_or e k m = Ok v.
Proof. unfold sm_get_or. now intros ->. Qed.
Lemma sm_get_or_none {V} e k (m : smap V) : sm_get k m = None -> sm_get_or e k m = Err e.
Proof. unfold sm_get_or. now intros ->. Qed.
(** value under a key, 0 if absent *)
Definition mget (m : smap Z) (k : string) : Z := match sm_get k m with Some x => x | None => 0 end.
Lemma mget_some m k x : sm_get k m = Some x -> mget m k = x.
Proof. unfold mget. now intros ->. Qed.
Lemma get_or_mget e m k : In k (sm_keys m) -> sm_get_or e k m = Ok (mget m k).
Proof. intros H. apply sm_get_keys in H as [v Hv]. unfold sm_get_or, mget. now rewrite Hv. Qed.

(** ** units *)
Definition lift (n x : Z) (Hn : 2 <= n) : U n :=
  match bool_dec (is_unit n x) true with left E => mkU n x E | right _ => u1 n Hn end.
Lemma uv_lift n x Hn : unit_mod n x -> uv (lift n x Hn) = x.
Proof.
  intros Hx. unfold lift. destruct (bool_dec (is_unit n x) true) as [E|N]; [reflexivity|].
  exfalso. apply N. now apply is_unit_iff.
Qed.
Lemma unit_uv n (a : U n) : unit_mod n (uv a).
Proof. split; [apply uv_range|apply uv_gcd]. Qed.
Lemma lift_uv n (a : U n) Hn : lift n (uv a) Hn = a.
Proof. apply uv_inj. apply uv_lift, unit_uv. Qed.

Section UProd.
Variables (n : Z) (Hn : 2 <= n).
Local Notation "a ** b" := (umul n Hn a b) (at level 40, left associativity).
Local Notation "a ^^ k" := (zpow n Hn a k) (at level 30).

Fixpoint uprod (f : string -> U n) (m : string -> Z) (l : list string) : U n :=
  match l with [] => u1 n Hn | k :: l' => (f k ^^ m k) ** uprod f m l' end.
Lemma uprod_app f m l1 l2 : uprod f m (l1 ++ l2) = uprod f m l1 ** uprod f m l2.
Proof. induction l1 as [|k l IH]; cbn [uprod app]; [umod_ring|]. rewrite IH. umod_ring. Qed.
Lemma uprod_ext f g m m' l : (forall k, In k l -> f k = g k /\ m k = m' k) -> uprod f m l = uprod g m' l.
Proof.
  induction l as [|k l IH]; intros E; cbn [uprod]; [reflexivity|].
  destruct (E k (or_introl eq_refl)) as [-> ->]. f_equal. apply IH. intros j Hj. apply E. now right.
Qed.
Lemma uprod_add f m m' l : uprod f (fun k => m k + m' k) l = uprod f m l ** uprod f m' l.
Proof. induction l as [|k l IH]; cbn [uprod]; [umod_ring|]. rewrite IH. umod_ring. Qed.
Lemma uprod_scale f m c l : uprod f (fun k => c * m k) l = uprod f m l ^^ c.
Proof. induction l as [|k l IH]; cbn [uprod]; [umod_ring|]. rewrite IH. umod_ring. Qed.
Lemma uprod_perm f m l l' : Permutation l l' -> uprod f m l = uprod f m l'.
Proof.
  induction 1 as [|x l l' P IH|x y l|l l' l'' P1 IH1 P2 IH2]; cbn [uprod].
  - reflexivity.
  - now rewrite IH.
  - umod_ring.
  - now rewrite IH1.
Qed.
Lemma uprod_filter f m p l : uprod f m l = uprod f m (filter p l) ** uprod f m (filter (fun k => negb (p k)) l).
Proof.
  induction l as [|k l IH]; cbn [uprod filter]; [umod_ring|]. rewrite IH.
  destruct (p k); cbn [uprod negb]; umod_ring.
Qed.
Lemma uprod_pow (s : U n) x m l : uprod (fun k => s ^^ x k) m l = s ^^ (fold_right (fun k acc => x k * m k + acc) 0 l).
Proof. induction l as [|k l IH]; cbn [uprod fold_right]; [reflexivity|]. rewrite IH. umod_ring. Qed.

(** a loop multiplying powers, in both argument orders of [mod_mul] *)
Lemma rfold_uprod {A} (step : Z -> A -> res Z) (key : A -> string) (f : string -> U n) (m : string -> Z) : forall (l : list A) acc,
  (forall acc x, In x l -> step (uv acc) x = Ok (uv (acc ** (f (key x) ^^ m (key x))))) ->
  rfold step l (uv acc) = Ok (uv (acc ** uprod f m (map key l))).
Proof.
  induction l as [|x l IH]; intros acc E; cbn [rfold map uprod].
  - do 2 f_equal. umod_ring.
  - rewrite E by now left. cbn [rbind]. rewrite IH by (intros; apply E; now right). do 2 f_equal. umod_ring.
Qed.
End UProd.

Lemma pedersen_u n Hn (a b : U n) j k :
  get_pedersen_commitment (uv a) j (uv b) k n = Ok (uv (umul n Hn (zpow n Hn a j) (zpow n Hn b k))).
Proof.
  unfold get_pedersen_commitment. rewrite (mod_exp_u n Hn). cbn [rbind]. rewrite ?(mod_exp_u n Hn). cbn [rbind]. apply mod_mul_u.
Qed.

(** the group operations do not depend on the proof of 2 <= n *)
Lemma zpow_irr n H1 H2 (a : U n) k : zpow n H1 a k = zpow n H2 a k.
Proof. apply uv_inj. pose proof (mod_exp_u n H1 a k) as E. rewrite (mod_exp_u n H2) in E. congruence. Qed.
Lemma umul_irr n H1 H2 (a b : U n) : umul n H1 a b = umul n H2 a b.
Proof. apply uv_inj. pose proof (mod_mul_u n H1 a b) as E. rewrite (mod_mul_u n H2) in E. congruence. Qed.

(** ** ordered maps built in key order *)
Lemma bt_insert_last {V} k (v : V) m : (forall k', In k' (sm_keys m) -> slt k' k) -> bt_insert k v m = m ++ [(k, v)].
Proof.
  induction m as [|[k1 v1] m IH]; cbn [bt_insert sm_keys map fst app In]; intros N; [reflexivity|].
  assert (String.compare k k1 = Gt) as -> by (apply compare_gt_slt, N; now left).
  rewrite IH; [reflexivity|]. intros k' Hk'. apply N. now right.
Qed.
Lemma ssorted_cons_inv k l : ssorted (k :: l) -> ssorted l /\ (forall x, In x l -> slt k x).
Proof.
  intros [A B]. now split.
Qed.
Lemma rfold_bt_map {A B} (f : string * A -> res B) (g : string * A -> B) : forall (m : smap A) (acc : smap B),
  (forall x, In x m -> f x = Ok (g x)) -> ssorted (sm_keys m) -> (forall k k', In k (sm_keys m) -> In k' (sm_keys acc) -> slt k' k) ->
  rfold (fun m' x => let! y := f x in Ok (bt_insert (fst x) y m')) m acc = Ok (acc ++ map (fun x => (fst x, g x)) m).
Proof.
  induction m as [|[k x] m IH]; intros acc Hf N D; cbn [rfold]; [now rewrite app_nil_r|].
  rewrite (Hf (k, x)) by now left. cbn [rbind fst]. cbn [sm_keys map fst] in N, D. apply ssorted_cons_inv in N as [N1 N2].
  rewrite bt_insert_last by (intros k' Hk'; apply D; [now left|assumption]).
  rewrite IH.
  - cbn [map fst snd]. now rewrite <- app_assoc.
  - intros x' Hx. apply Hf. now right.
  - assumption.
  - intros k' k'' Hk' Hin. rewrite sm_keys_app in Hin. apply in_app_iff in Hin as [Hin|[<-|[]]]; [|now apply N2].
    apply D; [now right|assumption].
Qed.
Lemma sm_keys_filter_sorted {V} (f : string * V -> bool) (m : smap V) : ssorted (sm_keys m) -> ssorted (sm_keys (filter f m)).
Proof.
  induction m as [|[k v] m IH]; intros S0; [exact S0|]. cbn [sm_keys map fst ssorted] in S0. destruct S0 as [F S1].
  cbn [filter]. destruct (f (k, v)); [|now apply IH]. cbn [sm_keys map fst ssorted]. split; [|now apply IH].
  intros y Hy. apply F. apply in_map_iff in Hy as (x & <- & Hx). apply filter_In in Hx as [Hx _]. now apply in_map.
Qed.
Lemma rfold_ext {A S} (f g : S -> A -> res S) l : (forall s x, In x l -> f s x = g s x) -> forall s, rfold f l s = rfold g l s.
Proof.
  induction l as [|x l IH]; intros E s; cbn [rfold]; [reflexivity|]. rewrite E by now left.
  destruct (g s x) as [s'|e]; cbn [rbind]; [|reflexivity]. apply IH. intros; apply E. now right.
Qed.
Lemma bt_insert_in {V} k (v : V) m x : In x (bt_insert k v m) -> x = (k, v) \/ In x m.
Proof.
  induction m as [|[k1 v1] m IH]; cbn [bt_insert In]; intros Hx; [destruct Hx as [<-|[]]; auto|].
  destruct (String.compare k k1); cbn [In] in Hx; [destruct Hx; auto|destruct Hx; auto|].
  destruct Hx as [<-|Hx]; [auto|]. apply IH in Hx. tauto.
Qed.

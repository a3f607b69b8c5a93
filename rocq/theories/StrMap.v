(** Rust collections keyed by [String].

    A [BTreeMap<String,V>] / [BTreeSet<String>] is the list of its entries in
    ascending (bytewise) key order.  A [HashMap]/[HashSet] is the list of its
    entries in some iteration order; the model inserts new keys at the end and the
    theorems quantify over maps with entries in any order where the order can be
    observed. *)
From Verif Require Import Base.
From Coq Require Export Strings.String.
From Coq Require Export List.   (* again: length, concat are those of lists *)
Export ListNotations.
From Coq Require Import Permutation.
Open Scope Z_scope.

Definition smap (V : Type) := list (string * V).

Fixpoint sm_get {V} (k : string) (m : smap V) : option V :=
  match m with
  | [] => None
  | (k', v) :: m' => if String.eqb k k' then Some v else sm_get k m'
  end.
Definition sm_mem {V} (k : string) (m : smap V) : bool := match sm_get k m with Some _ => true | None => false end.
Definition sm_keys {V} (m : smap V) : list string := map fst m.

(** [BTreeMap::insert] *)
Fixpoint bt_insert {V} (k : string) (v : V) (m : smap V) : smap V :=
  match m with
  | [] => [(k, v)]
  | (k', v') :: m' =>
      match String.compare k k' with
      | Lt => (k, v) :: m
      | Eq => (k, v) :: m'
      | Gt => (k', v') :: bt_insert k v m'
      end
  end.
(** [HashMap::insert] *)
Fixpoint hm_insert {V} (k : string) (v : V) (m : smap V) : smap V :=
  match m with
  | [] => [(k, v)]
  | (k', v') :: m' => if String.eqb k k' then (k, v) :: m' else (k', v') :: hm_insert k v m'
  end.

(** [get(key).ok_or_else(e)?] and the indexing operator (which panics) *)
Definition sm_get_or {V} (e : err) (k : string) (m : smap V) : res V :=
  match sm_get k m with Some v => Ok v | None => Err e end.
Definition sm_index {V} (k : string) (m : smap V) : res V := sm_get_or Panic k m.

(** [BTreeSet<String>] *)
Definition sset := list string.
Definition ss_mem (k : string) (s : sset) : bool := existsb (String.eqb k) s.
Fixpoint ss_insert (k : string) (s : sset) : sset :=
  match s with
  | [] => [k]
  | k' :: s' => match String.compare k k' with Lt => k :: s | Eq => s | Gt => k' :: ss_insert k s' end
  end.
Definition ss_of_list (l : list string) : sset := fold_left (fun s k => ss_insert k s) l [].
Definition ss_union (a b : sset) : sset := fold_left (fun s k => ss_insert k s) b a.
Definition ss_diff (a b : sset) : sset := filter (fun k => negb (ss_mem k b)) a.
Definition ss_inter (a b : sset) : sset := filter (fun k => ss_mem k b) a.
Fixpoint ss_eqb (a b : sset) : bool :=
  match a, b with
  | [], [] => true
  | x :: a', y :: b' => String.eqb x y && ss_eqb a' b'
  | _, _ => false
  end.

(** ** Facts *)
Lemma ascii_compare_refl x : Ascii.compare x x = Eq.
Proof. unfold Ascii.compare. apply N.compare_refl. Qed.
Lemma scmp_refl : forall a, String.compare a a = Eq.
Proof. induction a as [|x a IH]; cbn [String.compare]; [reflexivity|]. now rewrite ascii_compare_refl. Qed.
Lemma scmp_eq a b : String.compare a b = Eq <-> a = b.
Proof. split; [apply String.compare_eq_iff|intros ->; apply scmp_refl]. Qed.
Lemma compare_eqb a b : String.compare a b = Eq <-> String.eqb a b = true.
Proof. rewrite String.eqb_eq. apply scmp_eq. Qed.
Lemma eqb_spec_s a b : reflect (a = b) (String.eqb a b). Proof. apply String.eqb_spec. Qed.

Lemma sm_get_bt_insert {V} k k' (v : V) m : sm_get k (bt_insert k' v m) = if String.eqb k k' then Some v else sm_get k m.
Proof.
  induction m as [|[k1 v1] m IH]; cbn [bt_insert sm_get]; [reflexivity|].
  destruct (String.compare k' k1) eqn:C; cbn [sm_get].
  - apply scmp_eq in C as ->. destruct (String.eqb k k1); reflexivity.
  - reflexivity.
  - rewrite IH. destruct (String.eqb_spec k k1), (String.eqb_spec k k'); try reflexivity. subst. subst.
    exfalso. assert (E : String.compare k' k' = Eq) by now apply scmp_eq. now rewrite E in C.
Qed.
Lemma sm_get_hm_insert {V} k k' (v : V) m : sm_get k (hm_insert k' v m) = if String.eqb k k' then Some v else sm_get k m.
Proof.
  induction m as [|[k1 v1] m IH]; cbn [hm_insert sm_get]; [reflexivity|].
  destruct (String.eqb_spec k' k1) as [->|N]; cbn [sm_get].
  - destruct (String.eqb k k1); reflexivity.
  - rewrite IH. destruct (String.eqb_spec k k1), (String.eqb_spec k k'); try reflexivity. congruence.
Qed.
Lemma sm_get_in {V} k (m : smap V) v : sm_get k m = Some v -> In (k, v) m.
Proof.
  induction m as [|[k1 v1] m IH]; cbn [sm_get]; [discriminate|].
  destruct (String.eqb_spec k k1) as [->|N]; intros H; [injection H as ->; now left|right; auto].
Qed.
Lemma sm_in_get {V} k (m : smap V) v : NoDup (sm_keys m) -> In (k, v) m -> sm_get k m = Some v.
Proof.
  induction m as [|[k1 v1] m IH]; cbn [sm_get sm_keys map fst]; [intros _ []|].
  intros N. inversion N as [|? ? N1 N2]; subst. intros [E|H].
  - injection E as -> ->. now rewrite String.eqb_refl.
  - destruct (String.eqb_spec k k1) as [->|]; [|auto]. exfalso. apply N1.
    change k1 with (fst (k1, v)). now apply in_map.
Qed.
Lemma sm_get_keys {V} k (m : smap V) : In k (sm_keys m) <-> exists v, sm_get k m = Some v.
Proof.
  induction m as [|[k1 v1] m IH]; cbn [sm_get sm_keys map fst].
  - split; [intros []|intros (? & ?); discriminate].
  - destruct (String.eqb_spec k k1) as [->|N]; [split; eauto; now left|].
    rewrite <- IH. split; [intros [->|]; [congruence|assumption]|now right].
Qed.
Lemma sm_get_none {V} k (m : smap V) : sm_get k m = None <-> ~ In k (sm_keys m).
Proof.
  rewrite sm_get_keys. destruct (sm_get k m); [split; [discriminate|intros H; exfalso; eauto]|].
  split; [intros _ (? & ?); discriminate|reflexivity].
Qed.
Lemma sm_mem_keys {V} k (m : smap V) : sm_mem k m = true <-> In k (sm_keys m).
Proof.
  unfold sm_mem. rewrite sm_get_keys. destruct (sm_get k m); split; eauto; intros H; [discriminate|].
  destruct H; discriminate.
Qed.
Lemma bt_insert_keys {V} k k' (v : V) m : In k (sm_keys (bt_insert k' v m)) <-> k = k' \/ In k (sm_keys m).
Proof.
  rewrite !sm_get_keys, sm_get_bt_insert. destruct (String.eqb_spec k k') as [->|]; [split; eauto|].
  split; [auto|]. intros [|]; [congruence|assumption].
Qed.
Lemma hm_insert_keys {V} k k' (v : V) m : In k (sm_keys (hm_insert k' v m)) <-> k = k' \/ In k (sm_keys m).
Proof.
  rewrite !sm_get_keys, sm_get_hm_insert. destruct (String.eqb_spec k k') as [->|]; [split; eauto|].
  split; [auto|]. intros [|]; [congruence|assumption].
Qed.
Lemma hm_insert_nodup {V} k (v : V) m : NoDup (sm_keys m) -> NoDup (sm_keys (hm_insert k v m)).
Proof.
  induction m as [|[k1 v1] m IH]; cbn [hm_insert sm_keys map fst]; intros N; [repeat constructor; intros []|].
  inversion N as [|? ? N1 N2]; subst. destruct (String.eqb_spec k k1) as [->|NE]; cbn [sm_keys map fst]; [now constructor|].
  constructor; [|auto]. intros H. apply hm_insert_keys in H as [->|H]; [congruence|contradiction].
Qed.

(** ascending lists of strings *)
Definition slt (a b : string) : Prop := String.compare a b = Lt.
Fixpoint ssorted (s : list string) : Prop :=
  match s with [] => True | x :: s' => (forall y, In y s' -> slt x y) /\ ssorted s' end.

Lemma ascii_compare_trans a b c o : Ascii.compare a b = o -> Ascii.compare b c = o -> o <> Eq -> Ascii.compare a c = o.
Proof.
  unfold Ascii.compare. intros H1 H2 N. destruct o; [congruence| |].
  - rewrite N.compare_lt_iff in *. now apply N.lt_trans with (Ascii.N_of_ascii b).
  - rewrite N.compare_gt_iff in *. now apply N.lt_trans with (Ascii.N_of_ascii b).
Qed.
Lemma slt_trans : forall a b c, slt a b -> slt b c -> slt a c.
Proof.
  unfold slt. induction a as [|x a IH]; intros [|y b] [|z c]; cbn [String.compare]; try discriminate; try reflexivity.
  destruct (Ascii.compare x y) eqn:E1; [|intros _|discriminate]; destruct (Ascii.compare y z) eqn:E2; try discriminate.
  - apply Ascii.compare_eq_iff in E1 as ->. rewrite E2. apply IH.
  - apply Ascii.compare_eq_iff in E1 as ->. now rewrite E2.
  - apply Ascii.compare_eq_iff in E2 as ->. now rewrite E1.
  - intros _. now rewrite (ascii_compare_trans x y z Lt E1 E2).
Qed.
Lemma slt_irrefl a : ~ slt a a.
Proof. unfold slt. assert (String.compare a a = Eq) by now apply scmp_eq. congruence. Qed.
Lemma compare_gt_slt a b : String.compare a b = Gt <-> slt b a.
Proof.
  unfold slt. rewrite String.compare_antisym. destruct (String.compare b a); cbn; split; congruence.
Qed.
Lemma slt_not_eq a b : slt a b -> a <> b. Proof. intros H ->. now apply slt_irrefl in H. Qed.

Lemma ss_insert_in k x s : In x (ss_insert k s) <-> x = k \/ In x s.
Proof.
  induction s as [|y s IH]; cbn [ss_insert]; [cbn; intuition|].
  destruct (String.compare k y) eqn:C; cbn [In].
  - apply scmp_eq in C as ->. intuition.
  - intuition.
  - rewrite IH. intuition.
Qed.
Lemma ss_insert_sorted k s : ssorted s -> ssorted (ss_insert k s).
Proof.
  induction s as [|y s IH]; cbn [ss_insert]; [cbn; intuition|]. intros [H1 H2].
  destruct (String.compare k y) eqn:C; cbn [ssorted].
  - auto.
  - split; [|auto]. intros z [<-|Hz]; [exact C|]. apply (slt_trans k y z); [exact C|auto].
  - split; [|auto]. intros z Hz. apply ss_insert_in in Hz as [->|Hz]; [now apply compare_gt_slt|auto].
Qed.
Lemma ss_fold_in l : forall s x, In x (fold_left (fun s k => ss_insert k s) l s) <-> In x l \/ In x s.
Proof.
  induction l as [|k l IH]; intros s x; cbn [fold_left In]; [intuition|]. rewrite IH, ss_insert_in. intuition.
Qed.
Lemma ss_fold_sorted l : forall s, ssorted s -> ssorted (fold_left (fun s k => ss_insert k s) l s).
Proof. induction l as [|k l IH]; intros s H; cbn [fold_left]; [assumption|]. apply IH. now apply ss_insert_sorted. Qed.
Lemma ss_union_in a b x : In x (ss_union a b) <-> In x a \/ In x b.
Proof. unfold ss_union. rewrite ss_fold_in. intuition. Qed.
Lemma ss_union_sorted a b : ssorted a -> ssorted (ss_union a b).
Proof. apply ss_fold_sorted. Qed.
Lemma ss_of_list_in l x : In x (ss_of_list l) <-> In x l.
Proof. unfold ss_of_list. rewrite ss_fold_in. cbn. intuition. Qed.
Lemma ss_of_list_sorted l : ssorted (ss_of_list l).
Proof. apply ss_fold_sorted. exact I. Qed.
Lemma ss_mem_in k s : ss_mem k s = true <-> In k s.
Proof.
  unfold ss_mem. rewrite existsb_exists. split.
  - intros (x & Hx & E). apply String.eqb_eq in E as ->. assumption.
  - intros H. exists k. split; [assumption|apply String.eqb_refl].
Qed.
Lemma ss_diff_in a b x : In x (ss_diff a b) <-> In x a /\ ~ In x b.
Proof.
  unfold ss_diff. rewrite filter_In, negb_true_iff, <- not_true_iff_false, ss_mem_in. reflexivity.
Qed.
Lemma ss_inter_in a b x : In x (ss_inter a b) <-> In x a /\ In x b.
Proof. unfold ss_inter. rewrite filter_In, ss_mem_in. reflexivity. Qed.
Lemma sorted_filter f s : ssorted s -> ssorted (filter f s).
Proof.
  induction s as [|x s IH]; cbn [filter ssorted]; [trivial|]. intros [H1 H2]. destruct (f x); cbn [ssorted]; [|auto].
  split; [|auto]. intros y Hy. apply filter_In in Hy as [Hy _]. auto.
Qed.
Lemma ss_diff_sorted a b : ssorted a -> ssorted (ss_diff a b). Proof. apply sorted_filter. Qed.
Lemma sorted_nodup s : ssorted s -> NoDup s.
Proof.
  induction s as [|x s IH]; cbn [ssorted]; [constructor|]. intros [H1 H2]. constructor; [|auto].
  intros H. apply H1 in H. now apply slt_irrefl in H.
Qed.
(** a set has exactly one ascending list *)
Lemma sorted_ext : forall a b, ssorted a -> ssorted b -> (forall x, In x a <-> In x b) -> a = b.
Proof.
  induction a as [|x a IH]; intros [|y b] Ha Hb E.
  - reflexivity.
  - exfalso. apply (E y). now left.
  - exfalso. apply (E x). now left.
  - destruct Ha as [Ha1 Ha2], Hb as [Hb1 Hb2].
    assert (x = y) as ->.
    { destruct (proj1 (E x) (or_introl eq_refl)) as [->|Hx]; [reflexivity|].
      destruct (proj2 (E y) (or_introl eq_refl)) as [->|Hy]; [reflexivity|].
      exfalso. apply (slt_irrefl x). apply (slt_trans x y x); auto. }
    f_equal. apply IH; [assumption|assumption|]. intros z.
    split; intros Hz.
    + destruct (proj1 (E z) (or_intror Hz)) as [->|]; [|assumption]. apply Ha1 in Hz. now apply slt_irrefl in Hz.
    + destruct (proj2 (E z) (or_intror Hz)) as [->|]; [|assumption]. apply Hb1 in Hz. now apply slt_irrefl in Hz.
Qed.
Lemma ss_eqb_eq : forall a b, ss_eqb a b = true <-> a = b.
Proof.
  induction a as [|x a IH]; intros [|y b]; cbn [ss_eqb]; try (split; [discriminate|discriminate]); [tauto|].
  rewrite andb_true_iff, String.eqb_eq, IH. split; [now intros [-> ->]|]. intros H. now injection H as -> ->.
Qed.
Lemma ss_eqb_set a b : ssorted a -> ssorted b -> (ss_eqb a b = true <-> (forall x, In x a <-> In x b)).
Proof.
  intros Ha Hb. rewrite ss_eqb_eq. split; [now intros ->|]. now apply sorted_ext.
Qed.
Lemma bt_insert_sorted {V} k (v : V) m : ssorted (sm_keys m) -> ssorted (sm_keys (bt_insert k v m)).
Proof.
  induction m as [|[k1 v1] m IH]; cbn [bt_insert sm_keys map fst]; [cbn; intuition|]. intros [H1 H2].
  destruct (String.compare k k1) eqn:C; cbn [map fst ssorted].
  - apply scmp_eq in C as ->. auto.
  - split; [|auto]. intros z [<-|Hz]; [exact C|]. apply (slt_trans k k1 z); [exact C|auto].
  - split; [|apply IH; exact H2]. intros z Hz. fold (@sm_keys V) in Hz. apply (bt_insert_keys z k v m) in Hz as [->|Hz]; [now apply compare_gt_slt|auto].
Qed.

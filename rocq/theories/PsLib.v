(** Specification vocabulary and lemmas for vector commitment proofs and PS signatures
    (C65-C71). *)
From Verif Require Import Base BnModel Alg Lin ClRevModel ClRevSpec BbsModel BbsLib BbsProps PsModel.
Import List ListNotations.
From Coq Require Import Permutation.
Open Scope list_scope.
Open Scope Z_scope.

Section Vc.
Context {K : fieldOps} (HK : field_laws K) {M : modOps K} (HM : mod_laws M).
Add Field Kf : (proj1 HK).
Lemma multi_mul_lin (bs : list M) ss : multi_mul bs ss = lin bs ss.
Proof. apply (lin_fold HM). Qed.
Lemma rmap_zip (f : K -> K -> K) : forall (pb ps b s : list K), length pb = length ps -> length s = length b ->
  rmap (fun i => match nth_error (pb ++ b) i, nth_error (ps ++ s) i with Some x, Some y => Ok (f x y) | _, _ => Err Panic end) (seq (length pb) (length b)) = Ok (map (fun p => f (fst p) (snd p)) (combine b s)).
Proof.
  intros pb ps b. revert pb ps. induction b as [|x b IH]; intros pb ps s Lp L; [reflexivity|]. destruct s as [|y s]; [discriminate|].
  cbn [length seq rmap combine map fst snd]. rewrite nth_error_app2, Nat.sub_diag by lia. rewrite Lp, nth_error_app2, Nat.sub_diag by lia. cbn [nth_error rbind].
  specialize (IH (pb ++ [x]) (ps ++ [y]) s). rewrite !app_length in IH. cbn [length] in IH. rewrite <- !app_assoc, Nat.add_1_r, Lp in IH. cbn [app] in IH.
  rewrite IH by (cbn [length] in L; lia). reflexivity.
Qed.
Lemma gen_proof_eq (c : committed M) ch secrets : length (cd_blindings c) = length (cd_gens c) -> length secrets = length (cd_gens c) ->
  gen_proof c ch secrets = Ok (mkVProof (cd_commitment c) (sub_scaled ch (cd_blindings c) secrets)).
Proof.
  intros L1 L2. unfold gen_proof. rewrite L2, Nat.eqb_refl. cbn [negb]. rewrite <- L1.
  pose proof (rmap_zip (fun b s => fsub b (fmul ch s)) [] [] (cd_blindings c) secrets eq_refl) as Q. cbn [app length] in Q. rewrite Q by congruence. reflexivity.
Qed.
Lemma vproof_verify_iff (p : vproof M) bases y c : vproof_verify p bases y c = Ok true <-> length (vp_resp p) = length bases /\ madd (lin bases (vp_resp p)) (smul c y) = vp_com p.
Proof.
  unfold vproof_verify. destruct (length bases =? length (vp_resp p))%nat eqn:E; cbn [negb].
  - apply Nat.eqb_eq in E. rewrite multi_mul_lin, (lin_app HM) by exact E. rewrite lin_cons, lin_nil_l, (madd_0_r _ _ HM). split.
    + intros Q. split; [congruence|]. apply (msub_0 _ _ HM), (meqb_eq _ _ HM). congruence.
    + intros (_ & Q). f_equal. apply (meqb_eq _ _ HM), (msub_0 _ _ HM). exact Q.
  - apply Nat.eqb_neq in E. split; [discriminate|]. intros (Q & _). congruence.
Qed.
Lemma vc_reblind (bs : list M) bl ss ss' c : length bl = length bs -> length ss = length bs -> length ss' = length bs -> lin bs ss = lin bs ss' ->
  let bl' := sub_scaled (fopp c) (sub_scaled c bl ss) ss' in
  length bl' = length bs /\ sub_scaled c bl' ss' = sub_scaled c bl ss /\ lin bs bl' = lin bs bl.
Proof.
  intros L1 L2 L3 E bl'. assert (length (sub_scaled c bl ss) = length bs) as Ls by (rewrite length_sub_scaled; congruence).
  assert (length bl' = length bs) as Lb by (unfold bl'; rewrite length_sub_scaled; congruence).
  split; [exact Lb|]. split; [unfold bl'; apply (sub_scaled_inv HK); congruence|].
  unfold bl'. rewrite (lin_sub_scaled HK HM), (lin_sub_scaled HK HM), E by congruence. module_coefs HK HM; ring.
Qed.
Lemma smul_inj_g x y (a : M) : a <> m0 -> smul x a = smul y a -> x = y.
Proof.
  intros Na E. destruct (feq_dec _ HK x y) as [Q|N]; [exact Q|]. exfalso. apply (smul_nonzero HK HM (fsub x y) a); [now apply (fsub_neq0 _ HK)|exact Na|].
  transitivity (msub (smul x a) (smul y a)); [module_coefs HK HM; ring|]. rewrite E. apply (madd_opp _ _ HM).
Qed.
Lemma nth_seq_map_g (l : list K) : map (fun k => nth k l f0) (seq 0 (length l)) = l.
Proof.
  enough (forall pre, map (fun k => nth k (pre ++ l) f0) (seq (length pre) (length l)) = l) as Q by (now apply (Q [])).
  induction l as [|x l IH]; intros pre; [reflexivity|]. cbn [length seq map]. f_equal.
  - rewrite app_nth2, Nat.sub_diag by lia. reflexivity.
  - specialize (IH (pre ++ [x])). rewrite app_length, Nat.add_1_r in IH. rewrite <- IH at 2. apply map_ext. intros k. now rewrite <- app_assoc.
Qed.
Lemma vc_unblind c (bs : list M) r ss : length r = length bs -> length ss = length bs -> lin bs (sub_scaled (fopp c) r ss) = madd (lin bs r) (smul c (lin bs ss)).
Proof. intros L1 L2. rewrite (lin_sub_scaled HK HM) by assumption. module_coefs HK HM; ring. Qed.
Lemma smul_cancel r (a b : M) : r <> f0 -> smul r a = smul r b -> a = b.
Proof.
  intros N E. rewrite <- (smul_1 _ _ HM a), <- (smul_1 _ _ HM b), <- (finv_mul_l _ HK r N), !(smul_mul _ _ HM). now rewrite E.
Qed.
Lemma fmul_comm (x y : K) : fmul x y = fmul y x.
Proof. ring. Qed.
Lemma fsub_diag (x : K) : fsub x x = f0.
Proof. ring. Qed.
End Vc.

(** ** revealed and hidden positions *)
Section Split.
Context {K : fieldOps} (HK : field_laws K) {M : modOps K} (HM : mod_laws M).
Add Field Kf2 : (proj1 HK).
(** position i of the first list is hidden unless i is in [rv] *)
Fixpoint hid {A} (rv : list nat) (i : nat) (l : list A) : list A :=
  match l with [] => [] | x :: l' => if existsb (Nat.eqb i) rv then hid rv (S i) l' else x :: hid rv (S i) l' end.
Lemma not_in_set_hid {A} rv (l : list A) : not_in_set rv l = hid rv 0 l.
Proof.
  unfold not_in_set. generalize 0%nat. induction l as [|x l IH]; intros i; [reflexivity|]. cbn [length seq combine filter fst hid].
  destruct (existsb (Nat.eqb i) rv); cbn [negb map snd]; now rewrite IH.
Qed.
Lemma hid_ext {A} rv rv' (l : list A) : (forall i, In i rv <-> In i rv') -> forall i, hid rv i l = hid rv' i l.
Proof.
  intros E. assert (forall i, existsb (Nat.eqb i) rv = existsb (Nat.eqb i) rv') as Q.
  { intros i. apply Bool.eq_iff_eq_true. rewrite !existsb_exists. split; intros (x & I & Ex); exists x; (split; [now apply E|exact Ex]). }
  induction l as [|x l IH]; intros i; [reflexivity|]. cbn [hid]. now rewrite Q, !IH.
Qed.
Lemma hid_length {A B} rv (l : list A) (l' : list B) : length l = length l' -> forall i, length (hid rv i l) = length (hid rv i l').
Proof.
  revert l'. induction l as [|x l IH]; intros [|y l'] L i; try discriminate; [reflexivity|]. cbn [hid]. destruct (existsb (Nat.eqb i) rv); cbn [length]; now rewrite (IH l') by (cbn in L; congruence).
Qed.
Lemma in_existsb i rv : existsb (Nat.eqb i) rv = true <-> In i rv.
Proof. rewrite existsb_exists. split; [intros (x & I & E); apply Nat.eqb_eq in E; now subst|intros I; exists i; split; [exact I|apply Nat.eqb_refl]]. Qed.
(** the chosen entries with their indices *)
Fixpoint sel {A} (rv : list nat) (i : nat) (l : list A) : list (nat * A) :=
  match l with [] => [] | x :: l' => if existsb (Nat.eqb i) rv then (i, x) :: sel rv (S i) l' else sel rv (S i) l' end.
Lemma sel_in {A} rv (l : list A) : forall i j x, In (j, x) (sel rv i l) <-> (i <= j)%nat /\ In j rv /\ nth_error l (j - i) = Some x.
Proof.
  induction l as [|y l IH]; intros i j x.
  - cbn [sel]. split; [intros []|]. intros (_ & _ & E). destruct (j - i)%nat; discriminate.
  - cbn [sel]. assert (forall (j' : nat), (S i <= j')%nat -> nth_error (y :: l) (j' - i) = nth_error l (j' - S i)) as Q.
    { intros j' L. replace (j' - i)%nat with (S (j' - S i))%nat by lia. reflexivity. }
    destruct (existsb (Nat.eqb i) rv) eqn:E.
    + apply in_existsb in E. cbn [In]. rewrite IH. split.
      * intros [H|(L & I & N)]; [injection H as -> ->; rewrite Nat.sub_diag; auto|]. rewrite Q by exact L. split; [lia|auto].
      * intros (L & I & N). destruct (Nat.eq_dec j i) as [Ej|Nj]; [left; subst; rewrite Nat.sub_diag in N; injection N as ->; reflexivity|]. right. rewrite Q in N by lia. split; [lia|auto].
    + rewrite IH. split.
      * intros (L & I & N). rewrite Q by exact L. split; [lia|auto].
      * intros (L & I & N). destruct (Nat.eq_dec j i) as [->|Nj]; [apply in_existsb in I; congruence|]. rewrite Q in N by lia. split; [lia|auto].
Qed.
Lemma sel_nodup {A} rv (l : list A) : forall i, NoDup (sel rv i l).
Proof.
  induction l as [|y l IH]; intros i; [constructor|]. cbn [sel]. destruct (existsb (Nat.eqb i) rv); [|apply IH]. constructor; [|apply IH].
  rewrite sel_in. lia.
Qed.
Lemma lin_sel rv : forall (pre hs : list M) (ms : list K), length hs = length ms ->
  lin hs ms = madd (lin (hid rv (length pre) hs) (hid rv (length pre) ms)) (msum (map (fun im => smul (snd im) (nth (fst im) (pre ++ hs) m0)) (sel rv (length pre) ms))).
Proof.
  intros pre hs. revert pre. induction hs as [|h hs IH]; intros pre [|m ms] L; try discriminate.
  - cbn [hid sel map msum]. rewrite !lin_nil_l. now rewrite (madd_0_l _ _ HM).
  - specialize (IH (pre ++ [h]) ms). rewrite app_length, Nat.add_1_r, <- app_assoc in IH. cbn [app] in IH. cbn [hid sel]. rewrite lin_cons, IH by (cbn in L; congruence).
    destruct (existsb (Nat.eqb (length pre)) rv).
    + cbn [map msum fst snd]. rewrite app_nth2, Nat.sub_diag by lia. cbn [nth]. module_coefs HK HM; ring.
    + rewrite lin_cons. module_coefs HK HM; ring.
Qed.
Lemma msum_perm (l l' : list M) : Permutation l l' -> msum l = msum l'.
Proof. induction 1; cbn [msum]; try congruence. rewrite !(madd_assoc _ _ HM). f_equal. apply (madd_comm _ _ HM). Qed.
Lemma NoDup_fst {A B} (l : list (A * B)) : NoDup (map fst l) -> NoDup l.
Proof. intros N. apply (NoDup_map_inv fst). exact N. Qed.
(** the revealed values may be listed in any order *)
Lemma lin_split (hs : list M) (ms : list K) (rv : list (nat * K)) : length hs = length ms -> NoDup (map fst rv) -> (forall i m, In (i, m) rv -> nth_error ms i = Some m) ->
  lin hs ms = madd (lin (not_in_set (map fst rv) hs) (not_in_set (map fst rv) ms)) (msum (map (fun im => smul (snd im) (nth (fst im) hs m0)) rv)).
Proof.
  intros L ND R. rewrite !not_in_set_hid. rewrite (lin_sel (map fst rv) [] hs ms L). cbn [app length]. f_equal. apply msum_perm, Permutation_map.
  apply NoDup_Permutation; [apply sel_nodup|now apply NoDup_fst|]. intros (i, m). rewrite sel_in, Nat.sub_0_r. split.
  - intros (_ & I & E). apply in_map_iff in I. destruct I as ((i', m') & Ei & I). cbn [fst] in Ei. subst i'. pose proof (R i m' I). congruence.
  - intros I. split; [lia|]. split; [apply (in_map fst) in I; exact I|now apply R].
Qed.
Lemma rmap_nth (hs : list M) (rv : list (nat * K)) : Forall (fun im => (fst im < length hs)%nat) rv ->
  rmap (fun im => match nth_error hs (fst im) with Some y => Ok y | None => Err Panic end) rv = Ok (map (fun im => nth (fst im) hs m0) rv).
Proof.
  induction 1 as [|(i, m) rv Q F IH]; [reflexivity|]. cbn [rmap map fst] in *. rewrite (nth_error_nth' hs m0 Q). cbn [rbind]. rewrite IH. reflexivity.
Qed.
Lemma rmap_nth_panic (hs : list M) (rv : list (nat * K)) : ~ Forall (fun im => (fst im < length hs)%nat) rv ->
  rmap (fun im => match nth_error hs (fst im) with Some y => Ok y | None => Err Panic end) rv = Err Panic.
Proof.
  induction rv as [|(i, m) rv IH]; intros N; [exfalso; apply N; constructor|]. cbn [rmap fst]. destruct (nth_error hs i) eqn:E; [|reflexivity]. cbn [rbind]. rewrite IH; [reflexivity|].
  intros F. apply N. constructor; [|exact F]. cbn [fst]. apply nth_error_Some. congruence.
Qed.
Lemma lin_pairs (hs : list M) (rv : list (nat * K)) : lin (map (fun im => nth (fst im) hs m0) rv) (map snd rv) = msum (map (fun im => smul (snd im) (nth (fst im) hs m0)) rv).
Proof. induction rv as [|(i, m) rv IH]; [reflexivity|]. cbn [map fst snd msum]. now rewrite lin_cons, IH. Qed.
(** put the hidden values back at their positions *)
Definition merge (rv : list (nat * K)) (n : nat) (hv : list K) : list K :=
  fill f0 (fun i => match find (fun im => Nat.eqb (fst im) i) rv with Some (_, v) => Some v | None => None end) 0 n hv.
Lemma find_in (rv : list (nat * K)) i m : NoDup (map fst rv) -> In (i, m) rv -> find (fun im => Nat.eqb (fst im) i) rv = Some (i, m).
Proof.
  induction rv as [|(j, x) rv IH]; intros ND I; [destruct I|]. cbn [find fst map] in *. inversion ND as [|? ? Nj ND']; subst. destruct I as [E|I].
  - injection E as -> ->. now rewrite Nat.eqb_refl.
  - destruct (Nat.eqb_spec j i) as [->|Nij]; [exfalso; apply Nj; apply (in_map fst) in I; exact I|]. now apply IH.
Qed.
Lemma merge_length rv n hv : length (merge rv n hv) = n.
Proof. apply fill_length. Qed.
Lemma merge_revealed rv n hv i m : NoDup (map fst rv) -> In (i, m) rv -> (i < n)%nat -> nth_error (merge rv n hv) i = Some m.
Proof. intros ND I L. apply fill_nth; [exact L|]. cbn [Nat.add]. now rewrite (find_in rv i m). Qed.
Lemma find_existsb (rv : list (nat * K)) i : existsb (Nat.eqb i) (map fst rv) = match find (fun im => Nat.eqb (fst im) i) rv with Some _ => true | None => false end.
Proof. induction rv as [|(j, x) rv IH]; [reflexivity|]. cbn [map existsb find fst]. rewrite (Nat.eqb_sym j i). destruct (i =? j)%nat; [reflexivity|]. cbn [orb]. exact IH. Qed.
Lemma hid_merge {A} (rv : list (nat * K)) (hs : list A) (hv : list K) : length hv = length (not_in_set (map fst rv) hs) -> not_in_set (map fst rv) (merge rv (length hs) hv) = hv.
Proof.
  rewrite !not_in_set_hid. unfold merge. generalize 0%nat. revert hv. induction hs as [|h hs IH]; intros hv i L.
  - destruct hv; [reflexivity|discriminate].
  - cbn [hid length fill] in *. rewrite find_existsb in L. destruct (find (fun im => Nat.eqb (fst im) i) rv) as [(j, v)|] eqn:E.
    + cbn [hid]. rewrite find_existsb, E. now apply IH.
    + destruct hv as [|x hv]; [discriminate|]. cbn [hid]. rewrite find_existsb, E. f_equal. apply IH. cbn in L. congruence.
Qed.
End Split.

(** Lemmas about attribute tokens: one level. *)
From Verif Require Import Base BnModel Alg Lin ClRevModel ClRevSpec BbsModel BbsLib BbsProps PsModel PsLib GrothModel DelegModel GrothSpec GrothLib DelegLib TokenModel.
Import List ListNotations.
Open Scope list_scope.
Open Scope Z_scope.

Lemma rmap_val {A B} (f : A -> res B) (g : A -> B) l r : rmap f l = Ok r -> (forall x y, In x l -> f x = Ok y -> y = g x) -> r = map g l.
Proof.
  revert r. induction l as [|a l IH]; intros r E H; cbn [rmap map] in *; [congruence|].
  apply rbind_ok in E as (y & E1 & E). apply rbind_ok in E as (ys & E2 & E).
  assert (r = y :: ys) as -> by congruence. rewrite (H a y (or_introl eq_refl) E1). f_equal. apply IH; [exact E2|]. intros x z Hx. apply H. now right.
Qed.
Lemma rmap_ext {A B} (f g : A -> res B) l : (forall x, In x l -> f x = g x) -> rmap f l = rmap g l.
Proof.
  induction l as [|a l IH]; intros H; cbn [rmap]; [reflexivity|]. rewrite (H a) by now left. rewrite IH by (intros x Hx; apply H; now right). reflexivity.
Qed.
Lemma rmap_snoc {A B} (f : A -> res B) l a : rmap f (l ++ [a]) = let! xs := rmap f l in let! x := f a in Ok (xs ++ [x]).
Proof.
  induction l as [|b l IH]; cbn [rmap app].
  - cbn [rbind]. destruct (f a); reflexivity.
  - rewrite IH. destruct (f b); cbn [rbind]; [|reflexivity]. destruct (rmap f l); cbn [rbind]; [|reflexivity]. destruct (f a); reflexivity.
Qed.
Lemma seq_last n : (0 < n)%nat -> seq 0 n = seq 0 (n - 1) ++ [(n - 1)%nat].
Proof. intros H. destruct n as [|m]; [lia|]. replace (S m - 1)%nat with m by lia. now rewrite seq_S. Qed.
Lemma odd_cases L : Nat.odd L = true /\ (exists m, L = 2 * m + 1 /\ L / 2 = m)%nat \/ Nat.odd L = false /\ (exists m, L = 2 * m /\ L / 2 = m)%nat.
Proof.
  destruct (Nat.Even_or_Odd L) as [ (m & E) | (m & E) ].
  - right. split; [rewrite <- Nat.negb_even, (proj2 (Nat.even_spec L)); [reflexivity|now exists m]|]. exists m. split; [exact E|]. subst L. rewrite Nat.mul_comm. now apply Nat.div_mul.
  - left. split; [apply Nat.odd_spec; now exists m|]. exists m. split; [exact E|]. subst L. apply odd_double.
Qed.
Lemma filter_nth (p : nat -> bool) n j : (j < n)%nat -> p j = true -> nth_error (filter p (seq 0 n)) (length (filter p (seq 0 j))) = Some j.
Proof.
  intros H P. replace (seq 0 n) with (seq 0 j ++ seq j (n - j)) by (rewrite <- seq_app; f_equal; lia).
  rewrite filter_app, nth_error_app2 by lia. rewrite Nat.sub_diag. destruct (n - j)%nat as [|m] eqn:E; [lia|].
  cbn [seq filter]. now rewrite P.
Qed.
Lemma filter_split_length {A} (p : A -> bool) l : (length (filter p l) + length (filter (fun x => negb (p x)) l) = length l)%nat.
Proof. induction l as [|a l IH]; cbn [filter length]; [reflexivity|]. destruct (p a); cbn [negb length]; lia. Qed.
Lemma unrev_below_ext r1 r2 j : (forall i, (i < j)%nat -> r1 i = r2 i) -> unrev_below r1 j = unrev_below r2 j.
Proof. intros H. unfold unrev_below. f_equal. apply filter_ext_in. intros i Hi. apply in_seq in Hi. f_equal. apply H. lia. Qed.
Lemma unrev_below_lt rev n j : (j < n)%nat -> rev j = false -> (unrev_below rev j < length (filter (fun i => negb (rev i)) (seq 0 n)))%nat.
Proof.
  intros H P. unfold unrev_below. apply nth_error_Some. rewrite (filter_nth (fun i => negb (rev i)) n j H); [discriminate|now rewrite P].
Qed.

(** the revealed map made by the commitment *)
Definition rev_entries {A} (attrs : list A) (d : A) (rev : list nat) (n : nat) : list (nat * A) := map (fun j => (j, nth j attrs d)) (filter (fun j => mem j rev) (seq 0 n)).
Lemma find_entries {A} (f : nat -> A) l j : (exists e, find (fun e => Nat.eqb (fst e) j) (map (fun j => (j, f j)) l) = Some e) -> find (fun e => Nat.eqb (fst e) j) (map (fun j => (j, f j)) l) = Some (j, f j).
Proof.
  intros (e & E). induction l as [|a l IH]; cbn [map find] in *; [discriminate|]. cbn [fst] in *. destruct (Nat.eqb_spec a j) as [->|N]; [reflexivity|]. now apply IH.
Qed.
Lemma entries_has {A} (f : nat -> A) l j : has_key (map (fun j => (j, f j)) l) j = mem j l.
Proof.
  unfold has_key, mem. induction l as [|a l IH]; [reflexivity|]. cbn [map existsb fst]. rewrite IH. f_equal. apply Nat.eqb_sym.
Qed.
Lemma mem_in j l : mem j l = true <-> In j l.
Proof.
  unfold mem. rewrite existsb_exists. split; [intros (x & Hx & E); apply Nat.eqb_eq in E; now subst|intros H; exists j; split; [exact H|apply Nat.eqb_refl]].
Qed.
Lemma entries_mem {A} attrs (d : A) rev n j : (j < n)%nat -> has_key (rev_entries attrs d rev n) j = mem j rev.
Proof.
  intros H. unfold rev_entries. rewrite entries_has. destruct (mem j rev) eqn:E.
  - apply mem_in, filter_In. split; [apply in_seq; lia|exact E].
  - destruct (mem j (filter _ _)) eqn:F; [|reflexivity]. apply mem_in, filter_In in F as (_ & F). congruence.
Qed.
Lemma entries_lookup {A} attrs (d : A) rev n j : (j < n)%nat -> mem j rev = true -> lookup (rev_entries attrs d rev n) j = Ok (nth j attrs d).
Proof.
  intros H E. unfold lookup, rev_entries. rewrite (find_entries (fun j => nth j attrs d)); [reflexivity|].
  assert (In j (filter (fun j => mem j rev) (seq 0 n))) as I by (apply filter_In; split; [apply in_seq; lia|exact E]).
  revert I. generalize (filter (fun j => mem j rev) (seq 0 n)). intros l I.
  induction l as [|a l IH]; [destruct I|]. cbn [map find fst]. destruct (Nat.eqb_spec a j) as [->|N]; [eauto|]. apply IH. destruct I; [contradiction|assumption].
Qed.
Lemma entries_length {A} attrs (d : A) rev n : (length (rev_entries attrs d rev n) + length (filter (fun j => negb (mem j rev)) (seq 0 n)) = n)%nat.
Proof. unfold rev_entries. rewrite map_length, filter_split_length. apply seq_length. Qed.

Definition lookupd {A} (m : list (nat * A)) (j : nat) (d : A) : A := match lookup m j with Ok a => a | Err _ => d end.

Section Gen.
Context {K : fieldOps} (HK : field_laws K) {M W GT : modOps K} (HM : mod_laws M) (HW : mod_laws W) (HT : mod_laws GT).
Variable e : M -> W -> GT.
Hypothesis He : bilinear M W GT e.
Add Field KfT : (proj1 HK).
(** the values of a level as computed by the verifier from the responses: [t], [rs], [z], [pv] are
    the responses for T_j, S, the j-th attribute (or key) and the key one level up *)
Definition vs (gm : M) (gw : W) (y : list M) (R : W) (rs : M) (pv : W) (ch : K) : GT := msub (msub (e rs R) (e gm pv)) (smul ch (e (nth 0 y m0) gw)).
Definition vt (gw : W) (y : list M) (R : W) (t : M) (pv : W) (z : M) (j : nat) : GT := msub (msub (e t R) (e z gw)) (e (nth j y m0) pv).

Lemma vs_commit gm gw y V R S_ T A rho a b ch : groth_valid e gm gw y V R S_ T A -> rho <> f0 ->
  vs gm gw y (smul rho R) (bmul gm (smul (finv rho) S_) a ch) (bmul gw V b ch) ch = msub (smul (fmul rho a) (e gm R)) (smul b (e gm gw)).
Proof.
  intros [_ _ F _] N. unfold vs, bmul. rewrite !(e_add_l e He), !(e_add_r e He), !(e_smul_l e He), !(e_smul_r e He), F.
  unfold msub. module_coefs HK HT; field; exact N.
Qed.
Lemma vt_commit gm gw y V R S_ T A rho a b x ch j : groth_valid e gm gw y V R S_ T A -> rho <> f0 -> (j < length A)%nat ->
  vt gw y (smul rho R) (bmul gm (smul (finv rho) (nth j T m0)) a ch) (bmul gw V b ch) (bmul gm (nth j A m0) x ch) j
  = msub (msub (smul (fmul rho a) (e gm R)) (smul x (e gm gw))) (smul b (e (nth j y m0) gw)).
Proof.
  intros [_ _ _ F] N Hj. specialize (F j Hj). unfold vt, bmul. rewrite !(e_add_l e He), !(e_add_r e He), !(e_smul_l e He), !(e_smul_r e He), F.
  unfold msub. module_coefs HK HT; field; exact N.
Qed.
(** the difference quotient of two responses *)
Definition quot {X : modOps K} (d : K) (a b : X) : X := smul (finv d) (msub a b).
Lemma vs_extract gm gw y R rs pv ch rs' pv' ch' : ch <> ch' -> vs gm gw y R rs pv ch = vs gm gw y R rs' pv' ch' ->
  e (quot (fsub ch ch') rs rs') R = madd (e (nth 0 y m0) gw) (e gm (quot (fsub ch ch') pv pv')).
Proof.
  intros N E. apply (fsub_neq0 _ HK) in N. unfold vs in E. unfold quot.
  unfold msub at 1 2. rewrite !(e_smul_l e He), !(e_smul_r e He), !(e_add_l e He), !(e_add_r e He), (e_opp_l HK HM HT e He), (e_opp_r HK HW HT e He).
  apply (msub_0 _ _ HT) in E. unfold msub in E.
  assert (madd (e rs R) (mopp (e rs' R)) = madd (smul (fsub ch ch') (e (nth 0 y m0) gw)) (madd (e gm pv) (mopp (e gm pv')))) as ->.
  { apply (msub_0 _ _ HT). rewrite <- E. unfold msub. module_coefs HK HT; ring. }
  module_coefs HK HT; field; exact N.
Qed.
Lemma vt_extract gw y R t pv z j ch t' pv' z' ch' : ch <> ch' -> vt gw y R t pv z j = vt gw y R t' pv' z' j ->
  e (quot (fsub ch ch') t t') R = madd (e (quot (fsub ch ch') z z') gw) (e (nth j y m0) (quot (fsub ch ch') pv pv')).
Proof.
  intros N E. apply (fsub_neq0 _ HK) in N. unfold vt in E. unfold quot.
  unfold msub at 1 2 3. rewrite !(e_smul_l e He), !(e_smul_r e He), !(e_add_l e He), !(e_add_r e He), !(e_opp_l HK HM HT e He), (e_opp_r HK HW HT e He).
  apply (msub_0 _ _ HT) in E. unfold msub in E.
  assert (madd (e t R) (mopp (e t' R)) = madd (madd (e z gw) (mopp (e z' gw))) (madd (e (nth j y m0) pv) (mopp (e (nth j y m0) pv')))) as ->.
  { apply (msub_0 _ _ HT). rewrite <- E. unfold msub. module_coefs HK HT; ring. }
  module_coefs HK HT; field; exact N.
Qed.
Lemma quot_self {X : modOps K} (HX : mod_laws X) ch ch' (a : X) : ch <> ch' -> quot (fsub ch ch') (smul ch a) (smul ch' a) = a.
Proof. intros N. apply (fsub_neq0 _ HK) in N. unfold quot, msub. module_coefs HK HX; field; exact N. Qed.
Lemma quot_gen {X : modOps K} (HX : mod_laws X) d x x' (g : X) : quot d (smul x g) (smul x' g) = smul (fmul (finv d) (fsub x x')) g.
Proof. unfold quot, msub. module_coefs HK HX; ring. Qed.
End Gen.

(** the value used for the j-th attribute or, last, for the key *)
Definition zv {K : fieldOps} {M : modOps K} (n : nat) (rev : list nat) (revmap : list (nat * M)) (ra : list M) (vkr : M) (ch : K) (j : nat) : M :=
  if (j <? n - 1)%nat then if mem j rev then smul ch (lookupd revmap j m0) else nth (unrev_below (fun i => mem i rev) j) ra m0 else vkr.

Section Level.
Variable C : curve.
Hypothesis LW : curve_laws C.
Notation K := (cK C). Notation GT := (cGT C).
Context {M W : modOps K} (HM : mod_laws M) (HW : mod_laws W).
Variable e : M -> W -> GT.
Hypothesis He : bilinear M W GT e.
Let HK := cl_field C LW.
Let HT := cl_gt C LW.
Add Field KfTL : (proj1 HK).

Lemma commit_level_eq (gm : M) (gw R : W) y prev b (attrs : list M) rev rho rs rvk rt ra :
  (prev = None /\ b = f0 \/ prev = Some b) -> (length rev <= length y)%nat -> (length rev < length attrs)%nat -> (length attrs <= length y)%nat ->
  commit_level (C := C) (e gm R) (mopp (e gm gw)) (map (fun v => mopp (e v gw)) y) (length y) prev attrs rev rho rs rvk rt ra
  = Ok (mkCLevel (msub (smul (fmul rho rs) (e gm R)) (smul b (e gm gw)))
         (map (fun j => msub (msub (smul (fmul rho (rt j)) (e gm R)) (smul (if (j <? length attrs - 1)%nat then if mem j rev then f0 else ra j else rvk) (e gm gw))) (smul b (e (nth j y m0) gw))) (seq 0 (length attrs)))
         (map rt (seq 0 (length attrs))) (map ra (filter (fun j => negb (mem j rev)) (seq 0 (length attrs - 1)))) (rev_entries attrs m0 rev (length attrs - 1))).
Proof.
  intros HP L1 L2 L3. unfold commit_level. rewrite (proj2 (Nat.ltb_ge _ _) L1), (proj2 (Nat.ltb_ge (length attrs) _)) by lia.
  assert ((length attrs =? 0)%nat = false) as -> by (apply Nat.eqb_neq; lia).
  set (n := length attrs) in *. rewrite (seq_last n) by lia. rewrite !map_app. cbn [map].
  rewrite (rmap_eq _ (fun j => msub (msub (smul (fmul rho (rt j)) (e gm R)) (smul (if mem j rev then f0 else ra j) (e gm gw))) (smul b (e (nth j y m0) gw)))).
  2:{ intros j Hj. apply in_seq in Hj. destruct HP as [ (-> & ->) | -> ].
      - cbn [rbind]. f_equal. destruct (mem j rev); unfold msub; module_coefs HK HT; ring.
      - rewrite (at_ok _ j (mopp (e m0 gw))) by (rewrite map_length; lia). rewrite (map_nth (fun v => mopp (e v gw))). cbn [rbind]. f_equal.
        destruct (mem j rev); unfold msub; module_coefs HK HT; ring. }
  cbn [rbind]. rewrite (rmap_eq _ (fun j => (j, nth j attrs m0))).
  2:{ intros j Hj. apply filter_In in Hj as (Hj & _). apply in_seq in Hj. rewrite (at_ok attrs j m0) by (fold n; lia). reflexivity. }
  cbn [rbind].
  set (x := match prev with None => _ | Some b0 => let! y0 := at_ _ (n - 1) in _ end).
  assert (x = Ok (msub (msub (smul (fmul rho (rt (n - 1)%nat)) (e gm R)) (smul rvk (e gm gw))) (smul b (e (nth (n - 1) y m0) gw)))) as ->.
  { unfold x. clear x. destruct HP as [ (-> & ->) | -> ].
    - f_equal. unfold msub; module_coefs HK HT; ring.
    - rewrite (at_ok _ (n - 1) (mopp (e m0 gw))) by (rewrite map_length; lia). rewrite (map_nth (fun v => mopp (e v gw))). cbn [rbind]. f_equal.
      unfold msub; module_coefs HK HT; ring. }
  cbn [rbind]. rewrite Nat.ltb_irrefl. f_equal. f_equal.
  - destruct HP as [ (-> & ->) | -> ]; unfold msub; module_coefs HK HT; ring.
  - f_equal. apply map_ext_in. intros j Hj. apply in_seq in Hj. now rewrite (proj2 (Nat.ltb_lt j (n - 1))) by lia.
Qed.

Lemma resp_level_eq (g : M) (attrs T T' : list M) (rt ra : nat -> K) rev ch : (length rev < length attrs)%nat -> Z.of_nat (length attrs) < 2 ^ 64 -> length T = length attrs -> length T' = length attrs ->
  resp_level (C := C) g attrs T T' (map rt (seq 0 (length attrs))) (map ra (filter (fun j => negb (mem j rev)) (seq 0 (length attrs - 1)))) (rev_entries attrs m0 rev (length attrs - 1)) ch
  = Ok (map (fun j => bmul g (nth j T' m0) (rt j) ch) (seq 0 (length attrs)),
        map (fun j => bmul g (nth j attrs m0) (ra j) ch) (filter (fun j => negb (mem j rev)) (seq 0 (length attrs - 1)))).
Proof.
  intros L1 L2 LT LT'. unfold resp_level. set (n := length attrs) in *. set (rm := rev_entries attrs m0 rev (n - 1)).
  rewrite map_length, seq_length, LT, Nat.eqb_refl. cbn [negb].
  pose proof (entries_length attrs m0 rev (n - 1)) as EL. fold rm in EL.
  assert (usize (usize (Z.of_nat n - Z.of_nat (length rm)) - 1) = Z.of_nat (length (filter (fun j => negb (mem j rev)) (seq 0 (n - 1))))) as ->.
  { unfold usize. rewrite (Z.mod_small (Z.of_nat n - _)) by lia. rewrite Z.mod_small by lia. lia. }
  rewrite map_length, Z.eqb_refl. cbn [negb].
  rewrite (rmap_eq _ (fun j => bmul g (nth j T' m0) (rt j) ch)).
  2:{ intros j Hj. apply in_seq in Hj. rewrite (at_ok T' j m0) by (rewrite LT'; lia). cbn [rbind]. rewrite (at_ok _ j f0) by (rewrite map_length, seq_length; lia). rewrite nth_map_seq_g by lia. reflexivity. }
  cbn [rbind]. assert (filter (fun j => negb (has_key rm j)) (seq 0 (n - 1)) = filter (fun j => negb (mem j rev)) (seq 0 (n - 1))) as ->
    by (apply filter_ext_in; intros j Hj; apply in_seq in Hj; unfold rm; rewrite entries_mem by lia; reflexivity).
  rewrite (rmap_eq _ (fun j => bmul g (nth j attrs m0) (ra j) ch)); [reflexivity|].
  intros j Hj. apply filter_In in Hj as (Hj & NM). apply in_seq in Hj. rewrite (at_ok attrs j m0) by (fold n; lia). cbn [rbind].
  unfold at_. rewrite (unrev_below_ext _ (fun i => mem i rev)) by (intros i Hi; unfold rm; apply entries_mem; lia). unfold unrev_below.
  rewrite (map_nth_error ra _ _ (filter_nth (fun i => negb (mem i rev)) (n - 1) j ltac:(lia) NM)). reflexivity.
Qed.

Lemma recon_t_rmap (gw gw_c R : W) prev_y rt ra rev (revmap : list (nat * M)) n vk : (0 < n)%nat ->
  recon_t (C := C) e gw gw_c R prev_y rt ra rev revmap n vk = rmap (fun j =>
    let! tj := at_ rt j in
    let! x := if (j <? n - 1)%nat then if mem j rev then let! a := lookup revmap j in Ok (e a gw_c) else let! a := at_ ra (unrev_below (fun i => mem i rev) j) in Ok (e a (mopp gw)) else vk in
    let! y := prev_y j in Ok (madd (madd (e tj R) x) y)) (seq 0 n).
Proof.
  intros H. unfold recon_t. rewrite (seq_last n) by lia. rewrite rmap_snoc. rewrite Nat.ltb_irrefl.
  set (f := fun j : nat => let! tj := at_ rt j in let! x := if (j <? n - 1)%nat then _ else _ in _).
  match goal with |- rbind (rmap ?g ?l) _ = _ => assert (rmap g l = rmap f l) as -> by (apply rmap_ext; intros j Hj; apply in_seq in Hj; unfold f; rewrite (proj2 (Nat.ltb_lt j (n - 1))) by lia; reflexivity) end.
  unfold f. destruct (rmap _ _); cbn [rbind]; [|reflexivity]. destruct (at_ rt (n - 1)); cbn [rbind]; [|reflexivity]. destruct vk; cbn [rbind]; [|reflexivity]. destruct (prev_y (n - 1)%nat); reflexivity.
Qed.
Lemma lookup_lookupd {A} (m : list (nat * A)) j a d : lookup m j = Ok a -> lookupd m j d = a.
Proof. intros E. unfold lookupd. now rewrite E. Qed.
Lemma recon_t_inv (gw gw_c R : W) y prev_y rt ra rev revmap n vk vkr pv ch l : (0 < n)%nat -> gw_c = smul (fopp ch) gw ->
  (forall j v, prev_y j = Ok v -> v = mopp (e (nth j y m0) pv)) -> (forall v, vk = Ok v -> v = mopp (e vkr gw)) ->
  recon_t (C := C) e gw gw_c R prev_y rt ra rev revmap n vk = Ok l ->
  (n <= length rt)%nat /\ (forall j, (j < n - 1)%nat -> mem j rev = true -> exists a, lookup revmap j = Ok a) /\ l = map (fun j => vt e gw y R (nth j rt m0) pv (zv n rev revmap ra vkr ch j) j) (seq 0 n).
Proof.
  intros P -> PY PV E. rewrite recon_t_rmap in E by exact P. split; [|split].
  - destruct (rmap_inv _ _ _ E (n - 1)%nat) as (v & Ev); [apply in_seq; lia|]. cbn beta in Ev. apply rbind_ok in Ev as (t & Et & _). apply (at_inv _ _ _ m0) in Et. lia.
  - intros j Hj HM'. destruct (rmap_inv _ _ _ E j) as (v & Ev); [apply in_seq; lia|]. cbn beta in Ev. apply rbind_ok in Ev as (t & Et & Ev). apply rbind_ok in Ev as (x & Ex & _).
    rewrite (proj2 (Nat.ltb_lt j (n - 1)) Hj), HM' in Ex. apply rbind_ok in Ex as (a & Ea & _). eauto.
  - eapply rmap_val; [exact E|]. intros j v Hj Ev. cbn beta in Ev. apply in_seq in Hj. apply rbind_ok in Ev as (t & Et & Ev). apply (at_inv _ _ _ m0) in Et as (_ & ->).
    apply rbind_ok in Ev as (x & Ex & Ev). apply rbind_ok in Ev as (yv & Ey & Ev). apply PY in Ey. subst yv.
    assert (v = madd (madd (e (nth j rt m0) R) x) (mopp (e (nth j y m0) pv))) as -> by congruence. clear Ev.
    unfold vt, zv. destruct (j <? n - 1)%nat.
    + destruct (mem j rev).
      * apply rbind_ok in Ex as (a & Ea & Ex). rewrite (lookup_lookupd _ _ _ m0 Ea). assert (x = e a (smul (fopp ch) gw)) as -> by congruence.
        rewrite (e_smul_r e He), (e_smul_l e He). unfold msub. module_coefs HK HT; ring.
      * apply rbind_ok in Ex as (a & Ea & Ex). apply (at_inv _ _ _ m0) in Ea as (_ & ->). assert (x = e (nth (unrev_below (fun i => mem i rev) j) ra m0) (mopp gw)) as -> by congruence.
        rewrite (e_opp_r HK HW HT e He). reflexivity.
    + apply PV in Ex. subst x. reflexivity.
Qed.
Lemma recon_t_length (gw gw_c R : W) prev_y rt ra rev (revmap : list (nat * M)) n vk l : recon_t (C := C) e gw gw_c R prev_y rt ra rev revmap n vk = Ok l -> length l = (n - 1 + 1)%nat.
Proof.
  intros E. unfold recon_t in E. apply rbind_ok in E as (l0 & E0 & E). apply rmap_length in E0. rewrite seq_length in E0.
  apply rbind_ok in E as (t & _ & E). apply rbind_ok in E as (x & _ & E). apply rbind_ok in E as (y & _ & E).
  match type of E with Ok ?v = _ => assert (l = v) as -> by congruence end. rewrite app_length. cbn [length]. lia.
Qed.
Lemma recon_t_eq (gw gw_c R : W) y prev_y rt ra rev revmap n vk vkr pv ch : (0 < n)%nat -> gw_c = smul (fopp ch) gw ->
  (forall j, (j < n)%nat -> prev_y j = Ok (mopp (e (nth j y m0) pv))) -> vk = Ok (mopp (e vkr gw)) -> (n <= length rt)%nat ->
  (forall j, (j < n - 1)%nat -> mem j rev = true -> exists a, lookup revmap j = Ok a) ->
  (forall j, (j < n - 1)%nat -> mem j rev = false -> (unrev_below (fun i => mem i rev) j < length ra)%nat) ->
  recon_t (C := C) e gw gw_c R prev_y rt ra rev revmap n vk = Ok (map (fun j => vt e gw y R (nth j rt m0) pv (zv n rev revmap ra vkr ch j) j) (seq 0 n)).
Proof.
  intros P -> PY -> LT HL HR. rewrite recon_t_rmap by exact P. apply rmap_eq. intros j Hj. apply in_seq in Hj.
  rewrite (at_ok rt j m0) by lia. cbn [rbind]. rewrite PY by lia. unfold vt, zv. destruct (j <? n - 1)%nat eqn:J; [apply Nat.ltb_lt in J; destruct (mem j rev) eqn:E|].
  - destruct (HL j J E) as (a & Ea). rewrite Ea, (lookup_lookupd _ _ _ m0 Ea). cbn [rbind]. f_equal. rewrite (e_smul_r e He), (e_smul_l e He). unfold msub. module_coefs HK HT; ring.
  - rewrite (at_ok ra _ m0) by (now apply HR). cbn [rbind]. f_equal. now rewrite (e_opp_r HK HW HT e He).
  - reflexivity.
Qed.
End Level.

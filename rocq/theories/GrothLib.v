(** Lemmas about Groth signatures. *)
From Verif Require Import Base BnModel Alg Lin ClRevModel ClRevSpec BbsModel BbsLib BbsProps PsModel PsLib GrothModel DelegModel GrothSpec.
Import List ListNotations.
Open Scope list_scope.
Open Scope Z_scope.

Lemma at_ok {A} (l : list A) i d : (i < length l)%nat -> at_ l i = Ok (nth i l d).
Proof. intros H. unfold at_. now rewrite (nth_error_nth' l d H). Qed.
Lemma at_err {A} (l : list A) i : (length l <= i)%nat -> at_ l i = Err Panic.
Proof. intros H. unfold at_. now rewrite (proj2 (nth_error_None l i) H). Qed.
Lemma at_inv {A} (l : list A) i x d : at_ l i = Ok x -> (i < length l)%nat /\ x = nth i l d.
Proof.
  unfold at_. destruct (nth_error l i) eqn:E; [|discriminate]. intros Q. injection Q as <-.
  split; [apply nth_error_Some; congruence|]. symmetry. now apply nth_error_nth.
Qed.
Lemma check_all_true f l : check_all f l = Ok true <-> forall i, In i l -> f i = Ok true.
Proof.
  induction l as [|a l IH]; cbn [check_all]; [split; [intros _ i []|reflexivity]|].
  destruct (f a) as [[|]|e] eqn:E; cbn [rbind].
  - rewrite IH. split; intros H i; [intros [<-|Hi]; auto|intros Hi; apply H; now right].
  - split; [discriminate|]. intros H. rewrite (H a) in E by now left. discriminate.
  - split; [discriminate|]. intros H. rewrite (H a) in E by now left. discriminate.
Qed.
Lemma check_all_bool f g l : (forall i, In i l -> f i = Ok (g i)) -> check_all f l = Ok (forallb g l).
Proof.
  induction l as [|a l IH]; intros H; cbn [check_all forallb]; [reflexivity|].
  rewrite (H a) by now left. cbn [rbind]. destruct (g a); [|reflexivity]. cbn [andb]. apply IH. intros i Hi. apply H. now right.
Qed.
Lemma rmap_eq {A B} (f : A -> res B) (g : A -> B) l : (forall x, In x l -> f x = Ok (g x)) -> rmap f l = Ok (map g l).
Proof.
  induction l as [|a l IH]; intros H; cbn [rmap map]; [reflexivity|].
  rewrite (H a) by now left. cbn [rbind]. rewrite IH by (intros x Hx; apply H; now right). reflexivity.
Qed.
Lemma rmap_inv {A B} (f : A -> res B) l r : rmap f l = Ok r -> forall x, In x l -> exists y, f x = Ok y.
Proof.
  revert r. induction l as [|a l IH]; intros r H x; [intros []|]. cbn [rmap] in H.
  apply rbind_ok in H as (y & E & H). apply rbind_ok in H as (ys & E2 & _). intros [<-|Hx]; [eauto|]. eapply IH; eauto.
Qed.
Lemma nth_map_seq_g {A} (f : nat -> A) n i d : (i < n)%nat -> nth i (map f (seq 0 n)) d = f i.
Proof. intros H. rewrite (nth_indep _ d (f 0%nat)) by now rewrite map_length, seq_length. rewrite (map_nth f). now rewrite seq_nth. Qed.
Lemma list_as_map {A} (l : list A) d : l = map (fun i => nth i l d) (seq 0 (length l)).
Proof.
  apply nth_ext with (d := d) (d' := d); [now rewrite map_length, seq_length|]. intros n Hn. now rewrite nth_map_seq_g.
Qed.

(** ** module-valued polynomials *)
Section MPoly.
Context {K : fieldOps} (HK : field_laws K) {M : modOps K} (HM : mod_laws M).
Add Field KfMP : (proj1 HK).
Fixpoint meval (p : list M) (x : K) : M := match p with [] => m0 | c :: p' => madd c (smul x (meval p' x)) end.
Fixpoint mdiv (r : K) (p : list M) : list M :=
  match p with [] => [] | c :: p' => match p' with [] => [] | _ => meval p' r :: mdiv r p' end end.
Lemma mdiv_length r p : length (mdiv r p) = pred (length p).
Proof.
  induction p as [|c p IH]; [reflexivity|]. cbn [mdiv]. destruct p as [|d p]; [reflexivity|].
  cbn [length] in *. now rewrite IH.
Qed.
Lemma mdiv_eval r p x : meval p x = madd (meval p r) (smul (fsub x r) (meval (mdiv r p) x)).
Proof.
  induction p as [|c p IH]; [cbn [meval mdiv]; module_coefs HK HM; ring|].
  cbn [mdiv]. destruct p as [|d p]; [cbn [meval mdiv]; module_coefs HK HM; ring|].
  change (meval (c :: d :: p) x) with (madd c (smul x (meval (d :: p) x))). rewrite IH.
  change (meval (c :: d :: p) r) with (madd c (smul r (meval (d :: p) r))).
  change (meval (meval (d :: p) r :: mdiv r (d :: p)) x) with (madd (meval (d :: p) r) (smul x (meval (mdiv r (d :: p)) x))).
  generalize (meval (mdiv r (d :: p)) x), (meval (d :: p) r). intros a b. module_coefs HK HM; ring.
Qed.
Lemma mdiv_zero r : forall p, meval p r = m0 -> (forall c, In c (mdiv r p) -> c = m0) -> forall c, In c p -> c = m0.
Proof.
  induction p as [|c p IH]; intros E D x Hx; [destruct Hx|]. cbn [meval] in E. destruct p as [|d p].
  - cbn [meval] in E. destruct Hx as [<-|[]]. rewrite (smul_0_r _ _ HM), (madd_0_r _ _ HM) in E. exact E.
  - cbn [mdiv] in D. assert (meval (d :: p) r = m0) as E2 by (apply D; now left).
    rewrite E2, (smul_0_r _ _ HM), (madd_0_r _ _ HM) in E. destruct Hx as [<-|Hx]; [exact E|].
    apply IH; [exact E2| |exact Hx]. intros y Hy. apply D. now right.
Qed.
(** a module-valued polynomial with as many distinct roots as coefficients is zero *)
Lemma mroots : forall n p rs, length p = n -> NoDup rs -> (n <= length rs)%nat -> (forall r, In r rs -> meval p r = m0) -> forall c, In c p -> c = m0.
Proof.
  induction n as [|n IH]; intros p rs L ND Hl R c Hc; [destruct p; [destruct Hc|discriminate]|].
  destruct rs as [|r rs]; [cbn in Hl; lia|]. apply NoDup_cons_iff in ND as (NI & ND).
  apply (mdiv_zero r p); [apply R; now left| |exact Hc].
  apply (IH (mdiv r p) rs); [rewrite mdiv_length, L; reflexivity|exact ND|cbn in Hl; lia|].
  intros x Hx. assert (meval p x = m0) as Q by (apply R; now right). rewrite (mdiv_eval r) in Q. rewrite (R r) in Q by now left.
  rewrite (madd_0_l _ _ HM) in Q. destruct (meq_dec _ _ HM (meval (mdiv r p) x) m0) as [Z|N]; [exact Z|].
  exfalso. revert Q. apply (smul_nonzero HK HM); [|exact N]. apply (fsub_neq0 _ HK). intros ->. contradiction.
Qed.
Lemma lin_powers r : forall p k, lin p (map (fpow r) (seq k (length p))) = smul (fpow r k) (meval p r).
Proof.
  induction p as [|c p IH]; intros k; cbn [length seq map meval]; [rewrite lin_nil_l, (smul_0_r _ _ HM); reflexivity|].
  rewrite lin_cons, IH. cbn [fpow]. module_coefs HK HM; ring.
Qed.
Lemma lin_all_zero : forall (p : list M) ss, (forall c, In c p -> c = m0) -> lin p ss = m0.
Proof.
  induction p as [|c p IH]; intros ss H; [apply lin_nil_l|]. destruct ss as [|s ss]; [apply lin_nil_r|].
  rewrite lin_cons, IH by (intros x Hx; apply H; now right). rewrite (H c) by now left. rewrite (smul_0_r _ _ HM). apply (madd_0_l _ _ HM).
Qed.
Lemma fold_madd_from {A} (f : A -> M) l : forall a, fold_left (fun acc x => madd acc (f x)) l a = madd a (msum (map f l)).
Proof.
  induction l as [|x l IH]; intros a; cbn [fold_left map msum]; [now rewrite (madd_0_r _ _ HM)|].
  rewrite IH. now rewrite (madd_assoc _ _ HM).
Qed.
End MPoly.

(** ** signing, over any pair of groups *)
Section Gen.
Context {K : fieldOps} (HK : field_laws K) {M W GT : modOps K} (HM : mod_laws M) (HW : mod_laws W) (HT : mod_laws GT).
Variable e : M -> W -> GT.
Hypothesis He : bilinear M W GT e.
Add Field KfG : (proj1 HK).
Lemma e_add_l a b c : e (madd a b) c = madd (e a c) (e b c). Proof. apply He. Qed.
Lemma e_add_r a b c : e a (madd b c) = madd (e a b) (e a c). Proof. apply He. Qed.
Lemma e_smul_l x a b : e (smul x a) b = smul x (e a b). Proof. apply He. Qed.
Lemma e_smul_r x a b : e a (smul x b) = smul x (e a b). Proof. apply He. Qed.
Lemma e_opp_l a b : e (mopp a) b = mopp (e a b). Proof. rewrite !(mopp_smul _ HK _ HM), (mopp_smul _ HK _ HT). apply e_smul_l. Qed.
Lemma e_opp_r a b : e a (mopp b) = mopp (e a b). Proof. rewrite !(mopp_smul _ HK _ HW), (mopp_smul _ HK _ HT). apply e_smul_r. Qed.

Lemma groth_new_eq (msgs : list M) sk y (gr : W) gs r : y <> [] -> (length msgs <= length y)%nat ->
  groth_new msgs sk y gr gs r = Ok (smul r gr, smul (finv r) (madd (nth 0 y m0) (smul sk gs)),
    map (fun i => smul (finv r) (madd (nth i msgs m0) (smul sk (nth i y m0)))) (seq 0 (length msgs))).
Proof.
  intros N L. unfold groth_new. rewrite (proj2 (Nat.ltb_ge _ _) L).
  rewrite (at_ok y 0 m0) by (destruct y; [contradiction|cbn; lia]). cbn [rbind].
  rewrite (rmap_eq _ (fun i => madd (nth i msgs m0) (smul sk (nth i y m0)))).
  - cbn [rbind]. now rewrite map_map.
  - intros i Hi. apply in_seq in Hi. rewrite (at_ok msgs i m0), (at_ok y i m0) by lia. reflexivity.
Qed.
Lemma groth_new_valid (msgs : list M) sk y (gr : W) gs r R S_ T : y <> [] -> r <> f0 ->
  groth_new msgs sk y gr gs r = Ok (R, S_, T) -> groth_valid e gs gr y (smul sk gr) R S_ T msgs.
Proof.
  intros N Nr E. destruct (length y <? length msgs)%nat eqn:L.
  - unfold groth_new in E. rewrite L in E. discriminate.
  - apply Nat.ltb_ge in L. rewrite groth_new_eq in E by assumption.
    assert (R = smul r gr) as -> by congruence.
    assert (S_ = smul (finv r) (madd (nth 0 y m0) (smul sk gs))) as -> by congruence.
    assert (T = map (fun i => smul (finv r) (madd (nth i msgs m0) (smul sk (nth i y m0)))) (seq 0 (length msgs))) as -> by congruence.
    split; [exact L|rewrite map_length, seq_length; lia| |].
    + rewrite e_smul_l, e_add_l, !e_smul_r, !e_smul_l. module_coefs HK HT; field; exact Nr.
    + intros i Hi. rewrite nth_map_seq_g by exact Hi. rewrite e_smul_l, e_add_l, !e_smul_r, !e_smul_l. module_coefs HK HT; field; exact Nr.
Qed.
Lemma randomize_valid gs gr y V R S_ T (msgs : list M) r' : r' <> f0 ->
  groth_valid e gs gr y V R S_ T msgs -> groth_valid e gs gr y V (smul r' R) (smul (finv r') S_) (map (smul (finv r')) T) msgs.
Proof.
  intros Nr [L1 L2 F E]. split; [exact L1|now rewrite map_length| |].
  - rewrite e_smul_l, e_smul_r, F. module_coefs HK HT; field; exact Nr.
  - intros i Hi. rewrite (nth_indep _ m0 (smul (finv r') m0)) by (rewrite map_length; lia). rewrite (map_nth (smul (finv r'))).
    rewrite e_smul_l, e_smul_r, (E i Hi). module_coefs HK HT; field; exact Nr.
Qed.
Lemma randomize_back gs gr y V R S_ T (msgs : list M) r' : r' <> f0 ->
  groth_valid e gs gr y V (smul r' R) (smul (finv r') S_) (map (smul (finv r')) T) msgs -> groth_valid e gs gr y V R S_ T msgs.
Proof.
  intros Nr V'. destruct V' as [L1 L2 F E]. rewrite map_length in L2. split; [exact L1|exact L2| |].
  - rewrite <- F, e_smul_l, e_smul_r. module_coefs HK HT; field; exact Nr.
  - intros i Hi. rewrite <- (E i Hi). rewrite (nth_indep (map _ T) m0 (smul (finv r') m0)) by (rewrite map_length; lia). rewrite (map_nth (smul (finv r'))).
    rewrite e_smul_l, e_smul_r. module_coefs HK HT; field; exact Nr.
Qed.
(** what is missing for validity *)
Definition residual0 gs gr y (V R : W) (S_ : M) : GT := msub (madd (e (nth 0 y m0) gr) (e gs V)) (e S_ R).
Definition residual gr y (V R : W) (T msgs : list M) i : GT := msub (madd (e (nth i msgs m0) gr) (e (nth i y m0) V)) (e (nth i T m0) R).
Definition residuals gs gr y V R S_ T msgs : list GT := residual0 gs gr y V R S_ :: map (residual gr y V R T msgs) (seq 0 (length msgs)).
Lemma valid_residuals gs gr y V R S_ T (msgs : list M) : (length msgs <= length y)%nat -> (length msgs <= length T)%nat ->
  (groth_valid e gs gr y V R S_ T msgs <-> forall c, In c (residuals gs gr y V R S_ T msgs) -> c = m0).
Proof.
  intros L1 L2. unfold residuals. split.
  - intros [_ _ F E] c [<-|Hc].
    + unfold residual0. rewrite F. apply (madd_opp _ _ HT).
    + apply in_map_iff in Hc as (i & <- & Hi). apply in_seq in Hi. unfold residual. rewrite E by lia. apply (madd_opp _ _ HT).
  - intros H. split; [exact L1|exact L2| |].
    + symmetry. apply (msub_0 _ _ HT). apply H. now left.
    + intros i Hi. symmetry. apply (msub_0 _ _ HT). apply H. right. apply in_map_iff. exists i. split; [reflexivity|apply in_seq; lia].
Qed.
End Gen.

Lemma powers_nth {K : fieldOps} (HK : field_laws K) (r : K) n i : (i < n)%nat -> nth i (powers r n) f0 = if feqb r f0 then f0 else fpow r i.
Proof.
  intros H. unfold powers. destruct (feqb r f0); [apply nth_repeat|]. now rewrite nth_map_seq_g.
Qed.
Lemma powers_length {K : fieldOps} (r : K) n : length (powers r n) = n.
Proof. unfold powers. destruct (feqb r f0); [apply repeat_length|now rewrite map_length, seq_length]. Qed.

Section Curve.
Variable C : curve.
Hypothesis LW : curve_laws C.
Notation K := (cK C). Notation G1 := (cG1 C). Notation G2 := (cG2 C). Notation GT := (cGT C).
Let HK := cl_field C LW.
Let H1 := cl_g1 C LW.
Let H2 := cl_g2 C LW.
Let HT := cl_gt C LW.
Add Field KfC : (proj1 HK).
Lemma bil1 : bilinear G1 G2 GT pair. Proof. apply (cl_bilinear C LW). Qed.
Lemma bil2 : bilinear G2 G1 GT (fun m w => pair w m).
Proof. destruct (cl_bilinear C LW) as (A & B & D & E). repeat split; intros; auto. Qed.
Definition res0_1 (p : params1 C) vk (s : sig1 C) := residual0 pair (p1_g1 p) (p1_g2 p) (p1_y p) vk (s1_R s) (s1_S s).
Definition res_1 (p : params1 C) vk (s : sig1 C) msgs i := residual pair (p1_g2 p) (p1_y p) vk (s1_R s) (s1_T s) msgs i.
Definition res0_2 (p : params2 C) vk (s : sig2 C) := residual0 (fun m w => pair w m) (p2_g2 p) (p2_g1 p) (p2_y p) vk (s2_R s) (s2_S s).
Definition res_2 (p : params2 C) vk (s : sig2 C) msgs i := residual (fun m w => pair w m) (p2_g1 p) (p2_y p) vk (s2_R s) (s2_T s) msgs i.

Lemma multi_pair_sum l : @multi_pair C l = msum (map (fun ab => pair (fst ab) (snd ab)) l).
Proof. unfold multi_pair. rewrite (fold_madd_from HT). apply (madd_0_l _ _ HT). Qed.
Lemma multi_pair_app (l1 l2 : list (G1 * G2)) : multi_pair (l1 ++ l2) = madd (multi_pair l1) (multi_pair l2).
Proof. rewrite !multi_pair_sum, map_app. apply (msum_app _ _ HT). Qed.
Lemma multi_pair_concat (f : nat -> list (G1 * G2)) (g : nat -> GT) l : (forall i, In i l -> multi_pair (f i) = g i) ->
  multi_pair (concat (map f l)) = msum (map g l).
Proof.
  induction l as [|i l IH]; intros H; [reflexivity|]. cbn [map concat msum]. rewrite multi_pair_app, (H i) by now left.
  rewrite IH by (intros j Hj; apply H; now right). reflexivity.
Qed.
Lemma pair_opp_r (a : G1) (b : G2) : pair a (mopp b) = mopp (pair a b).
Proof. apply (e_opp_r HK H2 HT pair bil1). Qed.

Lemma prepare1_eq rv off (s : sig1 C) msgs vk p : p1_y p <> [] -> (length msgs <= length (p1_y p))%nat -> (length msgs <= length (s1_T s))%nat -> (off + length msgs < length rv)%nat ->
  exists pairs, prepare1 rv off s msgs vk p = Ok pairs /\
    multi_pair pairs = madd (smul (if (off =? 0)%nat then f1 else nth off rv f0) (res0_1 p vk s))
                            (msum (map (fun i => smul (nth (off + i + 1) rv f0) (res_1 p vk s msgs i)) (seq 0 (length msgs)))).
Proof.
  intros N L1 L2 L3. unfold prepare1. rewrite (at_ok (p1_y p) 0 m0) by (destruct (p1_y p); [contradiction|cbn; lia]). cbn [rbind].
  set (x := if (off =? 0)%nat then f1 else nth off rv f0).
  set (tri := if (off =? 0)%nat then Ok (nth 0 (p1_y p) m0, p1_g1 p, mopp (s1_S s)) else _).
  assert (exists a b c, tri = Ok (a, b, c) /\ multi_pair [(a, p1_g2 p); (b, vk); (c, s1_R s)] = smul x (res0_1 p vk s)) as (a & b & c & E & V).
  { unfold tri, x. clear tri x. destruct (off =? 0)%nat.
    - do 3 eexists. split; [reflexivity|]. rewrite multi_pair_sum. cbn [map msum fst snd]. rewrite (p_opp_l C LW). unfold res0_1, residual0. module_coefs HK HT; ring.
    - rewrite (at_ok rv off f0) by lia. cbn [rbind]. do 3 eexists. split; [reflexivity|]. rewrite multi_pair_sum. cbn [map msum fst snd]. rewrite !(p_smul_l C LW), (p_opp_l C LW). unfold res0_1, residual0. module_coefs HK HT; ring. }
  rewrite E. cbn [rbind].
  rewrite (rmap_eq _ (fun i => [(smul (nth (off + i + 1) rv f0) (nth i msgs m0), p1_g2 p); (smul (nth (off + i + 1) rv f0) (nth i (p1_y p) m0), vk); (smul (nth (off + i + 1) rv f0) (nth i (s1_T s) m0), mopp (s1_R s))])).
  - cbn [rbind]. eexists. split; [reflexivity|]. rewrite multi_pair_app, V. f_equal. apply multi_pair_concat. intros i _.
    rewrite multi_pair_sum. cbn [map msum fst snd]. rewrite !(p_smul_l C LW), pair_opp_r. unfold res_1, residual. module_coefs HK HT; ring.
  - intros i Hi. apply in_seq in Hi. rewrite (at_ok rv (off + i + 1) f0), (at_ok msgs i m0), (at_ok (p1_y p) i m0), (at_ok (s1_T s) i m0) by lia. reflexivity.
Qed.
Lemma prepare2_eq rv off (s : sig2 C) msgs vk p : p2_y p <> [] -> (length msgs <= length (p2_y p))%nat -> (length msgs <= length (s2_T s))%nat -> (off < length rv)%nat -> (length msgs < length rv)%nat ->
  exists pairs, prepare2 rv off s msgs vk p = Ok pairs /\
    multi_pair pairs = madd (smul (if (off =? 0)%nat then f1 else nth off rv f0) (res0_2 p vk s))
                            (msum (map (fun i => smul (nth (i + 1) rv f0) (res_2 p vk s msgs i)) (seq 0 (length msgs)))).
Proof.
  intros N L1 L2 L3 L4. unfold prepare2.
  set (x := if (off =? 0)%nat then f1 else nth off rv f0).
  set (tri := if (off =? 0)%nat then Ok (p2_g1 p, vk, mopp (s2_R s)) else _).
  assert (exists a b c, tri = Ok (a, b, c) /\ multi_pair [(a, nth 0 (p2_y p) m0); (b, p2_g2 p); (c, s2_S s)] = smul x (res0_2 p vk s)) as (a & b & c & E & V).
  { unfold tri, x. clear tri x. destruct (off =? 0)%nat.
    - do 3 eexists. split; [reflexivity|]. rewrite multi_pair_sum. cbn [map msum fst snd]. rewrite (p_opp_l C LW). unfold res0_2, residual0. module_coefs HK HT; ring.
    - rewrite (at_ok rv off f0) by lia. cbn [rbind]. do 3 eexists. split; [reflexivity|]. rewrite multi_pair_sum. cbn [map msum fst snd]. rewrite !(p_smul_l C LW), (p_opp_l C LW). unfold res0_2, residual0. module_coefs HK HT; ring. }
  rewrite E. cbn [rbind]. rewrite (at_ok (p2_y p) 0 m0) by (destruct (p2_y p); [contradiction|cbn; lia]). cbn [rbind].
  rewrite (rmap_eq _ (fun i => [(smul (nth (i + 1) rv f0) (p2_g1 p), nth i msgs m0); (smul (nth (i + 1) rv f0) vk, nth i (p2_y p) m0); (smul (nth (i + 1) rv f0) (mopp (s2_R s)), nth i (s2_T s) m0)])).
  - cbn [rbind]. eexists. split; [reflexivity|]. rewrite multi_pair_app, V. f_equal. apply multi_pair_concat. intros i _.
    rewrite multi_pair_sum. cbn [map msum fst snd]. rewrite !(p_smul_l C LW), (p_opp_l C LW). unfold res_2, residual. module_coefs HK HT; ring.
  - intros i Hi. apply in_seq in Hi. rewrite (at_ok rv (i + 1) f0), (at_ok msgs i m0), (at_ok (p2_y p) i m0), (at_ok (s2_T s) i m0) by lia. reflexivity.
Qed.

(** verification, message by message *)
Lemma verify1_iff (s : sig1 C) msgs vk (p : params1 C) : params1_ok p -> (verify1 s msgs vk p = Ok true <-> valid1 p vk s msgs).
Proof.
  intros N. unfold verify1, valid1. destruct (length (p1_y p) <? length msgs)%nat eqn:L.
  { apply Nat.ltb_lt in L. split; [discriminate|]. intros [Q _ _ _]. lia. }
  apply Nat.ltb_ge in L. rewrite (at_ok (p1_y p) 0 m0) by (unfold params1_ok in N; destruct (p1_y p); [contradiction|cbn; lia]). cbn [rbind]. unfold is_one.
  assert (multi_pair [(nth 0 (p1_y p) m0, p1_g2 p); (p1_g1 p, vk); (mopp (s1_S s), s1_R s)] = res0_1 p vk s) as ->
    by (rewrite multi_pair_sum; cbn [map msum fst snd]; rewrite (p_opp_l C LW); unfold res0_1, residual0; module_coefs HK HT; ring).
  destruct (meqb (res0_1 p vk s) m0) eqn:E0; cbn [negb].
  - apply (meqb_eq _ _ HT) in E0. unfold res0_1, residual0 in E0. apply -> (msub_0 _ _ HT) in E0. rewrite check_all_true. split.
    + intros Q. assert (forall i, (i < length msgs)%nat -> (i < length (s1_T s))%nat /\ pair (nth i (s1_T s) m0) (s1_R s) = madd (pair (nth i msgs m0) (p1_g2 p)) (pair (nth i (p1_y p) m0) vk)) as A.
      { intros i Hi. specialize (Q i ltac:(apply in_seq; lia)). cbn beta in Q. rewrite (at_ok msgs i m0), (at_ok (p1_y p) i m0) in Q by lia. cbn [rbind] in Q.
        apply rbind_ok in Q as (t & Et & Q). apply (at_inv _ _ _ m0) in Et as (Ht & ->). split; [exact Ht|].
        assert (multi_pair [(nth i msgs m0, p1_g2 p); (nth i (p1_y p) m0, vk); (nth i (s1_T s) m0, mopp (s1_R s))] = m0) as Q' by (apply (meqb_eq _ _ HT); congruence).
        rewrite multi_pair_sum in Q'; cbn [map msum fst snd] in Q'; rewrite pair_opp_r in Q'. symmetry. apply (msub_0 _ _ HT). rewrite <- Q'. module_coefs HK HT; ring. }
      split; [exact L| |now symmetry|].
      * destruct (Nat.le_gt_cases (length msgs) (length (s1_T s))) as [W|W]; [exact W|]. destruct (A (length (s1_T s)) W) as (B & _). lia.
      * intros i Hi. apply A, Hi.
    + intros [_ LT F E] i Hi. apply in_seq in Hi. rewrite (at_ok msgs i m0), (at_ok (p1_y p) i m0), (at_ok (s1_T s) i m0) by lia. cbn [rbind]. f_equal. apply (meqb_eq _ _ HT).
      rewrite multi_pair_sum; cbn [map msum fst snd]; rewrite pair_opp_r, (E i) by lia. module_coefs HK HT; ring.
  - split; [discriminate|]. intros [_ _ F _]. apply (meqb_neq _ _ HT) in E0. contradiction E0. unfold res0_1, residual0. apply (msub_0 _ _ HT). now symmetry.
Qed.
Lemma verify2_iff (s : sig2 C) msgs vk (p : params2 C) : params2_ok p -> (verify2 s msgs vk p = Ok true <-> valid2 p vk s msgs).
Proof.
  intros N. unfold verify2, valid2. destruct (length (p2_y p) <? length msgs)%nat eqn:L.
  { apply Nat.ltb_lt in L. split; [discriminate|]. intros [Q _ _ _]. lia. }
  apply Nat.ltb_ge in L. rewrite (at_ok (p2_y p) 0 m0) by (unfold params2_ok in N; destruct (p2_y p); [contradiction|cbn; lia]). cbn [rbind]. unfold is_one.
  assert (multi_pair [(p2_g1 p, nth 0 (p2_y p) m0); (vk, p2_g2 p); (mopp (s2_R s), s2_S s)] = res0_2 p vk s) as ->
    by (rewrite multi_pair_sum; cbn [map msum fst snd]; rewrite (p_opp_l C LW); unfold res0_2, residual0; module_coefs HK HT; ring).
  destruct (meqb (res0_2 p vk s) m0) eqn:E0; cbn [negb].
  - apply (meqb_eq _ _ HT) in E0. unfold res0_2, residual0 in E0. apply -> (msub_0 _ _ HT) in E0. rewrite check_all_true. split.
    + intros Q. assert (forall i, (i < length msgs)%nat -> (i < length (s2_T s))%nat /\ pair (s2_R s) (nth i (s2_T s) m0) = madd (pair (p2_g1 p) (nth i msgs m0)) (pair vk (nth i (p2_y p) m0))) as A.
      { intros i Hi. specialize (Q i ltac:(apply in_seq; lia)). cbn beta in Q. rewrite (at_ok msgs i m0), (at_ok (p2_y p) i m0) in Q by lia. cbn [rbind] in Q.
        apply rbind_ok in Q as (t & Et & Q). apply (at_inv _ _ _ m0) in Et as (Ht & ->). split; [exact Ht|].
        assert (multi_pair [(p2_g1 p, nth i msgs m0); (vk, nth i (p2_y p) m0); (mopp (s2_R s), nth i (s2_T s) m0)] = m0) as Q' by (apply (meqb_eq _ _ HT); congruence).
        rewrite multi_pair_sum in Q'; cbn [map msum fst snd] in Q'; rewrite (p_opp_l C LW) in Q'. symmetry. apply (msub_0 _ _ HT). rewrite <- Q'. module_coefs HK HT; ring. }
      split; [exact L| |now symmetry|].
      * destruct (Nat.le_gt_cases (length msgs) (length (s2_T s))) as [W|W]; [exact W|]. destruct (A (length (s2_T s)) W) as (B & _). lia.
      * intros i Hi. apply A, Hi.
    + intros [_ LT F E] i Hi. apply in_seq in Hi. rewrite (at_ok msgs i m0), (at_ok (p2_y p) i m0), (at_ok (s2_T s) i m0) by lia. cbn [rbind]. f_equal. apply (meqb_eq _ _ HT).
      cbn beta in E. rewrite multi_pair_sum; cbn [map msum fst snd]; rewrite (p_opp_l C LW), (E i) by lia. module_coefs HK HT; ring.
  - split; [discriminate|]. intros [_ _ F _]. apply (meqb_neq _ _ HT) in E0. contradiction E0. unfold res0_2, residual0. apply (msub_0 _ _ HT). now symmetry.
Qed.
End Curve.

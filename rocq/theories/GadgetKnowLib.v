(** The systems the verify functions of the gadgets build. *)
From Verif Require Import Base Alg R1csModel R1csSpec R1csLib GadgetModel GadgetApiModel GadgetLib GadgetSim GadgetApiLib R1csProofLib R1csSoundSpec R1csKnowSpec.
Import List ListNotations.
Open Scope list_scope.
Open Scope cs_scope.

Section Shapes.
Context {K : fieldOps} (HK : field_laws K) (ZK : zops K) {Pt : Type}.
Add Field Kf : (proj1 HK).
Notation VS := (vstate K Pt).
(** every variable exists *)
Definition scoped_list (n m : nat) (L : list (lc K)) : Prop := Forall (fun l => forall v c, In (v, c) l -> in_range n m v) L.
Lemma in_range_mono n n' m v : (n <= n')%nat -> in_range n m v -> in_range n' m v.
Proof. intros H. destruct v; cbn [in_range]; lia. Qed.
Lemma scoped_mono n n' m L : (n <= n')%nat -> scoped_list n m L -> scoped_list n' m L.
Proof. intros H. apply Forall_impl. intros l Hl v c I. eapply in_range_mono; [exact H|]. eapply Hl. exact I. Qed.

(** ** bits *)
Definition bit_cons (i : nat) : list (lc K) := [lc_var (MulO i); lc_add (lc_var (MulL i)) (lc_sub (lc_var (MulR i)) (lc_const f1))].
Fixpoint dbl (i : nat) (e : K) : K := match i with O => e | S i' => dbl i' (fadd e e) end.
Fixpoint bit_terms (n num : nat) (e : K) : lc K := match n with O => [] | S n' => (MulR num, e) :: bit_terms n' (S num) (fadd e e) end.
Lemma fold_bits n : forall a cv e (s : VS), cfold (positive_no_step ZK V None) (seq a n) (cv, e) s
  = Ok ((cv ++ bit_terms n (v_num s) e, dbl n e), mkVs (v_cons s ++ flat_map bit_cons (seq (v_num s) n)) (v_num s + n) (v_V s) (v_pending s)).
Proof.
  induction n as [|n IH]; intros a cv e s; cbn [seq cfold].
  - unfold cret. cbn [bit_terms dbl flat_map]. rewrite !app_nil_r, Nat.add_0_r. destruct s; reflexivity.
  - unfold cbind at 1.
    replace (positive_no_step ZK V None a (cv, e) s) with (Ok ((cv ++ [(MulR (v_num s), e)], fadd e e), mkVs (v_cons s ++ bit_cons (v_num s)) (S (v_num s)) (v_V s) (v_pending s))).
    2:{ unfold positive_no_step, cbind. cbn [cs_allocate_multiplier V v_allocate_multiplier v_alloc_vars cs_constrain v_constrain rbind cret v_cons v_num v_V v_pending]. unfold bit_cons. now rewrite <- app_assoc. }
    cbn [rbind]. rewrite IH. cbn [v_num v_cons v_V v_pending bit_terms dbl flat_map]. rewrite <- !app_assoc. cbn [app]. f_equal. f_equal. f_equal. lia.
Qed.
Definition positive_cons (x : var) (n num : nat) : list (lc K) := flat_map bit_cons (seq num n) ++ [(x, fopp f1) :: bit_terms n num f1].
Lemma v_positive x n (s : VS) : positive_no_gadget ZK V (mkAq x None) n s = Ok (tt, mkVs (v_cons s ++ positive_cons x n (v_num s)) (v_num s + n) (v_V s) (v_pending s)).
Proof.
  unfold positive_no_gadget, cbind. cbn [aq_val aq_var]. rewrite fold_bits. cbn [rbind cs_constrain V v_constrain v_cons v_num v_V v_pending]. unfold v_constrain. cbn [v_cons v_num v_V v_pending]. unfold positive_cons. now rewrite <- app_assoc.
Qed.
Lemma bits_length n num : length (flat_map bit_cons (seq num n)) = (2 * n)%nat.
Proof. revert num. induction n as [|n IH]; intros num; cbn [seq flat_map bit_cons app length]; [reflexivity|]. rewrite IH. lia. Qed.
Lemma in_bit_terms n : forall num e v c, In (v, c) (bit_terms n num e) -> exists i, v = MulR i /\ (num <= i < num + n)%nat.
Proof.
  induction n as [|n IH]; intros num e v c; cbn [bit_terms]; [intros []|]. intros [E|I]; [injection E as <- _; exists num; split; [reflexivity|lia]|]. destruct (IH _ _ _ _ I) as (i & -> & Hi). exists i. split; [reflexivity|lia].
Qed.
Lemma positive_scoped m x n num : in_range (num + n) m x -> scoped_list (num + n) m (positive_cons x n num).
Proof.
  intros Hx. unfold positive_cons. apply Forall_app. split.
  - apply Forall_forall. intros l Il v c Iv. apply in_flat_map in Il as (i & Ii & Il). apply in_seq in Ii. unfold bit_cons in Il. cbn [In] in Il.
    destruct Il as [<-|[<-|[]]]; cbn in Iv; repeat (destruct Iv as [E|Iv]; [injection E as <- _; cbn [in_range]; try exact I; lia|]); contradiction.
  - repeat constructor. intros v c [E|I]; [injection E as <- _; exact Hx|]. apply in_bit_terms in I as (i & -> & Hi). cbn [in_range]. lia.
Qed.

(** ** the bound check *)
Definition bound_cons (lower upper : Z) (n : nat) : list (lc K) :=
  [lc_sub (lc_sub (lc_var (Committed 0)) (lc_const (zof ZK lower))) (lc_var (Committed 1));
   lc_sub (lc_sub (lc_const (zof ZK upper)) (lc_var (Committed 0))) (lc_var (Committed 2));
   lc_sub (lc_add (lc_var (Committed 1)) (lc_var (Committed 2))) (lc_const (zof ZK (sub64 upper lower)))]
  ++ positive_cons (Committed 1) n 0 ++ positive_cons (Committed 2) n n.
Lemma v_bounded lower upper n (c1 c2 c3 : Pt) rest : verify_bounded_num ZK lower upper n (c1 :: c2 :: c3 :: rest) v_new = Ok (tt, mkVs (bound_cons lower upper n) (n + n) [c1; c2; c3] None).
Proof.
  unfold verify_bounded_num, pop_commit, pop, vc, cbind. cbn [cret rbind v_commit v_new v_V v_cons v_num v_pending length app].
  unfold bound_check_gadget, constrain_lc_with_scalar, cbind. cbn [cs_constrain V v_constrain rbind aq_var v_cons v_num v_V v_pending app]. unfold v_constrain. cbn [v_cons v_num v_V v_pending rbind app].
  rewrite v_positive. cbn [rbind v_cons v_num v_V v_pending app]. rewrite v_positive. cbn [v_cons v_num v_V v_pending app]. reflexivity.
Qed.
Lemma ccoef_terms i n : forall num e, ccoef i (bit_terms n num e) = f0.
Proof. induction n as [|n IH]; intros num e; [reflexivity|]. unfold ccoef in *. cbn [bit_terms map fsum fst snd]. rewrite IH. ring. Qed.
Definition bound_order (n : nat) : list (nat * nat) := [(1, 3 + 2 * n); (0, 0); (2, 4 + 4 * n)]%nat.
Lemma fopp1 : fopp f1 <> (f0 : K).
Proof. intros E. apply (f1_neq_0 _ HK). transitivity (fopp (fopp (f1 : K))); [ring|rewrite E; ring]. Qed.
Lemma bound_nth1 lower upper n : nth (3 + 2 * n) (bound_cons lower upper n) [] = (Committed 1, fopp f1) :: bit_terms n 0 f1.
Proof.
  unfold bound_cons, positive_cons. cbn [plus]. rewrite app_nth2 by (cbn [length]; lia). cbn [length]. rewrite <- app_assoc. rewrite app_nth2 by (rewrite bits_length; lia). rewrite bits_length. now replace (S (S (S (2 * n))) - 3 - 2 * n)%nat with 0%nat by lia.
Qed.
Lemma bound_nth2 lower upper n : nth (4 + 4 * n) (bound_cons lower upper n) [] = (Committed 2, fopp f1) :: bit_terms n n f1.
Proof.
  unfold bound_cons, positive_cons. cbn [plus]. rewrite app_nth2 by (cbn [length]; lia). cbn [length]. rewrite app_nth2 by (rewrite app_length, bits_length; cbn [length]; lia). rewrite app_length, bits_length. cbn [length].
  rewrite app_nth2 by (rewrite bits_length; lia). rewrite bits_length. now replace (S (S (S (S (4 * n)))) - 3 - (2 * n + 1) - 2 * n)%nat with 0%nat by lia.
Qed.
Lemma bound_length lower upper n : length (bound_cons lower upper n) = (5 + 4 * n)%nat.
Proof. unfold bound_cons, positive_cons. rewrite !app_length, !bits_length. cbn [length]. lia. Qed.
Lemma bound_triangular lower upper n : triangular (bound_cons lower upper n) (bound_order n) [].
Proof.
  unfold bound_order. cbn [triangular]. rewrite bound_length, bound_nth1, bound_nth2. split; [lia|]. split; [|split; [|split; [lia|split; [|split; [|split; [lia|split; [|split; [|exact I]]]]]]]].
  - unfold ccoef. cbn [map fsum fst snd Nat.eqb]. change (fsum (map _ (bit_terms n 0 f1))) with (ccoef 1 (bit_terms n 0 f1)). rewrite ccoef_terms. intros E. apply fopp1. rewrite <- E. ring.
  - intros j c [E|I']; [injection E as <- _; now left|]. apply in_bit_terms in I' as (i & E & _). discriminate.
  - unfold bound_cons. cbn [app nth]. unfold ccoef. cbn. intros E. apply (f1_neq_0 _ HK). rewrite <- E. ring.
  - unfold bound_cons. cbn [app nth]. intros j c I'. cbn in I'. repeat (destruct I' as [E|I']; [try (injection E as <- _); try discriminate; cbn [In]; auto|]). contradiction.
  - unfold ccoef. cbn [map fsum fst snd Nat.eqb]. change (fsum (map _ (bit_terms n n f1))) with (ccoef 2 (bit_terms n n f1)). rewrite ccoef_terms. intros E. apply fopp1. rewrite <- E. ring.
  - intros j c [E|I']; [injection E as <- _; now left|]. apply in_bit_terms in I' as (i & E & _). discriminate.
Qed.
Lemma bound_scoped lower upper n : scoped_list (n + n) 3 (bound_cons lower upper n).
Proof.
  unfold bound_cons. apply Forall_app. split; [|apply Forall_app; split].
  - repeat constructor; intros v c Iv; cbn in Iv; repeat (destruct Iv as [E|Iv]; [injection E as <- _; cbn [in_range]; try exact I; lia|]); contradiction.
  - apply scoped_mono with n; [lia|]. apply (positive_scoped 3 (Committed 1) n 0). cbn [in_range]. lia.
  - apply (positive_scoped 3 (Committed 2) n n). cbn [in_range]. lia.
Qed.

Lemma v_mul_eq l r (s : VS) : cs_multiply V l r s = Ok ((MulL (v_num s), MulR (v_num s), MulO (v_num s)), mkVs (v_cons s ++ [l ++ [(MulL (v_num s), fopp f1)]; r ++ [(MulR (v_num s), fopp f1)]]) (S (v_num s)) (v_V s) (v_pending s)).
Proof. cbn [cs_multiply V]. unfold v_multiply, v_alloc_vars, v_constrain, cbind, cret. cbn [rbind v_cons v_num v_V v_pending]. now rewrite <- app_assoc. Qed.
Lemma v_con_eq l (s : VS) : cs_constrain V l s = Ok (tt, mkVs (v_cons s ++ [l]) (v_num s) (v_V s) (v_pending s)).
Proof. reflexivity. Qed.

(** ** non-zero values *)
Definition nonzero_cons (d di : var) (num : nat) : list (lc K) :=
  [lc_var d ++ [(MulL num, fopp f1)]; lc_sub (lc_var VOne) (lc_const f1) ++ [(MulR num, fopp f1)]; lc_var (MulO num);
   lc_var d ++ [(MulL (S num), fopp f1)]; [(di, f1)] ++ [(MulR (S num), fopp f1)]; lc_sub (lc_var (MulO (S num))) (lc_const f1)].
Lemma v_nonzero d di (s : VS) : is_nonzero_gadget V d di s = Ok (tt, mkVs (v_cons s ++ nonzero_cons d di (v_num s)) (2 + v_num s) (v_V s) (v_pending s)).
Proof.
  unfold is_nonzero_gadget, cbind. rewrite v_mul_eq. cbn [rbind]. rewrite v_con_eq. cbn [rbind]. rewrite v_mul_eq. cbn [rbind]. rewrite v_con_eq. cbn [v_cons v_num v_V v_pending].
  unfold nonzero_cons. rewrite <- !app_assoc. reflexivity.
Qed.
Lemma nonzero_scoped m d di num : in_range (2 + num) m d -> in_range (2 + num) m di -> scoped_list (2 + num) m (nonzero_cons d di num).
Proof.
  intros Hd Hi. unfold nonzero_cons. repeat constructor; intros v c Iv; cbn [lc_var lc_sub lc_const map app In fst snd] in Iv; repeat (destruct Iv as [E|Iv]; [injection E as <- _; try assumption; cbn [in_range]; try exact I; lia|]); contradiction.
Qed.
Lemma v_nonzero_val (c1 c2 : Pt) rest : verify_non_zero_val (c1 :: c2 :: rest) v_new = Ok (tt, mkVs (nonzero_cons (Committed 0) (Committed 1) 0) 2 [c1; c2] None).
Proof.
  unfold verify_non_zero_val, pop_commit, pop, vc, cbind. cbn [cret rbind v_commit v_new v_V v_cons v_num v_pending length app]. rewrite v_nonzero. reflexivity.
Qed.
Definition nonzero_order : list (nat * nat) := [(0, 0); (1, 4)]%nat.
Ltac ccoef_nz := unfold ccoef; cbn [map fsum fst snd lc_var lc_sub lc_add lc_const app Nat.eqb]; try rewrite !Nat.eqb_refl; let E := fresh in intros E; apply (f1_neq_0 _ HK); rewrite <- E; ring.
Ltac only_in := let I' := fresh in intros ? ? I'; cbn [lc_var lc_sub lc_add lc_const map app In fst snd] in I'; repeat (destruct I' as [I'|I']; [try (injection I' as <- _); try discriminate; cbn [In]; auto|]); contradiction.
Lemma nonzero_triangular : triangular (nonzero_cons (Committed 0) (Committed 1) 0) nonzero_order [].
Proof.
  unfold nonzero_order, nonzero_cons. cbn [triangular nth length]. split; [lia|]. split; [ccoef_nz|]. split; [only_in|]. split; [lia|]. split; [ccoef_nz|]. split; [only_in|exact I].
Qed.

(** ** set membership: the value is commitment 0, the differences 1, 2, ... *)
Fixpoint member_cons (set : list K) (i : nat) (product : lc K) : list (lc K) :=
  match set with
  | [] => [product]
  | e :: set' => lc_sub (lc_add (lc_var (Committed (S i))) (lc_var (Committed 0))) (lc_const e) :: (product ++ [(MulL i, fopp f1)]) :: (lc_var (Committed (S i)) ++ [(MulR i, fopp f1)]) :: member_cons set' (S i) (lc_var (MulO i))
  end.
Lemma nth_slots base n i : (i < n)%nat -> idx (slots base n) i = Ok (Committed (base + i)).
Proof. intros H. unfold idx, slots. rewrite nth_error_map. rewrite (nth_error_nth' (seq base n) 0%nat) by (rewrite seq_length; exact H). cbn [option_map]. now rewrite seq_nth. Qed.
Lemma fold_member n set : forall i product (s : VS), v_num s = i -> (i + length set <= n)%nat ->
  cbind (cfold (set_membership_step V (Committed 0) (slots 1 n)) (combine (seq i (length set)) set) product) (fun p => cs_constrain V p) s
  = Ok (tt, mkVs (v_cons s ++ member_cons set i product) (i + length set) (v_V s) (v_pending s)).
Proof.
  induction set as [|e set IH]; intros i product s Hn Hl; cbn [length seq combine cfold].
  - unfold cbind, cret. cbn [rbind cs_constrain V v_constrain member_cons]. unfold v_constrain. rewrite Nat.add_0_r, <- Hn. reflexivity.
  - cbn [length] in Hl. unfold cbind in IH |- *.
    replace (set_membership_step V (Committed 0) (slots 1 n) (i, e) product s) with (Ok (@lc_var K (MulO i), mkVs (v_cons s ++ [lc_sub (lc_add (lc_var (Committed (S i))) (lc_var (Committed 0))) (lc_const e); product ++ [(MulL i, fopp f1)]; lc_var (Committed (S i)) ++ [(MulR i, fopp f1)]]) (S i) (v_V s) (v_pending s))).
    2:{ unfold set_membership_step, cbind. cbn [fst snd]. rewrite nth_slots by lia. cbn [rbind]. unfold constrain_lc_with_scalar. rewrite v_con_eq. cbn [rbind]. rewrite v_mul_eq. cbn [rbind v_cons v_num v_V v_pending]. unfold cret. rewrite <- !app_assoc, Hn. reflexivity. }
    cbn [rbind]. rewrite IH by (cbn [v_num]; lia). cbn [v_cons v_V v_pending member_cons]. rewrite <- app_assoc. cbn [app]. f_equal. f_equal. f_equal. lia.
Qed.
Lemma v_member set (c : Pt) comms : (length set <= length comms)%nat ->
  verify_set_membership set (c :: comms) v_new = Ok (tt, mkVs (member_cons set 0 (lc_var VOne)) (length set) (c :: firstn (length set) comms) None).
Proof.
  intros L. unfold verify_set_membership. unfold cbind at 1. rewrite pop_commit_eq. cbn [rbind]. unfold cbind at 1. rewrite pop_commits_eq by exact L. cbn [rbind].
  change (v_V (vcs [c] v_new)) with [c]. cbn [length]. change (Committed (length (v_V (@v_new K Pt)))) with (Committed 0). unfold set_membership_gadget. rewrite fold_member; [reflexivity|reflexivity|lia].
Qed.
Definition member_order (n : nat) : list (nat * nat) := map (fun i => (S i, 3 * i + 2)%nat) (seq 0 n) ++ [(0, 0)]%nat.
Lemma member_nth set : forall i product j, (j < length set)%nat -> nth (3 * j + 2) (member_cons set i product) [] = lc_var (Committed (S (i + j))) ++ [(MulR (i + j), fopp f1)].
Proof.
  induction set as [|e set IH]; intros i product j Hj; cbn [length] in Hj; [lia|]. destruct j as [|j].
  - cbn [Nat.mul Nat.add nth member_cons]. now rewrite Nat.add_0_r.
  - replace (3 * S j + 2)%nat with (S (S (S (3 * j + 2)))) by lia. cbn [member_cons nth]. rewrite IH by lia. now replace (S i + j)%nat with (i + S j)%nat by lia.
Qed.
Lemma member_length set : forall i product, length (member_cons set i product) = (3 * length set + 1)%nat.
Proof. induction set as [|e set IH]; intros i product; cbn [member_cons length]; [reflexivity|]. rewrite IH. lia. Qed.
Lemma triangular_app cons o1 : forall o2 done, triangular (K := K) cons o1 done -> triangular cons o2 (rev (map fst o1) ++ done) -> triangular cons (o1 ++ o2) done.
Proof.
  induction o1 as [|[i q] o1 IH]; intros o2 done; cbn [app map rev triangular fst]; [auto|]. intros (A & B & C & D) E. split; [exact A|]. split; [exact B|]. split; [exact C|]. apply IH; [exact D|]. rewrite <- app_assoc in E. exact E.
Qed.
(** constraints that mention one commitment each *)
Lemma triangular_each cons o : forall done, (forall i q, In (i, q) o -> (q < length cons)%nat /\ ccoef i (nth q cons []) <> (f0 : K) /\ forall j c, In (Committed j, c) (nth q cons []) -> j = i) -> triangular cons o done.
Proof.
  induction o as [|[i q] o IH]; intros done H; cbn [triangular]; [exact I|]. destruct (H i q (or_introl eq_refl)) as (A & B & C). split; [exact A|]. split; [exact B|]. split; [intros j c I'; left; exact (C j c I')|]. apply IH. intros. apply H. now right.
Qed.
Lemma member_triangular set : (set <> []) -> triangular (member_cons set 0 (lc_var VOne)) (member_order (length set)) [].
Proof.
  intros Ne. unfold member_order. apply triangular_app.
  - apply triangular_each. intros i q Ii. apply in_map_iff in Ii as (j & E & Ij). apply in_seq in Ij. assert (i = S j /\ q = (3 * j + 2)%nat) as [-> ->] by (split; congruence). rewrite member_length, member_nth by lia. cbn [Nat.add]. split; [lia|]. split; [ccoef_nz|].
    intros j' c I'. cbn [lc_var app In] in I'. destruct I' as [E'|[E'|[]]]; [now injection E'|discriminate].
  - destruct set as [|e set]; [contradiction|]. cbn [triangular length member_cons nth]. split; [lia|]. split; [ccoef_nz|]. split; [|exact I].
    intros j c I'. cbn [lc_var lc_sub lc_add lc_const map app In fst snd] in I'. destruct I' as [E|[E|[E|[]]]]; [|injection E as <- _; now left|discriminate]. injection E as <- _. right. rewrite app_nil_r, <- in_rev, map_map. apply in_map_iff. exists 0%nat. split; [reflexivity|apply in_seq; lia].
Qed.
Lemma member_scoped m set : forall i product, (i + length set < m)%nat -> (forall v c, In (v, c) product -> in_range (i + length set) m v) -> scoped_list (i + length set) m (member_cons set i product).
Proof.
  induction set as [|e set IH]; intros i product Hm Hp; cbn [member_cons length] in *.
  - repeat constructor. exact Hp.
  - constructor; [|constructor; [|constructor]].
    + intros v c Iv. cbn [lc_var lc_sub lc_add lc_const map app In fst snd] in Iv. repeat (destruct Iv as [E|Iv]; [injection E as <- _; cbn [in_range]; try exact I; lia|]); contradiction.
    + intros v c Iv. apply in_app_iff in Iv as [Iv|[E|[]]]; [now apply (Hp v c)|injection E as <- _; cbn [in_range]; lia].
    + intros v c Iv. cbn [lc_var app In] in Iv. repeat (destruct Iv as [E|Iv]; [injection E as <- _; cbn [in_range]; try exact I; lia|]); contradiction.
    + replace (i + S (length set))%nat with (S i + length set)%nat by lia. apply IH; [lia|]. intros v c [E|[]]. injection E as <- _. cbn [in_range]. lia.
Qed.

(** ** set non-membership: the value is commitment 0, then difference and inverse in turn *)
Fixpoint nonmember_cons (set : list K) (i : nat) : list (lc K) :=
  match set with
  | [] => []
  | e :: set' => lc_sub (lc_add (lc_var (Committed (2 * i + 1))) (lc_var (Committed 0))) (lc_const e) :: nonzero_cons (Committed (2 * i + 1)) (Committed (2 * i + 2)) (2 * i) ++ nonmember_cons set' (S i)
  end.
Definition odds (n : nat) : list var := map (fun i => Committed (2 * i + 1)) (seq 0 n).
Definition evens (n : nat) : list var := map (fun i => Committed (2 * i + 2)) (seq 0 n).
Lemma nth_mapseq (f : nat -> var) n i : (i < n)%nat -> idx (map f (seq 0 n)) i = Ok (f i).
Proof. intros H. unfold idx. rewrite nth_error_map. rewrite (nth_error_nth' (seq 0 n) 0%nat) by (rewrite seq_length; exact H). cbn [option_map]. now rewrite seq_nth. Qed.
Lemma fold_nonmember n set : forall i (s : VS), v_num s = (2 * i)%nat -> (i + length set <= n)%nat ->
  cfold (set_non_membership_step V (Committed 0) (odds n) (evens n)) (combine (seq i (length set)) set) tt s
  = Ok (tt, mkVs (v_cons s ++ nonmember_cons set i) (2 * (i + length set)) (v_V s) (v_pending s)).
Proof.
  induction set as [|e set IH]; intros i s Hn Hl; cbn [length seq combine cfold].
  - unfold cret. cbn [nonmember_cons]. rewrite app_nil_r, Nat.add_0_r, <- Hn. destruct s; reflexivity.
  - cbn [length] in Hl. unfold cbind at 1.
    replace (set_non_membership_step V (Committed 0) (odds n) (evens n) (i, e) tt s) with (Ok (tt, mkVs (v_cons s ++ lc_sub (lc_add (lc_var (Committed (2 * i + 1))) (lc_var (Committed 0))) (lc_const e) :: nonzero_cons (Committed (2 * i + 1)) (Committed (2 * i + 2)) (2 * i)) (2 * S i) (v_V s) (v_pending s))).
    2:{ unfold set_non_membership_step, cbind. cbn [fst snd]. unfold odds, evens. rewrite nth_mapseq by lia. cbn [rbind]. unfold constrain_lc_with_scalar. cbn [cs_constrain V]. unfold v_constrain. cbn [rbind]. rewrite nth_mapseq by lia. cbn [rbind]. rewrite v_nonzero. cbn [v_cons v_num v_V v_pending]. rewrite <- app_assoc, Hn. f_equal. f_equal. f_equal. lia. }
    cbn [rbind]. rewrite IH by (cbn [v_num]; lia). cbn [v_cons v_V v_pending nonmember_cons]. rewrite <- app_assoc. cbn [app]. f_equal. f_equal. f_equal. lia.
Qed.
Definition nonmember_order (n : nat) : list (nat * nat) := flat_map (fun i => [(2 * i + 1, 7 * i + 1); (2 * i + 2, 7 * i + 5)]%nat) (seq 0 n) ++ [(0, 0)]%nat.
Lemma nonmember_length set : forall i, length (nonmember_cons set i) = (7 * length set)%nat.
Proof. induction set as [|e set IH]; intros i; cbn [nonmember_cons length nonzero_cons app]; [reflexivity|]. rewrite IH. lia. Qed.
Lemma nonmember_nth set : forall i j d, (j < length set)%nat -> (d < 7)%nat ->
  nth (7 * j + d) (nonmember_cons set i) [] = nth d (lc_sub (lc_add (lc_var (Committed (2 * (i + j) + 1))) (lc_var (Committed 0))) (lc_const (nth j set f0)) :: nonzero_cons (Committed (2 * (i + j) + 1)) (Committed (2 * (i + j) + 2)) (2 * (i + j))) [].
Proof.
  induction set as [|e set IH]; intros i j d Hj Hd; cbn [length] in Hj; [lia|]. destruct j as [|j].
  - rewrite Nat.mul_0_r. rewrite Nat.add_0_r. do 7 (destruct d as [|d]; [reflexivity|]). lia.
  - replace (7 * S j + d)%nat with (7 + (7 * j + d))%nat by lia. cbn [nonmember_cons nonzero_cons app plus nth]. rewrite IH by lia. now replace (S i + j)%nat with (i + S j)%nat by lia.
Qed.
Lemma nonmember_triangular set : (set <> []) -> triangular (nonmember_cons set 0) (nonmember_order (length set)) [].
Proof.
  intros Ne. unfold nonmember_order. apply triangular_app.
  - apply triangular_each. intros i q Ii. apply in_flat_map in Ii as (j & Ij & Ii). apply in_seq in Ij. rewrite nonmember_length. cbn [In] in Ii.
    destruct Ii as [E|[E|[]]]; [assert (i = 2 * j + 1 /\ q = 7 * j + 1)%nat as [-> ->] by (split; congruence)|assert (i = 2 * j + 2 /\ q = 7 * j + 5)%nat as [-> ->] by (split; congruence)]; rewrite nonmember_nth by lia; cbn [plus nonzero_cons nth]; (split; [lia|]); (split; [ccoef_nz|]); intros j' c I'; cbn [lc_var app In] in I'; destruct I' as [E'|[E'|[]]]; (discriminate || now injection E').
  - destruct set as [|e set]; [contradiction|]. cbn [triangular]. rewrite nonmember_length. change (nth 0 (nonmember_cons (e :: set) 0) []) with (lc_sub (lc_add (lc_var (Committed 1)) (lc_var (Committed 0))) (lc_const e)). cbn [length]. split; [lia|]. split; [ccoef_nz|]. split; [|exact I].
    intros j c I'. cbn [lc_var lc_sub lc_add lc_const map app In fst snd] in I'. destruct I' as [E|[E|[E|[]]]]; [|injection E as <- _; now left|discriminate]. injection E as <- _. right. rewrite app_nil_r, <- in_rev. apply in_map_iff. exists (1, 1)%nat. split; [reflexivity|]. apply in_flat_map. exists 0%nat. split; [apply in_seq; lia|now left].
Qed.
Lemma nonmember_scoped m set : forall i, (2 * (i + length set) < m)%nat -> scoped_list (2 * (i + length set)) m (nonmember_cons set i).
Proof.
  induction set as [|e set IH]; intros i Hm; cbn [nonmember_cons length] in *; [constructor|]. constructor; [|apply Forall_app; split].
  - intros v c Iv. cbn [lc_var lc_sub lc_add lc_const map app In fst snd] in Iv. repeat (destruct Iv as [E|Iv]; [injection E as <- _; cbn [in_range]; try exact I; lia|]); contradiction.
  - apply scoped_mono with (2 + 2 * i)%nat; [lia|]. apply nonzero_scoped; cbn [in_range]; lia.
  - replace (i + S (length set))%nat with (S i + length set)%nat by lia. apply IH. lia.
Qed.
End Shapes.

(** The algebra of the R1CS proof. *)
From Coq Require Import String.
From Verif Require Import Base Alg Lin TranscriptModel IppModel IppLib IppSpec IppProps R1csModel R1csSpec R1csLib R1csProofModel.
Import List ListNotations.
Open Scope list_scope.

Lemma next_pow2_ge n : (n <= next_pow2 n)%nat.
Proof. unfold next_pow2. destruct (Nat.le_gt_cases n 1) as [C|C]; [assert (2 ^ Nat.log2_up n <> 0)%nat by (apply Nat.pow_nonzero; lia); lia|]. apply Nat.log2_up_spec. exact C. Qed.
Lemma slice_ok {A} (l : list A) i j : (i <= j <= length l)%nat -> slice l i j = Ok (firstn (j - i) (skipn i l)).
Proof. intros H. unfold slice. destruct (Nat.leb_spec j (length l)); [reflexivity|lia]. Qed.
Lemma nth_zip_with {A B D} (f : A -> B -> D) : forall l m i dx dy d, (i < length l)%nat -> (i < length m)%nat -> nth i (zip_with f l m) d = f (nth i l dx) (nth i m dy).
Proof.
  induction l as [|x l IH]; intros [|y m] [|i] dx dy d H1 H2; cbn in H1, H2; try lia; rewrite zip_with_cons; cbn [nth]; [reflexivity|]. apply IH; lia.
Qed.
Lemma nth_combine {A B} : forall (l : list A) (m : list B) i dx dy, (i < length l)%nat -> (i < length m)%nat -> nth i (combine l m) (dx, dy) = (nth i l dx, nth i m dy).
Proof. induction l as [|x l IH]; intros [|y m] [|i] dx dy H1 H2; cbn in H1, H2; try lia; cbn [combine nth]; [reflexivity|]. apply IH; lia. Qed.
Lemma nth_map_seq {A} (f : nat -> A) n i d : (i < n)%nat -> nth i (map f (seq 0 n)) d = f i.
Proof. intros H. rewrite (nth_indep _ d (f 0%nat)) by now rewrite map_length, seq_length. rewrite map_nth, seq_nth by exact H. reflexivity. Qed.
Lemma nth_map_seq_over {A} (f : nat -> A) n i d : (n <= i)%nat -> nth i (map f (seq 0 n)) d = d.
Proof. intros H. apply nth_overflow. now rewrite map_length, seq_length. Qed.
Lemma nth_map_seq_from {A} (f : nat -> A) s n i d : (i < n)%nat -> nth i (map f (seq s n)) d = f (s + i)%nat.
Proof. intros H. rewrite (nth_indep _ d (f 0%nat)) by now rewrite map_length, seq_length. rewrite map_nth, seq_nth by exact H. reflexivity. Qed.
Lemma nth_repeat_d {A} (x : A) n i : nth i (repeat x n) x = x.
Proof. revert i. induction n as [|n IH]; intros [|i]; cbn [repeat nth]; auto. Qed.
Lemma nth_skipn {A} (l : list A) n i d : nth i (skipn n l) d = nth (n + i) l d.
Proof. revert l. induction n as [|n IH]; intros [|x l]; cbn [skipn Nat.add nth]; auto. now destruct i. Qed.

Lemma nth_firstn_if {A} (l : list A) n i d : nth i (firstn n l) d = if (i <? n)%nat then nth i l d else d.
Proof. destruct (Nat.ltb_spec i n); [now apply nth_firstn_lt|]. apply nth_overflow. rewrite firstn_length. lia. Qed.
Lemma nth_pad_if {A} (l : list A) n i d : nth i (repeat d n ++ skipn n l) d = if (i <? n)%nat then d else nth i l d.
Proof.
  destruct (Nat.ltb_spec i n); [rewrite app_nth1 by (rewrite repeat_length; lia); apply nth_repeat_d|]. rewrite app_nth2 by (rewrite repeat_length; lia). rewrite repeat_length, nth_skipn. f_equal. lia.
Qed.
Lemma nth_app_zero {A} (l : list A) n i d : nth i (l ++ repeat d n) d = nth i l d.
Proof. destruct (Nat.lt_ge_cases i (length l)) as [C|C]; [now rewrite app_nth1 by exact C|]. rewrite app_nth2 by exact C. rewrite nth_repeat_d. symmetry. apply nth_overflow. exact C. Qed.

Section Sums.
Context {K : fieldOps} (HK : field_laws K) {M : modOps K} (HM : mod_laws M).
Add Field Kf : (proj1 HK).
Implicit Types (f : nat -> K) (G : list M).
Lemma ksum_ext n f (g : nat -> K) : (forall i, (i < n)%nat -> f i = g i) -> ksum n f = ksum n g.
Proof. induction n as [|n IH]; intros H; cbn [ksum]; [reflexivity|]. rewrite IH by (intros; apply H; lia). now rewrite H by lia. Qed.
Lemma gl_ext G n f (g : nat -> K) : (forall i, (i < n)%nat -> f i = g i) -> gl G n f = gl G n g.
Proof. induction n as [|n IH]; intros H; cbn [gl]; [reflexivity|]. rewrite IH by (intros; apply H; lia). now rewrite H by lia. Qed.
Lemma gl_add G n f (g : nat -> K) : madd (gl G n f) (gl G n g) = gl G n (fun i => fadd (f i) (g i)).
Proof. induction n as [|n IH]; cbn [gl]; [module_coefs HK HM; ring|]. rewrite <- IH. module_coefs HK HM; ring. Qed.
Lemma gl_smul G n c f : smul c (gl G n f) = gl G n (fun i => fmul c (f i)).
Proof. induction n as [|n IH]; cbn [gl]; [module_coefs HK HM; ring|]. rewrite <- IH. module_coefs HK HM; ring. Qed.
Lemma gl_zero G n f : (forall i, (i < n)%nat -> f i = f0) -> gl G n f = m0.
Proof. induction n as [|n IH]; intros H; cbn [gl]; [reflexivity|]. rewrite IH by (intros; apply H; lia). rewrite H by lia. module_coefs HK HM; ring. Qed.
Lemma gl_split G n m f : (n <= m)%nat -> (forall i, (n <= i < m)%nat -> f i = f0) -> gl G m f = gl G n f.
Proof. induction m as [|m IH]; intros H Z; [now replace n with 0%nat by lia|]. destruct (Nat.eq_dec n (S m)) as [->|]; [reflexivity|]. cbn [gl]. rewrite IH by (try lia; intros; apply Z; lia). rewrite Z by lia. module_coefs HK HM; ring. Qed.
Lemma gl_cons g G n f : gl (g :: G) (S n) f = madd (smul (f 0%nat) g) (gl G n (fun i => f (S i))).
Proof. induction n as [|n IH]; [cbn [gl nth]; module_coefs HK HM; ring|]. change (gl (g :: G) (S (S n)) f) with (madd (gl (g :: G) (S n) f) (smul (f (S n)) (nth n G m0))). rewrite IH. cbn [gl]. module_coefs HK HM; ring. Qed.
Lemma ksum_shift n f : ksum (S n) f = fadd (f 0%nat) (ksum n (fun i => f (S i))).
Proof. induction n as [|n IH]; [cbn [ksum]; ring|]. change (ksum (S (S n)) f) with (fadd (ksum (S n) f) (f (S n))). rewrite IH. cbn [ksum]. ring. Qed.
Lemma lin_gl_len : forall (G : list M) s, (length s <= length G)%nat -> lin G s = gl G (length s) (fun i => nth i s f0).
Proof.
  induction G as [|g G IH]; intros [|x s] H; cbn in H; try lia; try reflexivity. rewrite lin_cons, IH by lia. cbn [length]. rewrite gl_cons. reflexivity.
Qed.
Lemma lin_gl (G : list M) s n : (length s <= length G)%nat -> (length s <= n)%nat -> lin G s = gl G n (fun i => nth i s f0).
Proof. intros H1 H2. rewrite lin_gl_len by exact H1. symmetry. apply gl_split; [exact H2|]. intros i Hi. apply nth_overflow. lia. Qed.
Lemma lin_firstn n : forall (G : list M) s, (length s <= n)%nat -> lin (firstn n G) s = lin G s.
Proof.
  induction n as [|n IH]; intros G s H; [destruct s; [now rewrite !lin_nil_r|cbn in H; lia]|]. destruct G as [|g G], s as [|x s]; try reflexivity. cbn [firstn]. rewrite !lin_cons, IH by (cbn in H; lia). reflexivity.
Qed.
Lemma lin_skipn n : forall (G : list M) s, (n <= length G)%nat -> lin (skipn n G) s = lin G (repeat f0 n ++ s).
Proof. induction n as [|n IH]; intros G s H; [reflexivity|]. destruct G as [|g G]; [cbn in H; lia|]. cbn [skipn repeat app]. rewrite lin_cons, IH by (cbn in H; lia). module_coefs HK HM; ring. Qed.
Lemma inner_ksum_len : forall a b : list K, length a = length b -> inner a b = ksum (length a) (fun i => fmul (nth i a f0) (nth i b f0)).
Proof. induction a as [|x a IH]; intros [|y b] H; try discriminate; [reflexivity|]. rewrite (inner_cons HK), IH by (cbn in H; lia). cbn [length]. now rewrite ksum_shift. Qed.
Lemma inner_ksum (a b : list K) n : length a = n -> length b = n -> inner a b = ksum n (fun i => fmul (nth i a f0) (nth i b f0)).
Proof. intros <- H. apply inner_ksum_len. congruence. Qed.
Lemma ksum_split n m f : (n <= m)%nat -> (forall i, (n <= i < m)%nat -> f i = f0) -> ksum m f = ksum n f.
Proof. induction m as [|m IH]; intros H Z; [now replace n with 0%nat by lia|]. destruct (Nat.eq_dec n (S m)) as [->|]; [reflexivity|]. cbn [ksum]. rewrite IH by (try lia; intros; apply Z; lia). rewrite Z by lia. ring. Qed.
Lemma gl_firstn G n m f : (n <= m)%nat -> gl (firstn m G) n f = gl G n f.
Proof. induction n as [|n IH]; intros H; cbn [gl]; [reflexivity|]. rewrite IH by lia. now rewrite nth_firstn_lt by lia. Qed.

Lemma lin_commitments (g h : M) : forall ws v bl, length v = length ws -> length bl = length ws ->
  lin (map (fun t => commit_elem g h (fst t) (snd t)) (combine v bl)) ws = madd (smul (inner ws v) g) (smul (inner ws bl) h).
Proof.
  induction ws as [|c ws IH]; intros [|x v] [|b bl] E1 E2; try discriminate; cbn [combine map fst snd]; [rewrite lin_nil_r, (inner_nil (K := K)); module_coefs HK HM; ring|].
  rewrite lin_cons, !(inner_cons HK), IH by (cbn in *; congruence). unfold commit_elem. module_coefs HK HM; ring.
Qed.
Lemma lin_scale_r (c : K) (bs : list M) ss : lin bs (map (fun x => fmul x c) ss) = smul c (lin bs ss).
Proof. rewrite <- (lin_scale HK HM). f_equal. apply map_ext. intros x. ring. Qed.

(** ** polynomials *)
Lemma product_poly n (l1 l2 l3 r0 r1 r3 : nat -> K) x :
  ksum n (fun i => fmul (fadd f0 (fmul x (fadd (l1 i) (fmul x (fadd (l2 i) (fmul x (l3 i))))))) (fadd (r0 i) (fmul x (fadd (r1 i) (fmul x (fadd f0 (fmul x (r3 i))))))))
  = poly6_eval (mkP6 (ksum n (fun i => fmul (l1 i) (r0 i)))
      (fadd (ksum n (fun i => fmul (l1 i) (r1 i))) (ksum n (fun i => fmul (l2 i) (r0 i))))
      (fadd (ksum n (fun i => fmul (l2 i) (r1 i))) (ksum n (fun i => fmul (l3 i) (r0 i))))
      (fadd (ksum n (fun i => fmul (l1 i) (r3 i))) (ksum n (fun i => fmul (l3 i) (r1 i))))
      (ksum n (fun i => fmul (l2 i) (r3 i)))
      (ksum n (fun i => fmul (l3 i) (r3 i)))) x.
Proof. unfold poly6_eval. cbn [p6_1 p6_2 p6_3 p6_4 p6_5 p6_6]. induction n as [|n IH]; cbn [ksum]; [ring|]. rewrite IH. ring. Qed.
Lemma fpow_inv (y : K) i : y <> f0 -> fmul (fpow (finv y) i) (fpow y i) = f1.
Proof. intros N. induction i as [|i IH]; cbn [fpow]; [ring|]. transitivity (fmul (fmul (finv y) y) (fmul (fpow (finv y) i) (fpow y i))); [ring|]. rewrite IH. field. exact N. Qed.
(** the coefficient of x^2 *)
Lemma t2_eq n (aL aR aO wL wR wO yi yy : nat -> K) : (forall i, (i < n)%nat -> aO i = fmul (aL i) (aR i)) -> (forall i, (i < n)%nat -> fmul (yi i) (yy i) = f1) ->
  fadd (ksum n (fun i => fmul (fadd (aL i) (fmul (yi i) (wR i))) (fadd (fmul (yy i) (aR i)) (wL i)))) (ksum n (fun i => fmul (aO i) (fsub (wO i) (yy i))))
  = fadd (fadd (ksum n (fun i => fmul (aL i) (wL i))) (fadd (ksum n (fun i => fmul (aR i) (wR i))) (ksum n (fun i => fmul (aO i) (wO i))))) (ksum n (fun i => fmul (fmul (wR i) (yi i)) (wL i))).
Proof.
  induction n as [|n IH]; intros H1 H2; cbn [ksum]; [ring|].
  transitivity (fadd (fadd (ksum n (fun i => fmul (fadd (aL i) (fmul (yi i) (wR i))) (fadd (fmul (yy i) (aR i)) (wL i)))) (ksum n (fun i => fmul (aO i) (fsub (wO i) (yy i)))))
    (fadd (fmul (fadd (aL n) (fmul (yi n) (wR n))) (fadd (fmul (yy n) (aR n)) (wL n))) (fmul (aO n) (fsub (wO n) (yy n))))); [ring|].
  rewrite IH by (intros; (apply H1 || apply H2); lia). rewrite (H1 n) by lia.
  transitivity (fadd (fadd (fadd (ksum n (fun i => fmul (aL i) (wL i))) (fadd (ksum n (fun i => fmul (aR i) (wR i))) (ksum n (fun i => fmul (aO i) (wO i))))) (ksum n (fun i => fmul (fmul (wR i) (yi i)) (wL i))))
    (fadd (fmul (aL n) (wL n)) (fadd (fmul (fmul (yi n) (yy n)) (fmul (wR n) (aR n))) (fadd (fmul (fmul (wR n) (yi n)) (wL n)) (fmul (fmul (aL n) (aR n)) (wO n)))))); [ring|].
  rewrite (H2 n) by lia. ring.
Qed.

(** ** flattened constraints *)
(** the weighted sum the flattened constraints stand for *)
Definition wsum (s : pstate K) (w : @weights K) : K :=
  fsub (fsub (fadd (inner (w_L w) (p_aL s)) (fadd (inner (w_R w) (p_aR s)) (inner (w_O w) (p_aO s)))) (inner (w_V w) (p_v s))) (w_c w).
Definition wlens (n m : nat) (w : @weights K) : Prop := length (w_L w) = n /\ length (w_R w) = n /\ length (w_O w) = n /\ length (w_V w) = m.
(** the variable exists *)
Definition in_range (n m : nat) (v : var) : Prop := match v with MulL i | MulR i | MulO i => (i < n)%nat | Committed i => (i < m)%nat | VOne => True end.
Lemma set_at_inner : forall (l : list K) i x a, (i < length l)%nat -> length a = length l -> exists l', set_at i x l = Ok l' /\ length l' = length l /\ inner l' a = fadd (inner l a) (fmul (fsub x (nth i l f0)) (nth i a f0)).
Proof.
  induction l as [|y l IH]; intros i x a Hi La; [cbn in Hi; lia|]. destruct a as [|b a]; [discriminate|]. destruct i as [|i]; cbn [set_at nth].
  - eexists; split; [reflexivity|]. split; [reflexivity|]. rewrite !(inner_cons HK). ring.
  - destruct (IH i x a) as (l' & E & L & I); [cbn in Hi; lia|cbn in La; lia|]. rewrite E. cbn [rbind]. eexists; split; [reflexivity|]. split; [cbn [length]; lia|]. rewrite !(inner_cons HK), I. ring.
Qed.
Lemma add_at_inner (l : list K) i x a : (i < length l)%nat -> length a = length l -> exists l', add_at i x l = Ok l' /\ length l' = length l /\ inner l' a = fadd (inner l a) (fmul x (nth i a f0)).
Proof.
  intros Hi La. unfold add_at, idx. rewrite (nth_error_nth' l f0) by exact Hi. cbn [rbind]. destruct (set_at_inner l i (fadd (nth i l f0) x) a Hi La) as (l' & E & L & I).
  exists l'. split; [exact E|]. split; [exact L|]. rewrite I. ring.
Qed.
Lemma sub_at_inner (l : list K) i x a : (i < length l)%nat -> length a = length l -> exists l', sub_at i x l = Ok l' /\ length l' = length l /\ inner l' a = fsub (inner l a) (fmul x (nth i a f0)).
Proof.
  intros Hi La. unfold sub_at, idx. rewrite (nth_error_nth' l f0) by exact Hi. cbn [rbind]. destruct (set_at_inner l i (fsub (nth i l f0) x) a Hi La) as (l' & E & L & I).
  exists l'. split; [exact E|]. split; [exact L|]. rewrite I. ring.
Qed.
Context (s : pstate K).
Notation n := (length (p_aL s)). Notation m := (length (p_v s)).
Hypothesis LR : length (p_aR s) = n. Hypothesis LO : length (p_aO s) = n.
Lemma flatten_term_spec e w v c : wlens n m w -> in_range n m v ->
  exists w', v_flatten_term e w (v, c) = Ok w' /\ wlens n m w' /\ wsum s w' = fadd (wsum s w) (fmul e (fmul c (pw s v))).
Proof.
  intros (L1 & L2 & L3 & L4) R. unfold wsum. destruct v as [i|i|i|i|]; cbn [v_flatten_term in_range pw] in *.
  - destruct (sub_at_inner (w_V w) i (fmul e c) (p_v s)) as (l & -> & L & I); [lia..|]. cbn [rbind]. eexists; split; [reflexivity|]. split; [repeat split; cbn [w_L w_R w_O w_V]; congruence|]. cbn [w_L w_R w_O w_V w_c]. rewrite I. ring.
  - destruct (add_at_inner (w_L w) i (fmul e c) (p_aL s)) as (l & -> & L & I); [lia..|]. cbn [rbind]. eexists; split; [reflexivity|]. split; [repeat split; cbn [w_L w_R w_O w_V]; congruence|]. cbn [w_L w_R w_O w_V w_c]. rewrite I. ring.
  - destruct (add_at_inner (w_R w) i (fmul e c) (p_aR s)) as (l & -> & L & I); [lia..|]. cbn [rbind]. eexists; split; [reflexivity|]. split; [repeat split; cbn [w_L w_R w_O w_V]; congruence|]. cbn [w_L w_R w_O w_V w_c]. rewrite I. ring.
  - destruct (add_at_inner (w_O w) i (fmul e c) (p_aO s)) as (l & -> & L & I); [lia..|]. cbn [rbind]. eexists; split; [reflexivity|]. split; [repeat split; cbn [w_L w_R w_O w_V]; congruence|]. cbn [w_L w_R w_O w_V w_c]. rewrite I. ring.
  - eexists; split; [reflexivity|]. split; [repeat split; assumption|]. cbn [w_L w_R w_O w_V w_c]. ring.
Qed.
Lemma flatten_lc_spec e (l : lc K) : forall w, wlens n m w -> (forall v c, In (v, c) l -> in_range n m v) ->
  exists w', rfold (v_flatten_term e) l w = Ok w' /\ wlens n m w' /\ wsum s w' = fadd (wsum s w) (fmul e (lc_value (pw s) l)).
Proof.
  induction l as [|[v c] l IH]; intros w Lw R; cbn [rfold]; [exists w; split; [reflexivity|]; split; [exact Lw|]; rewrite lv_nil; ring|].
  destruct (flatten_term_spec e w v c Lw) as (w1 & E1 & L1 & S1); [apply (R v c); now left|]. rewrite E1. cbn [rbind].
  destruct (IH w1 L1) as (w2 & E2 & L2 & S2); [intros; apply (R v0 c0); now right|]. exists w2. split; [exact E2|]. split; [exact L2|]. rewrite S2, S1, lv_cons. ring.
Qed.
Lemma flatten_fold_spec z (cons : list (lc K)) : forall w e, wlens n m w -> (forall l v c, In l cons -> In (v, c) l -> in_range n m v) -> (forall l, In l cons -> lc_value (pw s) l = f0) ->
  exists w' e', rfold (fun st lc => let! w := rfold (v_flatten_term (snd st)) lc (fst st) in Ok (w, fmul (snd st) z)) cons (w, e) = Ok (w', e') /\ wlens n m w' /\ wsum s w' = wsum s w.
Proof.
  induction cons as [|l cons IH]; intros w e Lw R Z; cbn [rfold fst snd]; [eauto|].
  destruct (flatten_lc_spec e l w Lw) as (w1 & E1 & L1 & S1); [intros v c; apply R; now left|]. rewrite E1. cbn [rbind].
  destruct (IH w1 (fmul e z) L1) as (w2 & e2 & E2 & L2 & S2); [intros l' v c I; apply R; now right|intros; apply Z; now right|].
  exists w2, e2. split; [exact E2|]. split; [exact L2|]. rewrite S2, S1, Z by now left. ring.
Qed.
Lemma inner_repeat0 (a : list K) : forall k, inner (repeat f0 k) a = f0.
Proof. induction a as [|x a IH]; intros [|k]; try reflexivity. cbn [repeat]. rewrite (inner_cons HK), IH. ring. Qed.
(** for a satisfied system the weighted sum vanishes *)
Lemma flatten_spec z cons : (forall l v c, In l cons -> In (v, c) l -> in_range n m v) -> (forall l, In l cons -> lc_value (pw s) l = f0) ->
  exists w, flatten v_flatten_term z n m cons = Ok w /\ wlens n m w /\ wsum s w = f0.
Proof.
  intros R Z. unfold flatten. destruct (flatten_fold_spec z cons (mkW (repeat f0 n) (repeat f0 n) (repeat f0 n) (repeat f0 m) f0) z) as (w & e & E & L & S); [|exact R|exact Z|].
  - repeat split; apply repeat_length.
  - rewrite E. cbn [rbind]. exists w. split; [reflexivity|]. split; [exact L|]. rewrite S. unfold wsum. cbn [w_L w_R w_O w_V w_c]. rewrite !inner_repeat0. ring.
Qed.
(** the prover's weights are the verifier's without the constant *)
Lemma flatten_agree z k l (cons : list (lc K)) w : flatten v_flatten_term z k l cons = Ok w -> flatten p_flatten_term z k l cons = Ok (mkW (w_L w) (w_R w) (w_O w) (w_V w) f0).
Proof.
  clear. unfold flatten.
  assert (forall e (l : lc K) (w w' : @weights K), rfold (v_flatten_term e) l w = Ok w' -> rfold (p_flatten_term e) l (mkW (w_L w) (w_R w) (w_O w) (w_V w) f0) = Ok (mkW (w_L w') (w_R w') (w_O w') (w_V w') f0)) as A.
  { clear. intros e l. induction l as [|[v c] l IH]; intros w w'; cbn [rfold]; [intros [= ->]; reflexivity|].
    destruct (v_flatten_term e w (v, c)) as [w1|] eqn:E; cbn [rbind]; [|discriminate]. intros E'. apply IH in E'.
    assert (p_flatten_term e (mkW (w_L w) (w_R w) (w_O w) (w_V w) f0) (v, c) = Ok (mkW (w_L w1) (w_R w1) (w_O w1) (w_V w1) f0)) as ->; [|exact E'].
    destruct v as [i|i|i|i|]; cbn [v_flatten_term p_flatten_term w_L w_R w_O w_V w_c] in *; try (destruct (add_at i (fmul e c) _); [|discriminate]); try (destruct (sub_at i (fmul e c) _); [|discriminate]); cbn [rbind] in *; injection E as <-; reflexivity. }
  assert (forall cons (w w' : @weights K) e e', rfold (fun st lc => let! w := rfold (v_flatten_term (snd st)) lc (fst st) in Ok (w, fmul (snd st) z)) cons (w, e) = Ok (w', e') ->
    rfold (fun st lc => let! w := rfold (p_flatten_term (snd st)) lc (fst st) in Ok (w, fmul (snd st) z)) cons (mkW (w_L w) (w_R w) (w_O w) (w_V w) f0, e) = Ok (mkW (w_L w') (w_R w') (w_O w') (w_V w') f0, e')) as B.
  { clear - A. induction cons as [|l cons IH]; intros w w' e e'; cbn [rfold fst snd]; [intros [= -> ->]; reflexivity|].
    destruct (rfold (v_flatten_term e) l w) as [w1|] eqn:E; cbn [rbind]; [|discriminate]. apply A in E. rewrite E. cbn [rbind]. apply IH. }
  match goal with |- rbind ?r _ = _ -> _ => destruct r as [[w' e']|] eqn:E end; cbn [rbind]; [|discriminate]. intros [= <-]. apply B in E. cbn [w_L w_R w_O w_V w_c] in E. rewrite E. reflexivity.
Qed.
End Sums.

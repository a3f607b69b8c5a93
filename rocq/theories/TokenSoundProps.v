(** C108: two accepted answers to one commitment yield a valid chain
    (libzmix/src/signatures/delg_cred_cdd/attribute_token.rs). *)
From Verif Require Import Base BnModel Alg Lin ClRevModel ClRevSpec BbsModel BbsLib BbsProps PsModel PsLib GrothModel DelegModel GrothSpec GrothLib DelegLib TokenModel TokenSpec TokenLib TokenRecon.
Import List ListNotations.
Open Scope list_scope.
Open Scope Z_scope.

Lemma nth_error_map_seq {A} (f : nat -> A) n k x : nth_error (map f (seq 0 n)) k = Some x -> (k < n)%nat /\ x = f k.
Proof.
  intros E. assert (k < length (map f (seq 0 n)))%nat as H by (apply nth_error_Some; congruence). rewrite map_length, seq_length in H.
  split; [exact H|]. rewrite (map_nth_error f k (seq 0 n) (d := k)) in E; [congruence|]. rewrite (nth_error_nth' _ 0%nat) by (rewrite seq_length; lia). now rewrite seq_nth.
Qed.
Lemma lookup_nth {A} (l : list A) n f : length l = n -> (forall k, (k < n)%nat -> forall d, nth k l d = f k) -> l = map f (seq 0 n).
Proof.
  intros L H. destruct l as [|a l']; [subst n; reflexivity|]. apply nth_ext with (d := a) (d' := a); [now rewrite map_length, seq_length|].
  intros k Hk. rewrite nth_map_seq_g by lia. apply H. lia.
Qed.
Lemma rmap_nth {A B} (f : A -> res B) l r k d d' : rmap f l = Ok r -> (k < length l)%nat -> f (nth k l d) = Ok (nth k r d').
Proof.
  revert r k. induction l as [|a l IH]; intros r k E H; cbn [rmap length] in *; [lia|].
  apply rbind_ok in E as (y & E1 & E). apply rbind_ok in E as (ys & E2 & E). assert (r = y :: ys) as -> by congruence.
  destruct k as [|k]; cbn [nth]; [exact E1|]. apply IH; [exact E2|lia].
Qed.

Section Sound.
Variable C : curve.
Hypothesis LW : curve_laws C.
Notation K := (cK C). Notation G1 := (cG1 C). Notation G2 := (cG2 C). Notation GT := (cGT C).
Let HK := cl_field C LW.
Let H1 := cl_g1 C LW.
Let H2 := cl_g2 C LW.
Let HT := cl_gt C LW.
Variables (L : nat) (cm : comm C) (revealed : list (list nat)) (ipk : G2) (p1 : params1 C) (p2 : params2 C).
Hypothesis N1 : params1_ok p1.
Hypothesis N2 : params2_ok p2.
(** an accepted answer: every level's values are those of the commitment *)
Lemma accepted_levels r ch : reconstruct_commitment L cm r ch revealed ipk p1 p2 = Ok cm ->
  comm_lengths C cm L /\
  (forall k, (2 * k + 1 <= L)%nat -> (0 < on C cm k <= length (p1_y p1))%nat /\ nth (2 * k) (c_s cm) m0 = oS C cm r ch ipk p1 k /\ nth (2 * k) (c_t cm) [] = oT C L cm r ch revealed ipk p1 k /\
     (forall j, (j < on C cm k - 1)%nat -> mem j (nth (2 * k) revealed []) = true -> exists a, lookup (nth k (c_odd_rev cm) []) j = Ok a)) /\
  (forall k, (2 * k + 2 <= L)%nat -> (0 < en C cm k <= length (p2_y p2))%nat /\ nth (2 * k + 1) (c_s cm) m0 = eS C cm r ch p2 k /\ nth (2 * k + 1) (c_t cm) [] = eT C L cm r ch revealed p2 k /\
     (forall j, (j < en C cm k - 1)%nat -> mem j (nth (2 * k + 1) revealed []) = true -> exists a, lookup (nth k (c_even_rev cm) []) j = Ok a)).
Proof.
  intros E. rewrite reconstruct_eq in E by assumption. apply rbind_ok in E as ([] & EC & E). apply rbind_ok in E as ([] & _ & E). apply rbind_ok in E as (levels & ER & E).
  apply comm_validate_iff in EC. split; [exact EC|].
  assert (c_s cm = map fst levels) as ES by (assert (assemble C cm levels = cm) as Q by congruence; rewrite <- Q at 1; reflexivity).
  assert (c_t cm = map snd levels) as ET by (assert (assemble C cm levels = cm) as Q by congruence; rewrite <- Q at 1; reflexivity).
  clear E. pose proof (rmap_length _ _ _ ER) as LL. rewrite seq_length in LL.
  split; intros k Hk.
  - pose proof (rmap_nth _ _ _ (2 * k) 0%nat (m0, []) ER ltac:(rewrite seq_length; lia)) as Q. rewrite seq_nth in Q by lia. replace (1 + 2 * k)%nat with (2 * k + 1)%nat in Q by lia.
    assert (0 < on C cm k)%nat as P.
    { apply rstep_odd_length in Q. assert (on C cm k = length (snd (nth (2 * k) levels (m0, [])))) as F by (unfold on; rewrite ET; change (@nil (mcar (cGT C))) with (snd ((m0, []) : GT * list GT)) at 1; now rewrite map_nth).
      lia. }
    apply (rstep_odd_inv C LW) in Q as (Q & A & _ & B); [|exact P]. split; [lia|]. split; [|split; [|exact B]].
    + rewrite ES. change (m0 : GT) with (fst ((m0, []) : GT * list GT)) at 1. rewrite map_nth, Q. reflexivity.
    + rewrite ET. change (@nil (mcar (cGT C))) with (snd ((m0, []) : GT * list GT)) at 1. rewrite map_nth, Q. reflexivity.
  - pose proof (rmap_nth _ _ _ (2 * k + 1) 0%nat (m0, []) ER ltac:(rewrite seq_length; lia)) as Q. rewrite seq_nth in Q by lia. replace (1 + (2 * k + 1))%nat with (2 * k + 2)%nat in Q by lia.
    assert (0 < en C cm k)%nat as P.
    { apply rstep_even_length in Q. assert (en C cm k = length (snd (nth (2 * k + 1) levels (m0, [])))) as F by (unfold en; rewrite ET; change (@nil (mcar (cGT C))) with (snd ((m0, []) : GT * list GT)) at 1; now rewrite map_nth).
      lia. }
    apply (rstep_even_inv C LW) in Q as (Q & A & _ & B); [|exact P]. split; [lia|]. split; [|split; [|exact B]].
    + rewrite ES. change (m0 : GT) with (fst ((m0, []) : GT * list GT)) at 1. rewrite map_nth, Q. reflexivity.
    + rewrite ET. change (@nil (mcar (cGT C))) with (snd ((m0, []) : GT * list GT)) at 1. rewrite map_nth, Q. reflexivity.
Qed.

Variables (r r' : resp C) (ch ch' : K).
Hypothesis NC : ch <> ch'.
Let d := fsub ch ch'.
Definition xA1 (k j : nat) : G1 := quot d (oz C L cm r ch revealed p1 k j) (oz C L cm r' ch' revealed p1 k j).
Definition xA2 (k j : nat) : G2 := quot d (ez C L cm r ch revealed p2 k j) (ez C L cm r' ch' revealed p2 k j).
Definition xlink1 (k : nat) : link1 C := mkLink1 (2 * Z.of_nat k + 1) (map (xA1 k) (seq 0 (on C cm k)))
  (mkSig1 (nth k (c_odd_r cm) m0) (quot d (nth k (r_odd_s r) m0) (nth k (r_odd_s r') m0))
     (map (fun j => quot d (nth j (nth k (r_odd_t r) []) m0) (nth j (nth k (r_odd_t r') []) m0)) (seq 0 (on C cm k)))).
Definition xlink2 (k : nat) : link2 C := mkLink2 (2 * Z.of_nat k + 2) (map (xA2 k) (seq 0 (en C cm k)))
  (mkSig2 (nth k (c_even_r cm) m0) (quot d (nth k (r_even_s r) m0) (nth k (r_even_s r') m0))
     (map (fun j => quot d (nth j (nth k (r_even_t r) []) m0) (nth j (nth k (r_even_t r') []) m0)) (seq 0 (en C cm k)))).
Definition xchain : chain C := mkChain (map xlink1 (seq 0 ((L + 1) / 2))) (map xlink2 (seq 0 (L / 2))).
Definition xod : list G1 := map (fun k => quot d (ovk C L r p1 k) (ovk C L r' p1 k)) (seq 0 ((L + 1) / 2)).
Definition xev : list G2 := map (fun k => quot d (evk C L r p2 k) (evk C L r' p2 k)) (seq 0 (L / 2)).
Definition xcsk : K := fmul (finv d) (fsub (r_csk r) (r_csk r')).

Hypothesis A : reconstruct_commitment L cm r ch revealed ipk p1 p2 = Ok cm.
Hypothesis A' : reconstruct_commitment L cm r' ch' revealed ipk p1 p2 = Ok cm.
Hypothesis HL : (1 <= L)%nat.
Lemma odd_bound k : (k < (L + 1) / 2)%nat <-> (2 * k + 1 <= L)%nat.
Proof. rewrite half_up. pose proof (Nat.div_mod L 2 ltac:(lia)). pose proof (Nat.mod_upper_bound L 2 ltac:(lia)). destruct (Nat.eqb_spec (L mod 2) 1); lia. Qed.
Lemma even_bound k : (k < L / 2)%nat <-> (2 * k + 2 <= L)%nat.
Proof. pose proof (Nat.div_mod L 2 ltac:(lia)). pose proof (Nat.mod_upper_bound L 2 ltac:(lia)). lia. Qed.
Lemma attrs_last {M : modOps K} (f : nat -> M) n : (0 < n)%nat -> map f (seq 0 n) = map f (seq 0 (n - 1)) ++ [f (n - 1)%nat].
Proof. intros H. rewrite (seq_last n H) at 1. now rewrite map_app. Qed.
Lemma xlink1_valid k : (2 * k + 1 <= L)%nat -> valid_odd p1 (xlink1 k) (2 * Z.of_nat k + 1) (nth k xod m0) (nth k (ipk :: xev) m0).
Proof.
  intros Hk. destruct (accepted_levels r ch A) as (_ & O & _). destruct (O k Hk) as ((P1 & P2) & ES & ET & _). clear O.
  destruct (accepted_levels r' ch' A') as (_ & O & _). destruct (O k Hk) as (_ & ES' & ET' & _). clear O.
  split; [reflexivity|]. split.
  - exists (map (xA1 k) (seq 0 (on C cm k - 1))). cbn [xlink1 l1_attrs]. rewrite attrs_last by exact P1. do 2 f_equal.
    unfold xod. rewrite nth_map_seq_g by (apply odd_bound; exact Hk). unfold xA1, oz, zv. now rewrite Nat.ltb_irrefl.
  - assert (quot d (opv C r ch ipk k) (opv C r' ch' ipk k) = nth k (ipk :: xev) m0) as EV.
    { unfold opv. destruct k as [|k]; cbn [Nat.eqb nth]; [apply (quot_self HK H2); exact NC|]. replace (S k - 1)%nat with k by lia.
      unfold xev. rewrite nth_map_seq_g by (apply even_bound; lia). unfold evk. assert ((2 * k + 2 =? L)%nat = false) as -> by (apply Nat.eqb_neq; lia). reflexivity. }
    unfold valid1, xlink1. cbn [l1_attrs l1_sig s1_R s1_S s1_T]. rewrite <- EV. split.
    + rewrite map_length, seq_length. exact P2.
    + rewrite !map_length. lia.
    + apply (vs_extract HK H1 H2 HT pair (bil1 C LW)); [exact NC|]. fold (oS C cm r ch ipk p1 k). fold (oS C cm r' ch' ipk p1 k). congruence.
    + rewrite map_length, seq_length. intros j Hj. rewrite !nth_map_seq_g by exact Hj.
      apply (vt_extract HK H1 H2 HT pair (bil1 C LW)); [exact NC|]. rewrite ET in ET'. unfold oT in ET'.
      apply (f_equal (fun l => nth j l m0)) in ET'. rewrite !nth_map_seq_g in ET' by exact Hj. exact ET'.
Qed.
Lemma xlink2_valid k : (2 * k + 2 <= L)%nat -> valid_even p2 (xlink2 k) (2 * Z.of_nat k + 2) (nth (S k) (ipk :: xev) m0) (nth k xod m0).
Proof.
  intros Hk. destruct (accepted_levels r ch A) as (_ & _ & O). destruct (O k Hk) as ((P1 & P2) & ES & ET & _). clear O.
  destruct (accepted_levels r' ch' A') as (_ & _ & O). destruct (O k Hk) as (_ & ES' & ET' & _). clear O.
  split; [reflexivity|]. split.
  - exists (map (xA2 k) (seq 0 (en C cm k - 1))). cbn [xlink2 l2_attrs nth]. rewrite attrs_last by exact P1. do 2 f_equal.
    unfold xev. rewrite nth_map_seq_g by (apply even_bound; exact Hk). unfold xA2, ez, zv. now rewrite Nat.ltb_irrefl.
  - assert (quot d (nth k (r_odd_vk r) m0) (nth k (r_odd_vk r') m0) = nth k xod m0) as EV.
    { unfold xod. rewrite nth_map_seq_g by (apply odd_bound; lia). unfold ovk. assert ((2 * k + 1 =? L)%nat = false) as -> by (apply Nat.eqb_neq; lia). reflexivity. }
    unfold valid2, xlink2. cbn [l2_attrs l2_sig s2_R s2_S s2_T]. rewrite <- EV. split.
    + rewrite map_length, seq_length. exact P2.
    + rewrite !map_length. lia.
    + apply (vs_extract HK H2 H1 HT (fun m w => pair w m) (bil2 C LW)); [exact NC|]. fold (eS C cm r ch p2 k). fold (eS C cm r' ch' p2 k). congruence.
    + rewrite map_length, seq_length. intros j Hj. rewrite !nth_map_seq_g by exact Hj.
      apply (vt_extract HK H2 H1 HT (fun m w => pair w m) (bil2 C LW)); [exact NC|]. rewrite ET in ET'. unfold eT in ET'.
      apply (f_equal (fun l => nth j l m0)) in ET'. rewrite !nth_map_seq_g in ET' by exact Hj. exact ET'.
Qed.
Lemma xchain_size : chain_size xchain = L.
Proof. unfold chain_size, xchain. cbn [ch_odd ch_even]. rewrite !map_length, !seq_length. apply halves. Qed.
Lemma xchain_valid : valid_chain p1 p2 xchain (ipk :: xev) xod.
Proof.
  assert (1 <= (L + 1) / 2)%nat as P by (apply odd_bound; lia).
  split; cbn [xchain ch_odd ch_even].
  - intros Q. apply (f_equal (@length _)) in Q. rewrite map_length, seq_length in Q. cbn [length] in Q. lia.
  - unfold balanced, xchain. cbn [ch_odd ch_even]. rewrite !map_length, !seq_length. pose proof (halves L). pose proof (Nat.div_mod L 2 ltac:(lia)). pose proof (Nat.mod_upper_bound L 2 ltac:(lia)). lia.
  - cbn [length]. unfold xev. now rewrite !map_length.
  - unfold xod. now rewrite !map_length.
  - intros k l E. apply nth_error_map_seq in E as (Hk & ->). apply xlink1_valid. now apply odd_bound.
  - intros k l E. apply nth_error_map_seq in E as (Hk & ->). apply xlink2_valid. now apply even_bound.
Qed.
Lemma xchain_holds : holds p1 p2 L (ipk :: xev) xod xcsk.
Proof.
  unfold holds. destruct (odd_cases L) as [ (-> & m & E & E2) | (-> & m & E & E2) ]; rewrite E2.
  - unfold xod. rewrite nth_map_seq_g by (apply odd_bound; lia). unfold ovk. assert ((2 * m + 1 =? L)%nat = true) as -> by (apply Nat.eqb_eq; lia). apply (quot_gen HK H1).
  - destruct m as [|m]; [lia|]. cbn [nth]. unfold xev. rewrite nth_map_seq_g by (apply even_bound; lia). unfold evk.
    assert ((2 * m + 2 =? L)%nat = true) as -> by (apply Nat.eqb_eq; lia). apply (quot_gen HK H2).
Qed.
Lemma xchain_agrees : agrees xchain revealed cm.
Proof.
  split; intros k l E; apply nth_error_map_seq in E as (Hk & ->).
  - apply odd_bound in Hk. destruct (accepted_levels r ch A) as (_ & O & _). destruct (O k Hk) as ((P1 & _) & _ & _ & LK). clear O.
    cbn [xlink1 l1_attrs]. rewrite map_length, seq_length. split; [reflexivity|]. intros j Hj Lj. rewrite map_length, seq_length in Lj. apply mem_in in Hj.
    destruct (LK j ltac:(lia) Hj) as (a & Ea). exists a. split; [exact Ea|]. rewrite (nth_error_nth' _ m0) by (rewrite map_length, seq_length; lia). f_equal.
    rewrite nth_map_seq_g by lia. unfold xA1, oz, zv. rewrite (proj2 (Nat.ltb_lt j (on C cm k - 1))) by lia. rewrite Hj, (lookup_lookupd _ _ _ m0 Ea). apply (quot_self HK H1). exact NC.
  - apply even_bound in Hk. destruct (accepted_levels r ch A) as (_ & _ & O). destruct (O k Hk) as ((P1 & _) & _ & _ & LK). clear O.
    cbn [xlink2 l2_attrs]. rewrite map_length, seq_length. split; [reflexivity|]. intros j Hj Lj. rewrite map_length, seq_length in Lj. apply mem_in in Hj.
    destruct (LK j ltac:(lia) Hj) as (a & Ea). exists a. split; [exact Ea|]. rewrite (nth_error_nth' _ m0) by (rewrite map_length, seq_length; lia). f_equal.
    rewrite nth_map_seq_g by lia. unfold xA2, ez, zv. rewrite (proj2 (Nat.ltb_lt j (en C cm k - 1))) by lia. rewrite Hj, (lookup_lookupd _ _ _ m0 Ea). apply (quot_self HK H2). exact NC.
Qed.
Lemma xchain_R : map (fun l : link1 C => s1_R (l1_sig l)) (ch_odd xchain) = c_odd_r cm /\ map (fun l : link2 C => s2_R (l2_sig l)) (ch_even xchain) = c_even_r cm.
Proof.
  destruct (accepted_levels r ch A) as (V & _ & _). destruct V as [_ _ V1 V2 _ _]. cbn [xchain ch_odd ch_even]. rewrite !map_map. cbn [xlink1 xlink2 l1_sig l2_sig s1_R s2_R].
  split; symmetry; [rewrite <- V1|rewrite <- V2]; apply list_as_map.
Qed.
End Sound.

(** Two answers to one commitment accepted for two different challenges contain a delegation chain
    of L valid links rooted at the issuer's key [ipk], whose attributes at the revealed positions
    are the values shown in the commitment, together with the secret of its last key. *)
Theorem C108_special_sound : forall (C : curve) (p1 : params1 C) (p2 : params2 C) L cm r r' ch ch' revealed ipk, curve_laws C -> params1_ok p1 -> params2_ok p2 -> (1 <= L)%nat -> ch <> ch' ->
  reconstruct_commitment L cm r ch revealed ipk p1 p2 = Ok cm -> reconstruct_commitment L cm r' ch' revealed ipk p1 p2 = Ok cm ->
  exists (c : chain C) ev od sk, chain_size c = L /\ valid_chain p1 p2 c (ipk :: ev) od /\ holds p1 p2 L (ipk :: ev) od sk /\ agrees c revealed cm /\
    map (fun l : link1 C => s1_R (l1_sig l)) (ch_odd c) = c_odd_r cm /\ map (fun l : link2 C => s2_R (l2_sig l)) (ch_even c) = c_even_r cm.
Proof.
  intros C p1 p2 L cm r r' ch ch' revealed ipk LW N1 N2 HL NC A A'.
  exists (xchain C L cm revealed p1 p2 r r' ch ch'), (xev C L p2 r r' ch ch'), (xod C L p1 r r' ch ch'), (xcsk C r r' ch ch').
  split; [apply xchain_size|]. split; [now apply (xchain_valid C LW)|]. split; [now apply (xchain_holds C LW)|]. split; [now apply (xchain_agrees C LW L cm revealed ipk)|].
  now apply (xchain_R C LW L cm revealed ipk).
Qed.

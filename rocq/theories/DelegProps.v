(** C102-C106: delegation links and chains of libzmix/src/signatures/delg_cred_cdd/issuer.rs. *)
From Verif Require Import Base BnModel Alg Lin ClRevModel ClRevSpec BbsModel BbsLib BbsProps PsModel PsLib GrothModel DelegModel GrothSpec GrothLib GrothProps DelegLib.
Import List ListNotations.
Open Scope list_scope.
Open Scope Z_scope.

(** ** C102: delegating *)
(** An issuer who delegates fewer attributes than there are bases makes a link one level down
    whose attributes are the given ones followed by the delegatee's key, and the link verifies
    for that delegatee under the issuer's key, whatever the verifier draws. *)
Theorem C102_delegate_then_verify_odd : forall (C : curve) (p : params1 C) level attrs delegatee sk r, curve_laws C -> params1_ok p -> r <> f0 ->
  (length attrs < length (p1_y p))%nat ->
  exists l, even_delegate level attrs delegatee sk p r = Ok l /\ l1_level l = (level + 1) mod 2 ^ 64 /\ l1_attrs l = attrs ++ [delegatee] /\
    forall r', link_verify1 l delegatee (snd (keygen1 p sk)) p r' = Ok true.
Proof.
  intros C p level attrs d sk r LW N Nr L. unfold even_delegate. rewrite (proj2 (Nat.leb_gt _ _) L).
  destruct (sign1_ok C (attrs ++ [d]) sk p r N) as (s & E & _); [rewrite app_length; cbn [length]; lia|]. rewrite E. cbn [rbind].
  eexists. split; [reflexivity|]. cbn [l1_level l1_attrs]. split; [reflexivity|]. split; [reflexivity|]. intros r'.
  apply (link_verify1_iff C LW). cbn [l1_sig l1_attrs]. split; [eauto|]. apply (batch1_complete C LW); [exact N|]. now apply (sign1_valid C LW (attrs ++ [d]) sk p r).
Qed.
Theorem C102_delegate_then_verify_even : forall (C : curve) (p : params2 C) level attrs delegatee sk r, curve_laws C -> params2_ok p -> r <> f0 ->
  (length attrs < length (p2_y p))%nat ->
  exists l, odd_delegate level attrs delegatee sk p r = Ok l /\ l2_level l = (level + 1) mod 2 ^ 64 /\ l2_attrs l = attrs ++ [delegatee] /\
    forall r', link_verify2 l delegatee (snd (keygen2 p sk)) p r' = Ok true.
Proof.
  intros C p level attrs d sk r LW N Nr L. unfold odd_delegate. rewrite (proj2 (Nat.leb_gt _ _) L).
  destruct (sign2_ok C (attrs ++ [d]) sk p r N) as (s & E & _); [rewrite app_length; cbn [length]; lia|]. rewrite E. cbn [rbind].
  eexists. split; [reflexivity|]. cbn [l2_level l2_attrs]. split; [reflexivity|]. split; [reflexivity|]. intros r'.
  apply (link_verify2_iff C LW). cbn [l2_sig l2_attrs]. split; [eauto|]. apply (batch2_complete C LW); [exact N|]. now apply (sign2_valid C LW (attrs ++ [d]) sk p r).
Qed.
(** With as many attributes as bases, or more, nothing is issued. *)
Theorem C102_too_many : forall (C : curve) level sk r,
  (forall (p : params1 C) attrs d, (length (p1_y p) <= length attrs)%nat -> even_delegate level attrs d sk p r = Err (DelgErr (DMoreAttributesThanExpected (length (p1_y p)) (length attrs)))) /\
  (forall (p : params2 C) attrs d, (length (p2_y p) <= length attrs)%nat -> odd_delegate level attrs d sk p r = Err (DelgErr (DMoreAttributesThanExpected (length (p2_y p)) (length attrs)))).
Proof. intros C level sk r. split; intros p attrs d L; unfold even_delegate, odd_delegate; rewrite (proj2 (Nat.leb_le _ _) L); reflexivity. Qed.
(** Issuers: even levels sign odd links and odd levels even links, the root issues level 1. *)
Theorem C102_issuer_levels : forall level, 0 <= level ->
  (even_issuer_new level = Ok level <-> Z.Even level) /\ (odd_issuer_new level = Ok level <-> Z.Odd level) /\
  (forall (C : curve) (p : params1 C) attrs d sk r l, root_delegate attrs d sk p r = Ok l -> l1_level l = 1).
Proof.
  intros level _. unfold even_issuer_new, odd_issuer_new, derr. rewrite <- Z.even_spec, <- Z.odd_spec, <- Z.negb_even, !Zmod_even.
  split; [|split].
  - destruct (Z.even level); cbn [Z.eqb negb]; split; intros Q; congruence.
  - destruct (Z.even level); cbn [Z.eqb negb]; split; intros Q; congruence.
  - intros C p attrs d sk r l E. unfold root_delegate, even_issuer_new in E. cbn [Z.modulo Z.div_eucl Z.eqb negb rbind] in E. unfold even_delegate in E.
    destruct (length (p1_y p) <=? length attrs)%nat; [discriminate|]. apply rbind_ok in E as (s & _ & E). assert (l = mkLink1 (usize (0 + 1)) (attrs ++ [d]) s) as -> by congruence. reflexivity.
Qed.

(** ** C103: verifying one link *)
(** A link that verifies names the delegatee as its last attribute; if the links's signature is
    not a signature of the delegator on exactly the attributes, at most as many non-zero draws
    as there are attributes make it pass. *)
Theorem C103_link_sound : forall (C : curve), curve_laws C ->
  (forall (p : params1 C) l delegatee delegator rs, params1_ok p -> NoDup rs -> rs <> [] ->
     (forall r, In r rs -> r <> f0 /\ link_verify1 l delegatee delegator p r = Ok true) ->
     (exists attrs, l1_attrs l = attrs ++ [delegatee]) /\ (valid1 p delegator (l1_sig l) (l1_attrs l) \/ (length rs <= length (l1_attrs l))%nat)) /\
  (forall (p : params2 C) l delegatee delegator rs, params2_ok p -> NoDup rs -> rs <> [] ->
     (forall r, In r rs -> r <> f0 /\ link_verify2 l delegatee delegator p r = Ok true) ->
     (exists attrs, l2_attrs l = attrs ++ [delegatee]) /\ (valid2 p delegator (l2_sig l) (l2_attrs l) \/ (length rs <= length (l2_attrs l))%nat)).
Proof.
  intros C LW. split; intros p l d v rs N ND NE H.
  - split. { destruct rs as [|r rs]; [congruence|]. destruct (H r (or_introl eq_refl)) as (_ & Q). apply (link_verify1_iff C LW) in Q. apply Q. }
    destruct (le_lt_dec (length rs) (length (l1_attrs l))) as [Q|Q]; [now right|left].
    destruct (verify1 (l1_sig l) (l1_attrs l) v p) as [[|]|e] eqn:V.
    + now apply (verify1_iff C LW).
    + exfalso. assert (length rs <= length (l1_attrs l))%nat; [|lia]. apply (C98_batch_sound_1 C p (l1_sig l) (l1_attrs l) v rs LW N); [rewrite V; discriminate|exact ND|].
      intros r Hr. destruct (H r Hr) as (A & B). apply (link_verify1_iff C LW) in B. tauto.
    + exfalso. assert (length rs <= length (l1_attrs l))%nat; [|lia]. apply (C98_batch_sound_1 C p (l1_sig l) (l1_attrs l) v rs LW N); [rewrite V; discriminate|exact ND|].
      intros r Hr. destruct (H r Hr) as (A & B). apply (link_verify1_iff C LW) in B. tauto.
  - split. { destruct rs as [|r rs]; [congruence|]. destruct (H r (or_introl eq_refl)) as (_ & Q). apply (link_verify2_iff C LW) in Q. apply Q. }
    destruct (le_lt_dec (length rs) (length (l2_attrs l))) as [Q|Q]; [now right|left].
    destruct (verify2 (l2_sig l) (l2_attrs l) v p) as [[|]|e] eqn:V.
    + now apply (verify2_iff C LW).
    + exfalso. assert (length rs <= length (l2_attrs l))%nat; [|lia]. apply (C98_batch_sound_2 C p (l2_sig l) (l2_attrs l) v rs LW N); [rewrite V; discriminate|exact ND|].
      intros r Hr. destruct (H r Hr) as (A & B). apply (link_verify2_iff C LW) in B. tauto.
    + exfalso. assert (length rs <= length (l2_attrs l))%nat; [|lia]. apply (C98_batch_sound_2 C p (l2_sig l) (l2_attrs l) v rs LW N); [rewrite V; discriminate|exact ND|].
      intros r Hr. destruct (H r Hr) as (A & B). apply (link_verify2_iff C LW) in B. tauto.
Qed.
(** Too many attributes and a wrong delegatee are reported as such. *)
Theorem C103_link_errors : forall (C : curve), curve_laws C ->
  (forall (p : params1 C) l d v r, ((length (p1_y p) < length (l1_attrs l))%nat ->
       link_verify1 l d v p r = Err (DelgErr (DMoreAttributesThanExpected (length (p1_y p)) (length (l1_attrs l))))) /\
     (forall attrs a, (length (l1_attrs l) <= length (p1_y p))%nat -> l1_attrs l = attrs ++ [a] -> a <> d -> link_verify1 l d v p r = Err (DelgErr DVerkeyNotFoundInDelegationLink))) /\
  (forall (p : params2 C) l d v r, ((length (p2_y p) < length (l2_attrs l))%nat ->
       link_verify2 l d v p r = Err (DelgErr (DMoreAttributesThanExpected (length (p2_y p)) (length (l2_attrs l))))) /\
     (forall attrs a, (length (l2_attrs l) <= length (p2_y p))%nat -> l2_attrs l = attrs ++ [a] -> a <> d -> link_verify2 l d v p r = Err (DelgErr DVerkeyNotFoundInDelegationLink))).
Proof.
  intros C LW. split; intros p l d v r; split.
  - intros L. unfold link_verify1, validate1. rewrite (proj2 (Nat.ltb_lt _ _) L). reflexivity.
  - intros attrs a L E NE. unfold link_verify1, validate1. rewrite (proj2 (Nat.ltb_ge _ _) L). rewrite (has_verkey1_last C l a attrs d E). cbn [rbind].
    rewrite (proj2 (meqb_neq _ _ (cl_g1 C LW) a d)) by exact NE. reflexivity.
  - intros L. unfold link_verify2, validate2. rewrite (proj2 (Nat.ltb_lt _ _) L). reflexivity.
  - intros attrs a L E NE. unfold link_verify2, validate2. rewrite (proj2 (Nat.ltb_ge _ _) L). rewrite (has_verkey2_last C l a attrs d E). cbn [rbind].
    rewrite (proj2 (meqb_neq _ _ (cl_g2 C LW) a d)) by exact NE. reflexivity.
Qed.
(** Refuted: "the delegatee of a link is the one the issuer named".  Cutting the attribute list
    of a verifying link after any attribute leaves a link that verifies with that attribute as
    the delegatee's key. *)
Theorem C103_refuted_delegatee_fixed : forall (C : curve), curve_laws C ->
  (forall (p : params1 C) lv attrs s vk k, params1_ok p -> valid1 p vk s attrs -> (k < length attrs)%nat ->
     forall r, link_verify1 (mkLink1 lv (firstn (S k) attrs) s) (nth k attrs m0) vk p r = Ok true) /\
  (forall (p : params2 C) lv attrs s vk k, params2_ok p -> valid2 p vk s attrs -> (k < length attrs)%nat ->
     forall r, link_verify2 (mkLink2 lv (firstn (S k) attrs) s) (nth k attrs m0) vk p r = Ok true).
Proof.
  assert (forall A (l : list A) k d, (k < length l)%nat -> firstn (S k) l = firstn k l ++ [nth k l d]) as F.
  { intros A l. induction l as [|a l IH]; intros k d Hk; [cbn in Hk; lia|]. destruct k as [|k]; [reflexivity|]. cbn [firstn nth app]. f_equal. apply IH. cbn in Hk. lia. }
  intros C LW. split; intros p lv attrs s vk k N V L r.
  - apply (link_verify1_iff C LW). cbn [l1_attrs l1_sig]. split; [exists (firstn k attrs); now apply F|]. apply (batch1_complete C LW); [exact N|]. unfold valid1. now apply (valid_firstn C).
  - apply (link_verify2_iff C LW). cbn [l2_attrs l2_sig]. split; [exists (firstn k attrs); now apply F|]. apply (batch2_complete C LW); [exact N|]. unfold valid2. now apply (valid_firstn C).
Qed.
(** Refuted: "verifying a link never panics": a link without attributes does. *)
Theorem C103_refuted_empty_link_error : forall (C : curve) lv r,
  (forall (p : params1 C) s d v, link_verify1 (mkLink1 lv [] s) d v p r = Err Panic) /\
  (forall (p : params2 C) s d v, link_verify2 (mkLink2 lv [] s) d v p r = Err Panic).
Proof. intros C lv r. split; intros p s d v; unfold link_verify1, validate1, has_verkey1, link_verify2, validate2, has_verkey2; cbn [l1_attrs l2_attrs length]; rewrite (proj2 (Nat.ltb_ge _ _)) by lia; reflexivity. Qed.

(** ** C104: building and cutting chains *)
Section Build.
Variable C : curve.
Lemma usize_next a b : 0 <= a < 2 ^ 64 -> (usize (a - usize b) = 2 <-> a = usize (b + 2)).
Proof.
  intros Ha. unfold usize. rewrite Zminus_mod_idemp_r. split; intros H.
  - rewrite <- (Z.mod_small a (2 ^ 64)) by lia. replace a with (b + (a - b)) at 1 by lia. rewrite Z.add_mod, H by lia. rewrite Z.add_mod_idemp_l by lia. reflexivity.
  - rewrite H. rewrite Zminus_mod_idemp_l. replace (b + 2 - b) with 2 by lia. reflexivity.
Qed.
Lemma usize_parity b : usize b mod 2 = b mod 2.
Proof. unfold usize. replace (2 ^ 64) with (2 * 2 ^ 63) by reflexivity. rewrite <- Znumtheory.Zmod_div_mod; [reflexivity|lia|lia|]. exists (2 ^ 63). lia. Qed.
Definition levels_ok (c : chain C) : Prop :=
  (forall k l, nth_error (ch_odd c) k = Some l -> l1_level l = usize (2 * Z.of_nat k + 1)) /\
  (forall k l, nth_error (ch_even c) k = Some l -> l2_level l = usize (2 * Z.of_nat k + 2)).
Lemma extend_odd_iff (c : chain C) l c' : levels_ok c -> 0 <= l1_level l < 2 ^ 64 ->
  (extend_with_odd c l = Ok c' <-> l1_level l = usize (2 * Z.of_nat (length (ch_odd c)) + 1) /\ c' = mkChain (ch_odd c ++ [l]) (ch_even c)).
Proof.
  intros (HO & _) Hl. unfold extend_with_odd.
  assert (usize (2 * Z.of_nat (length (ch_odd c)) + 1) mod 2 = 1) as P by (rewrite usize_parity, Z.add_comm, Z.mul_comm, Z_mod_plus_full; reflexivity).
  destruct (Z.eqb_spec (l1_level l mod 2) 0) as [E|E]. { split; [discriminate|]. intros (Q & _). rewrite Q, P in E. discriminate. }
  destruct (ch_odd c) as [|x xs] eqn:O.
  - cbn [length Nat.eqb andb app]. replace (usize (2 * Z.of_nat 0 + 1)) with 1 by reflexivity.
    destruct (Z.eqb_spec (l1_level l) 1) as [Q|Q]; cbn [negb]; split; try discriminate; intros H; [split; [exact Q|congruence]|destruct H; congruence|destruct H; contradiction].
  - cbn [length Nat.eqb andb negb]. rewrite <- O. assert (nth_error (ch_odd c) (length xs) <> None) as NN by (apply nth_error_Some; rewrite O; cbn; lia).
    destruct (nth_error (ch_odd c) (length xs)) as [last|] eqn:La; [|congruence]. replace (S (length xs) - 1)%nat with (length xs) by lia.
    unfold at_. rewrite La. cbn [rbind]. rewrite (HO _ _ ltac:(rewrite <- O; exact La)). pose proof (usize_next (l1_level l) (2 * Z.of_nat (length xs) + 1) Hl) as U.
    replace (2 * Z.of_nat (length xs) + 1 + 2) with (2 * Z.of_nat (S (length xs)) + 1) in U by lia.
    destruct (Z.eqb_spec (usize (l1_level l - usize (2 * Z.of_nat (length xs) + 1))) 2) as [Q|Q]; cbn [negb]; split; try discriminate; intros H.
    + split; [now apply U|]. congruence.
    + destruct H. congruence.
    + destruct H as (H & _). apply U in H. contradiction.
Qed.
Lemma extend_even_iff (c : chain C) l c' : levels_ok c -> 0 <= l2_level l < 2 ^ 64 ->
  (extend_with_even c l = Ok c' <-> l2_level l = usize (2 * Z.of_nat (length (ch_even c)) + 2) /\ c' = mkChain (ch_odd c) (ch_even c ++ [l])).
Proof.
  intros (_ & HO) Hl. unfold extend_with_even.
  assert (usize (2 * Z.of_nat (length (ch_even c)) + 2) mod 2 = 0) as P by (rewrite usize_parity; replace (2 * Z.of_nat (length (ch_even c)) + 2) with (0 + (Z.of_nat (length (ch_even c)) + 1) * 2) by lia; rewrite Z_mod_plus_full; reflexivity).
  destruct (Z.eqb_spec (l2_level l mod 2) 0) as [E|E]; cbn [negb]. 2:{ split; [discriminate|]. intros (Q & _). rewrite Q, P in E. contradiction. }
  destruct (ch_even c) as [|x xs] eqn:O.
  - cbn [length Nat.eqb andb app]. replace (usize (2 * Z.of_nat 0 + 2)) with 2 by reflexivity.
    destruct (Z.eqb_spec (l2_level l) 2) as [Q|Q]; cbn [negb]; split; try discriminate; intros H; [split; [exact Q|congruence]|destruct H; congruence|destruct H; contradiction].
  - cbn [length Nat.eqb andb negb]. rewrite <- O. assert (nth_error (ch_even c) (length xs) <> None) as NN by (apply nth_error_Some; rewrite O; cbn; lia).
    destruct (nth_error (ch_even c) (length xs)) as [last|] eqn:La; [|congruence]. replace (S (length xs) - 1)%nat with (length xs) by lia.
    unfold at_. rewrite La. cbn [rbind]. rewrite (HO _ _ ltac:(rewrite <- O; exact La)). pose proof (usize_next (l2_level l) (2 * Z.of_nat (length xs) + 2) Hl) as U.
    replace (2 * Z.of_nat (length xs) + 2 + 2) with (2 * Z.of_nat (S (length xs)) + 2) in U by lia.
    destruct (Z.eqb_spec (usize (l2_level l - usize (2 * Z.of_nat (length xs) + 2))) 2) as [Q|Q]; cbn [negb]; split; try discriminate; intros H.
    + split; [now apply U|]. congruence.
    + destruct H. congruence.
    + destruct H as (H & _). apply U in H. contradiction.
Qed.
Lemma nth_error_snoc {A} (l : list A) a k x : nth_error (l ++ [a]) k = Some x -> nth_error l k = Some x \/ k = length l /\ x = a.
Proof.
  intros H. destruct (Nat.lt_ge_cases k (length l)) as [L|L]; [rewrite nth_error_app1 in H by exact L; now left|].
  rewrite nth_error_app2 in H by exact L. destruct (k - length l)%nat as [|m] eqn:D; [right; split; [lia|cbn in H; congruence]|destruct m; discriminate].
Qed.
Lemma built_levels (c : chain C) : built c -> levels_ok c.
Proof.
  induction 1 as [|c l c' _ IH Hl E|c l c' _ IH Hl E].
  - split; intros [|k] l; discriminate.
  - apply extend_odd_iff in E as (L & ->); [|exact IH|exact Hl]. destruct IH as (A & B). split; cbn [ch_odd ch_even]; [|exact B].
    intros k l' Q. apply nth_error_snoc in Q as [Q|(-> & ->)]; auto.
  - apply extend_even_iff in E as (L & ->); [|exact IH|exact Hl]. destruct IH as (A & B). split; cbn [ch_odd ch_even]; [exact A|].
    intros k l' Q. apply nth_error_snoc in Q as [Q|(-> & ->)]; auto.
Qed.
Lemma truncated_eq (c : chain C) n : balanced c -> (n <= chain_size c)%nat ->
  get_truncated c n = Ok (mkChain (firstn ((n + 1) / 2) (ch_odd c)) (firstn (n / 2) (ch_even c))).
Proof.
  intros B L. unfold get_truncated. rewrite (proj2 (Nat.ltb_ge _ _) L). induction n as [|n IH]; [reflexivity|].
  replace (seq 1 (S n)) with (seq 1 n ++ [S n]) by (rewrite seq_S; reflexivity). rewrite rfold_app, IH by lia. cbn [rbind rfold ch_odd ch_even].
  assert (forall A (l : list A) k x, nth_error l k = Some x -> firstn (S k) l = firstn k l ++ [x]) as F.
  { intros A l. induction l as [|a l IHl]; intros k x Hk; [destruct k; discriminate|]. destruct k as [|k]; [cbn in *; congruence|]. cbn [firstn app]. f_equal. apply IHl. exact Hk. }
  destruct (level_cases (S n) ltac:(lia)) as [(k & E)|(k & E)]; rewrite E.
  - destruct (odd_double k) as (-> & ->). cbn [Nat.eqb]. pose proof (proj1 (balanced_odd C c k B) ltac:(lia)) as Hk. unfold at_.
    destruct (nth_error (ch_odd c) k) as [l|] eqn:Q; [|apply nth_error_None in Q; lia]. cbn [rbind].
    replace ((n + 1) / 2)%nat with k by (replace (n + 1)%nat with (2 * k + 1)%nat by lia; now destruct (odd_double k)).
    replace ((2 * k + 1 + 1) / 2)%nat with (S k) by (replace (2 * k + 1 + 1)%nat with (2 * k + 2)%nat by lia; now destruct (even_double k) as (_ & _ & ->)).
    replace (n / 2)%nat with k by (replace n with (k * 2)%nat by lia; now rewrite Nat.div_mul). rewrite (F _ _ _ _ Q). reflexivity.
  - destruct (even_double k) as (-> & -> & ->). cbn [Nat.eqb]. pose proof (proj1 (balanced_even C c k B) ltac:(lia)) as Hk. unfold at_.
    destruct (nth_error (ch_even c) k) as [l|] eqn:Q; [|apply nth_error_None in Q; lia]. cbn [rbind].
    replace ((n + 1) / 2)%nat with (S k) by (replace (n + 1)%nat with (2 * k + 2)%nat by lia; now destruct (even_double k) as (_ & _ & ->)).
    replace ((2 * k + 2 + 1) / 2)%nat with (S k) by (replace (2 * k + 2 + 1)%nat with (2 * S k + 1)%nat by lia; now destruct (odd_double (S k)) as (_ & ->)).
    replace (n / 2)%nat with k by (replace n with (2 * k + 1)%nat by lia; now destruct (odd_double k)). rewrite (F _ _ _ _ Q). reflexivity.
Qed.
Lemma nth_error_firstn {A} (l : list A) n k x : nth_error (firstn n l) k = Some x -> nth_error l k = Some x.
Proof. revert n k. induction l as [|a l IH]; intros [|n] [|k] H; cbn in *; try discriminate; auto. eapply IH; eauto. Qed.
Lemma nth_firstn_lt {A} (l : list A) n k d : (k < n)%nat -> nth k (firstn n l) d = nth k l d.
Proof. revert n k. induction l as [|a l IH]; intros [|n] [|k] H; cbn; try lia; auto. apply IH. lia. Qed.
End Build.
(** Chains built with extend: the k-th odd link is at level 2k+1 and the k-th even link at
    level 2k+2 (as 64 bit integers), and the next odd or even link is accepted exactly when it
    has the next odd or even level. *)
Theorem C104_built_levels : forall (C : curve) (c : chain C), built c ->
  (forall k l, nth_error (ch_odd c) k = Some l -> l1_level l = (2 * Z.of_nat k + 1) mod 2 ^ 64) /\
  (forall k l, nth_error (ch_even c) k = Some l -> l2_level l = (2 * Z.of_nat k + 2) mod 2 ^ 64) /\
  (forall l c', 0 <= l1_level l < 2 ^ 64 -> (extend_with_odd c l = Ok c' <->
      l1_level l = (2 * Z.of_nat (length (ch_odd c)) + 1) mod 2 ^ 64 /\ c' = mkChain (ch_odd c ++ [l]) (ch_even c))) /\
  (forall l c', 0 <= l2_level l < 2 ^ 64 -> (extend_with_even c l = Ok c' <->
      l2_level l = (2 * Z.of_nat (length (ch_even c)) + 2) mod 2 ^ 64 /\ c' = mkChain (ch_odd c) (ch_even c ++ [l]))).
Proof.
  intros C c B. apply built_levels in B. split; [apply B|]. split; [apply B|]. split; intros l c' H; [now apply extend_odd_iff|now apply extend_even_iff].
Qed.
(** Cutting a chain without gaps keeps the first n levels; cutting more levels than there are is an error. *)
Theorem C104_truncate : forall (C : curve) (c : chain C) n, balanced c ->
  ((n <= chain_size c)%nat -> exists c', get_truncated c n = Ok c' /\ ch_odd c' = firstn ((n + 1) / 2) (ch_odd c) /\ ch_even c' = firstn (n / 2) (ch_even c) /\ chain_size c' = n) /\
  ((chain_size c < n)%nat -> get_truncated c n = Err (DelgErr (DChainIsShorterThanExpected (chain_size c) n))).
Proof.
  intros C c n B. split; intros L.
  - rewrite truncated_eq by assumption. eexists. split; [reflexivity|]. cbn [ch_odd ch_even]. split; [reflexivity|]. split; [reflexivity|].
    unfold chain_size. cbn [ch_odd ch_even]. rewrite !firstn_length. apply balanced_counts in B as (B1 & B2). rewrite B1, B2, !half_up.
    pose proof (Nat.div_mod n 2 ltac:(lia)). pose proof (Nat.mod_upper_bound n 2 ltac:(lia)).
    pose proof (Nat.div_mod (chain_size c) 2 ltac:(lia)). pose proof (Nat.mod_upper_bound (chain_size c) 2 ltac:(lia)).
    destruct (Nat.eqb_spec (n mod 2) 1), (Nat.eqb_spec (chain_size c mod 2) 1); lia.
  - unfold get_truncated. rewrite (proj2 (Nat.ltb_lt _ _) L). reflexivity.
Qed.
(** Every prefix of a valid chain is a valid chain, for the matching prefixes of the keys. *)
Theorem C104_truncate_valid : forall (C : curve) (p1 : params1 C) (p2 : params2 C) c ev od n c', valid_chain p1 p2 c ev od -> (0 < n)%nat ->
  get_truncated c n = Ok c' -> valid_chain p1 p2 c' (firstn (S (n / 2)) ev) (firstn ((n + 1) / 2) od).
Proof.
  intros C p1 p2 c ev od n c' [NE B LE LO VO VE] Hn E. destruct (Nat.le_gt_cases n (chain_size c)) as [L|L].
  2:{ unfold get_truncated in E. rewrite (proj2 (Nat.ltb_lt _ _) L) in E. discriminate. }
  rewrite truncated_eq in E by assumption. assert (c' = mkChain (firstn ((n + 1) / 2) (ch_odd c)) (firstn (n / 2) (ch_even c))) as -> by congruence. clear E.
  pose proof (proj1 (balanced_counts C c) B) as (B1 & B2).
  assert (n / 2 <= length (ch_even c) /\ (n + 1) / 2 <= length (ch_odd c) /\ (0 < (n + 1) / 2)%nat /\ ((n + 1) / 2 = n / 2 \/ (n + 1) / 2 = S (n / 2)))%nat as (N1 & N2 & N3 & N4).
  { rewrite B1, B2, !half_up. pose proof (Nat.div_mod n 2 ltac:(lia)). pose proof (Nat.mod_upper_bound n 2 ltac:(lia)).
    pose proof (Nat.div_mod (chain_size c) 2 ltac:(lia)). pose proof (Nat.mod_upper_bound (chain_size c) 2 ltac:(lia)).
    destruct (Nat.eqb_spec (n mod 2) 1), (Nat.eqb_spec (chain_size c mod 2) 1); lia. }
  split; unfold balanced; cbn [ch_odd ch_even].
  - intros Q. apply (f_equal (@length _)) in Q. rewrite firstn_length in Q. cbn [length] in Q. lia.
  - rewrite !firstn_length. lia.
  - rewrite !firstn_length. lia.
  - rewrite !firstn_length. lia.
  - intros k l Q. assert (k < length (firstn ((n + 1) / 2) (ch_odd c)))%nat as Hk by (apply nth_error_Some; congruence). rewrite firstn_length in Hk.
    apply nth_error_firstn in Q. rewrite !nth_firstn_lt by lia. now apply VO.
  - intros k l Q. assert (k < length (firstn (n / 2) (ch_even c)))%nat as Hk by (apply nth_error_Some; congruence). rewrite firstn_length in Hk.
    apply nth_error_firstn in Q. rewrite !nth_firstn_lt by lia. now apply VE.
Qed.

(** Lemmas about delegation links and chains. *)
From Verif Require Import Base BnModel Alg Lin ClRevModel ClRevSpec BbsModel BbsLib BbsProps PsModel PsLib GrothModel DelegModel GrothSpec GrothLib GrothProps.
Import List ListNotations.
Open Scope list_scope.
Open Scope Z_scope.

Section Deleg.
Variable C : curve.
Hypothesis LW : curve_laws C.
Notation K := (cK C). Notation G1 := (cG1 C). Notation G2 := (cG2 C). Notation GT := (cGT C).
Let HK := cl_field C LW.
Let H1 := cl_g1 C LW.
Let H2 := cl_g2 C LW.
Let HT := cl_gt C LW.
Add Field KfDL : (proj1 HK).

Lemma has_verkey1_last (l : link1 C) a attrs d : l1_attrs l = attrs ++ [a] -> has_verkey1 l d = Ok (meqb a d).
Proof.
  intros E. unfold has_verkey1. rewrite E. destruct (attrs ++ [a]) eqn:Q; [destruct attrs; discriminate|]. rewrite <- Q.
  rewrite (at_ok _ _ m0) by (rewrite app_length; cbn [length]; lia). rewrite app_length. cbn [length rbind].
  rewrite app_nth2 by lia. replace (length attrs + 1 - 1 - length attrs)%nat with 0%nat by lia. reflexivity.
Qed.
Lemma has_verkey2_last (l : link2 C) a attrs d : l2_attrs l = attrs ++ [a] -> has_verkey2 l d = Ok (meqb a d).
Proof.
  intros E. unfold has_verkey2. rewrite E. destruct (attrs ++ [a]) eqn:Q; [destruct attrs; discriminate|]. rewrite <- Q.
  rewrite (at_ok _ _ m0) by (rewrite app_length; cbn [length]; lia). rewrite app_length. cbn [length rbind].
  rewrite app_nth2 by lia. replace (length attrs + 1 - 1 - length attrs)%nat with 0%nat by lia. reflexivity.
Qed.
Lemma validate1_iff (l : link1 C) d p : validate1 l d p = Ok tt <-> (length (l1_attrs l) <= length (p1_y p))%nat /\ exists attrs, l1_attrs l = attrs ++ [d].
Proof.
  unfold validate1. destruct (length (p1_y p) <? length (l1_attrs l))%nat eqn:L.
  { apply Nat.ltb_lt in L. split; [discriminate|]. intros (Q & _). lia. }
  apply Nat.ltb_ge in L. destruct (l1_attrs l) as [|x xs] eqn:E.
  - unfold has_verkey1. rewrite E. cbn [rbind]. split; [discriminate|]. intros (_ & [|? ?] & Q); discriminate.
  - rewrite <- E in *. destruct (@exists_last _ (l1_attrs l)) as (attrs & a & Q); [rewrite E; discriminate|].
    rewrite (has_verkey1_last l a attrs d Q). cbn [rbind]. destruct (meqb a d) eqn:M; cbn [negb].
    + apply (meqb_eq _ _ H1) in M as ->. split; eauto.
    + apply (meqb_neq _ _ H1) in M. split; [discriminate|]. intros (_ & attrs' & Q'). rewrite Q in Q'. apply app_inj_tail in Q' as (_ & Q'). contradiction.
Qed.
Lemma validate2_iff (l : link2 C) d p : validate2 l d p = Ok tt <-> (length (l2_attrs l) <= length (p2_y p))%nat /\ exists attrs, l2_attrs l = attrs ++ [d].
Proof.
  unfold validate2. destruct (length (p2_y p) <? length (l2_attrs l))%nat eqn:L.
  { apply Nat.ltb_lt in L. split; [discriminate|]. intros (Q & _). lia. }
  apply Nat.ltb_ge in L. destruct (l2_attrs l) as [|x xs] eqn:E.
  - unfold has_verkey2. rewrite E. cbn [rbind]. split; [discriminate|]. intros (_ & [|? ?] & Q); discriminate.
  - rewrite <- E in *. destruct (@exists_last _ (l2_attrs l)) as (attrs & a & Q); [rewrite E; discriminate|].
    rewrite (has_verkey2_last l a attrs d Q). cbn [rbind]. destruct (meqb a d) eqn:M; cbn [negb].
    + apply (meqb_eq _ _ H2) in M as ->. split; eauto.
    + apply (meqb_neq _ _ H2) in M. split; [discriminate|]. intros (_ & attrs' & Q'). rewrite Q in Q'. apply app_inj_tail in Q' as (_ & Q'). contradiction.
Qed.
Lemma link_verify1_iff (l : link1 C) d v p r : link_verify1 l d v p r = Ok true <->
  (exists attrs, l1_attrs l = attrs ++ [d]) /\ verify_batch1 (l1_sig l) (l1_attrs l) v p r = Ok true.
Proof.
  unfold link_verify1. split.
  - intros Q. apply rbind_ok in Q as ([] & V & Q). apply validate1_iff in V as (_ & V). split; assumption.
  - intros (A & B). rewrite (proj2 (validate1_iff l d p)); [exact B|]. split; [|exact A].
    destruct (Nat.le_gt_cases (length (l1_attrs l)) (length (p1_y p))) as [L|L]; [exact L|].
    unfold verify_batch1 in B. rewrite (proj2 (Nat.ltb_lt _ _) L) in B. discriminate.
Qed.
Lemma link_verify2_iff (l : link2 C) d v p r : link_verify2 l d v p r = Ok true <->
  (exists attrs, l2_attrs l = attrs ++ [d]) /\ verify_batch2 (l2_sig l) (l2_attrs l) v p r = Ok true.
Proof.
  unfold link_verify2. split.
  - intros Q. apply rbind_ok in Q as ([] & V & Q). apply validate2_iff in V as (_ & V). split; assumption.
  - intros (A & B). rewrite (proj2 (validate2_iff l d p)); [exact B|]. split; [|exact A].
    destruct (Nat.le_gt_cases (length (l2_attrs l)) (length (p2_y p))) as [L|L]; [exact L|].
    unfold verify_batch2 in B. rewrite (proj2 (Nat.ltb_lt _ _) L) in B. discriminate.
Qed.

(** ** chains *)
Lemma odd_double k : ((2 * k + 1) mod 2 = 1 /\ (2 * k + 1) / 2 = k)%nat.
Proof. pose proof (Nat.div_mod (2 * k + 1) 2 ltac:(lia)). pose proof (Nat.mod_upper_bound (2 * k + 1) 2 ltac:(lia)). lia. Qed.
Lemma even_double k : ((2 * k + 2) mod 2 = 0 /\ (2 * k + 2) / 2 - 1 = k /\ (2 * k + 2) / 2 = S k)%nat.
Proof. pose proof (Nat.div_mod (2 * k + 2) 2 ltac:(lia)). pose proof (Nat.mod_upper_bound (2 * k + 2) 2 ltac:(lia)). lia. Qed.
Lemma level_cases i : (1 <= i)%nat -> (exists k, i = 2 * k + 1)%nat \/ (exists k, i = 2 * k + 2)%nat.
Proof.
  intros H. pose proof (Nat.div_mod i 2 ltac:(lia)) as D. pose proof (Nat.mod_upper_bound i 2 ltac:(lia)) as B.
  destruct (Nat.eq_dec (i mod 2) 1) as [E|E]; [left; exists (i / 2)%nat; lia|right; exists (i / 2 - 1)%nat; lia].
Qed.
Definition right_counts (c : chain C) (ev : list G2) (od : list G1) : Prop :=
  (0 < chain_size c)%nat /\ length ev = S (chain_size c / 2) /\ length od = ((chain_size c + 1) / 2)%nat.
Lemma half_up n : ((n + 1) / 2 = if n mod 2 =? 1 then n / 2 + 1 else n / 2)%nat.
Proof.
  pose proof (Nat.div_mod n 2 ltac:(lia)). pose proof (Nat.mod_upper_bound n 2 ltac:(lia)).
  pose proof (Nat.div_mod (n + 1) 2 ltac:(lia)). pose proof (Nat.mod_upper_bound (n + 1) 2 ltac:(lia)).
  destruct (Nat.eqb_spec (n mod 2) 1); lia.
Qed.
Lemma chain_validate_iff (c : chain C) ev od : chain_validate c ev od = Ok tt <-> right_counts c ev od.
Proof.
  unfold chain_validate, right_counts. rewrite half_up. set (n := chain_size c).
  assert (n = 2 * (n / 2) + n mod 2)%nat as D by apply Nat.div_mod_eq. pose proof (Nat.mod_upper_bound n 2 ltac:(lia)) as B.
  destruct (Nat.eqb_spec n 0) as [Z|Z]. { split; [discriminate|]. intros (Q & _). lia. }
  destruct (Nat.eqb_spec (length ev + length od) (n + 1)) as [A|A]; cbn [negb].
  2:{ split; [discriminate|]. intros (_ & Q1 & Q2). exfalso. destruct (n mod 2 =? 1)%nat eqn:M; [apply Nat.eqb_eq in M|apply Nat.eqb_neq in M]; lia. }
  destruct (Nat.eqb_spec (length ev) (n / 2 + 1)) as [A2|A2]; cbn [negb].
  2:{ split; [discriminate|]. intros (_ & Q1 & Q2). lia. }
  destruct (Nat.eqb_spec (n mod 2) 1) as [M|M].
  - destruct (Nat.eqb_spec (length od) (n / 2 + 1)) as [A3|A3]; cbn [negb]; (split; [try discriminate|]); intros; repeat split; lia.
  - destruct (Nat.eqb_spec (length od) (n / 2)) as [A3|A3]; cbn [negb]; (split; [try discriminate|]); intros; repeat split; lia.
Qed.
Lemma chain_validate_unit (c : chain C) ev od u : chain_validate c ev od = Ok u -> right_counts c ev od.
Proof. destruct u. apply chain_validate_iff. Qed.
Lemma balanced_counts (c : chain C) : balanced c <-> length (ch_even c) = (chain_size c / 2)%nat /\ length (ch_odd c) = ((chain_size c + 1) / 2)%nat.
Proof.
  unfold balanced. rewrite half_up. assert (chain_size c = length (ch_odd c) + length (ch_even c))%nat as Q by reflexivity. revert Q. generalize (chain_size c), (length (ch_odd c)), (length (ch_even c)). intros n o e ->.
  pose proof (Nat.div_mod (o + e) 2 ltac:(lia)). pose proof (Nat.mod_upper_bound (o + e) 2 ltac:(lia)).
  destruct (Nat.eqb_spec ((o + e) mod 2) 1); lia.
Qed.
Lemma counts_odd (c : chain C) (ev : list G2) (od : list G1) k : right_counts c ev od -> (2 * k + 1 <= chain_size c)%nat -> (k < length od)%nat /\ (k < length ev)%nat.
Proof.
  intros (_ & A & B) L. rewrite half_up in B. pose proof (Nat.div_mod (chain_size c) 2 ltac:(lia)). pose proof (Nat.mod_upper_bound (chain_size c) 2 ltac:(lia)).
  destruct (Nat.eqb_spec (chain_size c mod 2) 1); lia.
Qed.
Lemma counts_even (c : chain C) (ev : list G2) (od : list G1) k : right_counts c ev od -> (2 * k + 2 <= chain_size c)%nat -> (k < length od)%nat /\ (S k < length ev)%nat.
Proof.
  intros (_ & A & B) L. rewrite half_up in B. pose proof (Nat.div_mod (chain_size c) 2 ltac:(lia)). pose proof (Nat.mod_upper_bound (chain_size c) 2 ltac:(lia)).
  destruct (Nat.eqb_spec (chain_size c mod 2) 1); lia.
Qed.
Lemma balanced_odd (c : chain C) k : balanced c -> ((2 * k + 1 <= chain_size c)%nat <-> (k < length (ch_odd c))%nat).
Proof. unfold balanced, chain_size. lia. Qed.
Lemma balanced_even (c : chain C) k : balanced c -> ((2 * k + 2 <= chain_size c)%nat <-> (k < length (ch_even c))%nat).
Proof. unfold balanced, chain_size. lia. Qed.
Lemma counts_balanced (c : chain C) ev od : balanced c -> right_counts c ev od -> length ev = S (length (ch_even c)) /\ length od = length (ch_odd c).
Proof. intros B (_ & A & D). apply balanced_counts in B as (B1 & B2). lia. Qed.

(** one step of the loop of [verify_delegations] *)
Definition step (c : chain C) ev od p1 p2 (rs : nat -> K) (i : nat) : res bool :=
  if (i mod 2 =? 1)%nat then
    let idx := (i / 2)%nat in
    let! l := at_ (ch_odd c) idx in
    if negb (l1_level l =? Z.of_nat i) then derr (DUnexpectedLevel (Z.of_nat i) (l1_level l)) else
    let! vd := at_ od idx in let! vr := at_ ev idx in
    link_verify1 l vd vr p1 (rs i)
  else
    let! l := at_ (ch_even c) (i / 2 - 1) in
    if negb (l2_level l =? Z.of_nat i) then derr (DUnexpectedLevel (Z.of_nat i) (l2_level l)) else
    let! vd := at_ ev (i / 2) in let! vr := at_ od (i / 2 - 1) in
    link_verify2 l vd vr p2 (rs i).
Lemma step_odd (c : chain C) ev od p1 p2 rs k : (k < length od)%nat -> (k < length ev)%nat ->
  step c ev od p1 p2 rs (2 * k + 1) = match nth_error (ch_odd c) k with
    | None => Err Panic
    | Some l => if l1_level l =? 2 * Z.of_nat k + 1 then link_verify1 l (nth k od m0) (nth k ev m0) p1 (rs (2 * k + 1)%nat)
                else derr (DUnexpectedLevel (2 * Z.of_nat k + 1) (l1_level l)) end.
Proof.
  intros L1 L2. unfold step. destruct (odd_double k) as (-> & ->). cbn [Nat.eqb]. unfold at_ at 1. destruct (nth_error (ch_odd c) k) as [l|]; cbn [rbind]; [|reflexivity].
  replace (Z.of_nat (2 * k + 1)) with (2 * Z.of_nat k + 1) by lia. rewrite (at_ok od k m0), (at_ok ev k m0) by assumption. cbn [rbind]. destruct (l1_level l =? _); reflexivity.
Qed.
Lemma step_even (c : chain C) ev od p1 p2 rs k : (k < length od)%nat -> (S k < length ev)%nat ->
  step c ev od p1 p2 rs (2 * k + 2) = match nth_error (ch_even c) k with
    | None => Err Panic
    | Some l => if l2_level l =? 2 * Z.of_nat k + 2 then link_verify2 l (nth (S k) ev m0) (nth k od m0) p2 (rs (2 * k + 2)%nat)
                else derr (DUnexpectedLevel (2 * Z.of_nat k + 2) (l2_level l)) end.
Proof.
  intros L1 L2. unfold step. destruct (even_double k) as (-> & -> & ->). cbn [Nat.eqb]. unfold at_ at 1. destruct (nth_error (ch_even c) k) as [l|]; cbn [rbind]; [|reflexivity].
  replace (Z.of_nat (2 * k + 2)) with (2 * Z.of_nat k + 2) by lia. rewrite (at_ok od k m0), (at_ok ev (S k) m0) by assumption. cbn [rbind]. destruct (l2_level l =? _); reflexivity.
Qed.
Lemma steps_balanced (c : chain C) ev od p1 p2 rs : right_counts c ev od -> (forall i, In i (seq 1 (chain_size c)) -> step c ev od p1 p2 rs i <> Err Panic) -> balanced c.
Proof.
  intros RC H. apply balanced_counts.
  assert (forall k, (2 * k + 1 <= chain_size c)%nat -> (k < length (ch_odd c))%nat) as A.
  { intros k Hk. destruct (counts_odd c ev od k RC Hk) as (B1 & B2). apply nth_error_Some. intros Q. apply (H (2 * k + 1)%nat); [apply in_seq; lia|].
    rewrite step_odd, Q by assumption. reflexivity. }
  assert (forall k, (2 * k + 2 <= chain_size c)%nat -> (k < length (ch_even c))%nat) as B.
  { intros k Hk. destruct (counts_even c ev od k RC Hk) as (B1 & B2). apply nth_error_Some. intros Q. apply (H (2 * k + 2)%nat); [apply in_seq; lia|].
    rewrite step_even, Q by assumption. reflexivity. }
  rewrite half_up. assert (chain_size c = length (ch_odd c) + length (ch_even c))%nat as Q by reflexivity.
  pose proof (Nat.div_mod (chain_size c) 2 ltac:(lia)) as D. pose proof (Nat.mod_upper_bound (chain_size c) 2 ltac:(lia)) as U.
  assert (chain_size c / 2 <= length (ch_even c))%nat. { destruct (chain_size c / 2)%nat as [|m] eqn:E; [lia|]. apply (B m). lia. }
  destruct (Nat.eqb_spec (chain_size c mod 2) 1) as [M|M].
  - assert (chain_size c / 2 < length (ch_odd c))%nat by (apply A; lia). lia.
  - destruct (chain_size c / 2)%nat as [|m] eqn:E; [lia|]. assert (m < length (ch_odd c))%nat by (apply A; lia). lia.
Qed.
Lemma verify_delegations_iff (c : chain C) ev od p1 p2 rs : verify_delegations c ev od p1 p2 rs = Ok true <->
  right_counts c ev od /\ balanced c /\
  (forall k l, nth_error (ch_odd c) k = Some l -> l1_level l = 2 * Z.of_nat k + 1 /\ link_verify1 l (nth k od m0) (nth k ev m0) p1 (rs (2 * k + 1)%nat) = Ok true) /\
  (forall k l, nth_error (ch_even c) k = Some l -> l2_level l = 2 * Z.of_nat k + 2 /\ link_verify2 l (nth (S k) ev m0) (nth k od m0) p2 (rs (2 * k + 2)%nat) = Ok true).
Proof.
  unfold verify_delegations. fold (step c ev od p1 p2 rs). split.
  - intros Q. apply rbind_ok in Q as (u & RC & Q). apply chain_validate_unit in RC. rewrite check_all_true in Q. change (forall i, In i (seq 1 (chain_size c)) -> step c ev od p1 p2 rs i = Ok true) in Q.
    assert (balanced c) as B. { apply (steps_balanced c ev od p1 p2 rs RC). intros i Hi. rewrite (Q i Hi). discriminate. }
    split; [exact RC|]. split; [exact B|]. split; intros k l E.
    + assert (k < length (ch_odd c))%nat as Hk by (apply nth_error_Some; congruence). apply (balanced_odd c k B) in Hk. destruct (counts_odd c ev od k RC Hk).
      specialize (Q (2 * k + 1)%nat ltac:(apply in_seq; lia)). rewrite step_odd, E in Q by assumption. destruct (Z.eqb_spec (l1_level l) (2 * Z.of_nat k + 1)); [auto|discriminate].
    + assert (k < length (ch_even c))%nat as Hk by (apply nth_error_Some; congruence). apply (balanced_even c k B) in Hk. destruct (counts_even c ev od k RC Hk).
      specialize (Q (2 * k + 2)%nat ltac:(apply in_seq; lia)). rewrite step_even, E in Q by assumption. destruct (Z.eqb_spec (l2_level l) (2 * Z.of_nat k + 2)); [auto|discriminate].
  - intros (RC & B & O & E). rewrite (proj2 (chain_validate_iff c ev od) RC). cbn [rbind]. apply check_all_true. intros i Hi. apply in_seq in Hi.
    change (step c ev od p1 p2 rs i = Ok true). destruct (level_cases i ltac:(lia)) as [(k & ->)|(k & ->)].
    + destruct (counts_odd c ev od k RC ltac:(lia)). rewrite step_odd by assumption.
      destruct (nth_error (ch_odd c) k) as [l|] eqn:Q. 2:{ apply nth_error_None in Q. pose proof (proj1 (balanced_odd c k B) ltac:(lia)). lia. }
      destruct (O k l Q) as (-> & V). rewrite Z.eqb_refl. exact V.
    + destruct (counts_even c ev od k RC ltac:(lia)). rewrite step_even by assumption.
      destruct (nth_error (ch_even c) k) as [l|] eqn:Q. 2:{ apply nth_error_None in Q. pose proof (proj1 (balanced_even c k B) ltac:(lia)). lia. }
      destruct (E k l Q) as (-> & V). rewrite Z.eqb_refl. exact V.
Qed.
End Deleg.

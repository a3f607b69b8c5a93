(** Lemmas about the verifier's side of attribute tokens. *)
From Verif Require Import Base BnModel Alg Lin ClRevModel ClRevSpec BbsModel BbsLib BbsProps PsModel PsLib GrothModel DelegModel GrothSpec GrothLib DelegLib TokenModel TokenLib.
Import List ListNotations.
Open Scope list_scope.
Open Scope Z_scope.

Lemma check_counts_eq n rev yc nr : (length rev < n)%nat -> Z.of_nat n < 2 ^ 64 -> (n <= yc)%nat -> (n - length rev - 1 <= nr)%nat -> check_counts n rev yc nr = Ok tt.
Proof.
  intros H1 H2 H3 H4. unfold check_counts, usize. rewrite (Z.mod_small (Z.of_nat n - _)) by lia. rewrite Z.mod_small by lia.
  rewrite (proj2 (Nat.ltb_ge _ _) H3). rewrite (proj2 (Z.ltb_ge _ _)) by lia. reflexivity.
Qed.
Lemma check_counts_inv n rev yc nr : check_counts n rev yc nr = Ok tt -> (n <= yc)%nat.
Proof. unfold check_counts. destruct (yc <? n)%nat eqn:E; [discriminate|]. apply Nat.ltb_ge in E. intros _. exact E. Qed.

Section Recon.
Variable C : curve.
Hypothesis LW : curve_laws C.
Notation K := (cK C). Notation G1 := (cG1 C). Notation G2 := (cG2 C). Notation GT := (cGT C).
Let HK := cl_field C LW.
Let H1 := cl_g1 C LW.
Let H2 := cl_g2 C LW.
Let HT := cl_gt C LW.
Let B1 := bil1 C LW.
Let B2 := bil2 C LW.
Add Field KfTR : (proj1 HK).

Section Vals.
Variables (L : nat) (cm : comm C) (r : resp C) (ch : K) (revealed : list (list nat)) (ipk : G2) (p1 : params1 C) (p2 : params2 C).
(** one round of the loop *)
Definition rstep (i : nat) : res (GT * list GT) :=
  let nc := fopp ch in
  let g1_c := smul nc (p2_g1 p2) in
  let g2_c := smul nc (p1_g2 p1) in
  let ipk_c := smul nc ipk in
  let y0_g2_c := pair (nth 0 (p1_y p1) m0) g2_c in
  let g1_y0_c := pair g1_c (nth 0 (p2_y p2) m0) in
    if (i mod 2 =? 1)%nat then
      let k := (i / 2)%nat in
      let! ct := at_ (c_t cm) (i - 1) in
      let n := length ct in
      let! rev := at_ revealed (i - 1) in
      let! ra := at_ (r_odd_a r) k in
      let! _ := check_counts n rev (length (p1_y p1)) (length ra) in
      let! rs := at_ (r_odd_s r) k in
      let! R := at_ (c_odd_r cm) k in
      let! prev := if (i =? 1)%nat then Ok None else let! v := at_ (r_even_vk r) (k - 1) in Ok (Some v) in
      let com_s := match prev with None => madd (madd (pair rs R) (pair (p1_g1 p1) ipk_c)) y0_g2_c
                                 | Some v => madd (madd (pair rs R) (pair (mopp (p1_g1 p1)) v)) y0_g2_c end in
      let prev_y := fun j => let! y := at_ (p1_y p1) j in Ok (match prev with None => pair y ipk_c | Some v => pair (mopp y) v end) in
      let! rt := at_ (r_odd_t r) k in
      let! revmap := at_ (c_odd_rev cm) k in
      let vk := if negb (i =? L)%nat then let! v := at_ (r_odd_vk r) k in Ok (pair v (mopp (p1_g2 p1))) else Ok (pair (smul (r_csk r) (p1_g1 p1)) (mopp (p1_g2 p1))) in
      let! com_t := recon_t pair (p1_g2 p1) g2_c R prev_y rt ra rev revmap n vk in
      Ok (com_s, com_t)
    else
      let k := (i / 2 - 1)%nat in
      let! ct := at_ (c_t cm) (i - 1) in
      let n := length ct in
      let! rev := at_ revealed (i - 1) in
      let! ra := at_ (r_even_a r) k in
      let! _ := check_counts n rev (length (p2_y p2)) (length ra) in
      let! R := at_ (c_even_r cm) k in
      let! rs := at_ (r_even_s r) k in
      let! v := at_ (r_odd_vk r) k in
      let com_s := madd (madd (pair R rs) (pair v (mopp (p2_g2 p2)))) g1_y0_c in
      let prev_y := fun j => let! y := at_ (p2_y p2) j in Ok (pair v (mopp y)) in
      let! rt := at_ (r_even_t r) k in
      let! revmap := at_ (c_even_rev cm) k in
      let vk := if negb (i =? L)%nat then let! w := at_ (r_even_vk r) k in Ok (pair (mopp (p2_g1 p2)) w) else Ok (pair (smul (r_csk r) (mopp (p2_g1 p2))) (p2_g2 p2)) in
      let! com_t := recon_t (fun m w => pair w m) (p2_g1 p2) g1_c R prev_y rt ra rev revmap n vk in
      Ok (com_s, com_t).
Definition assemble (levels : list (GT * list GT)) : comm C := mkComm (c_odd_r cm) (c_even_r cm) (map fst levels) (map snd levels) (c_odd_rev cm) (c_even_rev cm).
Lemma reconstruct_eq : params1_ok p1 -> params2_ok p2 ->
  reconstruct_commitment L cm r ch revealed ipk p1 p2 =
  let! _ := comm_validate cm L in let! _ := resp_validate r L in let! levels := rmap rstep (seq 1 L) in Ok (assemble levels).
Proof.
  intros N1 N2. unfold reconstruct_commitment. destruct (comm_validate cm L); cbn [rbind]; [|reflexivity]. destruct (resp_validate r L); cbn [rbind]; [|reflexivity].
  rewrite (at_ok (p1_y p1) 0 m0) by (unfold params1_ok in N1; destruct (p1_y p1); [contradiction|cbn; lia]).
  rewrite (at_ok (p2_y p2) 0 m0) by (unfold params2_ok in N2; destruct (p2_y p2); [contradiction|cbn; lia]). reflexivity.
Qed.

(** odd level 2k+1 *)
Definition opv (k : nat) : G2 := if (k =? 0)%nat then smul ch ipk else nth (k - 1) (r_even_vk r) m0.
Definition ovk (k : nat) : G1 := if (2 * k + 1 =? L)%nat then smul (r_csk r) (p1_g1 p1) else nth k (r_odd_vk r) m0.
Definition on (k : nat) : nat := length (nth (2 * k) (c_t cm) []).
Definition oz (k j : nat) : G1 := zv (on k) (nth (2 * k) revealed []) (nth k (c_odd_rev cm) []) (nth k (r_odd_a r) []) (ovk k) ch j.
Definition oS (k : nat) : GT := vs pair (p1_g1 p1) (p1_g2 p1) (p1_y p1) (nth k (c_odd_r cm) m0) (nth k (r_odd_s r) m0) (opv k) ch.
Definition oT (k : nat) : list GT := map (fun j => vt pair (p1_g2 p1) (p1_y p1) (nth k (c_odd_r cm) m0) (nth j (nth k (r_odd_t r) []) m0) (opv k) (oz k j) j) (seq 0 (on k)).
(** even level 2k+2 *)
Definition evk (k : nat) : G2 := if (2 * k + 2 =? L)%nat then smul (r_csk r) (p2_g2 p2) else nth k (r_even_vk r) m0.
Definition en (k : nat) : nat := length (nth (2 * k + 1) (c_t cm) []).
Definition ez (k j : nat) : G2 := zv (en k) (nth (2 * k + 1) revealed []) (nth k (c_even_rev cm) []) (nth k (r_even_a r) []) (evk k) ch j.
Definition eS (k : nat) : GT := vs (fun m w => pair w m) (p2_g2 p2) (p2_g1 p2) (p2_y p2) (nth k (c_even_r cm) m0) (nth k (r_even_s r) m0) (nth k (r_odd_vk r) m0) ch.
Definition eT (k : nat) : list GT := map (fun j => vt (fun m w => pair w m) (p2_g1 p2) (p2_y p2) (nth k (c_even_r cm) m0) (nth j (nth k (r_even_t r) []) m0) (nth k (r_odd_vk r) m0) (ez k j) j) (seq 0 (en k)).

Lemma rstep_odd_inv k v : (0 < on k)%nat -> rstep (2 * k + 1) = Ok v -> v = (oS k, oT k) /\ (on k <= length (p1_y p1))%nat /\ (on k <= length (nth k (r_odd_t r) []))%nat /\
  (forall j, (j < on k - 1)%nat -> mem j (nth (2 * k) revealed []) = true -> exists a, lookup (nth k (c_odd_rev cm) []) j = Ok a).
Proof.
  intros P E. unfold rstep in E. destruct (odd_double k) as (Q1 & Q2). rewrite Q1, Q2 in E. cbn [Nat.eqb] in E. replace (2 * k + 1 - 1)%nat with (2 * k)%nat in E by lia.
  apply rbind_ok in E as (ct & E1 & E). apply (at_inv _ _ _ []) in E1 as (_ & ->). fold (on k) in E.
  apply rbind_ok in E as (rev & E1 & E). apply (at_inv _ _ _ []) in E1 as (_ & ->).
  apply rbind_ok in E as (ra & E1 & E). apply (at_inv _ _ _ []) in E1 as (_ & ->).
  apply rbind_ok in E as ([] & E1 & E). apply check_counts_inv in E1.
  apply rbind_ok in E as (rs & E2 & E). apply (at_inv _ _ _ m0) in E2 as (_ & ->).
  apply rbind_ok in E as (R & E2 & E). apply (at_inv _ _ _ m0) in E2 as (_ & ->).
  apply rbind_ok in E as (prev & E2 & E).
  apply rbind_ok in E as (rt & E3 & E). apply (at_inv _ _ _ []) in E3 as (_ & ->).
  apply rbind_ok in E as (revmap & E3 & E). apply (at_inv _ _ _ []) in E3 as (_ & ->).
  apply rbind_ok in E as (com_t & E3 & E).
  assert (prev = None /\ k = 0%nat \/ prev = Some (opv k) /\ k <> 0%nat) as HP.
  { destruct (Nat.eq_dec k 0) as [->|N]; [left|right].
    - cbn [Nat.mul Nat.add Nat.eqb] in E2. split; [congruence|reflexivity].
    - assert ((2 * k + 1 =? 1)%nat = false) as Q by (apply Nat.eqb_neq; lia). rewrite Q in E2. apply rbind_ok in E2 as (w & Ew & E2).
      apply (at_inv _ _ _ m0) in Ew as (_ & ->). split; [|exact N]. unfold opv. apply Nat.eqb_neq in N. rewrite N. congruence. }
  clear E2.
  apply (recon_t_inv C LW H2 pair B1 _ _ _ (p1_y p1) _ _ _ _ _ _ _ (ovk k) (opv k) ch) in E3; [|exact P|reflexivity| |].
  - destruct E3 as (LT & LK & ->). split; [|split; [exact E1|split; [exact LT|exact LK]]].
    change (map _ (seq 0 (on k))) with (oT k) in E. clear LT.
    match type of E with Ok (?cs, _) = _ => assert (v = (cs, oT k)) as -> by congruence end. f_equal. clear E.
    unfold oS, vs, opv. destruct HP as [ (-> & ->) | (-> & N) ].
    + cbn [Nat.eqb]. rewrite !(p_smul_r C LW). unfold msub. module_coefs HK HT; ring.
    + rewrite (p_opp_l C LW), (p_smul_r C LW). unfold opv. unfold msub. module_coefs HK HT; ring.
  - intros j w Ew. apply rbind_ok in Ew as (y & Ey & Ew). apply (at_inv _ _ _ m0) in Ey as (_ & ->). destruct HP as [ (-> & ->) | (-> & N) ].
    + assert (w = pair (nth j (p1_y p1) m0) (smul (fopp ch) ipk)) as -> by congruence. unfold opv. cbn [Nat.eqb]. rewrite !(p_smul_r C LW). module_coefs HK HT; ring.
    + assert (w = pair (mopp (nth j (p1_y p1) m0)) (opv k)) as -> by congruence. apply (p_opp_l C LW).
  - intros w Ew. unfold ovk. destruct (2 * k + 1 =? L)%nat; cbn [negb] in Ew.
    + assert (w = pair (smul (r_csk r) (p1_g1 p1)) (mopp (p1_g2 p1))) as -> by congruence. apply (pair_opp_r C LW).
    + apply rbind_ok in Ew as (x & Ex & Ew). apply (at_inv _ _ _ m0) in Ex as (_ & ->).
      assert (w = pair (nth k (r_odd_vk r) m0) (mopp (p1_g2 p1))) as -> by congruence. apply (pair_opp_r C LW).
Qed.
Lemma rstep_even_inv k v : (0 < en k)%nat -> rstep (2 * k + 2) = Ok v -> v = (eS k, eT k) /\ (en k <= length (p2_y p2))%nat /\ (en k <= length (nth k (r_even_t r) []))%nat /\
  (forall j, (j < en k - 1)%nat -> mem j (nth (2 * k + 1) revealed []) = true -> exists a, lookup (nth k (c_even_rev cm) []) j = Ok a).
Proof.
  intros P E. unfold rstep in E. destruct (even_double k) as (Q1 & Q2 & _). rewrite Q1, Q2 in E. cbn [Nat.eqb] in E. replace (2 * k + 2 - 1)%nat with (2 * k + 1)%nat in E by lia.
  apply rbind_ok in E as (ct & E1 & E). apply (at_inv _ _ _ []) in E1 as (_ & ->). fold (en k) in E.
  apply rbind_ok in E as (rev & E1 & E). apply (at_inv _ _ _ []) in E1 as (_ & ->).
  apply rbind_ok in E as (ra & E1 & E). apply (at_inv _ _ _ []) in E1 as (_ & ->).
  apply rbind_ok in E as ([] & E1 & E). apply check_counts_inv in E1.
  apply rbind_ok in E as (rs & E2 & E). apply (at_inv _ _ _ m0) in E2 as (_ & ->).
  apply rbind_ok in E as (R & E2 & E). apply (at_inv _ _ _ m0) in E2 as (_ & ->).
  apply rbind_ok in E as (pv & E2 & E). apply (at_inv _ _ _ m0) in E2 as (_ & ->).
  apply rbind_ok in E as (rt & E3 & E). apply (at_inv _ _ _ []) in E3 as (_ & ->).
  apply rbind_ok in E as (revmap & E3 & E). apply (at_inv _ _ _ []) in E3 as (_ & ->).
  apply rbind_ok in E as (com_t & E3 & E).
  apply (recon_t_inv C LW H1 (fun m w => pair w m) B2 _ _ _ (p2_y p2) _ _ _ _ _ _ _ (evk k) (nth k (r_odd_vk r) m0) ch) in E3; [|exact P|reflexivity| |].
  - destruct E3 as (LT & LK & ->). split; [|split; [exact E1|split; [exact LT|exact LK]]].
    change (map _ (seq 0 (en k))) with (eT k) in E. clear LT.
    match type of E with Ok (?cs, _) = _ => assert (v = (cs, eT k)) as -> by congruence end. f_equal. clear E.
    unfold eS, vs. rewrite (p_smul_l C LW), (pair_opp_r C LW). unfold msub. module_coefs HK HT; ring.
  - intros j w Ew. apply rbind_ok in Ew as (y & Ey & Ew). apply (at_inv _ _ _ m0) in Ey as (_ & ->).
    assert (w = pair (nth k (r_odd_vk r) m0) (mopp (nth j (p2_y p2) m0))) as -> by congruence. apply (pair_opp_r C LW).
  - intros w Ew. unfold evk. destruct (2 * k + 2 =? L)%nat; cbn [negb] in Ew.
    + assert (w = pair (smul (r_csk r) (mopp (p2_g1 p2))) (p2_g2 p2)) as -> by congruence. rewrite (p_smul_l C LW), (p_smul_r C LW), (p_opp_l C LW). module_coefs HK HT; ring.
    + apply rbind_ok in Ew as (x & Ex & Ew). apply (at_inv _ _ _ m0) in Ex as (_ & ->).
      assert (w = pair (mopp (p2_g1 p2)) (nth k (r_even_vk r) m0)) as -> by congruence. apply (p_opp_l C LW).
Qed.

Lemma rstep_odd_length k v : rstep (2 * k + 1) = Ok v -> length (snd v) = (on k - 1 + 1)%nat.
Proof.
  intros E. unfold rstep in E. destruct (odd_double k) as (Q1 & Q2). rewrite Q1, Q2 in E. cbn [Nat.eqb] in E. replace (2 * k + 1 - 1)%nat with (2 * k)%nat in E by lia.
  apply rbind_ok in E as (ct & E1 & E). apply (at_inv _ _ _ []) in E1 as (_ & ->).
  do 7 (apply rbind_ok in E as (? & _ & E)). apply rbind_ok in E as (? & _ & E). apply rbind_ok in E as (com_t & E3 & E). apply recon_t_length in E3.
  match type of E with Ok ?x = _ => assert (v = x) as -> by congruence end. exact E3.
Qed.
Lemma rstep_even_length k v : rstep (2 * k + 2) = Ok v -> length (snd v) = (en k - 1 + 1)%nat.
Proof.
  intros E. unfold rstep in E. destruct (even_double k) as (Q1 & Q2 & _). rewrite Q1, Q2 in E. cbn [Nat.eqb] in E. replace (2 * k + 2 - 1)%nat with (2 * k + 1)%nat in E by lia.
  apply rbind_ok in E as (ct & E1 & E). apply (at_inv _ _ _ []) in E1 as (_ & ->).
  do 7 (apply rbind_ok in E as (? & _ & E)). apply rbind_ok in E as (? & _ & E). apply rbind_ok in E as (com_t & E3 & E). apply recon_t_length in E3.
  match type of E with Ok ?x = _ => assert (v = x) as -> by congruence end. exact E3.
Qed.

Record odd_shape (k : nat) : Prop := {
  os_t : (2 * k < length (c_t cm))%nat; os_rev : (2 * k < length revealed)%nat; os_a : (k < length (r_odd_a r))%nat; os_s : (k < length (r_odd_s r))%nat;
  os_R : (k < length (c_odd_r cm))%nat; os_pv : (0 < k -> k - 1 < length (r_even_vk r))%nat; os_rt : (k < length (r_odd_t r))%nat; os_map : (k < length (c_odd_rev cm))%nat;
  os_vk : (2 * k + 1 <> L -> k < length (r_odd_vk r))%nat;
  os_counts : check_counts (on k) (nth (2 * k) revealed []) (length (p1_y p1)) (length (nth k (r_odd_a r) [])) = Ok tt;
  os_n : (0 < on k)%nat; os_ny : (on k <= length (p1_y p1))%nat; os_nt : (on k <= length (nth k (r_odd_t r) []))%nat;
  os_look : forall j, (j < on k - 1)%nat -> mem j (nth (2 * k) revealed []) = true -> exists a, lookup (nth k (c_odd_rev cm) []) j = Ok a;
  os_hid : forall j, (j < on k - 1)%nat -> mem j (nth (2 * k) revealed []) = false -> (unrev_below (fun i => mem i (nth (2 * k) revealed [])) j < length (nth k (r_odd_a r) []))%nat }.
Record even_shape (k : nat) : Prop := {
  es_t : (2 * k + 1 < length (c_t cm))%nat; es_rev : (2 * k + 1 < length revealed)%nat; es_a : (k < length (r_even_a r))%nat; es_s : (k < length (r_even_s r))%nat;
  es_R : (k < length (c_even_r cm))%nat; es_pv : (k < length (r_odd_vk r))%nat; es_rt : (k < length (r_even_t r))%nat; es_map : (k < length (c_even_rev cm))%nat;
  es_vk : (2 * k + 2 <> L -> k < length (r_even_vk r))%nat;
  es_counts : check_counts (en k) (nth (2 * k + 1) revealed []) (length (p2_y p2)) (length (nth k (r_even_a r) [])) = Ok tt;
  es_n : (0 < en k)%nat; es_ny : (en k <= length (p2_y p2))%nat; es_nt : (en k <= length (nth k (r_even_t r) []))%nat;
  es_look : forall j, (j < en k - 1)%nat -> mem j (nth (2 * k + 1) revealed []) = true -> exists a, lookup (nth k (c_even_rev cm) []) j = Ok a;
  es_hid : forall j, (j < en k - 1)%nat -> mem j (nth (2 * k + 1) revealed []) = false -> (unrev_below (fun i => mem i (nth (2 * k + 1) revealed [])) j < length (nth k (r_even_a r) []))%nat }.
Lemma rstep_odd_eq k : odd_shape k -> rstep (2 * k + 1) = Ok (oS k, oT k).
Proof.
  intros SH. destruct (odd_double k) as (Q1 & Q2).
  assert (rstep (2 * k + 1) = rstep (2 * k + 1)) as E by reflexivity. unfold rstep in E at 2. rewrite Q1, Q2 in E. cbn [Nat.eqb] in E. replace (2 * k + 1 - 1)%nat with (2 * k)%nat in E by lia.
  rewrite (at_ok _ _ [] (os_t k SH)), (at_ok _ _ [] (os_rev k SH)), (at_ok _ _ [] (os_a k SH)), (at_ok _ _ m0 (os_s k SH)), (at_ok _ _ m0 (os_R k SH)), (at_ok _ _ [] (os_rt k SH)), (at_ok _ _ [] (os_map k SH)) in E.
  cbn [rbind] in E. change (length (nth (2 * k) (c_t cm) [])) with (on k) in E. rewrite (os_counts k SH) in E. cbn [rbind] in E.
  assert (exists prev, (if (2 * k + 1 =? 1)%nat then Ok None else let! v := at_ (r_even_vk r) (k - 1) in Ok (Some v)) = Ok prev /\ (prev = None /\ k = 0%nat \/ prev = Some (opv k))) as (prev & EP & HP).
  { destruct (Nat.eq_dec k 0) as [->|N]; [eexists; split; [reflexivity|now left]|].
    assert ((2 * k + 1 =? 1)%nat = false) as -> by (apply Nat.eqb_neq; lia). rewrite (at_ok _ _ m0 (os_pv k SH ltac:(lia))). eexists. split; [reflexivity|]. right.
    unfold opv. apply Nat.eqb_neq in N. now rewrite N. }
  rewrite EP in E. cbn [rbind] in E.
  rewrite (recon_t_eq C LW H2 pair B1 _ _ _ (p1_y p1) _ _ _ _ _ _ _ (ovk k) (opv k) ch) in E.
  - cbn [rbind] in E. destruct (rstep (2 * k + 1)) eqn:Q; [|discriminate]. apply (rstep_odd_inv k) in Q as (-> & _); [reflexivity|apply SH].
  - apply SH.
  - reflexivity.
  - intros j Hj. pose proof (os_ny k SH). rewrite (at_ok (p1_y p1) j m0) by lia. cbn [rbind]. f_equal. destruct HP as [ (-> & ->) | -> ].
    + unfold opv. cbn [Nat.eqb]. rewrite !(p_smul_r C LW). module_coefs HK HT; ring.
    + apply (p_opp_l C LW).
  - unfold ovk. destruct (Nat.eqb_spec (2 * k + 1) L) as [EQ|NE]; cbn [negb].
    + f_equal. apply (pair_opp_r C LW).
    + rewrite (at_ok _ _ m0 (os_vk k SH NE)). cbn [rbind]. f_equal. apply (pair_opp_r C LW).
  - apply SH.
  - apply SH.
  - apply SH.
Qed.
Lemma rstep_even_eq k : even_shape k -> rstep (2 * k + 2) = Ok (eS k, eT k).
Proof.
  intros SH. destruct (even_double k) as (Q1 & Q2 & _).
  assert (rstep (2 * k + 2) = rstep (2 * k + 2)) as E by reflexivity. unfold rstep in E at 2. rewrite Q1, Q2 in E. cbn [Nat.eqb] in E. replace (2 * k + 2 - 1)%nat with (2 * k + 1)%nat in E by lia.
  rewrite (at_ok _ _ [] (es_t k SH)), (at_ok _ _ [] (es_rev k SH)), (at_ok _ _ [] (es_a k SH)), (at_ok _ _ m0 (es_s k SH)), (at_ok _ _ m0 (es_R k SH)), (at_ok _ _ [] (es_rt k SH)), (at_ok _ _ [] (es_map k SH)), (at_ok _ _ m0 (es_pv k SH)) in E.
  cbn [rbind] in E. change (length (nth (2 * k + 1) (c_t cm) [])) with (en k) in E. rewrite (es_counts k SH) in E. cbn [rbind] in E.
  rewrite (recon_t_eq C LW H1 (fun m w => pair w m) B2 _ _ _ (p2_y p2) _ _ _ _ _ _ _ (evk k) (nth k (r_odd_vk r) m0) ch) in E.
  - cbn [rbind] in E. destruct (rstep (2 * k + 2)) eqn:Q; [|discriminate]. apply (rstep_even_inv k) in Q as (-> & _); [reflexivity|apply SH].
  - apply SH.
  - reflexivity.
  - intros j Hj. pose proof (es_ny k SH). rewrite (at_ok (p2_y p2) j m0) by lia. cbn [rbind]. f_equal. apply (pair_opp_r C LW).
  - unfold evk. destruct (Nat.eqb_spec (2 * k + 2) L) as [EQ|NE]; cbn [negb].
    + f_equal. rewrite (p_smul_l C LW), (p_smul_r C LW), (p_opp_l C LW). module_coefs HK HT; ring.
    + rewrite (at_ok _ _ m0 (es_vk k SH NE)). cbn [rbind]. f_equal. apply (p_opp_l C LW).
  - apply SH.
  - apply SH.
  - apply SH.
Qed.
End Vals.

Lemma check_odd_iff n L : check_odd n L = Ok tt <-> n = ((L + 1) / 2)%nat.
Proof.
  unfold check_odd. rewrite half_up. destruct (L mod 2 =? 1)%nat.
  - destruct (Nat.eqb_spec n (L / 2 + 1)); cbn [negb]; split; intros; solve [assumption|reflexivity|discriminate|contradiction].
  - destruct (Nat.eqb_spec n (L / 2)); cbn [negb]; split; intros; solve [assumption|reflexivity|discriminate|contradiction].
Qed.
Lemma check_even_iff n L : check_even n L = Ok tt <-> n = (L / 2)%nat.
Proof. unfold check_even. destruct (Nat.eqb_spec n (L / 2)); cbn [negb]; split; intros; solve [assumption|reflexivity|discriminate|contradiction]. Qed.
Record comm_lengths (cm : comm C) (L : nat) : Prop := {
  cmv_t : length (c_t cm) = L; cmv_s : length (c_s cm) = L; cmv_or : length (c_odd_r cm) = ((L + 1) / 2)%nat; cmv_er : length (c_even_r cm) = (L / 2)%nat;
  cmv_ov : length (c_odd_rev cm) = ((L + 1) / 2)%nat; cmv_ev : length (c_even_rev cm) = (L / 2)%nat }.
Lemma halves L : ((L + 1) / 2 + L / 2 = L)%nat.
Proof. pose proof (half_up L). pose proof (Nat.div_mod L 2 ltac:(lia)). pose proof (Nat.mod_upper_bound L 2 ltac:(lia)). destruct (Nat.eqb_spec (L mod 2) 1); lia. Qed.
Lemma comm_validate_iff (cm : comm C) L : comm_validate cm L = Ok tt <-> comm_lengths cm L.
Proof.
  unfold comm_validate. split.
  - intros E. destruct (Nat.eqb_spec (length (c_t cm)) L); [|discriminate]. destruct (Nat.eqb_spec (length (c_s cm)) L); [|discriminate]. cbn [negb] in E.
    destruct (_ =? L)%nat; [|discriminate]. destruct (_ =? L)%nat; [|discriminate]. cbn [negb] in E.
    apply rbind_ok in E as ([] & E1 & E). apply rbind_ok in E as ([] & E2 & E). apply rbind_ok in E as ([] & E3 & E).
    apply check_odd_iff in E1, E2. apply check_even_iff in E3, E. split; assumption.
  - intros [A B O E OV EV]. rewrite A, B, O, E, OV, EV, halves, !Nat.eqb_refl. cbn [negb].
    rewrite (proj2 (check_odd_iff _ L) eq_refl). cbn [rbind]. rewrite (proj2 (check_even_iff _ L) eq_refl). reflexivity.
Qed.

(** the variant with precomputed values is the same function *)
Lemma rmap_binds {A B} (f g : A -> res B) l : (forall x, In x l -> f x = g x) -> rmap f l = rmap g l.
Proof. apply rmap_ext. Qed.
Lemma recon_t_ext {M W : modOps K} (e : M -> W -> GT) (gw gw_c R : W) f g rt ra rev (revmap : list (nat * M)) n vk vk' : (forall j, f j = g j) -> vk = vk' ->
  recon_t (C := C) e gw gw_c R f rt ra rev revmap n vk = recon_t e gw gw_c R g rt ra rev revmap n vk'.
Proof.
  intros E <-. unfold recon_t. rewrite (rmap_ext _ (fun j => let! tj := at_ rt j in let! x := if mem j rev then let! a := lookup revmap j in Ok (e a gw_c) else let! a := at_ ra (unrev_below (fun i => mem i rev) j) in Ok (e a (mopp gw)) in let! y := g j in Ok (madd (madd (e tj R) x) y))) by (intros j _; now rewrite E).
  now rewrite E.
Qed.
Lemma precomputed_eq L (cm : comm C) r ch revealed ipk (p1 : params1 C) (p2 : params2 C) pr : precomp_recon_new ipk p1 p2 = Ok pr ->
  reconstruct_with_precomputed L cm r ch revealed p1 p2 pr = reconstruct_commitment L cm r ch revealed ipk p1 p2.
Proof.
  intros E. unfold precomp_recon_new in E. apply rbind_ok in E as (y0 & E1 & E). apply rbind_ok in E as (y0' & E2 & E).
  match type of E with Ok ?x = Ok _ => assert (pr = x) as -> by congruence end. clear E.
  unfold reconstruct_with_precomputed, reconstruct_commitment. rewrite E1, E2. cbn [rbind pr_inv1 pr_inv2 pr_y0_g2 pr_g1_y0 pr_g1_ipk pr_y_ipk].
  destruct (comm_validate cm L); cbn [rbind]; [|reflexivity]. destruct (resp_validate r L); cbn [rbind]; [|reflexivity].
  f_equal. apply rmap_ext. intros i _. destruct (i mod 2 =? 1)%nat.
  - destruct (at_ (c_t cm) (i - 1)) as [ct|]; cbn [rbind]; [|reflexivity]. destruct (at_ revealed (i - 1)) as [rev|]; cbn [rbind]; [|reflexivity].
    destruct (at_ (r_odd_a r) (i / 2)) as [ra|]; cbn [rbind]; [|reflexivity]. destruct (check_counts _ _ _ _); cbn [rbind]; [|reflexivity].
    destruct (at_ (r_odd_s r) (i / 2)) as [rs|]; cbn [rbind]; [|reflexivity]. destruct (at_ (c_odd_r cm) (i / 2)) as [R|]; cbn [rbind]; [|reflexivity].
    destruct (if (i =? 1)%nat then _ else _) as [prev|]; cbn [rbind]; [|reflexivity].
    destruct (at_ (r_odd_t r) (i / 2)) as [rt|]; cbn [rbind]; [|reflexivity]. destruct (at_ (c_odd_rev cm) (i / 2)) as [revmap|]; cbn [rbind]; [|reflexivity].
    match goal with |- rbind (recon_t _ _ _ _ ?f _ _ _ _ _ ?vk) _ = rbind (recon_t _ _ _ _ ?g _ _ _ _ _ ?vk') _ =>
      assert (forall j, f j = g j) as EF; [|assert (vk = vk') as EV; [|rewrite (recon_t_ext pair (p1_g2 p1) (smul (fopp ch) (p1_g2 p1)) R f g rt ra rev revmap (length ct) vk vk' EF EV)]] end.
    + intros j. destruct prev as [v|]; [reflexivity|]. unfold at_. rewrite nth_error_map. destruct (nth_error (p1_y p1) j); cbn [option_map rbind]; [|reflexivity]. f_equal. now rewrite (p_smul_r C LW).
    + destruct (i =? L)%nat; cbn [negb]; [|reflexivity]. f_equal. rewrite (p_smul_l C LW), (pair_opp_r C LW), (p_opp_l C LW). reflexivity.
    + destruct (recon_t _ _ _ _ _ _ _ _ _ _ _); cbn [rbind]; [|reflexivity]. f_equal. f_equal. destruct prev as [v|]; rewrite !(p_smul_r C LW); [reflexivity|]. module_coefs HK HT; ring.
  - destruct (at_ (c_t cm) (i - 1)) as [ct|]; cbn [rbind]; [|reflexivity]. destruct (at_ revealed (i - 1)) as [rev|]; cbn [rbind]; [|reflexivity].
    destruct (at_ (r_even_a r) (i / 2 - 1)) as [ra|]; cbn [rbind]; [|reflexivity]. destruct (check_counts _ _ _ _); cbn [rbind]; [|reflexivity].
    destruct (at_ (c_even_r cm) (i / 2 - 1)) as [R|]; cbn [rbind]; [|reflexivity]. destruct (at_ (r_even_s r) (i / 2 - 1)) as [rs|]; cbn [rbind]; [|reflexivity].
    destruct (at_ (r_odd_vk r) (i / 2 - 1)) as [v|]; cbn [rbind]; [|reflexivity].
    destruct (at_ (r_even_t r) (i / 2 - 1)) as [rt|]; cbn [rbind]; [|reflexivity]. destruct (at_ (c_even_rev cm) (i / 2 - 1)) as [revmap|]; cbn [rbind]; [|reflexivity].
    match goal with |- rbind (recon_t _ _ _ _ ?f _ _ _ _ _ ?vk) _ = rbind (recon_t _ _ _ _ ?g _ _ _ _ _ ?vk') _ =>
      assert (forall j, f j = g j) as EF; [|assert (vk = vk') as EV; [|rewrite (recon_t_ext (fun m w => pair w m) (p2_g1 p2) (smul (fopp ch) (p2_g1 p2)) R f g rt ra rev revmap (length ct) vk vk' EF EV)]] end.
    + reflexivity.
    + destruct (i =? L)%nat; cbn [negb]; [|reflexivity]. f_equal. now rewrite (p_smul_l C LW).
    + destruct (recon_t _ _ _ _ _ _ _ _ _ _ _); cbn [rbind]; [|reflexivity]. f_equal. f_equal. now rewrite (p_smul_l C LW).
Qed.
End Recon.

(** The Merkle-path circuits: what a satisfying assignment says, and how an honest prover
    satisfies them. *)
From Verif Require Import Base Alg R1csModel R1csSpec R1csLib GadgetModel GadgetLib PoseidonLib MerkleSpec.
Open Scope list_scope.
Open Scope Z_scope.
Open Scope cs_scope.

(** the (byte, position) pairs the loop over a 4-ary index visits *)
Definition quads (n : nat) : list (nat * nat) := flat_map (fun i => map (pair i) (seq 0 4)) (seq 0 n).
Lemma quads_length n : length (quads n) = (4 * n)%nat.
Proof. unfold quads. enough (forall n k, length (flat_map (fun i => map (pair i) (seq 0 4)) (seq k n)) = (4 * n)%nat) as Q by apply Q. clear n. induction n as [|n IH]; intros k; [reflexivity|]. cbn [seq flat_map]. rewrite app_length, map_length, IH. cbn [length]. lia. Qed.
Lemma quads_nth n k : (k < 4 * n)%nat -> nth_error (quads n) k = Some (k / 4, k mod 4)%nat.
Proof.
  unfold quads. enough (forall n b k, (k < 4 * n)%nat -> nth_error (flat_map (fun i => map (pair i) (seq 0 4)) (seq b n)) k = Some (b + k / 4, k mod 4)%nat) as Q by (intros L; now rewrite Q).
  clear n k. induction n as [|n IH]; intros b k L; [lia|]. cbn [seq flat_map]. destruct (le_lt_dec 4 k) as [G|G].
  - rewrite nth_error_app2 by exact G. cbn [map length]. rewrite IH by lia. replace k with (k - 4 + 1 * 4)%nat at 3 4 by lia. rewrite Nat.div_add, Nat.mod_add by lia. do 2 f_equal. lia.
  - rewrite nth_error_app1 by exact G. rewrite Nat.div_small, Nat.mod_small by exact G. rewrite Nat.add_0_r. destruct k as [|[|[|[|k]]]]; try reflexivity. lia.
Qed.

Section Lib.
Context {K : fieldOps} (HK : field_laws K).
Add Field Kf : (proj1 HK).
Context (ZK : zops K) (q : Z) (LZ : zlaws ZK q).

Section Sound.
Context {Pt : Type} (w : @assignment K).
Notation VS := (vstate K Pt).
Notation sound := (soundM (Pt := Pt) w).
Notation lv := (lc_value w).

Definition bitp (b b1 : K) : Prop := (b = f0 /\ b1 = f1) \/ (b = f1 /\ b1 = f0).
Lemma sound_alloc_bit x : sound (alloc_bit (@V K Pt) x) (fun '(b, b_1) => w VOne = f1 -> bitp (w b) (w b_1)).
Proof.
  unfold alloc_bit. eapply sound_bind; [apply (sound_alloc_vars w)|]. intros [[b b1] o].
  eapply sound_bind; [apply (sound_constrain w)|]. intros [].
  eapply sound_bind; [apply (sound_constrain w)|]. intros [].
  apply sound_ret. intros E2 E1 E O. rewrite (lv_add HK), (lv_sub HK), !(lv_var HK), (lv_const HK) in E2 by exact O. rewrite (lv_var HK) in E1.
  rewrite E1 in E. destruct (f_mul0 HK _ _ (eq_sym E)) as [Z0|Z0]; rewrite Z0 in *; [left|right]; (split; [reflexivity || idtac|reflexivity || idtac]).
  - apply (f_sub_eq' HK). rewrite <- E2. ring.
  - apply (f_sub_eq' HK). rewrite <- E2. ring.
Qed.
Lemma sound_mul l r : sound (mul (@V K Pt) l r) (fun o => w o = fmul (lv l) (lv r)).
Proof. unfold mul. eapply sound_bind; [apply (sound_multiply HK w)|]. intros [[a b] o]. apply sound_ret. now intros (_ & _ & E). Qed.
Lemma lv_one_minus v : w VOne = f1 -> lv (one_minus v) = fsub f1 (w v).
Proof. intros O. unfold one_minus. now rewrite (lv_sub HK), !(lv_var HK), O. Qed.

Ltac sm := eapply sound_bind; [apply sound_mul|]; intro.
Ltac lvs O := rewrite ?(lv_add HK), ?(lv_sub HK), ?(lv_var HK), ?lv_one_minus by exact O.
Ltac lvh O E := rewrite ?(lv_add HK), ?(lv_sub HK), ?(lv_var HK), ?lv_one_minus in E by exact O.
Definition bitn (b : K) (n : nat) : Prop := (b = f0 /\ n = 0%nat) \/ (b = f1 /\ n = 1%nat).
Lemma bitp_n b b1 : bitp b b1 -> exists n, bitn b n.
Proof. intros [[-> _]|[-> _]]; [exists 0%nat; now left|exists 1%nat; now right]. Qed.
Ltac kids :=
  repeat match goal with |- _ = _ -> _ => intro end;
  match goal with O : w VOne = f1 |- _ =>
    repeat match goal with E : w _ = fmul _ _ |- _ => progress (lvh O E) end;
    intros; cbn [map]; lvs O end;
  repeat match goal with B : bitp _ _ |- _ => destruct B as [[? ?]|[? ?]] end;
  repeat match goal with H : bitn (w ?b) ?n, E : w ?b = _ |- _ => rewrite E in H; destruct H as [[? ->]|[? ->]]; try (exfalso; apply (f1_neq_0 _ HK); congruence) end;
  cbn [Nat.add Nat.mul children firstn skipn app];
  repeat match goal with E : w ?o = _ |- context [w ?o] => rewrite E end;
  repeat (apply f_equal2; [ring|]); reflexivity.
Lemma sound_children4 b0 b0_1 b1 b1_1 prev N1 N2 N3 : sound (children4 (@V K Pt) b0 b0_1 b1 b1_1 prev N1 N2 N3)
  (fun l => w VOne = f1 -> bitp (w b0) (w b0_1) -> bitp (w b1) (w b1_1) -> forall n0 n1, bitn (w b0) n0 -> bitn (w b1) n1 ->
     map lv l = children (n0 + 2 * n1) [lv N1; lv N2; lv N3] (lv prev)).
Proof.
  unfold children4. repeat sm. apply sound_ret. kids.
Qed.
Lemma sound_children8 b0 b0_1 b1 b1_1 b2 b2_1 prev N1 N2 N3 N4 N5 N6 N7 : sound (children8 (@V K Pt) b0 b0_1 b1 b1_1 b2 b2_1 prev N1 N2 N3 N4 N5 N6 N7)
  (fun l => w VOne = f1 -> bitp (w b0) (w b0_1) -> bitp (w b1) (w b1_1) -> bitp (w b2) (w b2_1) -> forall n0 n1 n2, bitn (w b0) n0 -> bitn (w b1) n1 -> bitn (w b2) n2 ->
     map lv l = children (n0 + 2 * n1 + 4 * n2) [lv N1; lv N2; lv N3; lv N4; lv N5; lv N6; lv N7] (lv prev)).
Proof.
  unfold children8. repeat sm. apply sound_ret. kids.
Qed.

(** ** The loops, for any hash whose constraints are sound for [H] *)
Variable hv : list (lc K) -> csm VS (lc K).
Variable H : list K -> res K.
Hypothesis Hh : forall ins, sound (hv ins) (fun h => H (map lv ins) = Ok (lv h)).
Definition step_ok (arity : nat) (m m' : mstate (K := K)) : Prop :=
  (ms_nodes m = [] /\ m' = m) \/
  exists d sibs, (d < arity)%nat /\ S (length sibs) = arity /\ map w (rev (ms_nodes m)) = map w (rev (ms_nodes m')) ++ sibs /\
    lv (ms_cli m') = fadd (lv (ms_cli m)) (fmul (ms_exp m) (zof ZK (Z.of_nat d))) /\ ms_exp m' = fmul (ms_exp m) (zof ZK (Z.of_nat arity)) /\
    H (children d sibs (lv (ms_hash m))) = Ok (lv (ms_hash m')).
Lemma bitn_lt b n : bitn b n -> (n < 2)%nat.
Proof. intros [[_ ->]|[_ ->]]; lia. Qed.
Lemma bitn_val b n : bitn b n -> b = zof ZK (Z.of_nat n).
Proof. intros [[-> ->]|[-> ->]]; symmetry; [apply (zl_0 LZ)|apply (zl_1 LZ)]. Qed.
Lemma sound_step4 bytes ij m : sound (merkle4_step ZK V hv bytes ij m) (fun m' => w VOne = f1 -> step_ok 4 m m').
Proof.
  unfold merkle4_step. destruct (ms_nodes m) as [|v3 rest] eqn:En; [apply sound_ret; intros _; now left|]. destruct ij as [i j].
  eapply sound_bind with (Q1 := fun _ => True); [apply sound_clift; auto|]. intros x0. eapply sound_bind; [apply sound_alloc_bit|]. intros [b0 b0_1].
  eapply sound_bind with (Q1 := fun _ => True); [apply sound_clift; auto|]. intros x1. eapply sound_bind; [apply sound_alloc_bit|]. intros [b1 b1_1].
  destruct rest as [|v2 [|v1 nodes]]; [apply sound_fail|apply sound_fail|].
  eapply sound_bind; [apply sound_children4|]. intros input. eapply sound_bind; [apply Hh|]. intros h. apply sound_ret. intros EH EC B1 _ B0 _ O.
  specialize (B0 O). specialize (B1 O). destruct (bitp_n _ _ B0) as [n0 N0]. destruct (bitp_n _ _ B1) as [n1 N1']. specialize (EC O B0 B1 n0 n1 N0 N1').
  right. exists (n0 + 2 * n1)%nat, (map w [v1; v2; v3]). split; [pose proof (bitn_lt _ _ N0); pose proof (bitn_lt _ _ N1'); lia|]. split; [reflexivity|]. cbn [ms_nodes ms_cli ms_exp ms_hash].
  split; [rewrite En; cbn [rev]; rewrite <- !app_assoc, map_app; reflexivity|]. split.
  - rewrite (lv_app HK), !lv_cons, lv_nil, (bitn_val _ _ N0), (bitn_val _ _ N1'). replace (Z.of_nat (n0 + 2 * n1)) with (Z.of_nat n0 + 2 * Z.of_nat n1) by lia. rewrite (zl_add LZ), (zl_mul LZ). ring.
  - split; [reflexivity|]. rewrite (lv_simplify HK), <- EH, EC. cbn [map]. rewrite !(lv_var HK). reflexivity.
Qed.
Lemma sound_step8 oct k m : sound (merkle8_step ZK V hv oct k m) (fun m' => w VOne = f1 -> step_ok 8 m m').
Proof.
  unfold merkle8_step. destruct (ms_nodes m) as [|v7 rest] eqn:En; [apply sound_ret; intros _; now left|].
  eapply sound_bind with (Q1 := fun _ => True); [apply sound_clift; auto|]. intros x0. eapply sound_bind; [apply sound_alloc_bit|]. intros [b0 b0_1].
  eapply sound_bind; [apply sound_alloc_bit|]. intros [b1 b1_1]. eapply sound_bind; [apply sound_alloc_bit|]. intros [b2 b2_1].
  destruct rest as [|v6 [|v5 [|v4 [|v3 [|v2 [|v1 nodes]]]]]]; [apply sound_fail|apply sound_fail|apply sound_fail|apply sound_fail|apply sound_fail|apply sound_fail|].
  eapply sound_bind; [apply sound_children8|]. intros input. eapply sound_bind; [apply Hh|]. intros h. apply sound_ret. intros EH EC B2 B1 B0 _ O.
  specialize (B0 O). specialize (B1 O). specialize (B2 O). destruct (bitp_n _ _ B0) as [n0 N0]. destruct (bitp_n _ _ B1) as [n1 N1']. destruct (bitp_n _ _ B2) as [n2 N2']. specialize (EC O B0 B1 B2 n0 n1 n2 N0 N1' N2').
  right. exists (n0 + 2 * n1 + 4 * n2)%nat, (map w [v1; v2; v3; v4; v5; v6; v7]). split; [pose proof (bitn_lt _ _ N0); pose proof (bitn_lt _ _ N1'); pose proof (bitn_lt _ _ N2'); lia|]. split; [reflexivity|]. cbn [ms_nodes ms_cli ms_exp ms_hash].
  split; [rewrite En; cbn [rev]; rewrite <- !app_assoc, map_app; reflexivity|]. split.
  - rewrite (lv_app HK), !lv_cons, lv_nil, (bitn_val _ _ N0), (bitn_val _ _ N1'), (bitn_val _ _ N2'). replace (Z.of_nat (n0 + 2 * n1 + 4 * n2)) with (Z.of_nat n0 + 2 * Z.of_nat n1 + 4 * Z.of_nat n2) by lia. rewrite !(zl_add LZ), !(zl_mul LZ). ring.
  - split; [reflexivity|]. rewrite (lv_simplify HK), <- EH, EC. cbn [map]. rewrite !(lv_var HK). reflexivity.
Qed.
Definition loop_ok (arity n : nat) (m m' : mstate (K := K)) : Prop := exists steps, path_ok arity steps /\ (length steps <= n)%nat /\ (ms_nodes m' = [] \/ length steps = n) /\
  map w (rev (ms_nodes m)) = map w (rev (ms_nodes m')) ++ path_nodes steps /\
  lv (ms_cli m') = fadd (lv (ms_cli m)) (fmul (ms_exp m) (zof ZK (path_index (Z.of_nat arity) steps))) /\
  climb H (lv (ms_hash m)) steps = Ok (lv (ms_hash m')).
Lemma path_nodes_cons {A} (d : nat) (sibs : list A) steps : path_nodes ((d, sibs) :: steps) = path_nodes steps ++ sibs.
Proof. unfold path_nodes. cbn [rev]. rewrite map_app, concat_app. cbn [map snd concat]. now rewrite app_nil_r. Qed.
Lemma rev_nil_inv {A} (l : list A) : rev l = [] -> l = [].
Proof. intros E. rewrite <- (rev_involutive l), E. reflexivity. Qed.
Lemma sound_loop {X} arity (step : X -> mstate -> csm VS mstate) : (forall x m, sound (step x m) (fun m' => w VOne = f1 -> step_ok arity m m')) ->
  forall xs m, sound (cfold step xs m) (fun m' => w VOne = f1 -> loop_ok arity (length xs) m m').
Proof.
  intros Hs. induction xs as [|x xs IH]; intros m; cbn [cfold].
  - apply sound_ret. intros _. exists []. split; [constructor|]. split; [apply Nat.le_refl|]. split; [now right|]. cbn [path_nodes path_index climb rev map concat]. split; [unfold path_nodes; cbn; now rewrite app_nil_r|]. split; [|reflexivity]. rewrite (zl_0 LZ). ring.
  - eapply sound_bind; [apply Hs|]. intros m1. eapply sound_weaken; [apply IH|]. intros m2 L2 S1 O. specialize (L2 O). specialize (S1 O). destruct L2 as (steps & P1 & P2 & P3 & P4 & P5 & P6).
    destruct S1 as [[En ->]|(d & sibs & D1 & D2 & D3 & D4 & D5 & D6)].
    + exists steps. split; [exact P1|]. cbn [length]. split; [lia|]. split; [left|auto]. rewrite En in P4. cbn in P4. symmetry in P4. apply app_eq_nil in P4 as [P4 _]. apply map_eq_nil, rev_nil_inv in P4. exact P4.
    + exists ((d, sibs) :: steps). split; [constructor; [split; assumption|exact P1]|]. cbn [length]. split; [lia|]. split; [destruct P3 as [P3|P3]; [now left|right; lia]|].
      split; [rewrite D3, P4, path_nodes_cons, <- app_assoc; reflexivity|]. split; [|cbn [climb]; rewrite D6; exact P6].
      rewrite P5, D4, D5. cbn [path_index]. rewrite (zl_add LZ), (zl_mul LZ). ring.
Qed.
Definition accepted (arity n : nat) (root leaf index : K) (nodes : list K) : Prop := exists unused steps, path_ok arity steps /\ (length steps <= n)%nat /\ (unused = [] \/ length steps = n) /\
  nodes = unused ++ path_nodes steps /\ index = zof ZK (path_index (Z.of_nat arity) steps) /\ climb H leaf steps = Ok root.
Definition leaf_val (l : leaf_value) : K := match l with Hidden v => w v | Known x => x end.
Lemma lv_leaf l : w VOne = f1 -> lv (leaf_lc l) = leaf_val l.
Proof. intros O. destruct l; cbn [leaf_lc leaf_val]; [apply (lv_var HK)|apply (lv_const HK); exact O]. Qed.
Lemma sound_finish arity n m0 root leaf idxv nodes (loop : csm VS mstate) : m0 = mkMs (rev nodes) [(idxv, fopp f1)] f1 (leaf_lc leaf) ->
  sound loop (fun m' => w VOne = f1 -> loop_ok arity n m0 m') ->
  sound (cbind loop (fun m => cbind (cs_constrain V (ms_cli m)) (fun _ => constrain_lc_with_scalar V (ms_hash m) root)))
    (fun _ => w VOne = f1 -> accepted arity n root (leaf_val leaf) (w idxv) (map w nodes)).
Proof.
  intros -> SL. eapply sound_bind; [exact SL|]. intros m. eapply sound_bind; [apply (sound_constrain w)|]. intros []. eapply sound_weaken; [apply (sound_clws HK w)|].
  intros [] ER EC L O. destruct (L O) as (steps & P1 & P2 & P3 & P4 & P5 & P6). cbn [ms_nodes ms_cli ms_exp ms_hash] in *. rewrite rev_involutive in P4.
  exists (map w (rev (ms_nodes m))), steps. split; [exact P1|]. split; [exact P2|]. split; [destruct P3 as [->|P3]; [now left|now right]|]. split; [exact P4|]. split.
  - rewrite EC, lv_cons, lv_nil in P5. apply (f_sub_eq' HK). transitivity (fopp (fadd (fadd (fmul (fopp f1) (w idxv)) f0) (fmul f1 (zof ZK (path_index (Z.of_nat arity) steps))))); [ring|]. rewrite <- P5. ring.
  - rewrite ER, lv_leaf in P6 by exact O. exact P6.
Qed.
Lemma sound_merkle4 modbytes depth root leaf a nodes : sound (merkle4_gadget ZK V hv modbytes depth root leaf a nodes)
  (fun _ => accepted 4 (4 * get_byte_size depth 2) root (leaf_val leaf) (w (aq_var a)) (map w nodes)).
Proof.
  apply sound_one. unfold merkle4_gadget. eapply sound_finish; [reflexivity|].
  replace (4 * get_byte_size depth 2)%nat with (length (flat_map (fun i => map (pair i) (seq 0 4)) (seq 0 (get_byte_size depth 2)))).
  - apply sound_loop. intros. apply sound_step4.
  - apply quads_length.
Qed.
Lemma sound_merkle8 depth root leaf a nodes : sound (merkle8_gadget ZK V hv depth root leaf a nodes)
  (fun _ => accepted 8 depth root (leaf_val leaf) (w (aq_var a)) (map w nodes)).
Proof.
  apply sound_one. unfold merkle8_gadget. eapply sound_finish; [reflexivity|]. pose proof (sound_loop 8 (merkle8_step ZK V hv (option_map (fun l => octets_of depth (zto ZK l)) (aq_val a))) (fun k m => sound_step8 _ k m) (seq 0 depth)) as Q. rewrite seq_length in Q. apply Q.
Qed.
End Sound.

Section Compl.
Implicit Types (s : pstate K).
Ltac carry X := repeat match goal with
  | H : hasv ?s _ _ |- _ => match type of X with pext s _ => apply (hasv_ext _ _ _ _ X) in H end
  | H : has ?s _ _ |- _ => match type of X with pext s _ => apply (has_ext _ _ _ _ X) in H end
  end.
Definition fb (b : bool) : K := if b then f1 else f0.
Lemma zof_b2z b : zof ZK (Z.b2z b) = fb b.
Proof. destruct b; [apply (zl_1 LZ)|apply (zl_0 LZ)]. Qed.
Lemma compl_alloc_bit s b : pgood s -> compl s (alloc_bit P (Some (bit_pair ZK (Z.b2z b)))) (fun '(v, v1) s' => hasv s' v (fb b) /\ hasv s' v1 (fb (negb b))).
Proof.
  intros G. unfold alloc_bit, bit_pair. replace (1 - Z.b2z b) with (Z.b2z (negb b)) by now destruct b. rewrite !zof_b2z.
  eapply compl_bind; [apply compl_allocate_multiplier; exact G|]. intros [[v v1] o] s1 G1 X1 (H1 & H2 & H3 & _).
  eapply compl_bind; [apply (compl_constrain); [exact G1|]; eapply (has_eq); [apply (has_var HK); exact H3|destruct b; cbn; ring]|]. intros [] s2 G2 X2 _. carry X2.
  eapply compl_bind; [apply (compl_constrain); [exact G2|]; eapply (has_eq); [apply (has_add HK); [apply (has_var HK); exact H1|apply (has_sub HK); [apply (has_var HK); exact H2|apply (has_const HK)]]|destruct b; cbn; ring]|]. intros [] s3 G3 X3 _. carry X3.
  apply compl_ret; [exact G3|auto].
Qed.
Lemma compl_mul s l r x y : pgood s -> has s l x -> has s r y -> compl s (mul P l r) (fun o s' => hasv s' o (fmul x y)).
Proof. intros G H1 H2. unfold mul. eapply compl_bind; [apply (compl_multiply HK); eassumption|]. intros [[a b] o] s1 G1 X1 (_ & _ & H3 & _). now apply compl_ret. Qed.
Ltac hs := first [eassumption | apply hasv_one; fail | apply (has_var HK); first [eassumption|apply hasv_one] | apply (has_add HK); hs | apply (has_sub HK); hs | unfold one_minus; apply (has_sub HK); hs].
Ltac cm := eapply compl_bind; [eapply compl_mul; [eassumption|hs|hs]|]; let X := fresh "X" in let G := fresh "G" in let Ho := fresh "Ho" in intros ? ? G X Ho; cbv beta in Ho; carry X; clear X.
Ltac kids := apply compl_ret; [eassumption|]; repeat match goal with b : bool |- _ => destruct b end; cbn [fb negb Nat.b2n Nat.add Nat.mul children firstn skipn app] in *;
  repeat (constructor; [eapply has_eq; [hs|ring]|]); constructor.
Lemma compl_children4 s b0 b0_1 b1 b1_1 prev N1 N2 N3 (x0 x1 : bool) p n1 n2 n3 : pgood s ->
  hasv s b0 (fb x0) -> hasv s b0_1 (fb (negb x0)) -> hasv s b1 (fb x1) -> hasv s b1_1 (fb (negb x1)) -> has s prev p -> has s N1 n1 -> has s N2 n2 -> has s N3 n3 ->
  compl s (children4 P b0 b0_1 b1 b1_1 prev N1 N2 N3) (fun l s' => Forall2 (has s') l (children (Nat.b2n x0 + 2 * Nat.b2n x1) [n1; n2; n3] p)).
Proof. intros. unfold children4. repeat cm. kids. Qed.
Lemma compl_children8 s b0 b0_1 b1 b1_1 b2 b2_1 prev N1 N2 N3 N4 N5 N6 N7 (x0 x1 x2 : bool) p n1 n2 n3 n4 n5 n6 n7 : pgood s ->
  hasv s b0 (fb x0) -> hasv s b0_1 (fb (negb x0)) -> hasv s b1 (fb x1) -> hasv s b1_1 (fb (negb x1)) -> hasv s b2 (fb x2) -> hasv s b2_1 (fb (negb x2)) ->
  has s prev p -> has s N1 n1 -> has s N2 n2 -> has s N3 n3 -> has s N4 n4 -> has s N5 n5 -> has s N6 n6 -> has s N7 n7 ->
  compl s (children8 P b0 b0_1 b1 b1_1 b2 b2_1 prev N1 N2 N3 N4 N5 N6 N7) (fun l s' => Forall2 (has s') l (children (Nat.b2n x0 + 2 * Nat.b2n x1 + 4 * Nat.b2n x2) [n1; n2; n3; n4; n5; n6; n7] p)).
Proof. intros. unfold children8. repeat cm. kids. Qed.

(** ** The honest prover's loops *)
Variable s0 : pstate K.
Variable hp : list (lc K) -> csm (pstate K) (lc K).
Variable H : list K -> res K.
Hypothesis Hc : forall s ins xs h, pext s0 s -> pgood s -> Forall2 (has s) ins xs -> H xs = Ok h -> compl s (hp ins) (fun o s' => has s' o h).
Definition bitz (x : Z) (n : Z) : nat := Nat.b2n (Z.testbit x n).
Lemma land_bit x n : 0 <= n -> Z.land (Z.shiftr x n) 1 = Z.b2z (Z.testbit x n).
Proof. intros Hn. rewrite Z.testbit_odd. change 1 with (Z.ones 1) at 1. rewrite Z.land_ones by lia. change (2 ^ 1) with 2. rewrite Zmod_odd. now destruct (Z.odd _). Qed.
Lemma zof_bitz x n : zof ZK (Z.of_nat (bitz x n)) = fb (Z.testbit x n).
Proof. unfold bitz. destruct (Z.testbit x n); [apply (zl_1 LZ)|apply (zl_0 LZ)]. Qed.
Lemma zof_dig2 a b : zof ZK (Z.of_nat (a + 2 * b)) = fadd (zof ZK (Z.of_nat a)) (fmul (zof ZK 2) (zof ZK (Z.of_nat b))).
Proof. replace (Z.of_nat (a + 2 * b)) with (Z.of_nat a + 2 * Z.of_nat b) by lia. now rewrite (zl_add LZ), (zl_mul LZ). Qed.
Lemma zof_dig3 a b c : zof ZK (Z.of_nat (a + 2 * b + 4 * c)) = fadd (fadd (zof ZK (Z.of_nat a)) (fmul (zof ZK 2) (zof ZK (Z.of_nat b)))) (fmul (zof ZK 4) (zof ZK (Z.of_nat c))).
Proof. replace (Z.of_nat (a + 2 * b + 4 * c)) with (Z.of_nat a + 2 * Z.of_nat b + 4 * Z.of_nat c) by lia. now rewrite !(zl_add LZ), !(zl_mul LZ). Qed.
(** what one iteration must do, [d] being the position it reads off the index *)
Definition steps_to {X} (arity : nat) (step : X -> mstate -> csm (pstate K) mstate) (x : X) (d : nat) : Prop :=
  forall s m vs nodes sibs p y c, pext s0 s -> pgood s -> ms_nodes m = rev vs ++ nodes -> Forall2 (hasv s) vs sibs -> S (length sibs) = arity -> has s (ms_hash m) p -> has s (ms_cli m) c ->
  H (children d sibs p) = Ok y ->
  compl s (step x m) (fun m' s' => ms_nodes m' = nodes /\ ms_exp m' = fmul (ms_exp m) (zof ZK (Z.of_nat arity)) /\ has s' (ms_cli m') (fadd c (fmul (ms_exp m) (zof ZK (Z.of_nat d)))) /\ has s' (ms_hash m') y).
Lemma F2_len {A B} (R : A -> B -> Prop) l l' : Forall2 R l l' -> length l = length l'.
Proof. induction 1; cbn; lia. Qed.
Lemma step4_to bytes i j x : idx bytes i = Ok x -> steps_to 4 (merkle4_step ZK P hp (Some bytes)) (i, j) (bitz x (Z.of_nat (2 * j)) + 2 * bitz x (Z.of_nat (2 * j + 1))).
Proof.
  intros Ex s m vs nodes sibs p y c X0 G En Fv Ls Hp Hcl Ey. pose proof (F2_len _ _ _ Fv) as Lv.
  destruct sibs as [|n1 [|n2 [|n3 [|]]]]; try discriminate. destruct vs as [|v1 [|v2 [|v3 [|]]]]; try discriminate.
  inversion Fv as [|? ? ? ? V1 Fv1]; subst. inversion Fv1 as [|? ? ? ? V2 Fv2]; subst. inversion Fv2 as [|? ? ? ? V3 _]; subst. clear Fv Fv1 Fv2 Lv Ls.
  unfold merkle4_step. rewrite En. cbn [rev app]. rewrite Ex. cbn [rbind].
  eapply (compl_bind _ _ _ (fun a s' => a = Some (bit_pair ZK (Z.b2z (Z.testbit x (Z.of_nat (2 * j))))) /\ s' = s)); [eapply compl_clift; [exact G|reflexivity|split; [now rewrite land_bit by lia|reflexivity]]|]. intros a0 s' _ _ (-> & ->).
  eapply compl_bind; [apply compl_alloc_bit; exact G|]. intros [b0 b0_1] s1 G1 X1 (B0 & B0'). carry X1.
  eapply (compl_bind _ _ _ (fun a s' => a = Some (bit_pair ZK (Z.b2z (Z.testbit x (Z.of_nat (2 * j + 1))))) /\ s' = s1)); [eapply compl_clift; [exact G1|reflexivity|split; [now rewrite land_bit by lia|reflexivity]]|]. intros a1 s' _ _ (-> & ->).
  eapply compl_bind; [apply compl_alloc_bit; exact G1|]. intros [b1 b1_1] s2 G2 X2 (B1 & B1'). carry X2.
  eapply compl_bind; [eapply compl_children4; [exact G2|exact B0|exact B0'|exact B1|exact B1'|exact Hp|apply (has_var HK); exact V1|apply (has_var HK); exact V2|apply (has_var HK); exact V3]|]. intros ins s3 G3 X3 F3. carry X3.
  eapply compl_bind; [apply (Hc _ _ _ y) with (4 := Ey); [|exact G3|exact F3]|].
  { eapply pext_trans; [exact X0|]. eapply pext_trans; [exact X1|]. eapply pext_trans; eassumption. }
  intros h s4 G4 X4 H4. carry X4. apply compl_ret; [exact G4|]. cbn [ms_nodes ms_exp ms_cli ms_hash]. split; [reflexivity|]. split; [reflexivity|]. split; [|apply (has_simplify HK); exact H4].
  eapply has_eq; [apply (has_app HK); [exact Hcl|apply (has_cons); [exact B1|apply has_cons; [exact B0|apply has_nil]]]|].
  rewrite zof_dig2, !zof_bitz. ring.
Qed.
Lemma step8_to octs k x : idx octs k = Ok x -> steps_to 8 (merkle8_step ZK P hp (Some octs)) k (bitz x 0 + 2 * bitz x 1 + 4 * bitz x 2).
Proof.
  intros Ex s m vs nodes sibs p y c X0 G En Fv Ls Hp Hcl Ey. pose proof (F2_len _ _ _ Fv) as Lv.
  destruct sibs as [|n1 [|n2 [|n3 [|n4 [|n5 [|n6 [|n7 [|]]]]]]]]; try discriminate. destruct vs as [|v1 [|v2 [|v3 [|v4 [|v5 [|v6 [|v7 [|]]]]]]]]; try discriminate.
  inversion Fv as [|? ? ? ? V1 Fv1]; subst. inversion Fv1 as [|? ? ? ? V2 Fv2]; subst. inversion Fv2 as [|? ? ? ? V3 Fv3]; subst. inversion Fv3 as [|? ? ? ? V4 Fv4]; subst. inversion Fv4 as [|? ? ? ? V5 Fv5]; subst. inversion Fv5 as [|? ? ? ? V6 Fv6]; subst. inversion Fv6 as [|? ? ? ? V7 _]; subst. clear Fv Fv1 Fv2 Fv3 Fv4 Fv5 Fv6 Lv Ls.
  unfold merkle8_step. rewrite En. cbn [rev app]. rewrite Ex. cbn [rbind].
  eapply (compl_bind _ _ _ (fun a s' => a = Some x /\ s' = s)); [eapply compl_clift; [exact G|reflexivity|auto]|]. intros a0 s' _ _ (-> & ->). cbn [option_map]. rewrite !land_bit by lia.
  eapply compl_bind; [apply compl_alloc_bit; exact G|]. intros [b0 b0_1] s1 G1 X1 (B0 & B0'). carry X1.
  eapply compl_bind; [apply compl_alloc_bit; exact G1|]. intros [b1 b1_1] s2 G2 X2 (B1 & B1'). carry X2.
  eapply compl_bind; [apply compl_alloc_bit; exact G2|]. intros [b2 b2_1] s2' G2' X2' (B2 & B2'). carry X2'.
  eapply compl_bind; [eapply compl_children8; [exact G2'|exact B0|exact B0'|exact B1|exact B1'|exact B2|exact B2'|exact Hp|apply (has_var HK); exact V1|apply (has_var HK); exact V2|apply (has_var HK); exact V3|apply (has_var HK); exact V4|apply (has_var HK); exact V5|apply (has_var HK); exact V6|apply (has_var HK); exact V7]|]. intros ins s3 G3 X3 F3. carry X3.
  eapply compl_bind; [apply (Hc _ _ _ y) with (4 := Ey); [|exact G3|exact F3]|].
  { eapply pext_trans; [exact X0|]. eapply pext_trans; [exact X1|]. eapply pext_trans; [exact X2|]. eapply pext_trans; eassumption. }
  intros h s4 G4 X4 H4. carry X4. apply compl_ret; [exact G4|]. cbn [ms_nodes ms_exp ms_cli ms_hash]. split; [reflexivity|]. split; [reflexivity|]. split; [|apply (has_simplify HK); exact H4].
  eapply has_eq; [apply (has_app HK); [exact Hcl|apply (has_cons); [exact B0|apply has_cons; [exact B1|apply has_cons; [exact B2|apply has_nil]]]]|].
  rewrite zof_dig3, !zof_bitz. ring.
Qed.
Lemma compl_loop {X} arity (step : X -> mstate -> csm (pstate K) mstate) (dig : X -> nat) : (forall x m, ms_nodes m = [] -> step x m = cret m) ->
  forall xs, (forall x, In x xs -> steps_to arity step x (dig x)) ->
  forall steps m s p root c, path_ok arity steps -> map fst steps = firstn (length steps) (map dig xs) -> (length steps <= length xs)%nat -> pext s0 s -> pgood s ->
  Forall2 (hasv s) (rev (ms_nodes m)) (path_nodes steps) -> has s (ms_hash m) p -> has s (ms_cli m) c -> climb H p steps = Ok root ->
  compl s (cfold step xs m) (fun m' s' => has s' (ms_cli m') (fadd c (fmul (ms_exp m) (zof ZK (path_index (Z.of_nat arity) steps)))) /\ has s' (ms_hash m') root).
Proof.
  intros Hn. induction xs as [|x xs IH]; intros Hs steps m s p root c Pk Ed Ll X0 G Fn Hp Hcl Ec; cbn [cfold].
  - destruct steps as [|? ?]; [|cbn in Ll; lia]. injection Ec as ->. cbn [path_index]. apply compl_ret; [exact G|]. split; [|exact Hp]. eapply has_eq; [exact Hcl|]. rewrite (zl_0 LZ). ring.
  - destruct steps as [|[d sibs] steps].
    + cbn in Fn. inversion Fn as [En|]. symmetry in En. apply rev_nil_inv in En. rewrite (Hn x m En).
      eapply compl_bind; [apply (compl_ret _ _ (fun a s' => a = m /\ s' = s)); [exact G|auto]|]. intros a s' _ _ (-> & ->).
      apply (IH (fun y I => Hs y (or_intror I)) [] m s p root c); try assumption; try reflexivity. cbn; lia.
    + cbn [length map firstn fst] in Ed, Ll. injection Ed as Ed1 Ed2. rewrite path_nodes_cons in Fn. apply Forall2_app_inv_r in Fn as (l1 & l2 & F1 & F2 & El).
      cbn [climb] in Ec. destruct (H (children d sibs p)) as [y|] eqn:Ey; [|discriminate]. cbn [rbind] in Ec. inversion Pk as [|? ? [P1 P2] Pk']; subst. cbn [fst snd] in *.
      assert (ms_nodes m = rev l2 ++ rev l1) as En by (rewrite <- (rev_involutive (ms_nodes m)), El, rev_app_distr; reflexivity).
      eapply compl_bind; [apply (Hs x (or_introl eq_refl) s m l2 (rev l1) sibs p y c X0 G En F2 eq_refl Hp Hcl Ey)|]. intros m1 s1 G1 X1 (N1 & N2 & N3 & N4).
      eapply compl_weaken; [apply (IH (fun y I => Hs y (or_intror I)) steps m1 s1 y root (fadd c (fmul (ms_exp m) (zof ZK (Z.of_nat (dig x))))) Pk' Ed2 ltac:(lia) (pext_trans _ _ _ X0 X1) G1); [|exact N4|exact N3|exact Ec]|].
      * rewrite N1, rev_involutive. eapply Forall2_hasv_ext; eauto.
      * intros m' s' _ _ (Q1 & Q2). split; [|exact Q2]. eapply has_eq; [exact Q1|]. rewrite N2. cbn [path_index]. rewrite (zl_add LZ), (zl_mul LZ). ring.
Qed.

Lemma path_index_bound arity : (0 < arity)%nat -> forall steps : list (nat * list K), path_ok arity steps -> 0 <= path_index (Z.of_nat arity) steps < Z.of_nat arity ^ Z.of_nat (length steps).
Proof.
  intros Ha. induction 1 as [|[d sibs] steps [P1 P2] Pk IH]; cbn [path_index length]; [cbn; lia|]. cbn [fst] in P1. rewrite Nat2Z.inj_succ, Z.pow_succ_r by lia. nia.
Qed.
Lemma path_digits arity : (0 < arity)%nat -> forall steps : list (nat * list K), path_ok arity steps ->
  map fst steps = map (fun k => Z.to_nat ((path_index (Z.of_nat arity) steps / Z.of_nat arity ^ Z.of_nat k) mod Z.of_nat arity)) (seq 0 (length steps)).
Proof.
  intros Ha. induction 1 as [|[d sibs] steps [P1 P2] Pk IH]; [reflexivity|]. cbn [fst] in P1. cbn [map fst length seq path_index]. f_equal.
  - rewrite Z.pow_0_r, Z.div_1_r. rewrite (Z.mul_comm (Z.of_nat arity)), Z.mod_add, Z.mod_small by lia. lia.
  - rewrite IH, <- seq_shift, map_map. apply map_ext. intros k. rewrite Nat2Z.inj_succ, Z.pow_succ_r by lia. rewrite <- Z.div_div by lia.
    rewrite (Z.mul_comm (Z.of_nat arity) (path_index _ _)), Z.div_add, (Z.div_small (Z.of_nat d)), Z.add_0_l by lia. reflexivity.
Qed.
Lemma bitz_shift x n m : 0 <= n -> 0 <= m -> bitz (x / 2 ^ n) m = bitz x (m + n).
Proof. intros Hn Hm. unfold bitz. now rewrite Z.div_pow2_bits. Qed.
Lemma bitz_low x n m : 0 <= m < n -> bitz (x mod 2 ^ n) m = bitz x m.
Proof. intros Hn. unfold bitz. now rewrite Z.mod_pow2_bits_low by lia. Qed.
Lemma bit_0 y : Z.of_nat (bitz y 0) = y mod 2.
Proof. unfold bitz. rewrite Z.bit0_odd, Zmod_odd. now destruct (Z.odd y). Qed.
Lemma bit_S y n : 0 <= n -> bitz y (Z.succ n) = bitz (y / 2) n.
Proof. intros Hn. unfold bitz. change 2 with (2 ^ 1). rewrite Z.div_pow2_bits by lia. reflexivity. Qed.
Lemma digit4 y : Z.to_nat (y mod 4) = (bitz y 0 + 2 * bitz y 1)%nat.
Proof. pose proof (bit_0 y). pose proof (bit_0 (y / 2)). change 1 with (Z.succ 0). rewrite bit_S by lia. change 4 with (2 * 2). rewrite Z.rem_mul_r by lia. pose proof (Z.mod_pos_bound y 2). pose proof (Z.mod_pos_bound (y / 2) 2). lia. Qed.
Lemma digit8 y : Z.to_nat (y mod 8) = (bitz y 0 + 2 * bitz y 1 + 4 * bitz y 2)%nat.
Proof.
  pose proof (bit_0 y). pose proof (bit_0 (y / 2)). pose proof (bit_0 (y / 2 / 2)). replace (bitz y 2) with (bitz (y / 2 / 2) 0) by (change 2 with (Z.succ (Z.succ 0)) at 3; now rewrite !bit_S by lia). replace (bitz y 1) with (bitz (y / 2) 0) by (change 1 with (Z.succ 0); now rewrite bit_S by lia). change 8 with (2 * (2 * 2)). rewrite !Z.rem_mul_r by lia.
  pose proof (Z.mod_pos_bound y 2). pose proof (Z.mod_pos_bound (y / 2) 2). pose proof (Z.mod_pos_bound (y / 2 / 2) 2). lia.
Qed.
Lemma le_bytes_idx n x i : (i < n)%nat -> idx (le_bytes n x) i = Ok ((x / 2 ^ (8 * Z.of_nat i)) mod 256).
Proof. intros L. apply idx_some. unfold le_bytes. rewrite nth_error_map. rewrite (nth_error_nth' _ 0%nat) by (rewrite seq_length; exact L). rewrite seq_nth by exact L. reflexivity. Qed.
Lemma octets_idx n x i : (i < n)%nat -> idx (octets_of n x) i = Ok ((x / 8 ^ Z.of_nat i) mod 8).
Proof. intros L. apply idx_some. unfold octets_of. rewrite nth_error_map. rewrite (nth_error_nth' _ 0%nat) by (rewrite seq_length; exact L). rewrite seq_nth by exact L. reflexivity. Qed.
Lemma byte_digit x i j : (j < 4)%nat -> (bitz ((x / 2 ^ (8 * Z.of_nat i)) mod 256) (Z.of_nat (2 * j)) + 2 * bitz ((x / 2 ^ (8 * Z.of_nat i)) mod 256) (Z.of_nat (2 * j + 1)))%nat = Z.to_nat ((x / 4 ^ Z.of_nat (4 * i + j)) mod 4).
Proof.
  intros L. rewrite digit4. replace (4 ^ Z.of_nat (4 * i + j)) with (2 ^ (2 * Z.of_nat (4 * i + j))) by (rewrite Z.pow_mul_r by lia; reflexivity).
  rewrite !(bitz_shift x (2 * Z.of_nat (4 * i + j))) by lia. change 256 with (2 ^ 8). rewrite !bitz_low by lia. rewrite !bitz_shift by lia. f_equal; [|f_equal]; f_equal; lia.
Qed.
Lemma firstn_map_nth {A B} (f : nat -> B) (g : A -> B) (l : list A) n : (n <= length l)%nat -> (forall k x, nth_error l k = Some x -> f k = g x) -> map f (seq 0 n) = firstn n (map g l).
Proof.
  intros L Hf. enough (forall l b n, (n <= length l)%nat -> (forall k x, nth_error l k = Some x -> f (b + k)%nat = g x) -> map f (seq b n) = firstn n (map g l)) as Q by (apply Q; assumption).
  clear. induction l as [|a l IH]; intros b n L Hf; cbn [length] in L.
  - assert (n = 0)%nat as -> by lia. reflexivity.
  - destruct n as [|n]; [reflexivity|]. cbn [seq map firstn]. f_equal; [rewrite <- (Hf 0%nat a eq_refl); f_equal; lia|]. apply IH; [lia|]. intros k x E. rewrite <- (Hf (S k) x E). f_equal. lia.
Qed.
Lemma compl_finish arity {X} (step : X -> mstate -> csm (pstate K) mstate) (dig : X -> nat) xs steps s root leaf lval a xi nodes : (0 < arity)%nat ->
  (forall x m, ms_nodes m = [] -> step x m = cret m) -> (forall x, In x xs -> steps_to arity step x (dig x)) ->
  path_ok arity steps -> map fst steps = firstn (length steps) (map dig xs) -> (length steps <= length xs)%nat -> pext s0 s -> pgood s -> Forall2 (hasv s) nodes (path_nodes steps) -> has s (leaf_lc leaf) lval -> hasv s a xi ->
  xi = zof ZK (path_index (Z.of_nat arity) steps) -> climb H lval steps = Ok root ->
  compl s (cbind (cfold step xs (mkMs (rev nodes) [(a, fopp f1)] f1 (leaf_lc leaf))) (fun m => cbind (cs_constrain P (ms_cli m)) (fun _ => constrain_lc_with_scalar P (ms_hash m) root))) (fun _ _ => True).
Proof.
  intros Ha Hn Hs Pk Ed Ll X0 G Fn Hl Hi Ei Ec.
  eapply compl_bind; [eapply (compl_loop arity step dig Hn xs Hs steps _ s lval root) with (c := fadd (fmul (fopp f1) xi) f0); try eassumption|].
  - cbn [ms_nodes]. now rewrite rev_involutive.
  - cbn [ms_cli]. apply has_cons; [exact Hi|apply has_nil].
  - intros m s1 G1 X1 (Q1 & Q2). eapply compl_bind; [apply compl_constrain; [exact G1|]; eapply has_eq; [exact Q1|]; cbn [ms_exp]; rewrite <- Ei; ring|]. intros [] s2 G2 X2 _. carry X2.
    eapply compl_weaken; [apply (compl_clws HK); [exact G2|exact Q2]|]. auto.
Qed.
Lemma compl_merkle4 modbytes depth steps s root leaf lval a xi nodes : path_ok 4 steps -> (length steps <= 4 * get_byte_size depth 2)%nat -> (get_byte_size depth 2 <= modbytes)%nat ->
  pext s0 s -> pgood s -> Forall2 (hasv s) nodes (path_nodes steps) -> has s (leaf_lc leaf) lval -> hasv s (aq_var a) xi -> aq_val a = Some xi -> zto ZK xi = path_index 4 steps -> climb H lval steps = Ok root ->
  compl s (merkle4_gadget ZK P hp modbytes depth root leaf a nodes) (fun _ _ => True).
Proof.
  intros Pk Ll Lm X0 G Fn Hl Hi Ea Ez Ec. unfold merkle4_gadget. rewrite Ea. cbn [option_map].
  eapply (compl_finish 4 _ (fun ij => Z.to_nat ((zto ZK xi / 4 ^ Z.of_nat (4 * fst ij + snd ij)) mod 4))); try eassumption; try lia.
  - intros [i j] m En. unfold merkle4_step. now rewrite En.
  - intros [i j] I. cbn [fst snd]. apply (In_nth_error) in I as [k Ik]. assert (k < 4 * get_byte_size depth 2)%nat as Lk by (rewrite <- quads_length; apply nth_error_Some; unfold quads; congruence).
    pose proof (quads_nth _ _ Lk) as E2. unfold quads in E2. rewrite Ik in E2. assert (i = (k / 4)%nat /\ j = (k mod 4)%nat) as [-> ->] by (split; congruence). assert (k / 4 < get_byte_size depth 2)%nat as Li by (apply Nat.div_lt_upper_bound; lia). assert (k mod 4 < 4)%nat as Lj by (apply Nat.mod_upper_bound; lia).
    rewrite <- byte_digit by exact Lj. apply step4_to. apply le_bytes_idx. eapply Nat.lt_le_trans; [exact Li|exact Lm].
  - rewrite (path_digits 4 ltac:(lia) steps Pk) at 1. apply firstn_map_nth; [fold (quads (get_byte_size depth 2)); rewrite quads_length; exact Ll|].
    intros k [i j] Ek. assert (k < 4 * get_byte_size depth 2)%nat as Lk by (rewrite <- quads_length; apply nth_error_Some; unfold quads; congruence).
    pose proof (quads_nth _ _ Lk) as E2. unfold quads in E2. rewrite Ek in E2. assert (i = (k / 4)%nat /\ j = (k mod 4)%nat) as [-> ->] by (split; congruence). cbn [fst snd]. rewrite <- (Nat.div_mod_eq k 4). change (Z.of_nat 4) with 4. now rewrite Ez.
  - fold (quads (get_byte_size depth 2)). now rewrite quads_length.
  - rewrite <- (zl_of_to LZ xi), Ez. reflexivity.
Qed.
Lemma compl_merkle8 depth steps s root leaf lval a xi nodes : path_ok 8 steps -> (length steps <= depth)%nat ->
  pext s0 s -> pgood s -> Forall2 (hasv s) nodes (path_nodes steps) -> has s (leaf_lc leaf) lval -> hasv s (aq_var a) xi -> aq_val a = Some xi -> zto ZK xi = path_index 8 steps -> climb H lval steps = Ok root ->
  compl s (merkle8_gadget ZK P hp depth root leaf a nodes) (fun _ _ => True).
Proof.
  intros Pk Ll X0 G Fn Hl Hi Ea Ez Ec. unfold merkle8_gadget. rewrite Ea. cbn [option_map].
  eapply (compl_finish 8 _ (fun k => Z.to_nat ((zto ZK xi / 8 ^ Z.of_nat k) mod 8))); try eassumption; try lia.
  - intros k m En. unfold merkle8_step. now rewrite En.
  - intros k I. apply in_seq in I. cbv beta. rewrite <- (Z.mod_mod _ 8) by lia. rewrite digit8. apply step8_to, octets_idx. lia.
  - rewrite (path_digits 8 ltac:(lia) steps Pk) at 1. rewrite Ez. apply firstn_map_nth; [rewrite seq_length; exact Ll|].
    intros k x Ek. change (Z.of_nat 8) with 8. pose proof (proj1 (nth_error_Some (seq 0 depth) k) ltac:(congruence)) as Lk. rewrite seq_length in Lk. rewrite (nth_error_nth' _ 0%nat), seq_nth in Ek by (rewrite ?seq_length; lia). injection Ek as <-. reflexivity.
  - now rewrite seq_length.
  - rewrite <- (zl_of_to LZ xi), Ez. reflexivity.
Qed.
End Compl.
End Lib.

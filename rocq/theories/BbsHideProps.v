(** Properties C60-C62: what a BBS+ disclosure proof hides, public keys derived from a
    deterministic key, and equality of hidden messages across proofs. *)
From Verif Require Import Base BnModel NumTheory Alg Lin Fp ClRevModel ClRevSpec CurveInst BbsModel BbsLib BbsProps BbsPokProps.
Import List ListNotations.
Open Scope list_scope.
Open Scope Z_scope.

(** ** C60: perfect witness indistinguishability *)
(** what a message list shows *)
Definition revealed_part {C : curve} (m : proof_message C) : option (cK C) := match m with Revealed _ v => Some v | _ => None end.
(** hidden with a blinding factor of its own *)
Definition fresh_blinding {C : curve} (m : proof_message C) : Prop := match m with HiddenExternal _ _ _ => False | _ => True end.

Section Hide.
Variable C : curve.
Notation K := (cK C). Notation G1 := (cG1 C). Notation G2 := (cG2 C). Notation GT := (cGT C).
Hypothesis LW : curve_laws C.
Variables (g1 : G1) (g2 : G2).
Let HK := cl_field C LW. Let H1 := cl_g1 C LW. Let H2 := cl_g2 C LW. Let HT := cl_gt C LW.
Add Field Kf60 : (proj1 HK).

Lemma shown_part (ms ms' : list (proof_message C)) : map revealed_part ms = map revealed_part ms' -> forall j, shown C 0 ms j = shown C 0 ms' j.
Proof.
  intros E j. unfold shown. destruct (j <? 0)%nat; [reflexivity|]. rewrite Nat.sub_0_r.
  assert (nth_error (map revealed_part ms) j = nth_error (map revealed_part ms') j) as Q by (now rewrite E). rewrite !nth_error_map in Q.
  destruct (nth_error ms j) as [[]|], (nth_error ms' j) as [[]|]; cbn in Q; congruence.
Qed.
Lemma hid_part pk (ms ms' : list (proof_message C)) : map revealed_part ms = map revealed_part ms' -> hid C pk ms = hid C pk ms'.
Proof. intros E. unfold hid. apply hidg_ext. intros j _. now apply shown_part. Qed.
Lemma reveals_part (ms ms' : list (proof_message C)) : map revealed_part ms = map revealed_part ms' -> forall i, reveals C i ms = reveals C i ms'.
Proof.
  revert ms'. induction ms as [|m ms IH]; intros [|m' ms'] E i; try discriminate; [reflexivity|]. cbn [map] in E.
  assert (revealed_part m = revealed_part m') as Em by congruence. assert (map revealed_part ms = map revealed_part ms') as El by congruence.
  specialize (IH ms' El (S i)). destruct m, m'; cbn [revealed_part] in Em; try discriminate; cbn [reveals]; congruence.
Qed.
Lemma hidden_part (ms ms' : list (proof_message C)) : map revealed_part ms = map revealed_part ms' -> length (hidden_values C ms) = length (hidden_values C ms').
Proof.
  revert ms'. induction ms as [|m ms IH]; intros [|m' ms'] E; try discriminate; [reflexivity|]. cbn [map] in E.
  assert (revealed_part m = revealed_part m') as Em by congruence. assert (map revealed_part ms = map revealed_part ms') as El by congruence.
  specialize (IH ms' El). destruct m, m'; cbn [revealed_part] in Em; try discriminate; cbn [hidden_values is_hidden length]; congruence.
Qed.
Lemma blinds_list (ms : list (proof_message C)) : Forall fresh_blinding ms -> forall k rs, blinds C k ms rs = map rs (seq k (length (hidden_values C ms))).
Proof.
  induction 1 as [|m ms F _ IH]; intros k rs; [reflexivity|]. destruct m; cbn [blinds hidden_values is_hidden length seq map]; [apply IH|now rewrite IH|destruct F].
Qed.
(** the proof generated from a state, written out *)
Lemma init_proof sig pk (ms : list (proof_message C)) r1 r2 rs1 rs2 c : length ms = message_count C pk ->
  let p := init_state C g1 sig pk ms r1 r2 rs1 rs2 in
  pok_gen_proof C p c = Ok (mkPokProof C (ps_a_prime _ p) (ps_a_bar _ p) (ps_d _ p)
    (mkVcProof C (lin [ps_a_prime _ p; bh0 _ pk] [rs1 0%nat; rs1 1%nat]) (sub_scaled c [rs1 0%nat; rs1 1%nat] [fopp (se _ sig); r2]))
    (mkVcProof C (lin (ps_d _ p :: bh0 _ pk :: hid C pk ms) (rs2 0%nat :: rs2 1%nat :: blinds C 2 ms rs2))
      (sub_scaled c (rs2 0%nat :: rs2 1%nat :: blinds C 2 ms rs2) (fopp (finv r1) :: fadd (fopp (fmul r2 (finv r1))) (ss _ sig) :: hidden_values C ms)))).
Proof.
  intros L p. pose proof (hidden_gens_length C ms 0 (bh C pk) L) as Lh. pose proof (blinds_length C ms rs2 2) as Lb. fold (hid C pk ms) in Lh.
  unfold pok_gen_proof, p, init_state. cbn [ps_vc1 ps_secrets1 ps_vc2 ps_secrets2 ps_a_prime ps_a_bar ps_d].
  rewrite !vc_gen_proof_eq by (cbn [vc_bases length]; congruence). reflexivity.
Qed.
(** blindings that give the same responses for another representation of the same element *)
Lemma reblind (bs : list G1) bl ss ss' c : length bl = length bs -> length ss = length bs -> length ss' = length bs -> lin bs ss = lin bs ss' ->
  let bl' := sub_scaled (fopp c) (sub_scaled c bl ss) ss' in
  length bl' = length bs /\ sub_scaled c bl' ss' = sub_scaled c bl ss /\ lin bs bl' = lin bs bl.
Proof.
  intros L1 L2 L3 E bl'. assert (length (sub_scaled c bl ss) = length bs) as Ls by (rewrite length_sub_scaled; congruence).
  assert (length bl' = length bs) as Lb by (unfold bl'; rewrite length_sub_scaled; congruence).
  split; [exact Lb|]. split; [unfold bl'; apply (sub_scaled_inv HK); congruence|].
  unfold bl'. rewrite (lin_sub_scaled HK H1), (lin_sub_scaled HK H1), E by congruence. module_coefs HK H1; ring.
Qed.
Lemma smul_inj x y (a : G1) : a <> m0 -> smul x a = smul y a -> x = y.
Proof.
  intros Na E. destruct (feq_dec _ HK x y) as [Q|N]; [exact Q|]. exfalso. apply (smul_nonzero HK H1 (fsub x y) a); [now apply (fsub_neq0 _ HK)|exact Na|].
  transitivity (msub (smul x a) (smul y a)); [module_coefs HK H1; ring|]. rewrite E. apply (madd_opp _ _ H1).
Qed.
Lemma nth_seq_map (l : list K) : map (fun k => nth k l f0) (seq 0 (length l)) = l.
Proof.
  enough (forall pre, map (fun k => nth k (pre ++ l) f0) (seq (length pre) (length l)) = l) as Q by (now apply (Q [])).
  induction l as [|x l IH]; intros pre; [reflexivity|]. cbn [length seq map]. f_equal.
  - rewrite app_nth2, Nat.sub_diag by lia. reflexivity.
  - specialize (IH (pre ++ [x])). rewrite app_length, Nat.add_1_r in IH. rewrite <- IH at 2. apply map_ext. intros k. now rewrite <- app_assoc.
Qed.
Lemma indistinguishable (sig sig' : bbs_sig C) pk (ms ms' : list (proof_message C)) r1 r2 rs1 rs2 c : nondegenerate_r g2 -> one_dimensional C ->
  sig_verify C g1 g2 sig (map (get_message C) ms) pk = Ok true -> sig_verify C g1 g2 sig' (map (get_message C) ms') pk = Ok true ->
  map revealed_part ms = map revealed_part ms' -> Forall fresh_blinding ms -> Forall fresh_blinding ms' -> r1 <> f0 ->
  exists r1' r2' rs1' rs2', r1' <> f0 /\ exists p p' sp,
    pok_init C g1 g2 sig pk ms r1 r2 rs1 rs2 = Ok p /\ pok_init C g1 g2 sig' pk ms' r1' r2' rs1' rs2' = Ok p' /\
    pok_to_bytes C p = pok_to_bytes C p' /\ generate_signature_pok C p c = Ok sp /\ generate_signature_pok C p' c = Ok sp.
Proof.
  intros ND OD V V' Ep F F' N. pose proof (proj1 (sig_verify_true C LW g1 g2 _ _ _) V) as (L & G & (Na & _ & _) & Q). pose proof (proj1 (sig_verify_true C LW g1 g2 _ _ _) V') as (L' & _ & (Na' & _ & _) & Q').
  rewrite map_length in L, L'. destruct G as (Nh & _ & _).
  set (b := message_point g1 pk (ss _ sig) (map (get_message C) ms)) in *. set (b' := message_point g1 pk (ss _ sig') (map (get_message C) ms')) in *.
  destruct (OD (sa _ sig') (smul r1 (sa _ sig)) Na') as (r1' & E1).
  assert (r1' <> f0) as N'. { intros Z. apply (smul_nonzero HK H1 r1 (sa _ sig) N Na). rewrite E1, Z. apply (smul_0_l _ HK _ H1). }
  destruct (OD (bh0 C pk) (msub (smul r1' b') (lin [b; bh0 C pk] [r1; fopp r2])) Nh) as (r2' & E2).
  set (p := init_state C g1 sig pk ms r1 r2 rs1 rs2).
  assert (forall rs1' rs2', let p' := init_state C g1 sig' pk ms' r1' r2' rs1' rs2' in ps_a_prime _ p' = ps_a_prime _ p /\ ps_a_bar _ p' = ps_a_bar _ p /\ ps_d _ p' = ps_d _ p) as S.
  { intros rs1' rs2' p'. unfold p', p, init_state. cbn [ps_a_prime ps_a_bar ps_d]. fold b b'. rewrite <- E1. split; [reflexivity|]. split.
    - apply (p_inj_l C LW _ _ g2 ND). unfold bbs_equation in Q, Q'. fold b in Q. fold b' in Q'. rewrite (p_add_r C LW), (p_smul_r C LW) in Q, Q'.
      rewrite !(p_sub_l C LW), !(p_smul_l C LW), <- Q, <- Q'.
      transitivity (msub (madd (pair (smul r1' (sa _ sig')) (bw C pk)) (smul (se _ sig') (pair (smul r1' (sa _ sig')) g2))) (smul (se _ sig') (pair (smul r1' (sa _ sig')) g2))).
      + rewrite <- E1. rewrite !(p_smul_l C LW). assert (smul r1' (pair (sa C sig') (bw C pk)) = smul r1 (pair (sa C sig) (bw C pk))) as W by (rewrite <- !(p_smul_l C LW); now rewrite E1).
        assert (smul r1' (pair (sa C sig') g2) = smul r1 (pair (sa C sig) g2)) as W2 by (rewrite <- !(p_smul_l C LW); now rewrite E1).
        rewrite <- W, <- W2. module_coefs HK HT; ring.
      + rewrite <- E1. rewrite !(p_smul_l C LW). module_coefs HK HT; ring.
    - rewrite !lin_cons, !lin_nil_l. rewrite !lin_cons, !lin_nil_l in E2.
      transitivity (msub (smul r1' b') (smul r2' (bh0 C pk))); [module_coefs HK H1; ring|]. rewrite <- E2. module_coefs HK H1; ring. }
  (* first proof *)
  assert (lin [ps_a_prime _ p; bh0 C pk] [fopp (se _ sig); r2] = lin [ps_a_prime _ p; bh0 C pk] [fopp (se _ sig'); r2']) as R1.
  { destruct (S rs1 rs2) as (S1 & S2 & S3). transitivity (msub (ps_a_bar _ p) (ps_d _ p)).
    - unfold p, init_state. cbn [ps_a_prime ps_a_bar ps_d]. apply (relation1 C LW).
    - rewrite <- S1, <- S2, <- S3. symmetry. unfold init_state. cbn [ps_a_prime ps_a_bar ps_d]. apply (relation1 C LW). }
  destruct (reblind [ps_a_prime _ p; bh0 C pk] [rs1 0%nat; rs1 1%nat] [fopp (se _ sig); r2] [fopp (se _ sig'); r2'] c eq_refl eq_refl eq_refl R1) as (B1 & B2 & B3).
  set (bl1 := sub_scaled (fopp c) _ _) in B1, B2, B3.
  (* second proof *)
  pose proof (hidden_gens_length C ms 0 (bh C pk) L) as Lh. fold (hid C pk ms) in Lh. pose proof (hidden_gens_length C ms' 0 (bh C pk) L') as Lh'. fold (hid C pk ms') in Lh'.
  pose proof (hid_part pk ms ms' Ep) as Eh. pose proof (blinds_length C ms rs2 2) as Lb.
  set (s2 := fopp (finv r1) :: fadd (fopp (fmul r2 (finv r1))) (ss _ sig) :: hidden_values C ms). set (s2' := fopp (finv r1') :: fadd (fopp (fmul r2' (finv r1'))) (ss _ sig') :: hidden_values C ms').
  set (bs2 := ps_d _ p :: bh0 C pk :: hid C pk ms).
  assert (lin bs2 s2 = lin bs2 s2') as R2.
  { destruct (S rs1 rs2) as (_ & _ & S3). transitivity (mopp (madd g1 (lin (map fst (disc (shown C 0 ms) 0 (bh _ pk))) (map snd (disc (shown C 0 ms) 0 (bh _ pk)))))).
    - unfold bs2, s2, p, init_state. cbn [ps_d]. now apply (relation2 C LW).
    - rewrite (disc_ext (shown C 0 ms) (shown C 0 ms')) by (intros; now apply shown_part). symmetry. unfold bs2, s2'. rewrite Eh, <- S3. unfold init_state. cbn [ps_d]. now apply (relation2 C LW). }
  destruct (reblind bs2 (rs2 0%nat :: rs2 1%nat :: blinds C 2 ms rs2) s2 s2' c) as (B4 & B5 & B6); [unfold bs2; cbn [length]; congruence|unfold s2, bs2; cbn [length]; congruence|unfold s2', bs2; cbn [length]; congruence|exact R2|].
  set (bl2 := sub_scaled (fopp c) _ _) in B4, B5, B6.
  set (rs1' := fun k => nth k bl1 f0). set (rs2' := fun k => nth k bl2 f0).
  assert ([rs1' 0%nat; rs1' 1%nat] = bl1) as X1. { pose proof (nth_seq_map bl1) as W. rewrite B1 in W. exact W. }
  assert (rs2' 0%nat :: rs2' 1%nat :: blinds C 2 ms' rs2' = bl2) as X2.
  { rewrite blinds_list by exact F'. pose proof (nth_seq_map bl2) as W. rewrite B4 in W. unfold bs2 in W. cbn [length] in W. rewrite Eh, <- Lh' in W. exact W. }
  exists r1', r2', rs1', rs2'. split; [exact N'|]. set (p' := init_state C g1 sig' pk ms' r1' r2' rs1' rs2').
  destruct (S rs1' rs2') as (S1 & S2 & S3). fold p' in S1, S2, S3.
  pose proof (init_proof sig pk ms r1 r2 rs1 rs2 c L) as P. pose proof (init_proof sig' pk ms' r1' r2' rs1' rs2' c L') as P'. cbv zeta in P, P'. fold p in P. fold p' in P'.
  rewrite S1, S2, S3, X1, X2, B3, B2, <- Eh in P'. fold s2' in P'. fold bs2 in P'. rewrite B5, B6 in P'. fold s2 in P. fold bs2 in P.
  exists p, p'. eexists. split; [now apply (pok_init_eq C LW)|]. split; [now apply (pok_init_eq C LW)|]. split; [|split].
  - unfold pok_to_bytes, vc_to_bytes. rewrite S2.
    assert (vc_bases _ (ps_vc1 _ p') = vc_bases _ (ps_vc1 _ p)) as -> by (unfold p', p, init_state in *; cbn [ps_vc1 vc_bases ps_a_prime] in *; congruence).
    assert (vc_commitment _ (ps_vc1 _ p') = vc_commitment _ (ps_vc1 _ p)) as ->.
    { transitivity (lin [ps_a_prime C p'; bh0 C pk] [rs1' 0%nat; rs1' 1%nat]); [reflexivity|]. rewrite S1, X1, B3. reflexivity. }
    assert (vc_bases _ (ps_vc2 _ p') = vc_bases _ (ps_vc2 _ p)) as ->.
    { transitivity (ps_d C p' :: bh0 C pk :: hid C pk ms'); [reflexivity|]. rewrite S3, <- Eh. reflexivity. }
    assert (vc_commitment _ (ps_vc2 _ p') = vc_commitment _ (ps_vc2 _ p)) as ->; [|reflexivity].
    { transitivity (lin (ps_d C p' :: bh0 C pk :: hid C pk ms') (rs2' 0%nat :: rs2' 1%nat :: blinds C 2 ms' rs2')); [reflexivity|]. rewrite S3, <- Eh, X2. fold bs2. rewrite B6. reflexivity. }
  - unfold generate_signature_pok. rewrite P. cbn [rbind]. reflexivity.
  - unfold generate_signature_pok. rewrite P'. cbn [rbind]. do 2 f_equal. unfold p', p, init_state. cbn [ps_revealed]. symmetry. now apply reveals_part.
Qed.
Lemma sub_scaled_cons c x y (xs ys : list K) : sub_scaled c (x :: xs) (y :: ys) = fsub x (fmul c y) :: sub_scaled c xs ys.
Proof. reflexivity. Qed.
Lemma injective_randomness (sig : bbs_sig C) pk (ms : list (proof_message C)) r1 r2 rs1 rs2 r1' r2' rs1' rs2' c p p' pf :
  sig_verify C g1 g2 sig (map (get_message C) ms) pk = Ok true -> Forall fresh_blinding ms ->
  pok_init C g1 g2 sig pk ms r1 r2 rs1 rs2 = Ok p -> pok_init C g1 g2 sig pk ms r1' r2' rs1' rs2' = Ok p' -> pok_gen_proof C p c = Ok pf -> pok_gen_proof C p' c = Ok pf ->
  r1 = r1' /\ r2 = r2' /\ (forall k, (k < 2)%nat -> rs1 k = rs1' k) /\ (forall k, (k < 2 + length (hidden_values C ms))%nat -> rs2 k = rs2' k).
Proof.
  intros V F E E' P P'. pose proof (proj1 (sig_verify_true C LW g1 g2 _ _ _) V) as (L & (Nh & _) & (Na & _ & _) & Q). rewrite map_length in L.
  rewrite (pok_init_eq C LW) in E, E' by assumption. assert (init_state C g1 sig pk ms r1 r2 rs1 rs2 = p) as Ep by congruence. assert (init_state C g1 sig pk ms r1' r2' rs1' rs2' = p') as Ep' by congruence. subst p p'.
  rewrite init_proof in P, P' by exact L. rewrite <- P' in P. clear P' E E'.
  assert (r1 = r1') as ->. { apply (smul_inj _ _ (sa _ sig) Na). apply (f_equal (fun x => match x with Ok y => pp_a_prime _ y | Err _ => m0 end)) in P. exact P. }
  assert (r2 = r2') as ->.
  { assert (ps_d C (init_state C g1 sig pk ms r1' r2 rs1 rs2) = ps_d C (init_state C g1 sig pk ms r1' r2' rs1' rs2')) as W by (apply (f_equal (fun x => match x with Ok y => pp_d _ y | Err _ => m0 end)) in P; exact P).
    unfold init_state in W. cbn [ps_d] in W. rewrite !lin_cons, !lin_nil_l in W. apply (smul_inj _ _ (bh0 _ pk) Nh).
    set (b := message_point _ _ _ _) in W.
    transitivity (msub (smul r1' b) (madd (smul r1' b) (madd (smul (fopp r2) (bh0 C pk)) m0))); [module_coefs HK H1; ring|]. rewrite W. module_coefs HK H1; ring. }
  split; [reflexivity|]. split; [reflexivity|].
  assert (sub_scaled c [rs1 0%nat; rs1 1%nat] [fopp (se _ sig); r2'] = sub_scaled c [rs1' 0%nat; rs1' 1%nat] [fopp (se _ sig); r2']) as W1
    by (apply (f_equal (fun x => match x with Ok y => vp_responses _ (pp_vc1 _ y) | Err _ => [] end)) in P; exact P).
  apply (sub_scaled_inj HK) in W1; [|reflexivity|reflexivity].
  set (s2 := fopp (finv r1') :: fadd (fopp (fmul r2' (finv r1'))) (ss C sig) :: hidden_values C ms) in P.
  assert (sub_scaled c (rs2 0%nat :: rs2 1%nat :: blinds C 2 ms rs2) s2 = sub_scaled c (rs2' 0%nat :: rs2' 1%nat :: blinds C 2 ms rs2') s2) as W2
    by (apply (f_equal (fun x => match x with Ok y => vp_responses _ (pp_vc2 _ y) | Err _ => [] end)) in P; exact P).
  apply (sub_scaled_inj HK) in W2; [|unfold s2; cbn [length]; now rewrite blinds_length|unfold s2; cbn [length]; now rewrite blinds_length].
  rewrite !blinds_list in W2 by exact F. change (map rs2 (seq 0 (2 + length (hidden_values C ms))) = map rs2' (seq 0 (2 + length (hidden_values C ms)))) in W2.
  split.
  - intros [|[|k]] Lk; [congruence|congruence|lia].
  - intros k Lk. assert (forall n i (f g : nat -> K), map f (seq i n) = map g (seq i n) -> forall k, (i <= k < i + n)%nat -> f k = g k) as U.
    { clear. induction n as [|n IH]; intros i f g E k Lk; [lia|]. cbn [seq map] in E. destruct (Nat.eq_dec k i) as [->|Nk]; [congruence|]. apply (IH (S i)); [congruence|lia]. }
    apply (U _ _ _ _ W2 k). lia.
Qed.
End Hide.
(** for any two valid signatures that give the same revealed messages, every transcript of
    the first is a transcript of the second *)
Theorem C60_indistinguishable : forall (C : curve) g1 g2 (pk : bbs_pk C) sig sig' (ms ms' : list (proof_message C)) r1 r2 rs1 rs2 c, curve_laws C -> nondegenerate_r g2 -> one_dimensional C ->
  sig_verify C g1 g2 sig (map (get_message C) ms) pk = Ok true -> sig_verify C g1 g2 sig' (map (get_message C) ms') pk = Ok true ->
  map revealed_part ms = map revealed_part ms' -> Forall fresh_blinding ms -> Forall fresh_blinding ms' -> r1 <> f0 ->
  exists r1' r2' rs1' rs2', r1' <> f0 /\ exists p p' sp,
    pok_init C g1 g2 sig pk ms r1 r2 rs1 rs2 = Ok p /\ pok_init C g1 g2 sig' pk ms' r1' r2' rs1' rs2' = Ok p' /\
    pok_to_bytes C p = pok_to_bytes C p' /\ generate_signature_pok C p c = Ok sp /\ generate_signature_pok C p' c = Ok sp.
Proof. intros C g1 g2 pk sig sig' ms ms' r1 r2 rs1 rs2 c LW. now apply indistinguishable. Qed.
Print Assumptions C60_indistinguishable.
(** and each transcript comes from exactly one choice of the random scalars, so that the
    two distributions are the same *)
Theorem C60_one_randomness_per_transcript : forall (C : curve) g1 g2 (pk : bbs_pk C) sig (ms : list (proof_message C)) r1 r2 rs1 rs2 r1' r2' rs1' rs2' c p p' pf, curve_laws C ->
  sig_verify C g1 g2 sig (map (get_message C) ms) pk = Ok true -> Forall fresh_blinding ms ->
  pok_init C g1 g2 sig pk ms r1 r2 rs1 rs2 = Ok p -> pok_init C g1 g2 sig pk ms r1' r2' rs1' rs2' = Ok p' -> pok_gen_proof C p c = Ok pf -> pok_gen_proof C p' c = Ok pf ->
  let hidden := length (filter (fun m => match revealed_part m with None => true | Some _ => false end) ms) in
  r1 = r1' /\ r2 = r2' /\ (forall k, (k < 2)%nat -> rs1 k = rs1' k) /\ (forall k, (k < 2 + hidden)%nat -> rs2 k = rs2' k).
Proof.
  intros C g1 g2 pk sig ms r1 r2 rs1 rs2 r1' r2' rs1' rs2' c p p' pf LW V F E E' P P' hidden.
  replace hidden with (length (hidden_values C ms)); [now apply (injective_randomness C LW g1 g2 sig pk ms r1 r2 rs1 rs2 r1' r2' rs1' rs2' c p p' pf)|].
  unfold hidden. clear. induction ms as [|m ms IH]; [reflexivity|]. destruct m; cbn [hidden_values is_hidden filter revealed_part length]; now rewrite ?IH.
Qed.
Print Assumptions C60_one_randomness_per_transcript.

(** ** C61: public keys with derived generators *)
Lemma be32_inj a b : (Z.of_nat a < 2 ^ 32)%Z -> (Z.of_nat b < 2 ^ 32)%Z -> be32 a = be32 b -> a = b.
Proof.
  intros La Lb E. unfold be32 in E. cbv zeta in E. rewrite (Z.mod_small (Z.of_nat a)), (Z.mod_small (Z.of_nat b)) in E by lia. set (x := Z.of_nat a) in *. set (y := Z.of_nat b) in *.
  assert (x / 2 ^ 24 = y / 2 ^ 24) as E1 by congruence. assert ((x / 2 ^ 16) mod 256 = (y / 2 ^ 16) mod 256) as E2 by congruence.
  assert ((x / 2 ^ 8) mod 256 = (y / 2 ^ 8) mod 256) as E3 by congruence. assert (x mod 256 = y mod 256) as E4 by congruence.
  assert (x = y) as Q; [|unfold x, y in Q; lia]. clear E La Lb. change (2 ^ 24) with (256 * (256 * 256)) in E1. change (2 ^ 16) with (256 * 256) in E2. change (2 ^ 8) with 256 in E3.
  rewrite <- !Z.div_div in E1 by lia. rewrite <- !Z.div_div in E2 by lia.
  rewrite (Z.div_mod x 256), (Z.div_mod y 256) by lia. rewrite E4. f_equal. f_equal.
  rewrite (Z.div_mod (x / 256) 256), (Z.div_mod (y / 256) 256) by lia. rewrite E3. f_equal. f_equal.
  rewrite (Z.div_mod (x / 256 / 256) 256), (Z.div_mod (y / 256 / 256) 256) by lia. rewrite E2. f_equal. f_equal.
  rewrite !Z.div_div by lia. rewrite !Z.div_div in E1 by lia. exact E1.
Qed.
(** the key has the requested number of generators, each the hash of the public point, its
    index and the count *)
Theorem C61_derived_key : forall (C : curve) hash_g1 w count, 
  (count = 0%nat -> det_to_public_key C hash_g1 w count = Err (ZmixErr ZKeyGenError)) /\
  (count <> 0%nat -> exists pk, det_to_public_key C hash_g1 w count = Ok pk /\ bw _ pk = w /\ length (bh _ pk) = count /\
     bh0 _ pk = hash_g1 (enc2 w ++ [0] ++ be32 0 ++ [0] ++ be32 count) /\
     forall i, (i < count)%nat -> nth_error (bh _ pk) i = Some (hash_g1 (enc2 w ++ [0] ++ be32 (S i) ++ [0] ++ be32 count))).
Proof.
  intros C hash_g1 w count. split; [now intros ->|]. intros N. unfold det_to_public_key. destruct count as [|n]; [congruence|]. rewrite Nat.add_1_r. cbn [seq map].
  eexists. split; [reflexivity|]. cbn [bw bh bh0]. split; [reflexivity|]. split; [now cbn [length]; rewrite map_length, seq_length|]. split; [reflexivity|].
  intros i Li. destruct i as [|i]; [reflexivity|]. cbn [nth_error]. rewrite nth_error_map, (nth_error_nth' _ 0%nat) by (rewrite seq_length; lia). rewrite seq_nth by lia. reflexivity.
Qed.
Print Assumptions C61_derived_key.
(** different keys, counts or positions hash different strings *)
Theorem C61_inputs_separated : forall (C : curve) (w w' : cG2 C) count count' i i', 
  (forall a b : cG2 C, length (enc2 a) = length (enc2 b)) -> (forall a b : cG2 C, enc2 a = enc2 b -> a = b) ->
  (Z.of_nat count < 2 ^ 32)%Z -> (Z.of_nat count' < 2 ^ 32)%Z -> (Z.of_nat i < 2 ^ 32)%Z -> (Z.of_nat i' < 2 ^ 32)%Z ->
  enc2 w ++ [0] ++ be32 i ++ [0] ++ be32 count = enc2 w' ++ [0] ++ be32 i' ++ [0] ++ be32 count' -> w = w' /\ count = count' /\ i = i'.
Proof.
  intros C w w' count count' i i' Hl Hi L1 L2 L3 L4 E.
  assert (forall (A : Type) (a b c d : list A), length a = length b -> a ++ c = b ++ d -> a = b /\ c = d) as Q.
  { intros A. induction a as [|x a IH]; intros [|y b] c d L Q; try discriminate; [auto|]. cbn [app] in Q. destruct (IH b c d) as [-> ->]; [cbn in L; congruence|congruence|]. split; [f_equal; congruence|reflexivity]. }
  apply Q in E; [|apply Hl]. destruct E as [Ew E]. cbn [app] in E. assert (be32 i ++ 0 :: be32 count = be32 i' ++ 0 :: be32 count') as E' by congruence. apply Q in E'; [|reflexivity]. destruct E' as [Ei E'].
  split; [now apply Hi|]. split; apply be32_inj; try assumption. congruence.
Qed.
Print Assumptions C61_inputs_separated.
(** the zero secret key is refused, any other gives w = x g2 *)
Theorem C61_secret_validated : forall (C : curve) (g2 : cG2 C) x, curve_laws C -> 
  (x = f0 -> det_pk_new C g2 x = Err (ZmixErr ZMalformedSecretKey)) /\ (x <> f0 -> det_pk_new C g2 x = Ok (smul x g2, x)).
Proof.
  intros C g2 x LW. unfold det_pk_new, sk_validate. split; intros E.
  - now rewrite (proj2 (kzero_iff C LW x) E).
  - now rewrite (proj2 (kzero_false C LW x) E).
Qed.
Print Assumptions C61_secret_validated.

(** ** C62: equality of hidden messages across proofs *)
(** the number of hidden messages before index i *)
Definition hidden_rank {C : curve} (ms : list (proof_message C)) (i : nat) : nat :=
  length (filter (fun m => match revealed_part m with None => true | Some _ => false end) (firstn i ms)).
Lemma rank_values (C : curve) (ms : list (proof_message C)) i m b rs : nth_error ms i = Some (HiddenExternal C m b) ->
  nth_error (hidden_values C ms) (hidden_rank ms i) = Some m /\ forall k, nth_error (blinds C k ms rs) (hidden_rank ms i) = Some b.
Proof.
  revert i. induction ms as [|x ms IH]; intros [|i] E; try discriminate; cbn [nth_error] in E.
  - assert (x = HiddenExternal C m b) as -> by congruence. split; reflexivity.
  - destruct (IH i E) as [E1 E2]. unfold hidden_rank in *. cbn [firstn filter]. destruct x; cbn [revealed_part hidden_values is_hidden get_message length nth_error blinds]; (split; [exact E1|intros k]).
    + apply E2.
    + cbn [nth_error]. apply E2.
    + cbn [nth_error]. apply E2.
Qed.
(** the response reported for a message hidden with the caller's blinding factor b is b - c m;
    the index to ask for counts the hidden messages only *)
Theorem C62_response_of_message : forall (C : curve) g1 g2 (pk : bbs_pk C) sig (ms : list (proof_message C)) i m b r1 r2 rs1 rs2 c p pf, curve_laws C ->
  pok_init C g1 g2 sig pk ms r1 r2 rs1 rs2 = Ok p -> pok_gen_proof C p c = Ok pf -> nth_error ms i = Some (HiddenExternal C m b) ->
  resp_for_message C pf (hidden_rank ms i) = Ok (fsub b (fmul c m)).
Proof.
  intros C g1 g2 pk sig ms i m b r1 r2 rs1 rs2 c p pf LW E P Em. destruct (C56_init_requires_signature C g1 g2 pk sig ms r1 r2 rs1 rs2 p E) as (L & V). rewrite (pok_init_eq C LW) in E by assumption.
  assert (init_state C g1 sig pk ms r1 r2 rs1 rs2 = p) as <- by congruence. rewrite (init_proof C) in P by exact L.
  destruct (rank_values C ms i m b rs2 Em) as (E1 & E2). specialize (E2 2%nat).
  set (R := sub_scaled c (rs2 0%nat :: rs2 1%nat :: blinds C 2 ms rs2) _) in P. assert (vp_responses C (pp_vc2 C pf) = R) as ER by (apply (f_equal (fun x => match x with Ok y => vp_responses _ (pp_vc2 _ y) | Err _ => [] end)) in P; symmetry; exact P).
  assert (length R = 2 + length (hidden_values C ms))%nat as LR by (unfold R; rewrite length_sub_scaled; cbn [length]; now rewrite blinds_length).
  assert (hidden_rank ms i < length (hidden_values C ms))%nat as Lr by (apply nth_error_Some; congruence).
  unfold resp_for_message. rewrite ER. rewrite (proj2 (Nat.ltb_ge (length R) 2)) by lia. rewrite (proj2 (Nat.leb_gt (length R - 2) (hidden_rank ms i))) by lia.
  unfold R. rewrite !sub_scaled_cons. cbn [Nat.add nth_error].
  assert (nth_error (sub_scaled c (blinds C 2 ms rs2) (hidden_values C ms)) (hidden_rank ms i) = Some (fsub b (fmul c m))) as ->; [|reflexivity].
  unfold sub_scaled. rewrite nth_error_map.
  assert (forall (xs ys : list (cK C)) k x y, nth_error xs k = Some x -> nth_error ys k = Some y -> nth_error (combine xs ys) k = Some (x, y)) as U.
  { induction xs as [|x xs IH]; intros [|y ys] [|k] u v Q W; try discriminate; cbn [nth_error combine] in *; [congruence|now apply IH]. }
  now rewrite (U _ _ _ _ _ E2 E1).
Qed.
Print Assumptions C62_response_of_message.
(** two proofs for one challenge with one blinding factor report the same response exactly
    when the messages are the same *)
Theorem C62_equal_iff_equal_messages : forall (C : curve) g1 g2 (pk pk' : bbs_pk C) sig sig' (ms ms' : list (proof_message C)) i i' m m' b c p p' pf pf' r1 r2 rs1 rs2 r1' r2' rs1' rs2', curve_laws C ->
  pok_init C g1 g2 sig pk ms r1 r2 rs1 rs2 = Ok p -> pok_gen_proof C p c = Ok pf -> pok_init C g1 g2 sig' pk' ms' r1' r2' rs1' rs2' = Ok p' -> pok_gen_proof C p' c = Ok pf' ->
  nth_error ms i = Some (HiddenExternal C m b) -> nth_error ms' i' = Some (HiddenExternal C m' b) -> c <> f0 ->
  (resp_for_message C pf (hidden_rank ms i) = resp_for_message C pf' (hidden_rank ms' i') <-> m = m').
Proof.
  intros C g1 g2 pk pk' sig sig' ms ms' i i' m m' b c p p' pf pf' r1 r2 rs1 rs2 r1' r2' rs1' rs2' LW E P E' P' Em Em' Nc.
  rewrite (C62_response_of_message C g1 g2 pk sig ms i m b r1 r2 rs1 rs2 c p pf LW E P Em), (C62_response_of_message C g1 g2 pk' sig' ms' i' m' b r1' r2' rs1' rs2' c p' pf' LW E' P' Em').
  split; [|now intros ->]. intros Q. assert (fsub b (fmul c m) = fsub b (fmul c m')) as Q' by congruence. pose proof (cl_field C LW) as HK.
  assert (fmul c m = fmul c m') as W.
  { transitivity (fsub b (fsub b (fmul c m))); [|rewrite Q'].
    - destruct HK as [[[] _ _ _] _]. rewrite !Rsub_def. assert (forall a b : cK C, fadd a b = f0 -> b = fopp a) as U. { intros x y W. transitivity (fadd f0 y); [now rewrite Radd_0_l|]. rewrite <- (Ropp_def x). rewrite (Radd_comm x (fopp x)), <- Radd_assoc, W. rewrite Radd_comm. apply Radd_0_l. }
      assert (fopp (fadd b (fopp (fmul c m))) = fadd (fopp b) (fmul c m)) as ->; [|now rewrite Radd_assoc, Ropp_def, Radd_0_l].
      symmetry. apply U. rewrite (Radd_comm (fopp b)), <- Radd_assoc, (Radd_assoc (fopp (fmul c m))), (Radd_comm (fopp (fmul c m))), Ropp_def, Radd_0_l. apply Ropp_def.
    - destruct HK as [[[] _ _ _] _]. rewrite !Rsub_def. assert (forall a b : cK C, fadd a b = f0 -> b = fopp a) as U. { intros x y W. transitivity (fadd f0 y); [now rewrite Radd_0_l|]. rewrite <- (Ropp_def x). rewrite (Radd_comm x (fopp x)), <- Radd_assoc, W. rewrite Radd_comm. apply Radd_0_l. }
      assert (fopp (fadd b (fopp (fmul c m'))) = fadd (fopp b) (fmul c m')) as ->; [|now rewrite Radd_assoc, Ropp_def, Radd_0_l].
      symmetry. apply U. rewrite (Radd_comm (fopp b)), <- Radd_assoc, (Radd_assoc (fopp (fmul c m'))), (Radd_comm (fopp (fmul c m'))), Ropp_def, Radd_0_l. apply Ropp_def. }
  assert (fmul (fmul (finv c) c) m = fmul (fmul (finv c) c) m') as W' by (destruct HK as [[[] _ _ _] _]; now rewrite <- !Rmul_assoc, W).
  rewrite !(finv_mul_l _ HK) in W' by exact Nc. destruct HK as [[[] _ _ _] _]. now rewrite !Rmul_1_l in W'.
Qed.
Print Assumptions C62_equal_iff_equal_messages.
(** an index that is not a hidden message is an error; no accepted proof panics *)
Theorem C62_index_out_of_range : forall (C : curve) (pf : pok_proof C) k, 
  ((length (vp_responses _ (pp_vc2 _ pf)) < 2)%nat -> resp_for_message C pf k = Err Panic) /\
  ((2 <= length (vp_responses _ (pp_vc2 _ pf)))%nat -> (length (vp_responses _ (pp_vc2 _ pf)) <= 2 + k)%nat -> resp_for_message C pf k = Err (ZmixErr ZGeneralError)) /\
  ((2 + k < length (vp_responses _ (pp_vc2 _ pf)))%nat -> exists r, resp_for_message C pf k = Ok r).
Proof.
  intros C pf k. unfold resp_for_message. set (R := vp_responses C (pp_vc2 C pf)). split; [|split].
  - intros L. now rewrite (proj2 (Nat.ltb_lt _ _) L).
  - intros L Lk. rewrite (proj2 (Nat.ltb_ge (length R) 2)) by lia. now rewrite (proj2 (Nat.leb_le (length R - 2) k)) by lia.
  - intros Lk. rewrite (proj2 (Nat.ltb_ge (length R) 2)) by lia. rewrite (proj2 (Nat.leb_gt (length R - 2) k)) by lia.
    destruct (nth_error R (2 + k)) as [x|] eqn:E; [now exists x|]. apply nth_error_None in E. lia.
Qed.
Print Assumptions C62_index_out_of_range.
Theorem C62_accepted_proof_no_panic : forall (C : curve) g1 g2 (pk : bbs_pk C) pf rv c k, curve_laws C -> pok_verify C g1 g2 pf pk rv c = Ok PSuccess -> resp_for_message C pf k <> Err Panic.
Proof.
  intros C g1 g2 pk pf rv c k LW V. apply (pok_verify_success C LW) in V. destruct V as (_ & _ & _ & _ & _ & V). apply (vc_verify_iff C LW) in V. destruct V as (L & _). cbn [length] in L.
  destruct (C62_index_out_of_range C pf k) as (_ & A & B). destruct (Nat.lt_ge_cases (2 + k) (length (vp_responses C (pp_vc2 C pf)))) as [Lt|Ge].
  - destruct (B Lt) as (r & ->). discriminate.
  - rewrite A by lia. discriminate.
Qed.
Print Assumptions C62_accepted_proof_no_panic.

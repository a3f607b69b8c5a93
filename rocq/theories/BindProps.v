(** C119: the Fiat-Shamir challenges of the inner-product and R1CS verifiers are drawn from
    transcripts that contain, injectively encoded, everything sent before them. *)
From Coq Require Import String.
From Verif Require Import Base Alg TranscriptModel IppModel R1csModel R1csProofModel.
Import List ListNotations.
Open Scope list_scope.

Section Bind.
Context {K : fieldOps} {M : modOps K}.

(** ** specification: what the transcript must contain at each challenge *)
Definition lr_events (T : tcode M) (LR : list (M * M)) : transcript :=
  flat_map (fun p => [Msg "L" (encM T (fst p)); Msg "R" (encM T (snd p)); Chal "x"]) LR.
(** everything absorbed by an inner-product argument of size [n] with the points [LR] *)
Definition ipp_events (T : tcode M) (tr : transcript) (n : nat) (LR : list (M * M)) : transcript :=
  tr ++ [Msg "dom-sep" (text "ipp v1"); Msg "n" (le64 n)] ++ lr_events T LR.
(** the transcript from which challenge [j] is drawn, L and R being the points of that round *)
Definition ipp_query (T : tcode M) (tr : transcript) (n : nat) (LR : list (M * M)) (j : nat) (L R : M) : transcript :=
  ipp_events T tr n (firstn j LR) ++ [Msg "L" (encM T L); Msg "R" (encM T R)].

Definition phase1_events (T : tcode M) (tr : transcript) (Vs : list M) (p : r1cs_proof M) : transcript :=
  tr ++ [Msg "dom-sep" (text "r1cs v1")] ++ map (fun V => Msg "V" (encM T V)) Vs ++
  [Msg "m" (le64 (length Vs)); Msg "A_I1" (encM T (A_I1 p)); Msg "A_O1" (encM T (A_O1 p)); Msg "S1" (encM T (S1 p))].
Definition y_query (T : tcode M) (t : transcript) (p : r1cs_proof M) : transcript :=
  t ++ [Msg "A_I2" (encM T (A_I2 p)); Msg "A_O2" (encM T (A_O2 p)); Msg "S2" (encM T (S2 p))].
Definition z_query (T : tcode M) (t : transcript) (p : r1cs_proof M) : transcript := y_query T t p ++ [Chal "y"].
Definition u_query (T : tcode M) (t : transcript) (p : r1cs_proof M) : transcript :=
  z_query T t p ++ [Chal "z"; Msg "T_1" (encM T (T_1 p)); Msg "T_3" (encM T (T_3 p)); Msg "T_4" (encM T (T_4 p)); Msg "T_5" (encM T (T_5 p)); Msg "T_6" (encM T (T_6 p))].
Definition x_query (T : tcode M) (t : transcript) (p : r1cs_proof M) : transcript := u_query T t p ++ [Chal "u"].
Definition w_query (T : tcode M) (t : transcript) (p : r1cs_proof M) : transcript :=
  x_query T t p ++ [Chal "x"; Msg "t_x" (encF T (t_x p)); Msg "t_x_blinding" (encF T (t_x_blinding p)); Msg "e_blinding" (encF T (e_blinding p))].
Definition ipp_start (T : tcode M) (t : transcript) (p : r1cs_proof M) : transcript := w_query T t p ++ [Chal "w"].

(** ** C119: the verifiers ask for no other challenge *)
Lemma replay_agree (T : tcode M) chal' : let T' := mkTcode (encM T) (encF T) chal' in
  forall LR tr,
  (forall j L R, nth_error LR j = Some (L, R) ->
     let q := tr ++ lr_events T (firstn j LR) ++ [Msg "L" (encM T L); Msg "R" (encM T R)] in chal' q "x"%string = chal T q "x"%string) ->
  replay T' LR tr = replay T LR tr /\ snd (replay T LR tr) = tr ++ lr_events T LR.
Proof.
  intros T' LR. induction LR as [|[L R] LR IH]; intros tr A; cbn [replay lr_events flat_map]; [split; [reflexivity|cbn [snd]; now rewrite app_nil_r]|].
  unfold commit_point, challenge_scalar, append. cbn [encM chal T'].
  assert (B : chal' ((tr ++ [Msg "L" (encM T L)]) ++ [Msg "R" (encM T R)]) "x"%string = chal T ((tr ++ [Msg "L" (encM T L)]) ++ [Msg "R" (encM T R)]) "x"%string).
  { specialize (A 0%nat L R eq_refl). cbv zeta in A. cbn [firstn lr_events flat_map app] in A. rewrite <- !app_assoc. exact A. }
  rewrite B.
  set (tr1 := ((tr ++ [Msg "L" (encM T L)]) ++ [Msg "R" (encM T R)]) ++ [Chal "x"]).
  destruct (IH tr1) as (E & E2).
  { intros j L0 R0 Hj. specialize (A (S j) L0 R0 Hj). cbv zeta in *. cbn [firstn lr_events flat_map fst snd] in A.
    unfold tr1. rewrite <- !app_assoc in *. exact A. }
  rewrite E. destruct (replay T LR tr1) as [xs t2]. cbn [snd] in *. split; [reflexivity|]. rewrite E2. unfold tr1. now rewrite <- !app_assoc.
Qed.

Theorem C119_ipp_queries : forall (T : tcode M) chal' lg Ls Rs n tr,
  let T' := mkTcode (encM T) (encF T) chal' in
  (forall j L R, nth_error (combine Ls Rs) j = Some (L, R) ->
     chal' (ipp_query T tr n (combine Ls Rs) j L R) "x"%string = chal T (ipp_query T tr n (combine Ls Rs) j L R) "x"%string) ->
  verification_scalars T' lg Ls Rs n tr = verification_scalars T lg Ls Rs n tr /\
  forall gf hf P u G H a b, verify_ipp T' lg n tr gf hf P u G H a b Ls Rs = verify_ipp T lg n tr gf hf P u G H a b Ls Rs.
Proof.
  intros T chal' lg Ls Rs n tr T' A.
  assert (E : verification_scalars T' lg Ls Rs n tr = verification_scalars T lg Ls Rs n tr).
  { unfold verification_scalars. destruct (32 <=? length Ls)%nat; [reflexivity|]. destruct (negb (n =? 2 ^ length Ls)%nat); [reflexivity|].
    cbv zeta. destruct (replay_agree T chal' (combine Ls Rs) (innerproduct_domain_sep tr n)) as (E & _).
    { intros j L R Hj. specialize (A j L R Hj). unfold ipp_query, ipp_events in A. unfold innerproduct_domain_sep, append. cbv zeta.
      rewrite <- !app_assoc in *. exact A. }
    fold T' in E. rewrite E. reflexivity. }
  split; [exact E|]. intros gf hf P u G H a b. unfold verify_ipp. rewrite E. reflexivity.
Qed.

Theorem C119_r1cs_queries : forall (T : tcode M) chal' lg cbs (s s' : vstate K M) tr t' p g h G H r,
  let T' := mkTcode (encM T) (encF T) chal' in
  let agree q l := chal' q l = chal T q l in
  v_randomize cbs s (phase1_events T tr (v_V s) p) = Ok (s', t') ->
  agree (y_query T t' p) "y"%string -> agree (z_query T t' p) "z"%string -> agree (u_query T t' p) "u"%string ->
  agree (x_query T t' p) "x"%string -> agree (w_query T t' p) "w"%string ->
  (forall j L R, nth_error (combine (ip_L (ipp p)) (ip_R (ipp p))) j = Some (L, R) ->
     agree (ipp_query T (ipp_start T t' p) (next_pow2 (v_num s')) (combine (ip_L (ipp p)) (ip_R (ipp p))) j L R) "x"%string) ->
  verify T' lg cbs s (v_transcript T' tr s) p g h G H r = verify T lg cbs s (v_transcript T tr s) p g h G H r.
Proof.
  intros T chal' lg cbs s s' tr t' p g h G H r T' agree E Ay Az Au Ax Aw Ai.
  assert (EV : forall Vs t, fold_left (fun t V => commit_point T t "V" V) Vs t = t ++ map (fun V => Msg "V" (encM T V)) Vs).
  { induction Vs as [|V Vs IH]; intros t; cbn [fold_left map]; [now rewrite app_nil_r|]. rewrite IH. unfold commit_point, append. now rewrite <- app_assoc. }
  assert (Et : v_transcript T' tr s = v_transcript T tr s) by reflexivity. rewrite Et.
  assert (E1 : commit_point T (commit_point T (commit_point T (append_u64 (v_transcript T tr s) "m" (length (v_V s))) "A_I1" (A_I1 p)) "A_O1" (A_O1 p)) "S1" (S1 p) = phase1_events T tr (v_V s) p).
  { unfold v_transcript, committed_transcript. rewrite EV. unfold commit_point, append_u64, r1cs_domain_sep, append, phase1_events. now rewrite <- !app_assoc. }
  unfold verify.
  change (commit_point T' (commit_point T' (commit_point T' (append_u64 (v_transcript T tr s) "m" (length (v_V s))) "A_I1" (A_I1 p)) "A_O1" (A_O1 p)) "S1" (S1 p))
    with (commit_point T (commit_point T (commit_point T (append_u64 (v_transcript T tr s) "m" (length (v_V s))) "A_I1" (A_I1 p)) "A_O1" (A_O1 p)) "S1" (S1 p)).
  rewrite E1, E. cbn [rbind]. cbv zeta.
  destruct (length G <? next_pow2 (v_num s'))%nat; [reflexivity|].
  assert (Q : forall q l, challenge_scalar T q l = (chal T q l, q ++ [Chal l])) by reflexivity.
  assert (Q' : forall q l, challenge_scalar T' q l = (chal' q l, q ++ [Chal l])) by reflexivity.
  assert (Ey : commit_point T (commit_point T (commit_point T t' "A_I2" (A_I2 p)) "A_O2" (A_O2 p)) "S2" (S2 p) = y_query T t' p) by (unfold commit_point, append, y_query; now rewrite <- !app_assoc).
  change (commit_point T' (commit_point T' (commit_point T' t' "A_I2" (A_I2 p)) "A_O2" (A_O2 p)) "S2" (S2 p)) with (commit_point T (commit_point T (commit_point T t' "A_I2" (A_I2 p)) "A_O2" (A_O2 p)) "S2" (S2 p)).
  rewrite Ey, Q, Q', Ay. fold (z_query T t' p). rewrite Q, Q', Az.
  assert (Eu : commit_point T (commit_point T (commit_point T (commit_point T (commit_point T (z_query T t' p ++ [Chal "z"]) "T_1" (T_1 p)) "T_3" (T_3 p)) "T_4" (T_4 p)) "T_5" (T_5 p)) "T_6" (T_6 p) = u_query T t' p)
    by (unfold commit_point, append, u_query; now rewrite <- !app_assoc).
  change (commit_point T' (commit_point T' (commit_point T' (commit_point T' (commit_point T' (z_query T t' p ++ [Chal "z"]) "T_1" (T_1 p)) "T_3" (T_3 p)) "T_4" (T_4 p)) "T_5" (T_5 p)) "T_6" (T_6 p))
    with (commit_point T (commit_point T (commit_point T (commit_point T (commit_point T (z_query T t' p ++ [Chal "z"]) "T_1" (T_1 p)) "T_3" (T_3 p)) "T_4" (T_4 p)) "T_5" (T_5 p)) "T_6" (T_6 p)).
  rewrite Eu, Q, Q', Au. fold (x_query T t' p). rewrite Q, Q', Ax.
  assert (Ew : commit_scalar T (commit_scalar T (commit_scalar T (x_query T t' p ++ [Chal "x"]) "t_x" (t_x p)) "t_x_blinding" (t_x_blinding p)) "e_blinding" (e_blinding p) = w_query T t' p)
    by (unfold commit_scalar, append, w_query; now rewrite <- !app_assoc).
  change (commit_scalar T' (commit_scalar T' (commit_scalar T' (x_query T t' p ++ [Chal "x"]) "t_x" (t_x p)) "t_x_blinding" (t_x_blinding p)) "e_blinding" (e_blinding p))
    with (commit_scalar T (commit_scalar T (commit_scalar T (x_query T t' p ++ [Chal "x"]) "t_x" (t_x p)) "t_x_blinding" (t_x_blinding p)) "e_blinding" (e_blinding p)).
  rewrite Ew, Q, Q', Aw. fold (ipp_start T t' p).
  destruct (v_flattened (chal T (z_query T t' p) "z") s') as [w|]; cbn [rbind]; [|reflexivity].
  destruct (C119_ipp_queries T chal' lg (ip_L (ipp p)) (ip_R (ipp p)) (next_pow2 (v_num s')) (ipp_start T t' p) Ai) as (EE & _).
  fold T' in EE. rewrite EE. reflexivity.
Qed.

(** ** C119: those transcripts determine everything that was sent *)
Lemma le64_inj a b : (Z.of_nat a < 2 ^ 64)%Z -> (Z.of_nat b < 2 ^ 64)%Z -> le64 a = le64 b -> a = b.
Proof.
  intros Ha Hb E.
  assert (G : forall k : nat, (k < 8)%nat -> (Z.of_nat a / 2 ^ (8 * Z.of_nat k)) mod 256 = (Z.of_nat b / 2 ^ (8 * Z.of_nat k)) mod 256).
  { intros k Hk. apply (f_equal (fun l => nth_error l k)) in E. unfold le64 in E. rewrite !nth_error_map in E.
    rewrite (nth_error_nth' (seq 0 8) 0%nat) in E by (rewrite seq_length; exact Hk). rewrite seq_nth in E by exact Hk. cbn [option_map plus] in E. now injection E. }
  pose proof (G 0%nat ltac:(lia)) as E0. pose proof (G 1%nat ltac:(lia)) as E1. pose proof (G 2%nat ltac:(lia)) as E2. pose proof (G 3%nat ltac:(lia)) as E3.
  pose proof (G 4%nat ltac:(lia)) as E4. pose proof (G 5%nat ltac:(lia)) as E5. pose proof (G 6%nat ltac:(lia)) as E6. pose proof (G 7%nat ltac:(lia)) as E7.
  change (Z.of_nat 0) with 0%Z in *. change (Z.of_nat 1) with 1%Z in *. change (Z.of_nat 2) with 2%Z in *. change (Z.of_nat 3) with 3%Z in *.
  change (Z.of_nat 4) with 4%Z in *. change (Z.of_nat 5) with 5%Z in *. change (Z.of_nat 6) with 6%Z in *. change (Z.of_nat 7) with 7%Z in *.
  assert (R : forall x : Z, (0 <= x < 2 ^ 64)%Z -> x = ((x / 2 ^ (8 * 0)) mod 256 + 256 * ((x / 2 ^ (8 * 1)) mod 256) + 256 ^ 2 * ((x / 2 ^ (8 * 2)) mod 256) + 256 ^ 3 * ((x / 2 ^ (8 * 3)) mod 256)
     + 256 ^ 4 * ((x / 2 ^ (8 * 4)) mod 256) + 256 ^ 5 * ((x / 2 ^ (8 * 5)) mod 256) + 256 ^ 6 * ((x / 2 ^ (8 * 6)) mod 256) + 256 ^ 7 * ((x / 2 ^ (8 * 7)) mod 256))%Z).
  { intros x Hx.
    assert (S : forall k, (0 <= k)%Z -> (x / 2 ^ (8 * k) = 256 * (x / 2 ^ (8 * (k + 1))) + (x / 2 ^ (8 * k)) mod 256)%Z).
    { intros k Hk. replace (2 ^ (8 * (k + 1)))%Z with (2 ^ (8 * k) * 256)%Z by (rewrite Z.mul_add_distr_l, Z.pow_add_r by lia; reflexivity).
      rewrite <- Z.div_div by lia. apply Z.div_mod. lia. }
    pose proof (S 0%Z ltac:(lia)). pose proof (S 1%Z ltac:(lia)). pose proof (S 2%Z ltac:(lia)). pose proof (S 3%Z ltac:(lia)).
    pose proof (S 4%Z ltac:(lia)). pose proof (S 5%Z ltac:(lia)). pose proof (S 6%Z ltac:(lia)). pose proof (S 7%Z ltac:(lia)).
    assert ((x / 2 ^ (8 * (7 + 1)) = 0)%Z) by (apply Z.div_small; exact Hx).
    change (0 + 1)%Z with 1%Z in *. change (1 + 1)%Z with 2%Z in *. change (2 + 1)%Z with 3%Z in *. change (3 + 1)%Z with 4%Z in *.
    change (4 + 1)%Z with 5%Z in *. change (5 + 1)%Z with 6%Z in *. change (6 + 1)%Z with 7%Z in *.
    assert ((x / 2 ^ (8 * 0) = x)%Z) by (apply Z.div_1_r). 
    change (256 ^ 2)%Z with 65536%Z. change (256 ^ 3)%Z with 16777216%Z. change (256 ^ 4)%Z with 4294967296%Z. change (256 ^ 5)%Z with 1099511627776%Z.
    change (256 ^ 6)%Z with 281474976710656%Z. change (256 ^ 7)%Z with 72057594037927936%Z. lia. }
  apply Nat2Z.inj. rewrite (R (Z.of_nat a)), (R (Z.of_nat b)) by lia. rewrite E0, E1, E2, E3, E4, E5, E6, E7. reflexivity.
Qed.

Lemma lr_events_inj (T : tcode M) : (forall P Q, encM T P = encM T Q -> P = Q) ->
  forall LR LR', lr_events T LR = lr_events T LR' -> LR = LR'.
Proof.
  intros HE. induction LR as [|[L R] LR IH]; intros [|[L' R'] LR'] E; cbn [lr_events flat_map app] in E; try discriminate; [reflexivity|].
  cbn [fst snd] in E. injection E as EL ER E. apply HE in EL, ER. subst. f_equal. now apply IH.
Qed.
Theorem C119_ipp_binding : forall (T : tcode M), (forall P Q, encM T P = encM T Q -> P = Q) ->
  forall tr n n' LR LR', (Z.of_nat n < 2 ^ 64)%Z -> (Z.of_nat n' < 2 ^ 64)%Z ->
  ipp_events T tr n LR = ipp_events T tr n' LR' -> n = n' /\ LR = LR'.
Proof.
  intros T HE tr n n' LR LR' Hn Hn' E. unfold ipp_events in E. apply app_inv_head in E. cbn [app] in E.
  apply (f_equal (fun l => match l with a :: b :: c => ((match b with Msg _ d => d | Chal _ => [] end), c) | _ => ([], []) end)) in E.
  cbv beta iota in E. apply pair_equal_spec in E. destruct E as (E1 & E2).
  split; [now apply le64_inj|]. now apply (lr_events_inj T HE).
Qed.

(** the complete transcript of a one-phase proof *)
Definition one_phase_events (T : tcode M) (tr : transcript) (Vs : list M) (n : nat) (p : r1cs_proof M) : transcript :=
  ipp_events T (ipp_start T (phase1_events T tr Vs p ++ [Msg "dom-sep" (text "r1cs-1phase")]) p) n (combine (ip_L (ipp p)) (ip_R (ipp p))).
Lemma V_split (T : tcode M) : (forall P Q, encM T P = encM T Q -> P = Q) -> forall (Vs Vs' : list M) d d' r r',
  map (fun V => Msg "V" (encM T V)) Vs ++ Msg "m" d :: r = map (fun V => Msg "V" (encM T V)) Vs' ++ Msg "m" d' :: r' -> Vs = Vs' /\ d = d' /\ r = r'.
Proof.
  intros HE. induction Vs as [|V Vs IH]; intros [|V' Vs'] d d' r r' E; cbn [map app] in E.
  - injection E as E1 E2. auto.
  - injection E as E1 E2. discriminate.
  - injection E as E1 E2. discriminate.
  - injection E as E1 E2. apply HE in E1. apply IH in E2. destruct E2 as (-> & -> & ->). subst. auto.
Qed.
Theorem C119_r1cs_binding : forall (T : tcode M), (forall P Q, encM T P = encM T Q -> P = Q) -> (forall a b, encF T a = encF T b -> a = b) ->
  forall tr n n' Vs Vs' p p', (Z.of_nat n < 2 ^ 64)%Z -> (Z.of_nat n' < 2 ^ 64)%Z ->
  length (ip_L (ipp p)) = length (ip_R (ipp p)) -> length (ip_L (ipp p')) = length (ip_R (ipp p')) ->
  one_phase_events T tr Vs n p = one_phase_events T tr Vs' n' p' ->
  Vs = Vs' /\ n = n' /\
  p' = mkR1cs (A_I1 p) (A_O1 p) (S1 p) (A_I2 p) (A_O2 p) (S2 p) (T_1 p) (T_3 p) (T_4 p) (T_5 p) (T_6 p) (t_x p) (t_x_blinding p) (e_blinding p)
         (mkIpp (ip_L (ipp p)) (ip_R (ipp p)) (ip_a (ipp p')) (ip_b (ipp p'))).
Proof.
  intros T HE HF tr n n' Vs Vs' p p' Hn Hn' L1 L2 E.
  unfold one_phase_events, ipp_events, ipp_start, w_query, x_query, u_query, z_query, y_query, phase1_events in E.
  rewrite <- !app_assoc in E. apply app_inv_head in E. cbn [app] in E.
  apply (f_equal (@tl event)) in E. cbn [tl] in E.
  apply V_split in E; [|exact HE]. destruct E as (-> & _ & E).
  remember (le64 n) as dn eqn:Edn. remember (le64 n') as dn' eqn:Edn'.
  remember (text "r1cs-1phase") as t1 eqn:X1. remember (text "ipp v1") as t2 eqn:X2.
  injection E as e1 e2 e3 e4 e5 e6 e7 e8 e9 e10 e11 e12 e13 e14 e15 e16.
  apply HE in e1, e2, e3, e4, e5, e6, e7, e8, e9, e10, e11. apply HF in e12, e13, e14.
  apply (lr_events_inj T HE) in e16.
  assert (En : n = n') by (apply le64_inj; [exact Hn|exact Hn'|congruence]).
  split; [reflexivity|]. split; [exact En|].
  assert (EL : ip_L (ipp p) = ip_L (ipp p') /\ ip_R (ipp p) = ip_R (ipp p')).
  { pose proof (f_equal (@split M M) e16) as S. rewrite !combine_split in S by assumption. injection S as S1 S2. auto. }
  destruct p as [a1 a2 a3 a4 a5 a6 a7 a8 a9 a10 a11 a12 a13 a14 [iL iR ia ib]], p' as [b1 b2 b3 b4 b5 b6 b7 b8 b9 b10 b11 b12 b13 b14 [jL jR ja jb]].
  cbn [A_I1 A_O1 S1 A_I2 A_O2 S2 T_1 T_3 T_4 T_5 T_6 t_x t_x_blinding e_blinding ipp ip_L ip_R ip_a ip_b] in *.
  destruct EL as (-> & ->). subst. reflexivity.
Qed.
End Bind.

(** The inner-product argument (libzmix/bulletproofs_amcl/src/ipp.rs): C93, C94. *)
From Verif Require Import Base Alg Lin TranscriptModel IppModel IppLib IppSpec.
From Coq Require Import String.
Import List ListNotations.
Open Scope list_scope.

Section IppProps.
Context {K : fieldOps} (HK : field_laws K) {M : modOps K} (HM : mod_laws M) (T : tcode M).
Add Field Kf2 : (proj1 HK).
Lemma verification_scalars_path lg (L R : list M) k n tr : (forall x, In x (fst (replay T (combine L R) (innerproduct_domain_sep tr n))) -> x <> f0) -> (k < 32)%nat -> n = (2 ^ k)%nat -> length L = k -> length R = k -> log_exact lg n ->
  let '(xs, tr') := replay T (combine L R) (innerproduct_domain_sep tr n) in
  length xs = k /\ (forall x, In x xs -> x <> f0) /\
  verification_scalars T lg L R n tr = Ok (map (fun x => fmul x x) xs, map (fun x => fmul (finv x) (finv x)) xs, sv xs, tr').
Proof.
  intros Nx Hk En EL ER Hlg. pose proof (replay_length T (combine L R) (innerproduct_domain_sep tr n)) as Lx.
  unfold verification_scalars. rewrite EL. destruct (replay T (combine L R) (innerproduct_domain_sep tr n)) as [xs tr']. cbn [fst] in Lx, Nx.
  rewrite combine_length, EL, ER, Nat.min_id in Lx. split; [exact Lx|]. split; [exact Nx|].
  destruct (Nat.leb_spec 32 k); [lia|]. rewrite En, Nat.eqb_refl. cbn [negb].
  assert (forall A (c : list K * list K * K -> res A) , (let! x := (if (0 <? k)%nat then let! (ci, p) := batch_invert xs in Ok (map (fun x => fmul x x) xs, map (fun x => fmul x x) ci, p) else Ok ([], [], f1)) in c x)
     = c (map (fun x => fmul x x) xs, map (fun x => fmul (finv x) (finv x)) xs, finv (fprod xs))) as E.
  { intros A c. destruct k as [|k]; cbn [Nat.ltb Nat.leb].
    - destruct xs; [|discriminate]. cbn [rbind map fprod]. f_equal. f_equal. field. apply (f1_neq_0 _ HK).
    - rewrite batch_invert_spec by (auto; now destruct xs). cbn [rbind]. now rewrite map_map. }
  rewrite E. cbn beta iota. subst n. rewrite <- Lx in *.
  assert (0 < 2 ^ length xs)%nat by (apply Nat.neq_0_lt_0, Nat.pow_nonzero; lia).
  rewrite (s_steps HK lg xs Nx Hlg) by lia. cbn [rbind].
  replace (S (2 ^ length xs - 1)) with (length (sv xs)) by (rewrite sv_length; lia). now rewrite firstn_all.
Qed.

Lemma verification_scalars_ok lg (L R : list M) k n tr : challenges_nonzero T -> (k < 32)%nat -> n = (2 ^ k)%nat -> length L = k -> length R = k -> log_exact lg n ->
  let '(xs, tr') := replay T (combine L R) (innerproduct_domain_sep tr n) in
  length xs = k /\ (forall x, In x xs -> x <> f0) /\
  verification_scalars T lg L R n tr = Ok (map (fun x => fmul x x) xs, map (fun x => fmul (finv x) (finv x)) xs, sv xs, tr').
Proof. intros HT. apply verification_scalars_path. exact (replay_nonzero T HT (combine L R) (innerproduct_domain_sep tr n)). Qed.

Lemma zw_lin (c : K) : forall (G : list M) gf s, length G = length gf -> length s = length gf -> lin G (zip_with (fun g_i s_i => fmul (fmul c s_i) g_i) gf s) = smul c (lin (zip_with smul gf G) s).
Proof.
  induction G as [|g G IH]; intros [|f gf] [|x s] E1 E2; try discriminate.
  - unfold zip_with; cbn [combine map]; rewrite !lin_nil_l. module_coefs HK HM; ring.
  - rewrite !zip_with_cons, !lin_cons, IH by (cbn in *; congruence). module_coefs HK HM; ring.
Qed.
Lemma lin_opp (bs : list M) (f : K -> K) ss : lin bs (map fopp (map f ss)) = mopp (lin bs (map f ss)).
Proof.
  revert bs. induction ss as [|x ss IH]; intros [|b bs]; cbn [map]; rewrite ?lin_nil_l, ?lin_nil_r; try (module_coefs HK HM; ring).
  rewrite !lin_cons, IH. module_coefs HK HM; ring.
Qed.
(** what [verify_ipp] checks *)
Lemma verify_ipp_path lg k n tr gf hf (P u : M) G H a b L R : (forall x, In x (fst (replay T (combine L R) (innerproduct_domain_sep tr n))) -> x <> f0) -> (k < 32)%nat -> n = (2 ^ k)%nat -> length L = k -> length R = k -> log_exact lg n ->
  length gf = n -> length hf = n -> length G = n -> length H = n ->
  let xs := fst (replay T (combine L R) (innerproduct_domain_sep tr n)) in
  verify_ipp T lg n tr gf hf P u G H a b L R =
  if meqb (msub (madd (madd (smul a (lin (zip_with smul gf G) (sv xs))) (smul b (lin (zip_with smul hf H) (rev (sv xs))))) (smul (fmul a b) u))
                (madd (lin L (map (fun x => fmul x x) xs)) (lin R (map (fun x => fmul (finv x) (finv x)) xs)))) P
  then Ok tt else Err (BpErr BIPPVerificationError).
Proof.
  intros HT Hk En EL ER Hlg Egf Ehf EG EH xs. pose proof (verification_scalars_path lg L R k n tr HT Hk En EL ER Hlg) as V. unfold verify_ipp.
  unfold xs. clear xs. destruct (replay T (combine L R) (innerproduct_domain_sep tr n)) as [xs tr']. destruct V as (Lx & Nx & ->). cbn [fst].
  assert (length (sv xs) = n) as Ls by (rewrite sv_length; congruence).
  assert (length (zip_with (fun g_i s_i => fmul (fmul a s_i) g_i) gf (sv xs)) = n) as L1 by (rewrite zip_with_length; congruence).
  assert (length (zip_with (fun h_i s_i => fmul (fmul b s_i) h_i) hf (rev (sv xs))) = n) as L2 by (rewrite zip_with_length; rewrite ?rev_length; congruence).
  rewrite firstn_all2 by lia. unfold multi_scalar_mul. rewrite !app_length, !map_length, L1, L2, EG, EH, EL, ER, Lx. cbn [length].
  rewrite Nat.eqb_refl. cbn [rbind]. rewrite (points_sum_lin HM), !(lin_app HM), lin_cons, lin_nil_l; [|rewrite ?map_length; cbn [length]; congruence..].
  rewrite !zw_lin by (rewrite ?rev_length; congruence). rewrite !lin_opp.
  match goal with |- (if meqb ?A P then _ else _) = (if meqb ?B P then _ else _) => assert (A = B) as -> by (module_coefs HK HM; ring); reflexivity end.
Qed.
Lemma verify_ipp_eq lg k n tr gf hf (P u : M) G H a b L R : challenges_nonzero T -> (k < 32)%nat -> n = (2 ^ k)%nat -> length L = k -> length R = k -> log_exact lg n ->
  length gf = n -> length hf = n -> length G = n -> length H = n ->
  let xs := fst (replay T (combine L R) (innerproduct_domain_sep tr n)) in
  verify_ipp T lg n tr gf hf P u G H a b L R =
  if meqb (msub (madd (madd (smul a (lin (zip_with smul gf G) (sv xs))) (smul b (lin (zip_with smul hf H) (rev (sv xs))))) (smul (fmul a b) u))
                (madd (lin L (map (fun x => fmul x x) xs)) (lin R (map (fun x => fmul (finv x) (finv x)) xs)))) P
  then Ok tt else Err (BpErr BIPPVerificationError).
Proof. intros HT. apply verify_ipp_path. exact (replay_nonzero T HT (combine L R) (innerproduct_domain_sep tr n)). Qed.

(** ** C93: proofs of the prover are accepted *)
Theorem C93_complete : forall lg k n tr gf hf (u : M) G H a b,
  challenges_nonzero T -> (k < 32)%nat -> n = (2 ^ k)%nat -> log_exact lg n ->
  length gf = n -> length hf = n -> length G = n -> length H = n -> length a = n -> length b = n ->
  let P := madd (madd (lin G (hadamard a gf)) (lin H (hadamard b hf))) (smul (inner a b) u) in
  exists p tr', create_ipp T tr u gf hf G H a b = Ok (p, tr') /\
    verify_ipp T lg n tr gf hf P u G H (ip_a p) (ip_b p) (ip_L p) (ip_R p) = Ok tt.
Proof.
  intros lg k n tr gf hf u G H a b HT Hk En Hlg Egf Ehf EG EH Ea Eb P. unfold create_ipp. rewrite EG, EH, Ea, Eb, Egf, Ehf, !Nat.eqb_refl. cbn [andb negb].
  assert (is_pow2 n = true) as ->.
  { unfold is_pow2. rewrite En, Nat.log2_pow2, Nat.eqb_refl by lia. apply andb_true_intro. split; [|reflexivity]. apply negb_true_iff, Nat.eqb_neq, Nat.pow_nonzero. lia. }
  cbn [negb]. replace (Nat.log2 n) with k by (rewrite En, Nat.log2_pow2; lia). set (tr0 := innerproduct_domain_sep tr n).
  rewrite (loop_factors HK HM T k u G H gf hf a b tr0) by congruence.
  pose proof (loop_spec HK HM T HT k u (zip_with smul gf G) (zip_with smul hf H) a b tr0) as S.
  destruct (ipp_loop T k None u (zip_with smul gf G) (zip_with smul hf H) a b tr0) as [p tr']. destruct S as (EL & ER & _ & S); try (rewrite ?zip_with_length; congruence).
  exists p, tr'. split; [reflexivity|]. rewrite (verify_ipp_eq lg k n) by assumption. fold tr0. cbv zeta in S.
  set (xs := fst (replay T (combine (ip_L p) (ip_R p)) tr0)) in *. rewrite <- S, <- !(lin_hadamard HK HM) by congruence.
  match goal with |- (if meqb ?A P then _ else _) = _ => assert (A = P) as -> by (unfold P; module_coefs HK HM; ring) end. now rewrite (proj2 (meqb_eq _ _ HM P P) eq_refl).
Qed.

(** an accepted proof determines the statement: P is the only point it is accepted for *)
Theorem C93_statement_unique : forall lg n tr gf hf (P P' u : M) G H a b L R,
  verify_ipp T lg n tr gf hf P u G H a b L R = Ok tt -> verify_ipp T lg n tr gf hf P' u G H a b L R = Ok tt -> P = P'.
Proof.
  intros lg n tr gf hf P P' u G H a b L R. unfold verify_ipp. destruct (verification_scalars T lg L R n tr) as [[[[x1 x2] s] t]|]; [|discriminate].
  destruct (multi_scalar_mul _ _) as [E|]; [|discriminate]. cbn [rbind]. destruct (meqb E P) eqn:E1; [|discriminate]. destruct (meqb E P') eqn:E2; [|discriminate].
  apply (meqb_eq _ _ HM) in E1, E2. congruence.
Qed.
Lemma sv_signed (xs : list K) : (forall x, In x xs -> x <> f0) -> forall i, (i < 2 ^ length xs)%nat -> nth i (sv xs) f0 = signed_product xs i /\ nth i (rev (sv xs)) f0 = finv (signed_product xs i).
Proof.
  intros Nx.
  assert (forall xs : list K, (forall x, In x xs -> x <> f0) -> forall i, (i < 2 ^ length xs)%nat -> nth i (sv xs) f0 = signed_product xs i) as A.
  { clear xs Nx. induction xs as [|x xs IH]; intros N i Hi.
    - cbn in Hi. assert (i = 0)%nat as -> by lia. reflexivity.
    - cbn [length] in Hi. cbn [Nat.pow] in Hi. unfold signed_product. cbn [length]. rewrite <- cons_seq. cbn [map fprod]. replace (S (length xs) - 1 - 0)%nat with (length xs) by lia.
      rewrite <- seq_shift, map_map. cbn [nth].
      assert (forall i', (i' < 2 ^ length xs)%nat -> (forall j, (j < length xs)%nat -> Nat.testbit i j = Nat.testbit i' j) -> nth i' (sv xs) f0 =
        fprod (map (fun j => if Nat.testbit i (S (length xs) - 1 - S j) then nth j xs f0 else finv (nth j xs f0)) (seq 0 (length xs)))) as B.
      { intros i' Hi' Hb. rewrite IH by (auto; intros; apply N; now right). unfold signed_product. f_equal. apply map_ext_in. intros j Hj. apply in_seq in Hj.
        replace (S (length xs) - 1 - S j)%nat with (length xs - 1 - j)%nat by lia. now rewrite Hb by lia. }
      destruct (Nat.lt_ge_cases i (2 ^ length xs)) as [C|C].
      + rewrite sv_app_nth by exact C. replace (Nat.testbit i (length xs)) with false; [now rewrite (B i)|].
        symmetry. destruct (Nat.eq_dec i 0) as [->|]; [apply Nat.bits_0|]. apply Nat.bits_above_log2, Nat.log2_lt_pow2; lia.
      + replace i with (2 ^ length xs + (i - 2 ^ length xs))%nat at 1 by lia. rewrite sv_app_nth2 by lia.
        assert (i = i - 2 ^ length xs + 2 ^ length xs)%nat as Ei by lia.
        assert (Nat.testbit i (length xs) = true) as ->.
        { apply Nat.testbit_true. assert (i / 2 ^ length xs = 1)%nat as ->; [|reflexivity]. symmetry. apply Nat.div_unique with (i - 2 ^ length xs)%nat; lia. }
        rewrite (B (i - 2 ^ length xs)%nat); [reflexivity|lia|]. intros j Hj.
        rewrite <- (Nat.mod_pow2_bits_low i (length xs) j), <- (Nat.mod_pow2_bits_low (i - 2 ^ length xs) (length xs) j) by exact Hj.
        f_equal. rewrite Ei at 1. rewrite <- (Nat.mul_1_l (2 ^ length xs)) at 2. rewrite Nat.mod_add by lia. reflexivity. }
  intros i Hi. split; [now apply A|]. rewrite rev_nth by (rewrite sv_length; exact Hi). rewrite sv_length, A by (auto; lia).
  unfold signed_product. replace (2 ^ length xs - S i)%nat with (2 ^ length xs - 1 - i)%nat by lia.
  assert (forall j, (j < length xs)%nat -> Nat.testbit (2 ^ length xs - 1 - i) j = negb (Nat.testbit i j)) as B.
  { intros j Hj. replace (2 ^ length xs - 1 - i)%nat with (Nat.lnot i (length xs)).
    - apply Nat.lnot_spec_low. exact Hj.
    - destruct (Nat.eq_dec i 0) as [->|]; [rewrite Nat.lnot_0_l, Nat.ones_equiv; lia|]. rewrite Nat.lnot_sub_low by (apply Nat.log2_lt_pow2; lia). rewrite Nat.ones_equiv. lia. }
  revert B. generalize (2 ^ length xs - 1 - i)%nat. intros i' B.
  assert (forall l, (forall j, In j l -> (j < length xs)%nat) ->
     fprod (map (fun j => if Nat.testbit i' (length xs - 1 - j) then nth j xs f0 else finv (nth j xs f0)) l) = finv (fprod (map (fun j => if Nat.testbit i (length xs - 1 - j) then nth j xs f0 else finv (nth j xs f0)) l))
     /\ fprod (map (fun j => if Nat.testbit i (length xs - 1 - j) then nth j xs f0 else finv (nth j xs f0)) l) <> f0) as Q.
  { induction l as [|j l IH]; intros Hl; cbn [map fprod]; [split; [field; apply (f1_neq_0 _ HK)|apply (f1_neq_0 _ HK)]|].
    destruct IH as [IH1 IH2]; [intros; apply Hl; now right|]. rewrite IH1. assert (j < length xs)%nat as Hj by (apply Hl; now left).
    rewrite B by lia. assert (nth j xs f0 <> f0) as Nj by (apply Nx, nth_In, Hj). revert IH2. generalize (fprod (map (fun j => if Nat.testbit i (length xs - 1 - j) then nth j xs f0 else finv (nth j xs f0)) l)).
    intros c Nc. destruct (Nat.testbit i (length xs - 1 - j)); cbn [negb]; (split; [field; auto|]).
    - intros E. apply (fmul_integral _ HK) in E as [|]; auto.
    - intros E. apply (fmul_integral _ HK) in E as [E|]; auto. apply Nj. replace (nth j xs f0) with (fmul (fmul (nth j xs f0) (nth j xs f0)) (finv (nth j xs f0))) by (field; exact Nj). rewrite E. ring. }
  apply Q. intros j Hj. apply in_seq in Hj. lia.
Qed.
(** the scalar the verifier computes for position i: the product of the challenges, inverted
    where the corresponding bit of i is 0 *)
Theorem C93_verification_scalars : forall lg (L R : list M) k n tr, challenges_nonzero T -> (k < 32)%nat -> n = (2 ^ k)%nat -> length L = k -> length R = k -> log_exact lg n ->
  let xs := fst (replay T (combine L R) (innerproduct_domain_sep tr n)) in
  exists s tr', verification_scalars T lg L R n tr = Ok (map (fun x => fmul x x) xs, map (fun x => fmul (finv x) (finv x)) xs, s, tr') /\
    length s = n /\ forall i, (i < n)%nat -> nth i s f0 = signed_product xs i /\ nth i (rev s) f0 = finv (signed_product xs i).
Proof.
  intros lg L R k n tr HT Hk En EL ER Hlg xs. pose proof (verification_scalars_ok lg L R k n tr HT Hk En EL ER Hlg) as V. unfold xs. clear xs.
  destruct (replay T (combine L R) (innerproduct_domain_sep tr n)) as [xs tr']. destruct V as (Lx & Nx & V). cbn [fst]. exists (sv xs), tr'. split; [exact V|].
  rewrite sv_length, Lx. split; [congruence|]. intros i Hi. apply sv_signed; [exact Nx|congruence].
Qed.

(** ** C94: malformed proofs *)
(** the prover insists on vectors of one length, a power of two *)
Theorem C94_create_lengths : forall tr (u : M) gf hf G H a b p tr', create_ipp T tr u gf hf G H a b = Ok (p, tr') ->
  exists k, length G = (2 ^ k)%nat /\ length H = length G /\ length a = length G /\ length b = length G /\ length gf = length G /\ length hf = length G /\ length (ip_L p) = k /\ length (ip_R p) = k.
Proof.
  intros tr u gf hf G H a b p tr'. unfold create_ipp. destruct (is_pow2 (length G)) eqn:E1; [|discriminate]. cbn [negb].
  destruct ((length H =? length G) && (length a =? length G) && (length b =? length G) && (length gf =? length G) && (length hf =? length G))%nat eqn:E2; [|discriminate]. cbn [negb].
  intros E. apply (f_equal (fun r => match r with Ok w => fst w | _ => p end)) in E. cbn [fst] in E.
  apply andb_prop in E2 as [E2 E6], E2 as [E2 E5], E2 as [E2 E4], E2 as [E2 E3]. apply Nat.eqb_eq in E2, E3, E4, E5, E6.
  unfold is_pow2 in E1. apply andb_prop in E1 as [_ E1]. apply Nat.eqb_eq in E1. exists (Nat.log2 (length G)). rewrite <- E1. do 6 (split; [assumption || reflexivity|]).
  revert E. generalize (Some (gf, hf)) (innerproduct_domain_sep tr (length G)). revert E1. generalize (Nat.log2 (length G)). clear. intros k _. revert u G H a b p.
  induction k as [|k IH]; intros u G H a b p fac t; cbn [ipp_loop]; [cbn [fst]; intros <-; now split|].
  unfold challenge_scalar. match goal with |- context [ipp_loop T k None u ?A ?B ?C ?D ?E] => pose proof (IH u A B C D (fst (ipp_loop T k None u A B C D E)) None E) as I; destruct (ipp_loop T k None u A B C D E) as [q t'] end.
  cbn [fst] in I. destruct I as [I1 I2]; [reflexivity|]. cbn [fst]. intros <-. cbn [ip_L ip_R length]. auto.
Qed.
(** Refuted: verify_ipp returns an error for every proof that is not accepted.  It panics if
    the number of rounds does not fit the size *)
Theorem C94_refuted_wrong_rounds : forall lg n tr gf hf (P u : M) G H a b L R, (32 <= length L)%nat \/ n <> (2 ^ length L)%nat ->
  verify_ipp T lg n tr gf hf P u G H a b L R = Err Panic.
Proof.
  intros lg n tr gf hf P u G H a b L R C. unfold verify_ipp, verification_scalars. destruct (Nat.leb_spec 32 (length L)); [reflexivity|].
  destruct (Nat.eqb_spec n (2 ^ length L)); [lia|reflexivity].
Qed.
(** and if the two lists of points have different lengths, whatever the other arguments
    (vectors of n elements and a logarithm that is exact) *)
Theorem C94_refuted_unequal_lists : forall lg n tr gf hf (P u : M) G H a b L R, lg 1%nat = 0%nat -> length L <> length R ->
  length G = n -> length H = n -> length gf = n -> length hf = n ->
  verify_ipp T lg n tr gf hf P u G H a b L R = Err Panic.
Proof.
  intros lg n tr gf hf P u G H a b L R Hlg N EG EH Egf Ehf. unfold verify_ipp, verification_scalars. destruct (32 <=? length L)%nat; [reflexivity|].
  destruct (Nat.eqb_spec n (2 ^ length L)) as [En|]; [|reflexivity]. cbn [negb].
  pose proof (replay_length T (combine L R) (innerproduct_domain_sep tr n)) as Lx. destruct (replay T (combine L R) (innerproduct_domain_sep tr n)) as [xs tr']. cbn [fst] in Lx. rewrite combine_length in Lx.
  destruct (Nat.ltb_spec 0 (length L)) as [Hl|Hl].
  - destruct (batch_invert xs) as [[ci p]|] eqn:Ei; cbn [rbind]; [|reflexivity].
    assert (length ci = length xs) as Lci by (unfold batch_invert in Ei; destruct xs; [discriminate|]; apply (f_equal (fun r => match r with Ok w => length (fst w) | _ => 0%nat end)) in Ei; cbn [fst] in Ei; rewrite map_length, seq_length in Ei; congruence).
    destruct (Nat.lt_ge_cases (length R) (length L)) as [C|C].
    + destruct (length L) as [|k] eqn:EL; [lia|]. destruct n as [|[|n]]; try (cbn [Nat.pow] in En; assert (2 ^ k <> 0)%nat by (apply Nat.pow_nonzero; lia); lia).
      cbn [Nat.sub seq rfold]. unfold s_step at 1. rewrite Hlg. destruct (Nat.ltb_spec (S k - 1) 0); [lia|]. 
      assert (at_ (map (fun x => fmul x x) xs) (S k - 1 - 0) = Err Panic) as -> by (unfold at_; rewrite (proj2 (nth_error_None _ _)); [reflexivity|rewrite map_length; lia]). reflexivity.
    + destruct (rfold _ _ _) as [s|] eqn:Es; cbn [rbind]; [|reflexivity]. unfold multi_scalar_mul.
      assert (length s = n) as Ls.
      { transitivity (length [p] + length (seq 1 (n - 1)))%nat.
        - clear - Es. revert Es. generalize (seq 1 (n - 1)) [p]. intros l. induction l as [|i l IH]; intros acc; cbn [rfold]; [intros [= ->]; cbn; lia|].
          destruct (s_step lg _ _ acc i) as [acc'|] eqn:E; cbn [rbind]; [|discriminate]. intros I. rewrite (IH _ I). clear - E. unfold s_step in E.
          destruct (_ <? lg i)%nat; [discriminate|]. destruct (at_ _ _); cbn [rbind] in E; [|discriminate]. destruct (_ <? _)%nat; [discriminate|]. destruct (at_ acc _); cbn [rbind] in E; [|discriminate]. injection E as <-. rewrite app_length. cbn [length]. lia.
        - rewrite seq_length. cbn [length]. assert (2 ^ length L <> 0)%nat by (apply Nat.pow_nonzero; lia). lia. }
      rewrite !app_length, !map_length, firstn_length, !zip_with_length by (rewrite ?rev_length; congruence). cbn [length].
      match goal with |- context [(?x =? ?y)%nat] => destruct (Nat.eqb_spec x y); [lia|] end. reflexivity.
  - cbn [rbind]. assert (length L = 0)%nat as E0 by lia. rewrite E0 in *. cbn in En. rewrite En in *. clear n En. cbn [Nat.sub seq rfold rbind]. unfold multi_scalar_mul.
    rewrite !app_length, firstn_length. cbn [map length]. rewrite !zip_with_length by (cbn; congruence).
    match goal with |- context [(?x =? ?y)%nat] => destruct (Nat.eqb_spec x y); [lia|] end. reflexivity.
Qed.
End IppProps.

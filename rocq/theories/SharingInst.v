(** Derived facts for SharingProps: the field as its own group, the concrete
    big-number instance, and counterexample runs. *)
From Verif Require Import Base BnModel BnProofs Alg Poly Fp NumTheory ShamirProofs SharingModel SharingProofs.
From Coq Require Import ZArith.Znumtheory FinFun.

(** *** the Bn3072-style instance satisfies the trait contract *)
Lemma be_fixed_val sz : forall x, 0 <= x < 256 ^ Z.of_nat sz -> bn_from_bytes (be_fixed sz x) = x.
Proof.
  induction sz as [|sz IH]; intros x Hx.
  - cbn in Hx. assert (x = 0) by lia. subst. reflexivity.
  - cbn [be_fixed]. rewrite bn_from_bytes_val, val_be_snoc. rewrite <- bn_from_bytes_val.
    rewrite Nat2Z.inj_succ, Z.pow_succ_r in Hx by lia.
    rewrite IH.
    + pose proof (Z.div_mod x 256). lia.
    + split; [apply Z.div_pos; lia|]. apply Z.div_lt_upper_bound; lia.
Qed.
Lemma bn_codec_laws p sz : prime p -> p <= 256 ^ Z.of_nat sz -> codec_laws (f0 : FpOps p) (bn_codec p sz).
Proof.
  intros Hp Hsz. pose proof (prime_ge_2 p Hp). split; [|split].
  - intros x. apply be_fixed_length.
  - intros x. cbn [bn_codec c_dec c_enc]. pose proof (fpv_range p x ltac:(lia)).
    rewrite be_fixed_val by lia. destruct (Z.ltb_spec (fpv x) p); [|lia]. f_equal. apply fp_fpv.
  - intros x. cbn [bn_codec c_valid]. pose proof (fpv_range p x ltac:(lia)).
    assert (E : fpv x <? p = true) by (apply Z.ltb_lt; lia). rewrite E, andb_true_r.
    destruct (Z.eqb_spec (fpv x) 0) as [E0|N]; cbn [negb]; split; intros Q; try discriminate; try reflexivity.
    + apply fpv_inj. rewrite E0. reflexivity.
    + exfalso. apply N. rewrite Q. reflexivity.
Qed.
Lemma bn_ids_ok p n : prime p -> Z.of_nat n < p -> Z.of_nat n < 2 ^ 32 -> ids_ok (bn_from_usize p) n.
Proof.
  intros Hp Hn H32. split; [assumption|]. split; [reflexivity|].
  intros a b Ha Hb E. apply fp_eq in E. rewrite !Z.mod_small in E by lia. exact E.
Qed.
Section Field.
  Variable K : fieldOps.
  Hypothesis HK : field_laws K.
  Add Field Kf3 : (proj1 HK).
  Variable CK : codec K.
  Hypothesis HCK : codec_laws f0 CK.
  Variable from_usize : Z -> K.
  Let HS := self_mod_laws K HK.

  Lemma faithful_one : faithful (f1 : self_mod K).
  Proof.
    intros x y E. cbn [smul self_mod] in E.
    assert (E1 : forall x : K, fmul x f1 = x) by (intros z; ring). now rewrite !E1 in E.
  Qed.

  (** combining in the field itself ([combine_shares::<S, S>]) *)
  Lemma combine_poly_field n poly sc shares :
    ids_ok from_usize n -> poly <> [] -> (length poly <= length shares)%nat ->
    (sc_threshold sc <= length shares)%nat -> NoDup (map ss_id shares) ->
    (forall s, In s shares -> 1 <= ss_id s <= Z.of_nat n /\
        c_dec CK (ss_value s) = Ok (peval poly (from_usize (ss_id s))) /\
        peval poly (from_usize (ss_id s)) <> f0) ->
    ss_combine_shares K from_usize (self_mod K) CK sc shares = Ok (hd f0 poly).
  Proof.
    intros Hids Hne Hl Ht Hnd Hs.
    assert (E1 : forall x : K, fmul x f1 = x) by (intros x; ring).
    rewrite (combine_poly K HK from_usize (self_mod K) HS CK HCK n poly (f1 : self_mod K) sc shares); auto.
    - f_equal. apply E1.
    - intros s Hin. destruct (Hs s Hin) as (H1 & H2 & H3). split; [assumption|].
      cbn [smul self_mod m0]. rewrite E1. auto.
  Qed.

  Lemma reconstruct_field t n sc draws secret shares sub :
    ids_ok from_usize n -> scheme_new t n = Ok sc ->
    ss_split_secret K CK from_usize sc draws secret = Ok shares ->
    incl sub shares -> NoDup (map ss_id sub) -> (t <= length sub)%nat ->
    (forall s, In s sub -> c_dec CK (ss_value s) <> Ok f0) ->
    ss_combine_shares K from_usize (self_mod K) CK sc sub = Ok secret.
  Proof.
    intros Hids Hsc Hsp Hincl Hnd Hl Hnz.
    pose proof (scheme_new_ok _ _ _ Hsc) as [Esc Ht]. subst sc.
    apply (split_spec K HK CK HCK from_usize t n) in Hsp as [Hs0 ->]; [|assumption].
    change secret with (hd f0 (polyc K (mkScheme t n) draws secret)).
    apply (combine_poly_field n); auto.
    - discriminate.
    - rewrite polyc_length by (cbn; lia). cbn. lia.
    - intros s Hin. pose proof (Hnz s Hin) as Hz. apply Hincl in Hin.
      apply (honest_share_in K CK HCK) in Hin as [Hr Hd]; [|apply Hids].
      split; [assumption|]. split; [assumption|]. congruence.
  Qed.

  Lemma feldman_combine (M : modOps K) (HM : mod_laws M) t n sc (g : M) poly shares :
    ids_ok from_usize n -> scheme_new t n = Ok sc -> faithful g -> length poly = t ->
    (t <= length shares)%nat -> NoDup (map ss_id shares) ->
    (forall s, In s shares -> 1 <= ss_id s <= Z.of_nat n /\
       feldman_verify K CK from_usize M sc s (mkFV K M g (map (fun c => smul c g) poly)) = Ok tt) ->
    vss_combine K from_usize (self_mod K) CK sc shares = Ok (hd f0 poly).
  Proof.
    intros Hids Hsc Hg Hlp Hl Hnd Hv. unfold vss_combine. rewrite (scheme_new_same _ _ _ Hsc). cbn [rbind].
    destruct (scheme_new_ok _ _ _ Hsc) as [-> Ht].
    assert (Hne : poly <> []) by (destruct poly; [cbn in Hlp; lia|discriminate]).
    apply (combine_poly_field n); auto; [lia|].
    intros s Hin. destruct (Hv s Hin) as [Hr Ha]. split; [assumption|].
    apply (feldman_sound K HK CK HCK from_usize M HM) in Ha as (_ & H1 & H2); auto.
  Qed.

  (** honest splits hit zero shares: for every non-zero secret *)
  Lemma zero_share_exists t n sc secret :
    ids_ok from_usize n -> scheme_new t n = Ok sc -> secret <> f0 ->
    exists draws shares, ss_split_secret K CK from_usize sc draws secret = Ok shares /\
      In (mkSShare 1 (c_enc CK f0)) shares.
  Proof.
    intros Hids Hsc Hs. destruct (scheme_new_ok _ _ _ Hsc) as [Esc Ht].
    assert (Hx : from_usize 1 <> f0).
    { destruct Hids as (_ & H0 & Hinj). rewrite <- H0. intros E. apply Hinj in E; lia. }
    set (c1 := fopp (fdiv secret (from_usize 1))).
    destruct (polyc_draws K t n secret (c1 :: repeat f0 (t - 2))) as (draws & Ed).
    { cbn [length]. rewrite repeat_length. lia. } { lia. }
    exists draws. eexists. split.
    { apply (split_spec K HK CK HCK from_usize t n); [assumption|]. split; [assumption|reflexivity]. }
    apply in_map_iff. exists 0%nat. split; [|apply in_seq; lia].
    unfold honest_share. rewrite Esc, Ed. change (Z.of_nat 0 + 1) with 1. f_equal. f_equal.
    change (secret :: c1 :: repeat f0 (t - 2)) with ([secret; c1] ++ repeat f0 (t - 2)).
    rewrite (pad_eval K HK). unfold c1. cbn [peval]. field. assumption.
  Qed.

  Lemma zero_share_combine sc shares s : In s shares -> c_dec CK (ss_value s) = Ok f0 ->
    is_ok (ss_combine_shares K from_usize (self_mod K) CK sc shares) = false.
  Proof.
    intros Hin Hd. unfold ss_combine_shares.
    destruct (Nat.ltb (length shares) (sc_threshold sc)); [reflexivity|].
    assert (H : is_ok (rfold (combine_step K from_usize (self_mod K) CK) shares ([], ([], []))) = false).
    { apply (combine_fold_err K from_usize (self_mod K) CK HCK). left. exists s. split; [assumption|].
      right. right. intros y Hy. pose proof (eq_trans (eq_sym Hd) Hy : Ok (f0 : K) = Ok (y : K)) as E. now injection E. }
    destruct (rfold _ shares _); [discriminate|reflexivity].
  Qed.
  Lemma combine_rejects (M : modOps K) (CM : codec M) (HCM : codec_laws m0 CM) sc shares :
    (length shares < sc_threshold sc)%nat \/ ~ NoDup (map ss_id shares) \/
    (exists s, In s shares /\ (ss_id s = 0 \/ forall y, c_dec CM (ss_value s) = Ok y -> y = m0)) ->
    is_ok (ss_combine_shares K from_usize M CM sc shares) = false.
  Proof.
    intros H. unfold ss_combine_shares.
    destruct (Nat.ltb_spec (length shares) (sc_threshold sc)); [reflexivity|].
    assert (G : is_ok (rfold (combine_step K from_usize M CM) shares ([], ([], []))) = false).
    { apply (combine_fold_err K from_usize M CM HCM). destruct H as [H|[H|(s & Hin & H)]]; [lia|now right|].
      left. exists s. split; [assumption|]. tauto. }
    destruct (rfold _ shares _); [discriminate|reflexivity].
  Qed.
  Lemma zero_share_feldman (M : modOps K) sc s v : c_dec CK (ss_value s) = Ok f0 ->
    is_ok (feldman_verify K CK from_usize M sc s v) = false.
  Proof.
    intros Hd. unfold feldman_verify. destruct (Nat.ltb _ _); [reflexivity|]. rewrite Hd. cbn [rbind].
    assert (c_valid CK f0 = false) as -> by now apply (proj2 (proj2 HCK)). reflexivity.
  Qed.
  Lemma zero_share_pedersen (M : modOps K) sc s b v :
    c_dec CK (ss_value s) = Ok f0 \/ c_dec CK (ss_value b) = Ok f0 ->
    is_ok (pedersen_verify K CK from_usize M sc s b v) = false.
  Proof.
    assert (Z0 : c_valid CK f0 = false) by now apply (proj2 (proj2 HCK)).
    intros H. unfold pedersen_verify. destruct (c_dec CK (ss_value s)) as [y|e]; cbn [rbind]; [|reflexivity].
    destruct (c_valid CK y) eqn:Ev; cbn [negb]; [|reflexivity].
    destruct H as [H|H].
    { injection H as ->. congruence. }
    rewrite H. cbn [rbind]. rewrite Z0. reflexivity.
  Qed.
  Lemma zero_secret_split sc draws : ss_split_secret K CK from_usize sc draws f0 = Err (ShareErr ShareInvalidSecret).
  Proof.
    unfold ss_split_secret, get_shares_and_polynomial.
    assert (c_valid CK f0 = false) as -> by now apply (proj2 (proj2 HCK)). reflexivity.
  Qed.
End Field.

(** *** counterexample runs over GF(257), two-byte encodings *)
Definition K257 := FpOps 257.
Definition C257 : codec K257 := bn_codec 257 2.
Definition M257 : modOps K257 := self_mod K257.
Definition fu257 : Z -> K257 := bn_from_usize 257.
Definition k257 (z : Z) : K257 := fp 257 z.
Definition okv (r : res M257) : option Z := match r with Ok x => Some (@fpv 257 x) | Err _ => None end.
Lemma K257_laws : field_laws K257.
Proof. exact (FpOps_laws 257 prime_257). Qed.
Lemma C257_laws : codec_laws (f0 : K257) C257.
Proof. apply bn_codec_laws; [exact prime_257|cbn; lia]. Qed.
Lemma okv_inj r x : okv r = Some x -> exists y : M257, r = Ok y /\ @fpv 257 y = x.
Proof. destruct r as [y|e]; cbn; [|discriminate]. intros H. exists y. split; [reflexivity|]. congruence. Qed.

(** a dealer who publishes one commitment too many *)
Definition bad_poly : list K257 := map k257 [9; 5; 1].
Definition bad_verifier : fverifier K257 M257 := mkFV K257 M257 (k257 3) (map (fun c => smul c (k257 3 : M257)) bad_poly).
Definition bad_share (i : Z) : sshare := mkSShare i (be_fixed 2 (9 + 5 * i + i * i)).
Lemma bad_dealer :
  (forall i, In i [1; 2; 3] -> feldman_verify K257 C257 fu257 M257 (mkScheme 2 3) (bad_share i) bad_verifier = Ok tt) /\
  exists a b, vss_combine K257 fu257 M257 C257 (mkScheme 2 3) [bad_share 1; bad_share 2] = Ok a /\
              vss_combine K257 fu257 M257 C257 (mkScheme 2 3) [bad_share 1; bad_share 3] = Ok b /\ a <> b.
Proof.
  split.
  - intros i [<-|[<-|[<-|[]]]]; vm_compute; reflexivity.
  - assert (E1 : okv (vss_combine K257 fu257 M257 C257 (mkScheme 2 3) [bad_share 1; bad_share 2]) = Some 7) by (vm_compute; reflexivity).
    assert (E2 : okv (vss_combine K257 fu257 M257 C257 (mkScheme 2 3) [bad_share 1; bad_share 3]) = Some 6) by (vm_compute; reflexivity).
    apply okv_inj in E1 as (a & Ea & Va). apply okv_inj in E2 as (b & Eb & Vb).
    exists a, b. split; [exact Ea|]. split; [exact Eb|]. intros ->. congruence.
Qed.

(** an honest run *)
Definition ex_sd (i : nat) : K257 := k257 (nth i [5; 10] 0).
Definition ex_bd (i : nat) : K257 := k257 (nth i [7; 1] 0).
Definition ex_sc : scheme := mkScheme 3 5.
Lemma ex_split : ss_split_secret K257 C257 fu257 ex_sc ex_sd (k257 9) =
  Ok [mkSShare 1 [0; 24]; mkSShare 2 [0; 59]; mkSShare 3 [0; 114]; mkSShare 4 [0; 189]; mkSShare 5 [0; 27]].
Proof. vm_compute. reflexivity. Qed.

(** after a byte round trip the honest share 2 is refused *)
Definition ex_feldman : res (fverifier K257 M257 * list sshare) :=
  feldman_split K257 C257 fu257 M257 ex_sc ex_sd (k257 9) (k257 3 : M257).
Definition recode (v : fverifier K257 M257) : res (fverifier K257 M257) :=
  fverifier_try_from K257 M257 C257 (fverifier_to_bytes K257 M257 C257 v).
Lemma recode_rejects :
  (let! (v, shares) := ex_feldman in rmap (fun s => feldman_verify K257 C257 fu257 M257 ex_sc s v) shares)
    = Ok [tt; tt; tt; tt; tt] /\
  (let! (v, shares) := ex_feldman in let! v' := recode v in
     feldman_verify K257 C257 fu257 M257 ex_sc (nth 1 shares (mkSShare 0 [])) v')
    = Err (ShareErr ShareInvalidValue).
Proof. split; vm_compute; reflexivity. Qed.

Lemma sshare_to_bytes_diverges fuel s : sshare_to_bytes fuel s = Err OutOfFuel.
Proof. induction fuel as [|fuel IH]; [reflexivity|]. cbn [sshare_to_bytes]. rewrite IH. reflexivity. Qed.
Lemma sshare_try_from_spec bytes :
  ((length bytes < 4)%nat -> sshare_try_from bytes = Err (ShareErr ShareSecretMinSize)) /\
  (forall id v, 0 <= id < 2 ^ 32 -> bytes = u32_be id ++ v -> sshare_try_from bytes = Ok (mkSShare id v)).
Proof.
  split.
  - intros H. unfold sshare_try_from. destruct (Nat.ltb_spec (length bytes) 4); [reflexivity|lia].
  - intros id v Hid ->. unfold sshare_try_from. rewrite app_length, u32_be_length.
    destruct (Nat.ltb_spec (4 + length v) 4); [lia|].
    change (firstn 4 (u32_be id ++ v)) with (u32_be id). change (skipn 4 (u32_be id ++ v)) with v.
    now rewrite u32_of_be_to by lia.
Qed.
Lemma pverifier_short_panics (K : fieldOps) (M : modOps K) (CM : codec M) (HCM : codec_laws m0 CM) g h n :
  (1 <= c_size CM)%nat -> 1 <= n < 2 ^ 32 ->
  pverifier_try_from K M CM (c_enc CM g ++ c_enc CM h ++ u32_be n) = Err Panic.
Proof.
  intros Hsz Hn. unfold pverifier_try_from.
  rewrite !app_length, u32_be_length, !(proj1 HCM).
  destruct (Nat.ltb_spec (c_size CM + (c_size CM + 4)) (c_size CM * 2 + 4)) as [H|_]; [lia|].
  rewrite (slice_head (c_enc CM g)) by (now rewrite (proj1 HCM)). cbn [rbind].
  rewrite (proj1 (proj2 HCM)). cbn [rbind].
  rewrite slice_mid; [|now rewrite (proj1 HCM)|now rewrite !(proj1 HCM)]. cbn [rbind].
  rewrite (proj1 (proj2 HCM)). cbn [rbind]. rewrite app_assoc.
  rewrite <- (app_nil_r (u32_be n)) at 1.
  rewrite slice_mid; [|now rewrite app_length, !(proj1 HCM)|now rewrite app_length, !(proj1 HCM), u32_be_length]. cbn [rbind].
  rewrite u32_of_be_to by lia.
  destruct (Z.to_nat n) as [|k] eqn:Ek; [lia|]. unfold read_commitments. cbn [seq rmap].
  assert (slice ((c_enc CM g ++ c_enc CM h) ++ u32_be n) (c_size CM + c_size CM + 4) (c_size CM + c_size CM + 4 + c_size CM) = Err Panic) as ->.
  { unfold slice. rewrite !app_length, !(proj1 HCM), u32_be_length.
    destruct (Nat.leb_spec (c_size CM + c_size CM + 4 + c_size CM) (c_size CM + c_size CM + 4)); [lia|]. now rewrite andb_false_r. }
  reflexivity.
Qed.

Lemma scheme_new_iff t n : forall sc, scheme_new t n = Ok sc <-> (2 <= t <= n)%nat /\ sc = mkScheme t n.
Proof.
  intros sc. split.
  - intros H. destruct (scheme_new_ok _ _ _ H). auto.
  - intros [H ->]. unfold scheme_new. destruct (Nat.ltb_spec n t); [lia|]. destruct (Nat.ltb_spec t 2); [lia|]. reflexivity.
Qed.
Lemma extra_commitments :
  exists v shares, (forall s, In s shares -> feldman_verify K257 C257 fu257 M257 (mkScheme 2 3) s v = Ok tt) /\
  exists s1 s2 s3, shares = [s1; s2; s3] /\ NoDup (map ss_id shares) /\
  exists a b, vss_combine K257 fu257 M257 C257 (mkScheme 2 3) [s1; s2] = Ok a /\
              vss_combine K257 fu257 M257 C257 (mkScheme 2 3) [s1; s3] = Ok b /\ a <> b.
Proof.
  exists bad_verifier, (map bad_share [1; 2; 3]). destruct bad_dealer as [H1 H2]. split.
  - intros s Hs. apply in_map_iff in Hs as (i & <- & Hi). auto.
  - exists (bad_share 1), (bad_share 2), (bad_share 3). split; [reflexivity|]. split; [|exact H2].
    repeat constructor; cbn; intuition discriminate.
Qed.
Lemma zero_share_refused K (HK : field_laws K) CK (HCK : codec_laws f0 CK) from_usize s :
  c_dec CK (ss_value s) = Ok f0 ->
  (forall sc shares, In s shares -> is_ok (ss_combine_shares K from_usize (self_mod K) CK sc shares) = false) /\
  (forall M sc v, is_ok (feldman_verify K CK from_usize M sc s v) = false) /\
  (forall M sc b v, is_ok (pedersen_verify K CK from_usize M sc s b v) = false) /\
  (forall M sc b v, is_ok (pedersen_verify K CK from_usize M sc b s v) = false).
Proof.
  intros H. repeat split; intros.
  - now apply (zero_share_combine K CK HCK from_usize sc shares s).
  - now apply zero_share_feldman.
  - apply zero_share_pedersen; auto.
  - apply zero_share_pedersen; auto.
Qed.
Lemma split_iff K (HK : field_laws K) CK (HCK : codec_laws f0 CK) from_usize sc draws secret :
  (secret = f0 -> ss_split_secret K CK from_usize sc draws secret = Err (ShareErr ShareInvalidSecret)) /\
  (secret <> f0 -> exists shares, ss_split_secret K CK from_usize sc draws secret = Ok shares /\
     length shares = sc_limit sc).
Proof.
  split.
  - intros ->. now apply zero_secret_split.
  - intros H. apply (valid_nonzero K CK HCK) in H. unfold ss_split_secret, get_shares_and_polynomial.
    rewrite H. cbn [negb rbind]. eexists. split; [reflexivity|]. now rewrite map_length, seq_length.
Qed.
Lemma repeat_all {A} (c d : A) cs : In d cs -> cs = repeat c (length cs) -> d = c.
Proof. intros Hin E. rewrite E in Hin. now apply repeat_spec in Hin. Qed.
Lemma fverifier_roundtrip_refuted K M CM (HCM : codec_laws m0 CM) g c cs :
  Z.of_nat (length (c :: cs)) < 2 ^ 32 -> (exists d, In d cs /\ d <> c) ->
  fverifier_try_from K M CM (fverifier_to_bytes K M CM (mkFV K M g (c :: cs))) <> Ok (mkFV K M g (c :: cs)).
Proof.
  intros Hl (d & Hd & Hne) E. rewrite fverifier_codec in E by assumption.
  apply (f_equal (fun r => match r with Ok v => tl (fv_commitments K M v) | Err _ => [] end)) in E. cbn in E.
  apply Hne. apply (repeat_all c d cs Hd). now symmetry.
Qed.
Lemma pverifier_roundtrip_refuted K M CM (HCM : codec_laws m0 CM) g h c cs :
  Z.of_nat (length (c :: cs)) < 2 ^ 32 -> (exists d, In d cs /\ d <> c) ->
  pverifier_try_from K M CM (pverifier_to_bytes K M CM (mkPV K M g h (c :: cs))) <> Ok (mkPV K M g h (c :: cs)).
Proof.
  intros Hl (d & Hd & Hne) E. rewrite pverifier_codec in E by assumption.
  apply (f_equal (fun r => match r with Ok v => tl (pv_commitments K M v) | Err _ => [] end)) in E. cbn in E.
  apply Hne. apply (repeat_all c d cs Hd). now symmetry.
Qed.

(** Proofs about the model of the ursa_sharing crate. *)
From Verif Require Import Base BnModel BnProofs Alg Poly Fp ShamirProofs SharingModel.
From Coq Require Import ZArith.Znumtheory FinFun.

(** ** bytes *)
Lemma u32_be_length x : length (u32_be x) = 4%nat.
Proof. reflexivity. Qed.
Lemma u32_of_be_to x : 0 <= x < 2 ^ 32 -> u32_of_be (u32_be x) = x.
Proof.
  intros H. unfold u32_of_be, u32_be. cbn [nth].
  change (2 ^ 24) with (256 * 256 * 256). change (2 ^ 16) with (256 * 256). change (2 ^ 8) with 256.
  change (2 ^ 32) with (256 * 256 * 256 * 256) in H.
  rewrite <- !Z.div_div by lia.
  pose proof (Z.div_mod x 256). pose proof (Z.mod_pos_bound x 256).
  pose proof (Z.div_mod (x/256) 256). pose proof (Z.mod_pos_bound (x/256) 256).
  pose proof (Z.div_mod (x/256/256) 256). pose proof (Z.mod_pos_bound (x/256/256) 256).
  pose proof (Z.div_mod (x/256/256/256) 256).
  assert (x/256/256/256/256 = 0).
  { rewrite !Z.div_div by lia. apply Z.div_small. lia. }
  rewrite (Z.mod_small (x/256/256/256) 256) by lia. lia.
Qed.
Lemma be_fixed_length n : forall x, length (be_fixed n x) = n.
Proof. induction n as [|n IH]; intros x; cbn [be_fixed]; [reflexivity|]. rewrite app_length, IH. cbn. lia. Qed.
Lemma slice_mid (a b c : list Z) i j : i = length a -> j = (length a + length b)%nat ->
  slice (a ++ b ++ c) i j = Ok b.
Proof.
  intros -> ->. unfold slice. rewrite !app_length.
  destruct (Nat.leb_spec (length a) (length a + length b)); [|lia].
  destruct (Nat.leb_spec (length a + length b) (length a + (length b + length c))); [|lia]. cbn [andb].
  rewrite skipn_app, skipn_all, Nat.sub_diag. cbn [app skipn].
  replace (length a + length b - length a)%nat with (length b) by lia.
  rewrite firstn_app, Nat.sub_diag, firstn_all. cbn [firstn]. now rewrite app_nil_r.
Qed.

Lemma slice_head (b c : list Z) j : j = length b -> slice (b ++ c) 0 j = Ok b.
Proof. intros ->. exact (slice_mid [] b c 0 (length b) eq_refl eq_refl). Qed.

Section Generic.
  Variable K : fieldOps.
  Hypothesis HK : field_laws K.
  Add Field Kf : (proj1 HK).
  Variable CK : codec K.
  Hypothesis HCK : codec_laws f0 CK.
  Variable from_usize : Z -> K.

  Lemma horner_eval (x : K) cs : forall out,
    fold_left (fun out c => fadd (fmul out x) c) cs out = peval (rev cs ++ [out]) x.
  Proof.
    induction cs as [|c cs IH]; intros out; cbn [fold_left rev app peval]; [ring|].
    rewrite IH, <- app_assoc. cbn [app]. rewrite !(peval_app K HK). f_equal. f_equal.
    cbn [peval]. ring.
  Qed.
  Lemma poly_evaluate_peval cs x : poly_evaluate K cs x = peval cs x.
  Proof.
    unfold poly_evaluate. destruct (rev cs) as [|top rest] eqn:R.
    - apply (f_equal (@rev K)) in R. rewrite rev_involutive in R. subst. reflexivity.
    - rewrite horner_eval. replace (fadd f0 top) with top by ring.
      apply (f_equal (@rev K)) in R. rewrite rev_involutive in R. subst cs. cbn [rev]. reflexivity.
  Qed.

  Lemma ss_basis_lag xs i : NoDup xs -> (i < length xs)%nat -> ss_basis K xs i = lag xs i f0.
  Proof.
    intros Hnd Hi. unfold ss_basis, lag. rewrite others_filter.
    assert (G : forall js b, (forall j, In j js -> (j < length xs)%nat) ->
      fold_left (fun basis j => if Nat.eqb i j then basis
        else fmul basis (fdiv (fadd f0 (nth j xs f0)) (fsub (fadd f0 (nth j xs f0)) (nth i xs f0)))) js b
      = fmul b (fprod (map (fun r => fdiv (fsub f0 r) (fsub (nth i xs f0) r))
           (map (fun j => nth j xs f0) (filter (fun j => negb (Nat.eqb i j)) js))))).
    { induction js as [|j js IH]; intros b Hjs; cbn [fold_left filter map fprod]; [ring|].
      rewrite IH by (intros; apply Hjs; now right).
      destruct (Nat.eqb_spec i j) as [->|Hne]; cbn [negb map fprod]; [reflexivity|].
      assert (Hd : fsub (nth i xs f0) (nth j xs f0) <> f0).
      { apply (fsub_neq0 K HK). intros E. apply Hne. apply (proj1 (NoDup_nth xs f0) Hnd); auto.
        apply Hjs. now left. }
      set (P := fprod _).
      assert (Hd2 : fsub (nth j xs f0) (nth i xs f0) <> f0).
      { intros E. apply Hd. replace (fsub (nth i xs f0) (nth j xs f0)) with (fopp (fsub (nth j xs f0) (nth i xs f0))) by ring.
        rewrite E. ring. }
      field. split; assumption. }
    rewrite G; [|intros j Hj; apply in_seq in Hj; lia]. ring.
  Qed.

  Definition polyc (sc : scheme) (draws : nat -> K) (secret : K) : list K :=
    secret :: map draws (seq 0 (sc_threshold sc - 1)).
  Lemma polyc_length sc draws secret : (2 <= sc_threshold sc)%nat -> length (polyc sc draws secret) = sc_threshold sc.
  Proof. intros H. unfold polyc. cbn [length]. rewrite map_length, seq_length. lia. Qed.

  Definition honest_share (poly : list K) (i : nat) : sshare :=
    mkSShare (as_u32 (Z.of_nat i + 1)) (c_enc CK (peval poly (from_usize (Z.of_nat i + 1)))).

  Lemma get_shares_spec sc draws secret :
    get_shares_and_polynomial K CK from_usize sc draws secret =
    if c_valid CK secret then
      Ok (map (honest_share (polyc sc draws secret)) (seq 0 (sc_limit sc)), polyc sc draws secret)
    else Err (ShareErr ShareInvalidSecret).
  Proof.
    unfold get_shares_and_polynomial. destruct (c_valid CK secret); cbn [negb]; [|reflexivity].
    assert (E : poly_new K draws secret (sc_threshold sc) = polyc sc draws secret).
    { unfold poly_new, polyc. f_equal. ring. }
    rewrite E. do 2 f_equal. apply map_ext. intros i. unfold honest_share. now rewrite poly_evaluate_peval.
  Qed.

  Section Group.
    Variable M : modOps K.
    Hypothesis HM : mod_laws M.
    Variable CM : codec M.
    Hypothesis HCM : codec_laws m0 CM.

    Lemma interp_smul xs (ys : list M) :
      ss_interpolate K M xs ys = msum (map (fun i => smul (ss_basis K xs i) (nth i ys m0)) (seq 0 (length xs))).
    Proof.
      unfold ss_interpolate.
      assert (G : forall is r, fold_left (fun result i => madd result (smul (ss_basis K xs i) (madd m0 (nth i ys m0)))) is r
         = madd r (msum (map (fun i => smul (ss_basis K xs i) (nth i ys m0)) is))).
      { induction is as [|i is IH]; intros r; cbn [fold_left map msum].
        - now rewrite (madd_0_r K M HM).
        - rewrite IH, (madd_0_l K M HM), (madd_assoc K M HM). reflexivity. }
      rewrite G. apply (madd_0_l K M HM).
    Qed.

    Lemma interp_group xs (ys : list K) (g : M) : NoDup xs -> length ys = length xs ->
      ss_interpolate K M xs (map (fun y => smul y g) ys) = smul (interp xs ys f0) g.
    Proof.
      intros Hnd Hl. rewrite interp_smul. unfold interp.
      assert (G : forall is, (forall i, In i is -> (i < length xs)%nat) ->
        msum (map (fun i => smul (ss_basis K xs i) (nth i (map (fun y => smul y g) ys) m0)) is)
        = smul (fsum (map (fun i => fmul (nth i ys f0) (lag xs i f0)) is)) g).
      { induction is as [|i is IH]; intros Hi; cbn [map msum fsum].
        - now rewrite (smul_0_l K HK M HM).
        - rewrite IH by (intros; apply Hi; now right).
          assert (Hii : (i < length xs)%nat) by (apply Hi; now left).
          rewrite (nth_indep _ m0 (smul f0 g)) by (rewrite map_length; lia).
          rewrite (map_nth (fun y => smul y g)). rewrite ss_basis_lag by assumption.
          module_coefs HK HM; ring. }
      apply G. intros i Hi. apply in_seq in Hi. lia.
    Qed.

    (** what a run of the checking loop produces *)
    Lemma combine_fold shares : forall dups xs ys yl,
      (forall s, In s shares -> ss_id s <> 0) ->
      NoDup (map ss_id shares) -> (forall s, In s shares -> ~ In (ss_id s) dups) ->
      Forall2 (fun s y => c_dec CM (ss_value s) = Ok y /\ y <> m0) shares yl ->
      exists d, rfold (combine_step K from_usize M CM) shares (dups, (xs, ys)) =
        Ok (d, (xs ++ map (fun s => from_usize (ss_id s)) shares, ys ++ yl)).
    Proof.
      induction shares as [|s shares IH]; intros dups xs ys yl Hid Hnd Hdup H2.
      - inversion H2; subst. exists dups. cbn [rfold map]. now rewrite !app_nil_r.
      - inversion H2 as [|s' y shares' yl' [Hy Hnz] H2' E1 E2]; subst s' shares' yl.
        cbn [map] in Hnd. inversion Hnd as [|? ? Hnin Hnd']; subst.
        cbn [rfold map]. unfold combine_step at 1.
        destruct (Z.eqb_spec (ss_id s) 0) as [E|_]; [exfalso; apply (Hid s); [now left|exact E]|].
        assert (existsb (Z.eqb (ss_id s)) dups = false) as ->.
        { apply not_true_iff_false. intros E. apply existsb_exists in E as (k & Hk & Ek).
          apply Z.eqb_eq in Ek. subst k. apply (Hdup s); [now left|assumption]. }
        rewrite Hy. cbn [rbind].
        assert (c_valid CM y = true) as ->.
        { destruct (c_valid CM y) eqn:Ev; [reflexivity|]. apply (proj2 (proj2 HCM)) in Ev. contradiction. }
        cbn [negb rbind].
        destruct (IH (ss_id s :: dups) (xs ++ [from_usize (ss_id s)]) (ys ++ [y]) yl') as (d & Ed).
        + intros; apply Hid; now right.
        + assumption.
        + intros s' Hs' [E|E].
          * apply Hnin. rewrite E. now apply in_map.
          * apply (Hdup s'); [now right|assumption].
        + assumption.
        + exists d. rewrite Ed, <- !app_assoc. reflexivity.
    Qed.

    Lemma combine_ok sc shares yl :
      (sc_threshold sc <= length shares)%nat ->
      (forall s, In s shares -> ss_id s <> 0) -> NoDup (map ss_id shares) ->
      Forall2 (fun s y => c_dec CM (ss_value s) = Ok y /\ y <> m0) shares yl ->
      ss_combine_shares K from_usize M CM sc shares =
        Ok (ss_interpolate K M (map (fun s => from_usize (ss_id s)) shares) yl).
    Proof.
      intros Hl Hid Hnd H2. unfold ss_combine_shares.
      destruct (Nat.ltb_spec (length shares) (sc_threshold sc)); [lia|].
      destruct (combine_fold shares [] [] [] yl Hid Hnd) as (d & Ed); [intros ? ? []|assumption|].
      rewrite Ed. reflexivity.
    Qed.

    Lemma combine_fold_err shares : forall dups xs ys,
      (exists s, In s shares /\ (ss_id s = 0 \/ In (ss_id s) dups \/
         (forall y, c_dec CM (ss_value s) = Ok y -> y = m0))) \/ ~ NoDup (map ss_id shares) ->
      is_ok (rfold (combine_step K from_usize M CM) shares (dups, (xs, ys))) = false.
    Proof.
      induction shares as [|s shares IH]; intros dups xs ys H.
      - exfalso. destruct H as [(s & [] & _)|H]. apply H. constructor.
      - cbn [rfold]. unfold combine_step at 1.
        destruct (Z.eqb_spec (ss_id s) 0) as [E|N0]; [reflexivity|].
        destruct (existsb (Z.eqb (ss_id s)) dups) eqn:Ex; [reflexivity|].
        destruct (c_dec CM (ss_value s)) as [y|e] eqn:Ed; cbn [rbind]; [|reflexivity].
        destruct (c_valid CM y) eqn:Ev; cbn [negb rbind]; [|reflexivity].
        assert (Hy : y <> m0). { intros ->. assert (c_valid CM m0 = false) by now apply (proj2 (proj2 HCM)). congruence. }
        apply IH. destruct H as [(s' & [<-|Hin] & H)|H].
        + exfalso. destruct H as [H|[H|H]]; [contradiction| |].
          * assert (existsb (Z.eqb (ss_id s)) dups = true) by (apply existsb_exists; exists (ss_id s); split; [assumption|apply Z.eqb_refl]).
            congruence.
          * apply Hy, H, Ed.
        + left. exists s'. split; [assumption|]. cbn [In]. tauto.
        + destruct (in_dec Z.eq_dec (ss_id s) (map ss_id shares)) as [Hi|Hi].
          * left. apply in_map_iff in Hi as (s' & E & Hi). exists s'. split; [assumption|]. right. left. now left.
          * right. intros Hnd. apply H. cbn [map]. now constructor.
    Qed.

    (** ** verifying *)
    Fixpoint meval (cs : list M) (x : K) : M :=
      match cs with [] => m0 | c :: cs => madd c (smul x (meval cs x)) end.

    Lemma commit_eval_spec x cs : cs <> [] -> commit_eval K M x cs = Ok (meval cs x).
    Proof.
      destruct cs as [|c0 cs]; [contradiction|]. intros _. cbn [commit_eval meval]. f_equal.
      assert (G : forall cs i acc, snd (fold_left (fun st v => let i := fmul (fst st) x in
                                          (i, madd (snd st) (smul i (madd m0 v)))) cs (i, acc))
                = madd acc (smul i (smul x (meval cs x)))).
      { clear cs. induction cs as [|c cs IH]; intros i acc; cbn [fold_left fst snd meval].
        - module_coefs HK HM; ring.
        - rewrite IH. module_coefs HK HM; ring. }
      rewrite G. module_coefs HK HM; ring.
    Qed.
    Lemma meval_smul (g : M) poly x : meval (map (fun c => smul c g) poly) x = smul (peval poly x) g.
    Proof.
      induction poly as [|c poly IH]; cbn [map meval peval].
      - now rewrite (smul_0_l K HK M HM).
      - rewrite IH. module_coefs HK HM; ring.
    Qed.
    Lemma meval_ped (g h : M) : forall p r x, length p = length r ->
      meval (map (fun i => madd (smul (nth i p f0) g) (smul (nth i r f0) h)) (seq 0 (length p))) x
      = madd (smul (peval p x) g) (smul (peval r x) h).
    Proof.
      assert (G : forall p r x s (P R : list K), length p = length r ->
         (forall i, nth (s + i) P f0 = nth i p f0) -> (forall i, nth (s + i) R f0 = nth i r f0) ->
         meval (map (fun i => madd (smul (nth i P f0) g) (smul (nth i R f0) h)) (seq s (length p))) x
         = madd (smul (peval p x) g) (smul (peval r x) h)).
      { induction p as [|a p IH]; intros [|b r] x s P R Hl HP HR; try discriminate Hl; cbn [length seq map meval peval].
        - module_coefs HK HM; ring.
        - rewrite (IH r x (S s) P R).
          + rewrite <- (Nat.add_0_r s) at 1 2. rewrite HP, HR. cbn [nth]. module_coefs HK HM; ring.
          + now injection Hl.
          + intros i. specialize (HP (S i)). cbn [nth] in HP. rewrite <- HP. f_equal. lia.
          + intros i. specialize (HR (S i)). cbn [nth] in HR. rewrite <- HR. f_equal. lia. }
      intros p r x Hl. apply G; auto.
    Qed.

    (** exact acceptance conditions *)
    Lemma feldman_verify_iff sc share v : v.(fv_commitments K M) <> [] ->
      feldman_verify K CK from_usize M sc share v = Ok tt <->
      (sc_threshold sc <= length (fv_commitments K M v))%nat /\
      exists s, c_dec CK (ss_value share) = Ok s /\ s <> f0 /\
        meval (fv_commitments K M v) (from_usize (ss_id share)) = smul s (fv_g K M v).
    Proof.
      intros Hne. unfold feldman_verify.
      destruct (Nat.ltb_spec (length (fv_commitments K M v)) (sc_threshold sc)) as [Hl|Hl].
      { split; [discriminate|]. intros [H _]. lia. }
      destruct (c_dec CK (ss_value share)) as [s|e] eqn:Ed; cbn [rbind].
      2:{ split; [discriminate|]. intros (_ & s & H & _). discriminate H. }
      destruct (c_valid CK s) eqn:Ev; cbn [negb].
      2:{ split; [discriminate|]. intros (_ & s' & H & Hs & _).
          injection H as <-. apply (proj2 (proj2 HCK)) in Ev. contradiction. }
      rewrite commit_eval_spec by assumption. cbn [rbind].
      set (m := meval _ _). set (g := fv_g K M v).
      assert (Eq : madd m (smul s (mopp (madd m0 g))) = msub m (smul s g)).
      { unfold msub. module_coefs HK HM; ring. }
      rewrite Eq. destruct (meqb (msub m (smul s g)) m0) eqn:Em.
      - apply (proj1 (meqb_eq K M HM _ _)) in Em. apply (proj1 (msub_0 K M HM _ _)) in Em. split; [|reflexivity]. intros _.
        split; [assumption|]. exists s. split; [reflexivity|]. split; [|assumption].
        intros ->. assert (c_valid CK f0 = false) by now apply (proj2 (proj2 HCK)). congruence.
      - split; [discriminate|]. intros (_ & s' & H & _ & Hm). injection H as <-.
        apply (proj2 (msub_0 K M HM _ _)) in Hm. rewrite Hm, (meqb_refl K M HM) in Em. discriminate.
    Qed.

    Lemma pedersen_verify_iff sc share bshare v : v.(pv_commitments K M) <> [] ->
      pedersen_verify K CK from_usize M sc share bshare v = Ok tt <->
      exists s t, c_dec CK (ss_value share) = Ok s /\ s <> f0 /\
        c_dec CK (ss_value bshare) = Ok t /\ t <> f0 /\
        meval (pv_commitments K M v) (from_usize (ss_id share)) =
          madd (smul s (pv_g K M v)) (smul t (pv_h K M v)).
    Proof.
      intros Hne. unfold pedersen_verify.
      destruct (c_dec CK (ss_value share)) as [s|e] eqn:Ed; cbn [rbind].
      2:{ split; [discriminate|]. intros (s & t & H & _). discriminate H. }
      destruct (c_valid CK s) eqn:Ev; cbn [negb].
      2:{ split; [discriminate|]. intros (s' & t' & H & Hs & _).
          injection H as <-. apply (proj2 (proj2 HCK)) in Ev. contradiction. }
      destruct (c_dec CK (ss_value bshare)) as [t|e] eqn:Et; cbn [rbind].
      2:{ split; [discriminate|]. intros (s' & t & _ & _ & H & _). discriminate H. }
      destruct (c_valid CK t) eqn:Evt; cbn [negb].
      2:{ split; [discriminate|]. intros (s' & t' & _ & _ & H & Hs & _).
          injection H as <-. apply (proj2 (proj2 HCK)) in Evt. contradiction. }
      rewrite commit_eval_spec by assumption. cbn [rbind].
      set (m := meval _ _). set (g := pv_g K M v). set (h := pv_h K M v).
      assert (Eq : madd (madd m (smul s (mopp (madd m0 g)))) (smul t (mopp (madd m0 h)))
                   = msub m (madd (smul s g) (smul t h))).
      { unfold msub. module_coefs HK HM; ring. }
      assert (V : forall z, c_valid CK z = true -> z <> f0).
      { intros z Hz ->. assert (c_valid CK f0 = false) by now apply (proj2 (proj2 HCK)). congruence. }
      rewrite Eq. destruct (meqb (msub m _) m0) eqn:Em.
      - apply (proj1 (meqb_eq K M HM _ _)) in Em. apply (proj1 (msub_0 K M HM _ _)) in Em. split; [|reflexivity]. intros _.
        exists s, t. auto 6.
      - split; [discriminate|]. intros (s' & t' & H & _ & H' & _ & Hm). injection H as <-. injection H' as <-.
        apply (proj2 (msub_0 K M HM _ _)) in Hm. rewrite Hm, (meqb_refl K M HM) in Em. discriminate.
    Qed.
  End Group.
End Generic.

(** ** The statements used by SharingProps *)
Section Main.
  Variable K : fieldOps.
  Hypothesis HK : field_laws K.
  Add Field Kf2 : (proj1 HK).
  Variable CK : codec K.
  Hypothesis HCK : codec_laws f0 CK.
  Variable from_usize : Z -> K.
  Variable M : modOps K.
  Hypothesis HM : mod_laws M.
  Variable CM : codec M.
  Hypothesis HCM : codec_laws m0 CM.

  Lemma scheme_new_ok t n sc : scheme_new t n = Ok sc -> sc = mkScheme t n /\ (2 <= t <= n)%nat.
  Proof.
    unfold scheme_new. destruct (Nat.ltb_spec n t); [discriminate|].
    destruct (Nat.ltb_spec t 2); [discriminate|]. intros H'. injection H' as <-. split; [reflexivity|lia].
  Qed.
  Lemma scheme_new_same t n sc : scheme_new t n = Ok sc -> scheme_new (sc_threshold sc) (sc_limit sc) = Ok sc.
  Proof. intros H. destruct (scheme_new_ok _ _ _ H) as [-> _]. exact H. Qed.
  Lemma valid_nonzero z : c_valid CK z = true <-> z <> f0.
  Proof.
    destruct (c_valid CK z) eqn:E; split; intros H; try reflexivity; try discriminate.
    - intros ->. assert (c_valid CK f0 = false) by now apply (proj2 (proj2 HCK)). congruence.
    - apply (proj2 (proj2 HCK)) in E. contradiction.
  Qed.

  Lemma split_spec t n sc draws secret shares : scheme_new t n = Ok sc ->
    ss_split_secret K CK from_usize sc draws secret = Ok shares <->
    secret <> f0 /\ shares = map (honest_share K CK from_usize (polyc K sc draws secret)) (seq 0 n).
  Proof.
    intros Hs. destruct (scheme_new_ok _ _ _ Hs) as [-> _]. unfold ss_split_secret.
    rewrite get_shares_spec by assumption. destruct (c_valid CK secret) eqn:Ev; cbn [rbind].
    - apply valid_nonzero in Ev. split.
      + intros H. injection H as <-. auto.
      + intros [_ ->]. reflexivity.
    - split; [discriminate|]. intros [H _]. apply valid_nonzero in H. congruence.
  Qed.

  (** a share of an honest split, read back *)
  Lemma honest_share_in n poly s : Z.of_nat n < 2 ^ 32 ->
    In s (map (honest_share K CK from_usize poly) (seq 0 n)) ->
    1 <= ss_id s <= Z.of_nat n /\ c_dec CK (ss_value s) = Ok (peval poly (from_usize (ss_id s))).
  Proof.
    intros Hn Hin. apply in_map_iff in Hin as (i & <- & Hi). apply in_seq in Hi.
    unfold honest_share. cbn [ss_id ss_value]. unfold as_u32. rewrite Z.mod_small by lia.
    split; [lia|]. apply (proj1 (proj2 HCK)).
  Qed.

  Lemma ids_NoDup n (ids : list Z) : ids_ok from_usize n -> NoDup ids ->
    (forall i, In i ids -> 1 <= i <= Z.of_nat n) -> NoDup (map from_usize ids).
  Proof.
    intros (_ & _ & Hinj) Hnd Hr. induction ids as [|i ids IH]; [constructor|].
    inversion Hnd as [|? ? Hn Hnd']; subst. cbn [map]. constructor.
    - intros H. apply in_map_iff in H as (j & E & Hj). apply Hn.
      rewrite <- (Hinj j i); [exact Hj| | |exact E]; [pose proof (Hr j)|pose proof (Hr i)]; cbn [In] in *; intuition lia.
    - apply IH; [assumption|]. intros j Hj. apply Hr. now right.
  Qed.

  Lemma interp_poly n poly (ids : list Z) : ids_ok from_usize n -> NoDup ids ->
    (forall i, In i ids -> 1 <= i <= Z.of_nat n) -> poly <> [] -> (length poly <= length ids)%nat ->
    interp (map from_usize ids) (map (peval poly) (map from_usize ids)) f0 = hd f0 poly.
  Proof.
    intros Hids Hnd Hr Hne Hl. rewrite (interp_unique K HK).
    - destruct poly as [|c poly]; [contradiction|]. apply (peval_0 K HK).
    - now apply (ids_NoDup n).
    - now rewrite map_length.
    - intros E. apply map_eq_nil in E. subst. destruct poly; [contradiction|cbn in Hl; lia].
  Qed.

  (** combining group images of points of a polynomial *)
  Lemma combine_poly n poly (g : M) sc shares :
    ids_ok from_usize n -> poly <> [] -> (length poly <= length shares)%nat ->
    (sc_threshold sc <= length shares)%nat -> NoDup (map ss_id shares) ->
    (forall s, In s shares -> 1 <= ss_id s <= Z.of_nat n /\
        c_dec CM (ss_value s) = Ok (smul (peval poly (from_usize (ss_id s))) g) /\
        smul (peval poly (from_usize (ss_id s))) g <> m0) ->
    ss_combine_shares K from_usize M CM sc shares = Ok (smul (hd f0 poly) g).
  Proof.
    intros Hids Hne Hl Ht Hnd Hs.
    set (ys := map (fun s => peval poly (from_usize (ss_id s))) shares).
    rewrite (combine_ok K from_usize M CM HCM sc shares (map (fun y => smul y g) ys)).
    - f_equal. rewrite (interp_group K HK M HM).
      + f_equal. rewrite <- (interp_poly n poly (map ss_id shares)); auto.
        * unfold ys. now rewrite !map_map.
        * intros i Hi. apply in_map_iff in Hi as (s & <- & Hi). now apply Hs.
        * now rewrite map_length.
      + rewrite <- (map_map ss_id from_usize). apply (ids_NoDup n); auto.
        intros i Hi. apply in_map_iff in Hi as (s & <- & Hi). now apply Hs.
      + unfold ys. now rewrite !map_length.
    - assumption.
    - intros s Hin. destruct (Hs s Hin). lia.
    - assumption.
    - unfold ys. rewrite map_map. clear - Hs. induction shares as [|s shares IH]; [constructor|].
      cbn [map]. constructor; [|apply IH; intros; apply Hs; now right].
      destruct (Hs s (or_introl eq_refl)) as (_ & H1 & H2). auto.
  Qed.

  Lemma reconstruct_group t n sc draws secret shares (g : M) sub sub' :
    ids_ok from_usize n -> scheme_new t n = Ok sc ->
    ss_split_secret K CK from_usize sc draws secret = Ok shares ->
    incl sub shares -> NoDup (map ss_id sub) -> (t <= length sub)%nat ->
    Forall2 (fun s s' => ss_id s' = ss_id s /\ exists y, c_dec CK (ss_value s) = Ok y /\
               c_dec CM (ss_value s') = Ok (smul y g) /\ smul y g <> m0) sub sub' ->
    ss_combine_shares K from_usize M CM sc sub' = Ok (smul secret g).
  Proof.
    intros Hids Hsc Hsp Hincl Hnd Hl H2.
    pose proof (scheme_new_ok _ _ _ Hsc) as [Esc Ht]. subst sc.
    apply (split_spec t n) in Hsp as [Hnz ->]; [|assumption].
    assert (Hids' : map ss_id sub' = map ss_id sub).
    { clear - H2. induction H2 as [|s s' l l' [H _] _ IH]; cbn [map]; congruence. }
    assert (Hlen : length sub' = length sub) by (clear - H2; induction H2; cbn [length]; congruence).
    change secret with (hd f0 (polyc K (mkScheme t n) draws secret)).
    apply (combine_poly n); auto.
    - discriminate.
    - rewrite polyc_length by (cbn; lia). cbn. lia.
    - cbn. lia.
    - now rewrite Hids'.
    - intros s' Hin.
      assert (exists s, In s sub /\ ss_id s' = ss_id s /\ exists y, c_dec CK (ss_value s) = Ok y /\
               c_dec CM (ss_value s') = Ok (smul y g) /\ smul y g <> m0) as (s & Hs & Eid & y & E1 & E2 & E3).
      { clear - H2 Hin. induction H2 as [|a b l l' H _ IH]; [contradiction|].
        destruct Hin as [<-|Hin]; [exists a; split; [now left|exact H]|].
        destruct (IH Hin) as (s & Hs & Q). exists s. split; [now right|exact Q]. }
      apply Hincl in Hs. apply honest_share_in in Hs as [Hr Hd]; [|apply Hids].
      rewrite Eid. split; [assumption|]. rewrite Hd in E1. injection E1 as <-. auto.
  Qed.

  Lemma feldman_split_spec t n sc draws secret (g : M) r : scheme_new t n = Ok sc ->
    feldman_split K CK from_usize M sc draws secret g = Ok r <->
    secret <> f0 /\
    r = (mkFV K M g (map (fun c => smul c g) (polyc K sc draws secret)),
         map (honest_share K CK from_usize (polyc K sc draws secret)) (seq 0 n)).
  Proof.
    intros Hs. pose proof (scheme_new_same _ _ _ Hs) as Hs'. unfold feldman_split. rewrite Hs'. cbn [rbind].
    destruct (scheme_new_ok _ _ _ Hs) as [-> _].
    rewrite get_shares_spec by assumption.
    assert (E : map (fun c => smul c (madd m0 g)) (polyc K (mkScheme t n) draws secret)
             = map (fun c => smul c g) (polyc K (mkScheme t n) draws secret)).
    { apply map_ext. intros c. now rewrite (madd_0_l K M HM). }
    destruct (c_valid CK secret) eqn:Ev; cbn [rbind].
    - apply valid_nonzero in Ev. rewrite E. split.
      + intros H. injection H as <-. auto.
      + intros [_ ->]. reflexivity.
    - split; [discriminate|]. intros [H _]. apply valid_nonzero in H. congruence.
  Qed.

  Lemma feldman_complete t n sc draws secret (g : M) v shares s :
    ids_ok from_usize n -> scheme_new t n = Ok sc ->
    feldman_split K CK from_usize M sc draws secret g = Ok (v, shares) -> In s shares ->
    c_dec CK (ss_value s) <> Ok f0 ->
    feldman_verify K CK from_usize M sc s v = Ok tt.
  Proof.
    intros Hids Hsc Hsp Hin Hnz. apply (feldman_split_spec t n) in Hsp as [Hs0 E]; [|assumption].
    destruct (scheme_new_ok _ _ _ Hsc) as [-> Ht]. apply pair_equal_spec in E as [-> ->].
    apply honest_share_in in Hin as [Hr Hd]; [|apply Hids].
    apply (feldman_verify_iff K HK CK HCK from_usize M HM); [discriminate|]. cbn [fv_commitments fv_g].
    rewrite map_length, polyc_length by (cbn; lia). split; [lia|].
    eexists. split; [exact Hd|]. split; [congruence|]. apply (meval_smul K HK M HM).
  Qed.

  Lemma feldman_sound sc (g : M) poly s :
    faithful g -> poly <> [] ->
    feldman_verify K CK from_usize M sc s (mkFV K M g (map (fun c => smul c g) poly)) = Ok tt <->
    (sc_threshold sc <= length poly)%nat /\ peval poly (from_usize (ss_id s)) <> f0 /\
    c_dec CK (ss_value s) = Ok (peval poly (from_usize (ss_id s))).
  Proof.
    intros Hg Hne. rewrite (feldman_verify_iff K HK CK HCK from_usize M HM).
    2:{ cbn [fv_commitments]. intros E. apply map_eq_nil in E. contradiction. }
    cbn [fv_commitments fv_g]. rewrite map_length, (meval_smul K HK M HM). split.
    - intros (Hl & y & Hd & Hy & E). split; [assumption|].
      assert (Ey : peval poly (from_usize (ss_id s)) = y).
      { now apply Hg. }
      rewrite Ey. auto.
    - intros (Hl & Hy & Hd). split; [assumption|]. eauto.
  Qed.


  (** *** Pedersen *)
  Definition ped_commitments (g h : M) (p r : list K) : list M :=
    map (fun i => madd (smul (nth i p f0) g) (smul (nth i r f0) h)) (seq 0 (length p)).

  Lemma pedersen_split_spec t n sc blinding sd bd secret (g h : M) r : scheme_new t n = Ok sc ->
    pedersen_split K CK from_usize M sc blinding sd bd secret g h = Ok r <->
    secret <> f0 /\ blinding <> f0 /\
    r = mkPR K M blinding
          (map (honest_share K CK from_usize (polyc K sc bd blinding)) (seq 0 n))
          (map (honest_share K CK from_usize (polyc K sc sd secret)) (seq 0 n))
          (mkPV K M g h (ped_commitments g h (polyc K sc sd secret) (polyc K sc bd blinding))).
  Proof.
    intros Hs. pose proof (scheme_new_same _ _ _ Hs) as Hs'. unfold pedersen_split. rewrite Hs'. cbn [rbind].
    destruct (scheme_new_ok _ _ _ Hs) as [-> Ht].
    rewrite !get_shares_spec by assumption.
    assert (E : map (fun i => madd (smul (nth i (polyc K (mkScheme t n) sd secret) f0) (madd m0 g))
                                   (smul (nth i (polyc K (mkScheme t n) bd blinding) f0) (madd m0 h)))
                    (seq 0 (sc_threshold (mkScheme t n)))
             = ped_commitments g h (polyc K (mkScheme t n) sd secret) (polyc K (mkScheme t n) bd blinding)).
    { unfold ped_commitments. rewrite polyc_length by (cbn; lia).
      apply map_ext. intros c. now rewrite !(madd_0_l K M HM). }
    destruct (c_valid CK secret) eqn:Ev; cbn [rbind].
    - apply valid_nonzero in Ev. destruct (c_valid CK blinding) eqn:Eb; cbn [rbind].
      + apply valid_nonzero in Eb. rewrite E. split.
        * intros H. injection H as <-. auto.
        * intros (_ & _ & ->). reflexivity.
      + split; [discriminate|]. intros (_ & H & _). apply valid_nonzero in H. congruence.
    - split; [discriminate|]. intros [H _]. apply valid_nonzero in H. congruence.
  Qed.

  Lemma ped_meval (g h : M) p r x : length p = length r ->
    meval K M (ped_commitments g h p r) x = madd (smul (peval p x) g) (smul (peval r x) h).
  Proof. intros H. apply (meval_ped K HK M HM); exact H. Qed.

  Lemma pedersen_complete t n sc blinding sd bd secret (g h : M) r i s b :
    ids_ok from_usize n -> scheme_new t n = Ok sc ->
    pedersen_split K CK from_usize M sc blinding sd bd secret g h = Ok r ->
    nth_error (pr_secret_shares K M r) i = Some s -> nth_error (pr_blinding_shares K M r) i = Some b ->
    c_dec CK (ss_value s) <> Ok f0 -> c_dec CK (ss_value b) <> Ok f0 ->
    pedersen_verify K CK from_usize M sc s b (pr_verifier K M r) = Ok tt.
  Proof.
    intros Hids Hsc Hsp Hs Hb Hsz Hbz.
    apply (pedersen_split_spec t n) in Hsp as (Hs0 & Hb0 & ->); [|assumption].
    destruct (scheme_new_ok _ _ _ Hsc) as [-> Ht].
    cbn [pr_secret_shares pr_blinding_shares pr_verifier] in *.
    rewrite nth_error_map in Hs, Hb. destruct (nth_error (seq 0 n) i) as [k|] eqn:Ek; [|discriminate].
    cbn [option_map] in Hs, Hb. apply (f_equal (fun o => match o with Some z => z | None => s end)) in Hs, Hb. subst s b.
    assert (Hk : (k < n)%nat). { apply nth_error_In in Ek. apply in_seq in Ek. lia. }
    apply (pedersen_verify_iff K HK CK HCK from_usize M HM); [discriminate|].
    unfold honest_share in *. cbn [ss_id ss_value pv_g pv_h pv_commitments] in *.
    unfold as_u32 in *. rewrite Z.mod_small by (destruct Hids; lia).
    rewrite !(proj1 (proj2 HCK)) in *. eexists. eexists. split; [reflexivity|]. split; [congruence|].
    split; [reflexivity|]. split; [congruence|].
    apply ped_meval. rewrite !polyc_length; [reflexivity|cbn; lia|cbn; lia].
  Qed.

  (** two different openings of the same commitments at the same identifier *)
  Lemma pedersen_binding sc v s1 b1 s2 b2 y1 y2 :
    faithful (pv_g K M v) -> pv_commitments K M v <> [] ->
    ss_id s1 = ss_id s2 ->
    pedersen_verify K CK from_usize M sc s1 b1 v = Ok tt ->
    pedersen_verify K CK from_usize M sc s2 b2 v = Ok tt ->
    c_dec CK (ss_value s1) = Ok y1 -> c_dec CK (ss_value s2) = Ok y2 -> y1 <> y2 ->
    exists z1 z2, c_dec CK (ss_value b1) = Ok z1 /\ c_dec CK (ss_value b2) = Ok z2 /\ z1 <> z2 /\
      pv_h K M v = smul (fdiv (fsub y1 y2) (fsub z2 z1)) (pv_g K M v).
  Proof.
    intros Hg Hne Hid H1 H2 E1 E2 Hy.
    apply (pedersen_verify_iff K HK CK HCK from_usize M HM) in H1 as (a1 & z1 & D1 & _ & Dz1 & _ & M1); [|assumption].
    apply (pedersen_verify_iff K HK CK HCK from_usize M HM) in H2 as (a2 & z2 & D2 & _ & Dz2 & _ & M2); [|assumption].
    rewrite E1 in D1. injection D1 as <-. rewrite E2 in D2. injection D2 as <-.
    rewrite Hid in M1. rewrite M1 in M2. exists z1, z2. split; [assumption|]. split; [assumption|].
    set (g := pv_g K M v) in *. set (h := pv_h K M v) in *.
    assert (E : smul (fsub y1 y2) g = smul (fsub z2 z1) h).
    { transitivity (msub (madd (smul y1 g) (smul z1 h)) (madd (smul y2 g) (smul z1 h))).
      - unfold msub. module_coefs HK HM; ring.
      - rewrite M2. unfold msub. module_coefs HK HM; ring. }
    assert (Hz : z1 <> z2).
    { intros <-. apply Hy. apply (fsub_eq0 K HK). apply Hg. rewrite E.
      replace (fsub z1 z1) with (f0 : K) by ring. rewrite !(smul_0_l K HK M HM). reflexivity. }
    split; [assumption|].
    assert (Hd : fsub z2 z1 <> f0) by (apply (fsub_neq0 K HK); congruence).
    transitivity (smul (fmul (finv (fsub z2 z1)) (fsub z2 z1)) h).
    - rewrite (finv_mul_l K HK) by assumption. now rewrite (smul_1 K M HM).
    - rewrite (smul_mul K M HM), <- E, <- (smul_mul K M HM). f_equal. field. assumption.
  Qed.

  Lemma polyc_draws t n c cs : length cs = (t - 1)%nat -> (2 <= t)%nat ->
    exists draws, polyc K (mkScheme t n) draws c = c :: cs.
  Proof.
    intros Hl Ht. exists (fun i => nth i cs f0). unfold polyc. cbn [sc_threshold]. f_equal.
    rewrite <- Hl. rewrite <- (map_nth_seq cs f0 0) at 2. apply map_ext. intros i. now rewrite Nat.sub_0_r.
  Qed.

  (** hiding: any other secret is consistent with everything t-1 holders see *)
  Lemma pedersen_hiding t n sc blinding sd bd secret (g h : M) (a : K) r ids secret' :
    ids_ok from_usize n -> scheme_new t n = Ok sc -> h = smul a g -> a <> f0 ->
    pedersen_split K CK from_usize M sc blinding sd bd secret g h = Ok r ->
    NoDup ids -> (forall i, In i ids -> (i < n)%nat) -> length ids = (t - 1)%nat ->
    secret' <> f0 -> fadd blinding (fdiv (fsub secret secret') a) <> f0 ->
    exists sd' bd' r',
      pedersen_split K CK from_usize M sc (fadd blinding (fdiv (fsub secret secret') a)) sd' bd' secret' g h = Ok r' /\
      pr_verifier K M r' = pr_verifier K M r /\
      forall i, In i ids -> nth_error (pr_secret_shares K M r') i = nth_error (pr_secret_shares K M r) i /\
                            nth_error (pr_blinding_shares K M r') i = nth_error (pr_blinding_shares K M r) i.
  Proof.
    intros Hids Hsc Hh Ha Hsp Hnd Hin Hl Hs' Hb'.
    apply (pedersen_split_spec t n) in Hsp as (Hs0 & Hb0 & ->); [|assumption].
    destruct (scheme_new_ok _ _ _ Hsc) as [-> Ht].
    set (p := polyc K (mkScheme t n) sd secret). set (q := polyc K (mkScheme t n) bd blinding).
    set (xs := map from_usize (map (fun i => Z.of_nat i + 1) ids)).
    assert (Hxs : NoDup (f0 :: xs)).
    { destruct Hids as (Hn & H0 & Hinj). constructor.
      - intros H. apply in_map_iff in H as (z & Ez & Hz). apply in_map_iff in Hz as (i & <- & Hi).
        specialize (Hin i Hi). rewrite <- H0 in Ez. apply Hinj in Ez; lia.
      - apply (ids_NoDup n).
        + split; auto.
        + apply FinFun.Injective_map_NoDup; [intros u w; lia|assumption].
        + intros z Hz. apply in_map_iff in Hz as (i & <- & Hi). specialize (Hin i Hi). lia. }
    assert (Hxl : length (f0 :: xs) = t). { unfold xs. cbn [length]. rewrite !map_length. lia. }
    assert (Hpl : length p = t). { unfold p. rewrite polyc_length; cbn; lia. }
    assert (Hql : length q = t). { unfold q. rewrite polyc_length; cbn; lia. }
    destruct (interp_exists K HK (f0 :: xs) (secret' :: map (peval p) xs)) as (p' & Hp'l & Hp').
    { assumption. } { discriminate. } { cbn [length]. now rewrite map_length. }
    rewrite Hxl in Hp'l.
    set (q' := map (fun i => fadd (nth i q f0) (fdiv (fsub (nth i p f0) (nth i p' f0)) a)) (seq 0 t)).
    assert (Hq'l : length q' = t) by (unfold q'; rewrite map_length; apply seq_length).
    assert (Hq'e : forall x, peval q' x = fadd (peval q x) (fdiv (fsub (peval p x) (peval p' x)) a)).
    { intros x. unfold q'.
      assert (G : forall s (P Q P' : list K) m, length P = m -> length Q = m -> length P' = m ->
         forall u w z, (forall i, nth (s + i) u f0 = nth i Q f0) -> (forall i, nth (s + i) w f0 = nth i P f0) ->
         (forall i, nth (s + i) z f0 = nth i P' f0) ->
         peval (map (fun i => fadd (nth i u f0) (fdiv (fsub (nth i w f0) (nth i z f0)) a)) (seq s m)) x
         = fadd (peval Q x) (fdiv (fsub (peval P x) (peval P' x)) a)).
      { intros s P Q P' m. revert s P Q P'. induction m as [|m IH]; intros s P Q P' H1 H2 H3 u w z Hu Hw Hz.
        - destruct P, Q, P'; try discriminate. cbn [seq map peval]. field. assumption.
        - destruct P as [|c1 P], Q as [|c2 Q], P' as [|c3 P']; try discriminate. cbn [seq map peval].
          rewrite (IH (S s) P Q P').
          + pose proof (Hu 0%nat) as U. pose proof (Hw 0%nat) as W. pose proof (Hz 0%nat) as Z'.
            rewrite Nat.add_0_r in U, W, Z'. rewrite U, W, Z'. cbn [nth]. field. assumption.
          + now injection H1.
          + now injection H2.
          + now injection H3.
          + intros i. specialize (Hu (S i)). cbn [nth] in Hu. rewrite <- Hu. f_equal. lia.
          + intros i. specialize (Hw (S i)). cbn [nth] in Hw. rewrite <- Hw. f_equal. lia.
          + intros i. specialize (Hz (S i)). cbn [nth] in Hz. rewrite <- Hz. f_equal. lia. }
      apply G; auto. }
    assert (Hp0 : peval p f0 = secret) by (unfold p, polyc; apply (peval_0 K HK)).
    assert (Hq0 : peval q f0 = blinding) by (unfold q, polyc; apply (peval_0 K HK)).
    cbn [map] in Hp'. apply (f_equal (hd f0)) in Hp' as Hp'0. apply (f_equal (@tl K)) in Hp'. cbn [hd tl] in Hp'0, Hp'.
    assert (Hq'0 : peval q' f0 = fadd blinding (fdiv (fsub secret secret') a)).
    { rewrite Hq'e, Hp0, Hq0, Hp'0. reflexivity. }
    destruct p' as [|p'0 p's]; [cbn in Hp'l; lia|]. rewrite (peval_0 K HK) in Hp'0. subst p'0.
    destruct q' as [|q'0 q's] eqn:Eq'; [cbn in Hq'l; lia|]. rewrite (peval_0 K HK) in Hq'0. subst q'0.
    destruct (polyc_draws t n secret' p's) as (sd' & Esd); [cbn in Hp'l; lia|lia|].
    destruct (polyc_draws t n (fadd blinding (fdiv (fsub secret secret') a)) q's) as (bd' & Ebd); [cbn in Hq'l; lia|lia|].
    exists sd', bd'. eexists. split.
    { apply (pedersen_split_spec t n); [assumption|]. split; [assumption|]. split; [assumption|]. reflexivity. }
    rewrite Esd, Ebd. cbn [pr_verifier pr_secret_shares pr_blinding_shares]. split.
    - f_equal. fold p q. unfold ped_commitments. rewrite Hpl, Hp'l. apply map_ext_in. intros i Hi.
      apply in_seq in Hi. rewrite <- Eq'.
      assert (Enth : nth i q' f0 = fadd (nth i q f0) (fdiv (fsub (nth i p f0) (nth i (secret' :: p's) f0)) a)).
      { unfold q'. set (F := fun i => fadd (nth i q f0) (fdiv (fsub (nth i p f0) (nth i (secret' :: p's) f0)) a)).
        rewrite (nth_indep (map F (seq 0 t)) f0 (F 0%nat)) by (rewrite map_length, seq_length; lia).
        rewrite (map_nth F), seq_nth by lia. reflexivity. }
      rewrite Enth. subst h. module_coefs HK HM; field; assumption.
    - intros i Hi. rewrite !nth_error_map. specialize (Hin i Hi).
      assert (Ei : nth_error (seq 0 n) i = Some i).
      { rewrite (nth_error_nth' _ 0%nat) by (rewrite seq_length; lia). f_equal. now rewrite seq_nth by lia. }
      rewrite Ei. cbn [option_map]. unfold honest_share. fold p q.
      assert (Ep : peval (secret' :: p's) (from_usize (Z.of_nat i + 1)) = peval p (from_usize (Z.of_nat i + 1))).
      { assert (Hx : In (from_usize (Z.of_nat i + 1)) xs).
        { unfold xs. apply in_map. apply (in_map (fun i => Z.of_nat i + 1)). assumption. }
        clear - Hp' Hx. induction xs as [|y ys IH]; [contradiction|].
        cbn [map] in Hp'. apply (f_equal (hd f0)) in Hp' as E0. apply (f_equal (@tl K)) in Hp'. cbn [hd tl] in *.
        destruct Hx as [->|Hx]; auto. }
      split; [now rewrite Ep|]. do 3 f_equal. rewrite Hq'e, Ep. field. assumption.
  Qed.

  (** *** byte codecs *)
  Lemma enc_len_concat l : length (concat (map (c_enc CM) l)) = (length l * c_size CM)%nat.
  Proof. induction l as [|x l IH]; cbn [map concat length]; [reflexivity|]. rewrite app_length, IH, (proj1 HCM). lia. Qed.
  Lemma rmap_const {A B} (l : list A) (y : B) : rmap (fun _ => Ok y) l = Ok (repeat y (length l)).
  Proof. induction l as [|a l IH]; cbn [rmap length repeat]; [reflexivity|]. rewrite IH. reflexivity. Qed.

  Lemma fverifier_codec g c cs : Z.of_nat (length (c :: cs)) < 2 ^ 32 ->
    fverifier_try_from K M CM (fverifier_to_bytes K M CM (mkFV K M g (c :: cs)))
    = Ok (mkFV K M g (repeat c (length (c :: cs)))).
  Proof.
    intros Hl. unfold fverifier_try_from, fverifier_to_bytes. cbn [fv_g fv_commitments].
    set (n := as_u32 _). assert (Hn : n = Z.of_nat (length (c :: cs))) by (unfold n, as_u32; apply Z.mod_small; lia).
    rewrite !app_length, u32_be_length, enc_len_concat, (proj1 HCM).
    destruct (Nat.ltb_spec (c_size CM + (4 + length (c :: cs) * c_size CM)) (c_size CM * 2 + 4)) as [H|_]; [cbn [length] in H; lia|].
    rewrite (slice_head (c_enc CM g)) by (now rewrite (proj1 HCM)).
    cbn [rbind]. rewrite (proj1 (proj2 HCM)). cbn [rbind].
    rewrite slice_mid; [|now rewrite (proj1 HCM)|now rewrite (proj1 HCM), u32_be_length]. cbn [rbind].
    rewrite u32_of_be_to by lia. rewrite Hn, Nat2Z.id.
    assert (E : forall i, (fun _ : nat => let! b := slice (c_enc CM g ++ u32_be n ++ concat (map (c_enc CM) (c :: cs)))
       (c_size CM + 4) (c_size CM + 4 + c_size CM) in c_dec CM b) i = Ok c).
    { intros _. cbn [map concat]. rewrite app_assoc.
      rewrite slice_mid; [|now rewrite app_length, (proj1 HCM)|now rewrite app_length, !(proj1 HCM)].
      cbn [rbind]. apply (proj1 (proj2 HCM)). }
    unfold read_commitments. rewrite Hn in E.
    assert (G : forall (l : list nat) f, (forall i, f i = Ok c) -> rmap f l = Ok (repeat c (length l))).
    { clear. induction l as [|i l IH]; intros f Hf; cbn [rmap length repeat]; [reflexivity|]. rewrite Hf. cbn [rbind]. rewrite (IH f Hf). reflexivity. }
    rewrite (G _ _ E), seq_length. reflexivity.
  Qed.
  Lemma pverifier_codec g h c cs : Z.of_nat (length (c :: cs)) < 2 ^ 32 ->
    pverifier_try_from K M CM (pverifier_to_bytes K M CM (mkPV K M g h (c :: cs)))
    = Ok (mkPV K M g h (repeat c (length (c :: cs)))).
  Proof.
    intros Hl. unfold pverifier_try_from, pverifier_to_bytes. cbn [pv_g pv_h pv_commitments].
    set (n := as_u32 _). assert (Hn : n = Z.of_nat (length (c :: cs))) by (unfold n, as_u32; apply Z.mod_small; lia).
    rewrite !app_length, u32_be_length, enc_len_concat, !(proj1 HCM).
    destruct (Nat.ltb_spec (c_size CM + (c_size CM + (4 + length (c :: cs) * c_size CM))) (c_size CM * 2 + 4)) as [H|_]; [lia|].
    rewrite (slice_head (c_enc CM g)) by (now rewrite (proj1 HCM)).
    cbn [rbind]. rewrite (proj1 (proj2 HCM)). cbn [rbind].
    rewrite slice_mid; [|now rewrite (proj1 HCM)|now rewrite !(proj1 HCM)]. cbn [rbind].
    rewrite (proj1 (proj2 HCM)). cbn [rbind]. rewrite app_assoc.
    rewrite slice_mid; [|now rewrite app_length, !(proj1 HCM)|now rewrite app_length, !(proj1 HCM), u32_be_length]. cbn [rbind].
    rewrite u32_of_be_to by lia. rewrite Hn, Nat2Z.id.
    assert (E : forall i, (fun _ : nat => let! b := slice ((c_enc CM g ++ c_enc CM h) ++ u32_be n ++ concat (map (c_enc CM) (c :: cs)))
       (c_size CM + c_size CM + 4) (c_size CM + c_size CM + 4 + c_size CM) in c_dec CM b) i = Ok c).
    { intros _. cbn [map concat]. rewrite app_assoc.
      rewrite slice_mid; [|now rewrite !app_length, !(proj1 HCM)|now rewrite !app_length, !(proj1 HCM)].
      cbn [rbind]. apply (proj1 (proj2 HCM)). }
    unfold read_commitments. rewrite Hn in E.
    assert (G : forall (l : list nat) f, (forall i, f i = Ok c) -> rmap f l = Ok (repeat c (length l))).
    { clear. induction l as [|i l IH]; intros f Hf; cbn [rmap length repeat]; [reflexivity|]. rewrite Hf. cbn [rbind]. rewrite (IH f Hf). reflexivity. }
    rewrite (G _ _ E), seq_length. reflexivity.
  Qed.
End Main.

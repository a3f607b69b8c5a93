(** Closed forms of the prover's side of attribute tokens. *)
From Verif Require Import Base BnModel Alg Lin ClRevModel ClRevSpec BbsModel BbsLib BbsProps PsModel PsLib GrothModel DelegModel GrothSpec GrothLib DelegLib TokenModel TokenSpec TokenLib TokenRecon.
Import List ListNotations.
Open Scope list_scope.
Open Scope Z_scope.

Lemma flat_odds {A B} (g : A -> list B) (F : nat -> A) (fo : nat -> B) n :
  (forall k, (2 * k + 1 <= n)%nat -> g (F (2 * k + 1)%nat) = [fo k]) -> (forall k, (2 * k + 2 <= n)%nat -> g (F (2 * k + 2)%nat) = []) ->
  flat_map g (map F (seq 1 n)) = map fo (seq 0 ((n + 1) / 2)).
Proof.
  induction n as [|n IH]; intros HO HE; [reflexivity|].
  rewrite seq_S, map_app, flat_map_app, IH by (intros; first [apply HO; lia | apply HE; lia]). cbn [map flat_map]. rewrite app_nil_r.
  destruct (level_cases (1 + n) ltac:(lia)) as [ (k & E) | (k & E) ]; rewrite E.
  - rewrite HO by lia. assert ((S n + 1) / 2 = S k)%nat as -> by (replace (S n + 1)%nat with (2 * k + 2)%nat by lia; apply even_double).
    assert ((n + 1) / 2 = k)%nat as -> by (replace (n + 1)%nat with (2 * k + 1)%nat by lia; apply odd_double). now rewrite seq_S, map_app.
  - rewrite HE by lia. rewrite app_nil_r. assert ((S n + 1) / 2 = S k)%nat as -> by (replace (S n + 1)%nat with (2 * (S k) + 1)%nat by lia; apply odd_double).
    assert ((n + 1) / 2 = S k)%nat as -> by (replace (n + 1)%nat with (2 * k + 2)%nat by lia; apply even_double). reflexivity.
Qed.
Lemma flat_evens {A B} (g : A -> list B) (F : nat -> A) (fe : nat -> B) n :
  (forall k, (2 * k + 1 <= n)%nat -> g (F (2 * k + 1)%nat) = []) -> (forall k, (2 * k + 2 <= n)%nat -> g (F (2 * k + 2)%nat) = [fe k]) ->
  flat_map g (map F (seq 1 n)) = map fe (seq 0 (n / 2)).
Proof.
  induction n as [|n IH]; intros HO HE; [reflexivity|].
  rewrite seq_S, map_app, flat_map_app, IH by (intros; first [apply HO; lia | apply HE; lia]). cbn [map flat_map]. rewrite app_nil_r.
  destruct (level_cases (1 + n) ltac:(lia)) as [ (k & E) | (k & E) ]; rewrite E.
  - rewrite HO by lia. rewrite app_nil_r. assert (S n / 2 = k)%nat as -> by (replace (S n)%nat with (2 * k + 1)%nat by lia; apply odd_double).
    assert (n / 2 = k)%nat as -> by (replace n with (k * 2)%nat by lia; now apply Nat.div_mul). reflexivity.
  - rewrite HE by lia. assert (S n / 2 = S k)%nat as -> by (replace (S n)%nat with (2 * k + 2)%nat by lia; apply even_double).
    assert (n / 2 = k)%nat as -> by (replace n with (2 * k + 1)%nat by lia; apply odd_double). now rewrite seq_S, map_app.
Qed.
Lemma map_levels {A} (f : nat -> A) (fo fe : nat -> A) n :
  (forall k, (2 * k + 1 <= n)%nat -> f (2 * k + 1)%nat = fo k) -> (forall k, (2 * k + 2 <= n)%nat -> f (2 * k + 2)%nat = fe k) ->
  forall i, In i (seq 1 n) -> f i = if (i mod 2 =? 1)%nat then fo (i / 2)%nat else fe (i / 2 - 1)%nat.
Proof.
  intros HO HE i Hi. apply in_seq in Hi. destruct (level_cases i ltac:(lia)) as [ (k & ->) | (k & ->) ].
  - destruct (odd_double k) as (-> & ->). apply HO. lia.
  - destruct (even_double k) as (-> & -> & _). apply HE. lia.
Qed.
Lemma nth_map_seq1 {A} (f : nat -> A) n i d : (i < n)%nat -> nth i (map f (seq 1 n)) d = f (S i).
Proof. intros H. rewrite (nth_indep _ d (f 0%nat)) by now rewrite map_length, seq_length. rewrite (map_nth f). now rewrite seq_nth. Qed.

Section Run.
Variable C : curve.
Hypothesis LW : curve_laws C.
Notation K := (cK C). Notation G1 := (cG1 C). Notation G2 := (cG2 C). Notation GT := (cGT C).
Let HK := cl_field C LW.
Let H1 := cl_g1 C LW.
Let H2 := cl_g2 C LW.
Let HT := cl_gt C LW.
Let B1 := bil1 C LW.
Let B2 := bil2 C LW.
Add Field KfTX : (proj1 HK).
Variables (c : chain C) (p1 : params1 C) (p2 : params2 C) (d : draws K) (revealed : list (list nat)).
Let L := chain_size c.
Definition dl1 : link1 C := mkLink1 0 [] (mkSig1 m0 m0 []).
Definition dl2 : link2 C := mkLink2 0 [] (mkSig2 m0 m0 []).
Definition ol (k : nat) : link1 C := nth k (ch_odd c) dl1.
Definition el (k : nat) : link2 C := nth k (ch_even c) dl2.
Definition orev (k : nat) := nth (2 * k) revealed [].
Definition erev (k : nat) := nth (2 * k + 1) revealed [].
Definition obp (k : nat) : K := if (k =? 0)%nat then f0 else d_vk d (2 * k).
Definition oatt (k : nat) := length (l1_attrs (ol k)).
Definition eatt (k : nat) := length (l2_attrs (el k)).
(** the draw for the j-th attribute or for the key *)
Definition odraw (k j : nat) : K := if (j <? oatt k - 1)%nat then if mem j (orev k) then f0 else d_a d (2 * k + 1) j else d_vk d (2 * k + 1).
Definition edraw (k j : nat) : K := if (j <? eatt k - 1)%nat then if mem j (erev k) then f0 else d_a d (2 * k + 2) j else d_vk d (2 * k + 2).
Definition o_cs (k : nat) : GT := msub (smul (fmul (d_sig d (2 * k + 1)) (d_s d (2 * k + 1))) (pair (p1_g1 p1) (s1_R (l1_sig (ol k))))) (smul (obp k) (pair (p1_g1 p1) (p1_g2 p1))).
Definition o_ct (k : nat) : list GT := map (fun j => msub (msub (smul (fmul (d_sig d (2 * k + 1)) (d_t d (2 * k + 1) j)) (pair (p1_g1 p1) (s1_R (l1_sig (ol k)))))
   (smul (odraw k j) (pair (p1_g1 p1) (p1_g2 p1)))) (smul (obp k) (pair (nth j (p1_y p1) m0) (p1_g2 p1)))) (seq 0 (oatt k)).
Definition e_cs (k : nat) : GT := msub (smul (fmul (d_sig d (2 * k + 2)) (d_s d (2 * k + 2))) (pair (s2_R (l2_sig (el k))) (p2_g2 p2))) (smul (d_vk d (2 * k + 1)) (pair (p2_g1 p2) (p2_g2 p2))).
Definition e_ct (k : nat) : list GT := map (fun j => msub (msub (smul (fmul (d_sig d (2 * k + 2)) (d_t d (2 * k + 2) j)) (pair (s2_R (l2_sig (el k))) (p2_g2 p2)))
   (smul (edraw k j) (pair (p2_g1 p2) (p2_g2 p2)))) (smul (d_vk d (2 * k + 1)) (pair (p2_g1 p2) (nth j (p2_y p2) m0)))) (seq 0 (eatt k)).
Definition o_map (k : nat) := rev_entries (l1_attrs (ol k)) m0 (orev k) (oatt k - 1).
Definition e_map (k : nat) := rev_entries (l2_attrs (el k)) m0 (erev k) (eatt k - 1).
Definition o_lev (k : nat) : clevel C G1 := mkCLevel (o_cs k) (o_ct k) (map (d_t d (2 * k + 1)) (seq 0 (oatt k))) (map (d_a d (2 * k + 1)) (filter (fun j => negb (mem j (orev k))) (seq 0 (oatt k - 1)))) (o_map k).
Definition e_lev (k : nat) : clevel C G2 := mkCLevel (e_cs k) (e_ct k) (map (d_t d (2 * k + 2)) (seq 0 (eatt k))) (map (d_a d (2 * k + 2)) (filter (fun j => negb (mem j (erev k))) (seq 0 (eatt k - 1)))) (e_map k).
Definition o_sig (k : nat) : sig1 C := randomize1 (l1_sig (ol k)) (d_sig d (2 * k + 1)).
Definition e_sig (k : nat) : sig2 C := randomize2 (l2_sig (el k)) (d_sig d (2 * k + 2)).
Definition clevs (i : nat) : clev C := if (i mod 2 =? 1)%nat then COdd (o_sig (i / 2)) (o_lev (i / 2)) else CEven (e_sig (i / 2 - 1)) (e_lev (i / 2 - 1)).
Lemma clevs_odd k : clevs (2 * k + 1) = COdd (o_sig k) (o_lev k).
Proof. unfold clevs. destruct (odd_double k) as (-> & ->). reflexivity. Qed.
Lemma clevs_even k : clevs (2 * k + 2) = CEven (e_sig k) (e_lev k).
Proof. unfold clevs. destruct (even_double k) as (-> & -> & _). reflexivity. Qed.

Lemma o_half k : (2 * k + 1 <= L)%nat -> (k < (L + 1) / 2)%nat.
Proof. intros H. pose proof (halves L). pose proof (Nat.div_mod L 2 ltac:(lia)). pose proof (Nat.mod_upper_bound L 2 ltac:(lia)). lia. Qed.
Lemma e_half k : (2 * k + 2 <= L)%nat -> (k < L / 2)%nat.
Proof. intros H. pose proof (Nat.div_mod L 2 ltac:(lia)). pose proof (Nat.mod_upper_bound L 2 ltac:(lia)). lia. Qed.
Definition run_token : token C := mkToken L c p1 p2 (map o_sig (seq 0 ((L + 1) / 2))) (map e_sig (seq 0 (L / 2)))
  (map (d_sig d) (seq 1 L)) (map (d_vk d) (seq 1 L)) (map (d_s d) (seq 1 L)) (map (fun i => clev_rt (clevs i)) (seq 1 L)) (map (fun i => clev_ra (clevs i)) (seq 1 L)).
Definition run_comm : comm C := mkComm (map (fun k => s1_R (o_sig k)) (seq 0 ((L + 1) / 2))) (map (fun k => s2_R (e_sig k)) (seq 0 (L / 2)))
  (map (fun i => clev_s (clevs i)) (seq 1 L)) (map (fun i => clev_t (clevs i)) (seq 1 L)) (map o_map (seq 0 ((L + 1) / 2))) (map e_map (seq 0 (L / 2))).

Hypothesis BAL : balanced c.
Hypothesis DI : disclosable c revealed.
Hypothesis Y1 : forall k l, nth_error (ch_odd c) k = Some l -> (length (l1_attrs l) <= length (p1_y p1))%nat.
Hypothesis Y2 : forall k l, nth_error (ch_even c) k = Some l -> (length (l2_attrs l) <= length (p2_y p2))%nat.
Lemma odd_at k : (2 * k + 1 <= L)%nat -> nth_error (ch_odd c) k = Some (ol k).
Proof. intros H. apply (balanced_odd C c k BAL) in H. now apply nth_error_nth'. Qed.
Lemma even_at k : (2 * k + 2 <= L)%nat -> nth_error (ch_even c) k = Some (el k).
Proof. intros H. apply (balanced_even C c k BAL) in H. now apply nth_error_nth'. Qed.
Lemma get_odd_at k : (2 * k + 1 <= L)%nat -> get_odd_link c k = Ok (ol k).
Proof.
  intros H. pose proof (odd_at k H) as E. unfold get_odd_link, at_. rewrite E. rewrite (proj2 (Nat.leb_gt _ _)); [reflexivity|]. apply nth_error_Some. congruence.
Qed.
Lemma get_even_at k : (2 * k + 2 <= L)%nat -> get_even_link c k = Ok (el k).
Proof.
  intros H. pose proof (even_at k H) as E. unfold get_even_link, at_. rewrite E. rewrite (proj2 (Nat.leb_gt _ _)); [reflexivity|]. apply nth_error_Some. congruence.
Qed.
Definition pcv (i : nat) : GT := if (i mod 2 =? 1)%nat then pair (p1_g1 p1) (s1_R (l1_sig (ol (i / 2)))) else pair (s2_R (l2_sig (el (i / 2 - 1)))) (p2_g2 p2).
Lemma precomp_chain_eq : precomp_chain_new c p1 p2 = Ok (map pcv (seq 1 L)).
Proof.
  unfold precomp_chain_new. apply rmap_eq. intros i Hi. apply in_seq in Hi. unfold pcv. destruct (level_cases i ltac:(lia)) as [ (k & ->) | (k & ->) ].
  - destruct (odd_double k) as (-> & ->). cbn [Nat.eqb]. rewrite get_odd_at by lia. reflexivity.
  - destruct (even_double k) as (-> & -> & _). cbn [Nat.eqb]. rewrite get_even_at by lia. reflexivity.
Qed.
Lemma negy1_eq : map (fun y => pair y (mopp (p1_g2 p1))) (p1_y p1) = map (fun v => mopp (pair v (p1_g2 p1))) (p1_y p1).
Proof. apply map_ext. intros y. apply (pair_opp_r C LW). Qed.
Lemma negy2_eq : map (fun y => pair (mopp (p2_g1 p2)) y) (p2_y p2) = map (fun v => mopp (pair (p2_g1 p2) v)) (p2_y p2).
Proof. apply map_ext. intros y. apply (p_opp_l C LW). Qed.

Lemma commitment_run : commitment (token_new c p1 p2) revealed d = Ok (run_token, run_comm).
Proof.
  unfold commitment. cbn [token_new t_chain t_p1 t_p2]. rewrite precomp_chain_eq. cbn [rbind]. unfold commitment_with_precomputation.
  cbn [token_new t_chain t_p1 t_p2 t_L t_odd_sigs t_even_sigs t_bsigs t_bvk t_bs t_bt t_ba precomp_setup_new ps_inv1 ps_inv2 ps_negy1 ps_negy2 app]. fold L.
  rewrite (di_levels C c revealed DI). fold L. rewrite Nat.eqb_refl. cbn [negb].
  rewrite (rmap_eq _ clevs).
  2:{ intros i Hi. apply in_seq in Hi. destruct (level_cases i ltac:(lia)) as [ (k & ->) | (k & ->) ].
      - rewrite clevs_odd. destruct (odd_double k) as (-> & ->). cbn [Nat.eqb]. rewrite get_odd_at by lia. cbn [rbind].
        pose proof (odd_at k ltac:(lia)) as OA. pose proof (Y1 k _ OA) as YY. destruct (di_odd C c revealed DI k _ OA) as (D1 & D2 & D3).
        rewrite (at_ok (map pcv _) _ m0) by (rewrite map_length, seq_length; lia). rewrite nth_map_seq1 by lia. cbn [rbind].
        replace (S (2 * k + 1 - 1)) with (2 * k + 1)%nat by lia. replace (2 * k + 1 - 1)%nat with (2 * k)%nat by lia.
        assert (exists prev, (if (2 * k + 1 =? 1)%nat then Ok None else let! b := at_ (map (d_vk d) (seq 1 (2 * k))) (2 * k + 1 - 2) in Ok (Some b)) = Ok prev /\ (prev = None /\ obp k = f0 \/ prev = Some (obp k))) as (prev & EP & HP).
        { unfold obp. destruct (Nat.eq_dec k 0) as [->|N]; [eexists; split; [reflexivity|now left]|].
          assert ((2 * k + 1 =? 1)%nat = false) as -> by (apply Nat.eqb_neq; lia). rewrite (at_ok _ _ f0) by (rewrite map_length, seq_length; lia). rewrite nth_map_seq1 by lia. cbn [rbind].
          eexists. split; [reflexivity|]. right. apply Nat.eqb_neq in N. rewrite N. do 2 f_equal. apply Nat.eqb_neq in N. lia. }
        rewrite EP. cbn [rbind]. rewrite (at_ok revealed _ []) by (rewrite (di_levels C c revealed DI); fold L; lia). cbn [rbind]. fold (orev k).
        unfold pcv. destruct (odd_double k) as (-> & ->). cbn [Nat.eqb]. rewrite (p_opp_l C LW), negy1_eq.
        fold (orev k) in D1.
        rewrite (commit_level_eq C LW pair (p1_g1 p1) (p1_g2 p1) (s1_R (l1_sig (ol k))) (p1_y p1) prev (obp k)) by (try exact HP; lia).
        reflexivity.
      - rewrite clevs_even. destruct (even_double k) as (-> & -> & _). cbn [Nat.eqb]. rewrite get_even_at by lia. cbn [rbind].
        pose proof (even_at k ltac:(lia)) as OA. pose proof (Y2 k _ OA) as YY. destruct (di_even C c revealed DI k _ OA) as (D1 & D2 & D3).
        rewrite (at_ok (map pcv _) _ m0) by (rewrite map_length, seq_length; lia). rewrite nth_map_seq1 by lia. cbn [rbind].
        replace (S (2 * k + 2 - 1)) with (2 * k + 2)%nat by lia. replace (2 * k + 2 - 1)%nat with (2 * k + 1)%nat by lia. replace (2 * k + 2 - 2)%nat with (2 * k)%nat by lia.
        rewrite (at_ok (map (d_vk d) _) _ f0) by (rewrite map_length, seq_length; lia). rewrite nth_map_seq1 by lia. cbn [rbind]. replace (S (2 * k)) with (2 * k + 1)%nat by lia.
        rewrite (at_ok revealed _ []) by (rewrite (di_levels C c revealed DI); fold L; lia). cbn [rbind]. fold (erev k).
        unfold pcv. destruct (even_double k) as (-> & -> & _). cbn [Nat.eqb]. rewrite (p_opp_l C LW), negy2_eq. fold (erev k) in D1.
        rewrite (commit_level_eq C LW (fun m w => pair w m) (p2_g2 p2) (p2_g1 p2) (s2_R (l2_sig (el k))) (p2_y p2) (Some (d_vk d (2 * k + 1)%nat)) (d_vk d (2 * k + 1)%nat)) by (try (now right); lia).
        reflexivity. }
  cbn [rbind]. f_equal.
  rewrite (flat_odds (fun x => match x with COdd s _ => [s] | _ => [] end) clevs o_sig) by (intros k _; now rewrite ?clevs_odd, ?clevs_even).
  rewrite (flat_evens (fun x => match x with CEven s _ => [s] | _ => [] end) clevs e_sig) by (intros k _; now rewrite ?clevs_odd, ?clevs_even).
  rewrite (flat_odds (fun x => match x with COdd _ l => [cl_rev l] | _ => [] end) clevs o_map) by (intros k _; now rewrite ?clevs_odd, ?clevs_even).
  rewrite (flat_evens (fun x => match x with CEven _ l => [cl_rev l] | _ => [] end) clevs e_map) by (intros k _; now rewrite ?clevs_odd, ?clevs_even).
  unfold run_token, run_comm. now rewrite !map_map.
Qed.

(** ** the response *)
Variables (ev : list G2) (od : list G1) (sk ch : K).
Hypothesis LE : length ev = (L / 2)%nat.
Hypothesis LO : length od = ((L + 1) / 2)%nat.
Definition o_rs (k : nat) : G1 := bmul (p1_g1 p1) (s1_S (o_sig k)) (d_s d (2 * k + 1)) ch.
Definition e_rs (k : nat) : G2 := bmul (p2_g2 p2) (s2_S (e_sig k)) (d_s d (2 * k + 2)) ch.
Definition o_rvk (k : nat) : G1 := bmul (p1_g1 p1) (nth k od m0) (d_vk d (2 * k + 1)) ch.
Definition e_rvk (k : nat) : G2 := bmul (p2_g2 p2) (nth k ev m0) (d_vk d (2 * k + 2)) ch.
Definition o_rt (k : nat) : list G1 := map (fun j => bmul (p1_g1 p1) (nth j (s1_T (o_sig k)) m0) (d_t d (2 * k + 1) j) ch) (seq 0 (oatt k)).
Definition e_rt (k : nat) : list G2 := map (fun j => bmul (p2_g2 p2) (nth j (s2_T (e_sig k)) m0) (d_t d (2 * k + 2) j) ch) (seq 0 (eatt k)).
Definition o_ra (k : nat) : list G1 := map (fun j => bmul (p1_g1 p1) (nth j (l1_attrs (ol k)) m0) (d_a d (2 * k + 1) j) ch) (filter (fun j => negb (mem j (orev k))) (seq 0 (oatt k - 1))).
Definition e_ra (k : nat) : list G2 := map (fun j => bmul (p2_g2 p2) (nth j (l2_attrs (el k)) m0) (d_a d (2 * k + 2) j) ch) (filter (fun j => negb (mem j (erev k))) (seq 0 (eatt k - 1))).
Definition o_rl (k : nat) : rlev C := ROdd (mkRLevel (o_rs k) (if (2 * k + 1 =? L)%nat then None else Some (o_rvk k)) (if (2 * k + 1 =? L)%nat then fadd (d_vk d L) (fmul ch sk) else f0) (o_rt k) (o_ra k)).
Definition e_rl (k : nat) : rlev C := REven (mkRLevel (e_rs k) (if (2 * k + 2 =? L)%nat then None else Some (e_rvk k)) (if (2 * k + 2 =? L)%nat then fadd (d_vk d L) (fmul ch sk) else f0) (e_rt k) (e_ra k)).
Definition rlevs (i : nat) : rlev C := if (i mod 2 =? 1)%nat then o_rl (i / 2) else e_rl (i / 2 - 1).
Lemma rlevs_odd k : rlevs (2 * k + 1) = o_rl k.
Proof. unfold rlevs. destruct (odd_double k) as (-> & ->). reflexivity. Qed.
Lemma rlevs_even k : rlevs (2 * k + 2) = e_rl k.
Proof. unfold rlevs. destruct (even_double k) as (-> & -> & _). reflexivity. Qed.
Definition run_resp : resp C := mkResp (fadd (d_vk d L) (fmul ch sk)) (map o_rvk (seq 0 (L / 2))) (map e_rvk (seq 0 ((L - 1) / 2)))
  (map o_rs (seq 0 ((L + 1) / 2))) (map e_rs (seq 0 (L / 2))) (map o_rt (seq 0 ((L + 1) / 2))) (map e_rt (seq 0 (L / 2))) (map o_ra (seq 0 ((L + 1) / 2))) (map e_ra (seq 0 (L / 2))).
Hypothesis LP : (1 <= L)%nat.
Lemma run_comm_valid : comm_validate run_comm L = Ok tt.
Proof. apply comm_validate_iff. split; cbn [run_comm c_t c_s c_odd_r c_even_r c_odd_rev c_even_rev]; now rewrite map_length, seq_length. Qed.
Lemma o_sig_T k : length (s1_T (o_sig k)) = length (s1_T (l1_sig (ol k))).
Proof. unfold o_sig, randomize1, groth_randomize. cbn [s1_T]. apply map_length. Qed.
Lemma e_sig_T k : length (s2_T (e_sig k)) = length (s2_T (l2_sig (el k))).
Proof. unfold e_sig, randomize2, groth_randomize. cbn [s2_T]. apply map_length. Qed.
Lemma response_levels : rmap (fun i =>
    if (i mod 2 =? 1)%nat then
      let! l := get_odd_link (t_chain run_token) (i / 2) in
      let! s' := at_ (t_odd_sigs run_token) (i / 2) in
      let! bs := at_ (t_bs run_token) (i - 1) in
      let rs := bmul (p1_g1 (t_p1 run_token)) (s1_S s') bs ch in
      let! (vk, csk) := if negb (i =? L)%nat then let! v := at_ od (i / 2) in let! b := at_ (t_bvk run_token) (i - 1) in Ok (Some (bmul (p1_g1 (t_p1 run_token)) v b ch), f0)
                        else let! b := at_ (t_bvk run_token) (i - 1) in Ok (None, fadd b (fmul ch sk)) in
      let! rev := at_ (c_odd_rev run_comm) (i / 2) in
      let! bt := at_ (t_bt run_token) (i - 1) in
      let! ba := at_ (t_ba run_token) (i - 1) in
      let! (rt, ra) := resp_level (C := C) (p1_g1 (t_p1 run_token)) (l1_attrs l) (s1_T (l1_sig l)) (s1_T s') bt ba rev ch in
      Ok (ROdd (mkRLevel rs vk csk rt ra))
    else
      let! l := get_even_link (t_chain run_token) (i / 2 - 1) in
      let! s' := at_ (t_even_sigs run_token) (i / 2 - 1) in
      let! bs := at_ (t_bs run_token) (i - 1) in
      let rs := bmul (p2_g2 (t_p2 run_token)) (s2_S s') bs ch in
      let! (vk, csk) := if negb (i =? L)%nat then let! v := at_ ev (i / 2 - 1) in let! b := at_ (t_bvk run_token) (i - 1) in Ok (Some (bmul (p2_g2 (t_p2 run_token)) v b ch), f0)
                        else let! b := at_ (t_bvk run_token) (i - 1) in Ok (None, fadd b (fmul ch sk)) in
      let! rev := at_ (c_even_rev run_comm) (i / 2 - 1) in
      let! bt := at_ (t_bt run_token) (i - 1) in
      let! ba := at_ (t_ba run_token) (i - 1) in
      let! (rt, ra) := resp_level (C := C) (p2_g2 (t_p2 run_token)) (l2_attrs l) (s2_T (l2_sig l)) (s2_T s') bt ba rev ch in
      Ok (REven (mkRLevel rs vk csk rt ra))) (seq 1 L) = Ok (map rlevs (seq 1 L)).
Proof.
  apply rmap_eq. intros i Hi. apply in_seq in Hi. destruct (level_cases i ltac:(lia)) as [ (k & ->) | (k & ->) ].
  - rewrite rlevs_odd. destruct (odd_double k) as (-> & ->). cbn [Nat.eqb run_token run_comm t_chain t_odd_sigs t_bs t_p1 t_bvk t_bt t_ba c_odd_rev]. rewrite get_odd_at by lia. cbn [rbind].
    pose proof (odd_at k ltac:(lia)) as OA. destruct (di_odd C c revealed DI k _ OA) as (D1 & D2 & D3). pose proof (o_half k ltac:(lia)) as Hk.
    rewrite (at_ok (map o_sig _) k (o_sig 0)) by (rewrite map_length, seq_length; exact Hk). rewrite nth_map_seq_g by exact Hk. cbn [rbind].
    rewrite (at_ok (map (d_s d) _) _ f0) by (rewrite map_length, seq_length; lia). rewrite nth_map_seq1 by lia. cbn [rbind].
    rewrite (at_ok (map (d_vk d) _) _ f0) by (rewrite map_length, seq_length; lia). rewrite nth_map_seq1 by lia. cbn [rbind].
    rewrite (at_ok od k m0) by (rewrite LO; exact Hk). cbn [rbind]. replace (S (2 * k + 1 - 1)) with (2 * k + 1)%nat by lia.
    rewrite (at_ok (map o_map _) k []) by (rewrite map_length, seq_length; exact Hk). rewrite (nth_map_seq_g o_map) by exact Hk.
    rewrite (at_ok (map (fun i => clev_rt (clevs i)) _) _ []) by (rewrite map_length, seq_length; lia). rewrite nth_map_seq1 by lia.
    rewrite (at_ok (map (fun i => clev_ra (clevs i)) _) _ []) by (rewrite map_length, seq_length; lia). rewrite nth_map_seq1 by lia. cbn [rbind].
    replace (S (2 * k + 1 - 1)) with (2 * k + 1)%nat by lia. rewrite clevs_odd. cbn [clev_rt clev_ra o_lev cl_rt cl_ra]. unfold o_map.
    assert (forall vk csk, (let! (rt, ra) := resp_level (C := C) (p1_g1 p1) (l1_attrs (ol k)) (s1_T (l1_sig (ol k))) (s1_T (o_sig k)) (map (d_t d (2 * k + 1)) (seq 0 (oatt k))) (map (d_a d (2 * k + 1)) (filter (fun j => negb (mem j (orev k))) (seq 0 (oatt k - 1)))) (rev_entries (l1_attrs (ol k)) m0 (orev k) (oatt k - 1)) ch in
      Ok (ROdd (mkRLevel (bmul (p1_g1 p1) (s1_S (o_sig k)) (d_s d (2 * k + 1)%nat) ch) vk csk rt ra))) = Ok (ROdd (mkRLevel (o_rs k) vk csk (o_rt k) (o_ra k)))) as RL.
    { intros vk csk. unfold oatt. rewrite (resp_level_eq C) by (try rewrite o_sig_T; assumption). reflexivity. }
    unfold o_rl. destruct (2 * k + 1 =? L)%nat eqn:EL; cbn [negb rbind].
    + rewrite RL. apply Nat.eqb_eq in EL. rewrite <- EL. reflexivity.
    + rewrite RL. reflexivity.
  - rewrite rlevs_even. destruct (even_double k) as (-> & -> & _). cbn [Nat.eqb run_token run_comm t_chain t_even_sigs t_bs t_p2 t_bvk t_bt t_ba c_even_rev]. rewrite get_even_at by lia. cbn [rbind].
    pose proof (even_at k ltac:(lia)) as OA. destruct (di_even C c revealed DI k _ OA) as (D1 & D2 & D3). pose proof (e_half k ltac:(lia)) as Hk.
    rewrite (at_ok (map e_sig _) k (e_sig 0)) by (rewrite map_length, seq_length; exact Hk). rewrite nth_map_seq_g by exact Hk. cbn [rbind].
    rewrite (at_ok (map (d_s d) _) _ f0) by (rewrite map_length, seq_length; lia). rewrite nth_map_seq1 by lia. cbn [rbind].
    rewrite (at_ok (map (d_vk d) _) _ f0) by (rewrite map_length, seq_length; lia). rewrite nth_map_seq1 by lia. cbn [rbind].
    rewrite (at_ok ev k m0) by (rewrite LE; exact Hk). cbn [rbind]. replace (S (2 * k + 2 - 1)) with (2 * k + 2)%nat by lia.
    rewrite (at_ok (map e_map _) k []) by (rewrite map_length, seq_length; exact Hk). rewrite (nth_map_seq_g e_map) by exact Hk.
    rewrite (at_ok (map (fun i => clev_rt (clevs i)) _) _ []) by (rewrite map_length, seq_length; lia). rewrite nth_map_seq1 by lia.
    rewrite (at_ok (map (fun i => clev_ra (clevs i)) _) _ []) by (rewrite map_length, seq_length; lia). rewrite nth_map_seq1 by lia. cbn [rbind].
    replace (S (2 * k + 2 - 1)) with (2 * k + 2)%nat by lia. rewrite clevs_even. cbn [clev_rt clev_ra e_lev cl_rt cl_ra]. unfold e_map.
    assert (forall vk csk, (let! (rt, ra) := resp_level (C := C) (p2_g2 p2) (l2_attrs (el k)) (s2_T (l2_sig (el k))) (s2_T (e_sig k)) (map (d_t d (2 * k + 2)) (seq 0 (eatt k))) (map (d_a d (2 * k + 2)) (filter (fun j => negb (mem j (erev k))) (seq 0 (eatt k - 1)))) (rev_entries (l2_attrs (el k)) m0 (erev k) (eatt k - 1)) ch in
      Ok (REven (mkRLevel (bmul (p2_g2 p2) (s2_S (e_sig k)) (d_s d (2 * k + 2)%nat) ch) vk csk rt ra))) = Ok (REven (mkRLevel (e_rs k) vk csk (e_rt k) (e_ra k)))) as RL.
    { intros vk csk. unfold eatt. rewrite (resp_level_eq C) by (try rewrite e_sig_T; assumption). reflexivity. }
    unfold e_rl. destruct (2 * k + 2 =? L)%nat eqn:EL; cbn [negb rbind].
    + rewrite RL. apply Nat.eqb_eq in EL. rewrite <- EL. reflexivity.
    + rewrite RL. reflexivity.
Qed.
Lemma response_run : response run_token run_comm sk ch ev od = Ok run_resp.
Proof.
  unfold response. cbn [t_L run_token]. change (t_L run_token) with L. rewrite run_comm_valid. cbn [rbind].
  match goal with |- (let! levels := ?x in _) = _ => assert (x = Ok (map rlevs (seq 1 L))) as -> by exact response_levels end.
  cbn [rbind]. f_equal. unfold run_resp. f_equal.
  - destruct L as [|n] eqn:EN; [lia|]. rewrite seq_S, map_app. cbn [map]. rewrite last_last. rewrite <- EN.
    destruct (level_cases (1 + n) ltac:(lia)) as [ (k & E) | (k & E) ]; rewrite E.
    + rewrite rlevs_odd. unfold o_rl. cbn [rl_csk]. fold L. rewrite EN. assert ((2 * k + 1 =? S n)%nat = true) as -> by (apply Nat.eqb_eq; lia). reflexivity.
    + rewrite rlevs_even. unfold e_rl. cbn [rl_csk]. fold L. rewrite EN. assert ((2 * k + 2 =? S n)%nat = true) as -> by (apply Nat.eqb_eq; lia). reflexivity.
  - destruct L as [|n] eqn:EN; [lia|]. rewrite seq_S, map_app, flat_map_app.
    rewrite (flat_odds _ rlevs o_rvk).
    2:{ intros k Hk. rewrite rlevs_odd. unfold o_rl. cbn [rl_vk]. rewrite EN. assert ((2 * k + 1 =? S n)%nat = false) as -> by (apply Nat.eqb_neq; lia). reflexivity. }
    2:{ intros k Hk. now rewrite rlevs_even. }
    cbn [map flat_map]. replace (S n / 2)%nat with ((n + 1) / 2)%nat by (f_equal; lia). rewrite app_nil_r.
    destruct (level_cases (1 + n) ltac:(lia)) as [ (k & E) | (k & E) ]; rewrite E.
    + rewrite rlevs_odd. unfold o_rl. cbn [rl_vk]. rewrite EN. assert ((2 * k + 1 =? S n)%nat = true) as -> by (apply Nat.eqb_eq; lia). cbn [olist]. now rewrite app_nil_r.
    + rewrite rlevs_even. cbn [e_rl]. now rewrite app_nil_r.
  - destruct L as [|n] eqn:EN; [lia|]. rewrite seq_S, map_app, flat_map_app.
    rewrite (flat_evens _ rlevs e_rvk).
    2:{ intros k Hk. now rewrite rlevs_odd. }
    2:{ intros k Hk. rewrite rlevs_even. unfold e_rl. cbn [rl_vk]. rewrite EN. assert ((2 * k + 2 =? S n)%nat = false) as -> by (apply Nat.eqb_neq; lia). reflexivity. }
    cbn [map flat_map]. replace (S n - 1)%nat with n by lia. rewrite app_nil_r.
    destruct (level_cases (1 + n) ltac:(lia)) as [ (k & E) | (k & E) ]; rewrite E.
    + rewrite rlevs_odd. cbn [o_rl]. now rewrite app_nil_r.
    + rewrite rlevs_even. unfold e_rl. cbn [rl_vk]. rewrite EN. assert ((2 * k + 2 =? S n)%nat = true) as -> by (apply Nat.eqb_eq; lia). cbn [olist]. now rewrite app_nil_r.
  - apply flat_odds; intros k _; now rewrite ?rlevs_odd, ?rlevs_even.
  - apply flat_evens; intros k _; now rewrite ?rlevs_odd, ?rlevs_even.
  - apply flat_odds; intros k _; now rewrite ?rlevs_odd, ?rlevs_even.
  - apply flat_evens; intros k _; now rewrite ?rlevs_odd, ?rlevs_even.
  - apply flat_odds; intros k _; now rewrite ?rlevs_odd, ?rlevs_even.
  - apply flat_evens; intros k _; now rewrite ?rlevs_odd, ?rlevs_even.
Qed.
End Run.

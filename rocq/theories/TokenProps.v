(** C107: attribute tokens, honest runs (libzmix/src/signatures/delg_cred_cdd/attribute_token.rs). *)
From Verif Require Import Base BnModel Alg Lin ClRevModel ClRevSpec BbsModel BbsLib BbsProps PsModel PsLib GrothModel DelegModel GrothSpec GrothLib DelegLib TokenModel TokenSpec TokenLib TokenRecon TokenRun.
Import List ListNotations.
Open Scope list_scope.
Open Scope Z_scope.

Section Complete.
Variable C : curve.
Hypothesis LW : curve_laws C.
Notation K := (cK C). Notation G1 := (cG1 C). Notation G2 := (cG2 C). Notation GT := (cGT C).
Let HK := cl_field C LW.
Let H1 := cl_g1 C LW.
Let H2 := cl_g2 C LW.
Let HT := cl_gt C LW.
Add Field KfTP : (proj1 HK).
Variables (c : chain C) (p1 : params1 C) (p2 : params2 C) (d : draws K) (revealed : list (list nat)) (ipk : G2) (ev : list G2) (od : list G1) (sk ch : K).
Hypothesis N1 : params1_ok p1.
Hypothesis N2 : params2_ok p2.
Hypothesis GG1 : p1_g1 p1 = p2_g1 p2.
Hypothesis GG2 : p1_g2 p1 = p2_g2 p2.
Hypothesis V : valid_chain p1 p2 c (ipk :: ev) od.
Hypothesis HO : holds p1 p2 (chain_size c) (ipk :: ev) od sk.
Hypothesis DI : disclosable c revealed.
Hypothesis ND : forall i, d_sig d i <> f0.
Let L := chain_size c.
Let cm := run_comm C c p1 p2 d revealed.
Let rsp := run_resp C c p1 p2 d revealed ev od sk ch.
Let BAL : balanced c := vc_balanced C _ _ _ _ _ V.
Lemma run_size : (1 <= L)%nat.
Proof. unfold L, chain_size. pose proof (vc_nonempty C _ _ _ _ _ V). destruct (ch_odd c); [congruence|cbn [length]; lia]. Qed.
Lemma run_LE : length ev = (L / 2)%nat.
Proof. pose proof (vc_ev C _ _ _ _ _ V) as E. cbn [length] in E. pose proof (proj1 (balanced_counts C c) BAL) as (B1 & _). fold L in B1. lia. Qed.
Lemma run_LO : length od = ((L + 1) / 2)%nat.
Proof. pose proof (vc_od C _ _ _ _ _ V) as E. pose proof (proj1 (balanced_counts C c) BAL) as (_ & B2). fold L in B2. lia. Qed.
Lemma run_Y1 k l : nth_error (ch_odd c) k = Some l -> (length (l1_attrs l) <= length (p1_y p1))%nat.
Proof. intros E. destruct (vc_odd C _ _ _ _ _ V k l E) as (_ & _ & [A _ _ _]). exact A. Qed.
Lemma run_Y2 k l : nth_error (ch_even c) k = Some l -> (length (l2_attrs l) <= length (p2_y p2))%nat.
Proof. intros E. destruct (vc_even C _ _ _ _ _ V k l E) as (_ & _ & [A _ _ _]). exact A. Qed.
Lemma ovk_run k : (2 * k + 1 <= L)%nat -> ovk C L rsp p1 k = bmul (p1_g1 p1) (nth k od m0) (d_vk d (2 * k + 1)) ch.
Proof.
  intros Hk. unfold ovk. destruct (Nat.eqb_spec (2 * k + 1) L) as [E|N].
  - cbn [rsp run_resp r_csk]. fold L. rewrite E. unfold holds in HO. fold L in HO. destruct (odd_cases L) as [ (O & m & E1 & E2) | (O & m & E1 & E2) ]; [|lia].
    rewrite O, E2 in HO. replace k with m by lia. rewrite HO. unfold bmul. module_coefs HK H1; ring.
  - cbn [rsp run_resp r_odd_vk]. fold L. rewrite nth_map_seq_g; [reflexivity|]. pose proof (Nat.div_mod L 2 ltac:(lia)). pose proof (Nat.mod_upper_bound L 2 ltac:(lia)). lia.
Qed.
Lemma evk_run k : (2 * k + 2 <= L)%nat -> evk C L rsp p2 k = bmul (p2_g2 p2) (nth k ev m0) (d_vk d (2 * k + 2)) ch.
Proof.
  intros Hk. unfold evk. destruct (Nat.eqb_spec (2 * k + 2) L) as [E|N].
  - cbn [rsp run_resp r_csk]. fold L. rewrite E. unfold holds in HO. fold L in HO. destruct (odd_cases L) as [ (O & m & E1 & E2) | (O & m & E1 & E2) ]; [lia|].
    rewrite O, E2 in HO. replace m with (S k) in HO by lia. cbn [nth] in HO. rewrite HO. unfold bmul. module_coefs HK H2; ring.
  - cbn [rsp run_resp r_even_vk]. fold L. rewrite nth_map_seq_g; [reflexivity|]. replace (L - 1)%nat with (2 * (k + 1) + (L - 1 - 2 * (k + 1)))%nat by lia.
    rewrite (Nat.mul_comm 2 (k + 1)), Nat.div_add_l by lia. lia.
Qed.
Lemma odd_vk_run k : (2 * k + 2 <= L)%nat -> nth k (r_odd_vk rsp) m0 = bmul (p2_g1 p2) (nth k od m0) (d_vk d (2 * k + 1)) ch.
Proof.
  intros Hk. rewrite <- GG1. rewrite <- (ovk_run k) by lia. unfold ovk. assert ((2 * k + 1 =? L)%nat = false) as -> by (apply Nat.eqb_neq; lia). reflexivity.
Qed.
Lemma opv_run k : (2 * k + 1 <= L)%nat -> opv C rsp ch ipk k = bmul (p1_g2 p1) (nth k (ipk :: ev) m0) (obp C d k) ch.
Proof.
  intros Hk. unfold opv, obp. destruct k as [|k]; cbn [Nat.eqb nth].
  - unfold bmul. module_coefs HK H2; ring.
  - replace (S k - 1)%nat with k by lia. rewrite GG2. replace (2 * S k)%nat with (2 * k + 2)%nat by lia. rewrite <- (evk_run k) by lia. unfold evk.
    assert ((2 * k + 2 =? L)%nat = false) as -> by (apply Nat.eqb_neq; lia). reflexivity.
Qed.
Lemma on_run k : (2 * k + 1 <= L)%nat -> on C cm k = oatt C c k.
Proof.
  intros Hk. unfold on, cm, run_comm. cbn [c_t]. fold L. rewrite nth_map_seq1 by lia. replace (S (2 * k)) with (2 * k + 1)%nat by lia. rewrite clevs_odd.
  cbn [clev_t o_lev cl_t]. unfold o_ct. now rewrite map_length, seq_length.
Qed.
Lemma en_run k : (2 * k + 2 <= L)%nat -> en C cm k = eatt C c k.
Proof.
  intros Hk. unfold en, cm, run_comm. cbn [c_t]. fold L. rewrite nth_map_seq1 by lia. replace (S (2 * k + 1)) with (2 * k + 2)%nat by lia. rewrite clevs_even.
  cbn [clev_t e_lev cl_t]. unfold e_ct. now rewrite map_length, seq_length.
Qed.
Lemma odd_map_run k : (2 * k + 1 <= L)%nat -> nth k (c_odd_rev cm) [] = o_map C c revealed k.
Proof. intros Hk. unfold cm, run_comm. cbn [c_odd_rev]. rewrite (nth_map_seq_g (o_map C c revealed)); [reflexivity|]. now apply o_half. Qed.
Lemma even_map_run k : (2 * k + 2 <= L)%nat -> nth k (c_even_rev cm) [] = e_map C c revealed k.
Proof. intros Hk. unfold cm, run_comm. cbn [c_even_rev]. rewrite (nth_map_seq_g (e_map C c revealed)); [reflexivity|]. now apply e_half. Qed.
Lemma odd_a_run k : (2 * k + 1 <= L)%nat -> nth k (r_odd_a rsp) [] = o_ra C c p1 d revealed ch k.
Proof. intros Hk. unfold rsp, run_resp. cbn [r_odd_a]. rewrite (nth_map_seq_g (o_ra C c p1 d revealed ch)); [reflexivity|]. now apply o_half. Qed.
Lemma even_a_run k : (2 * k + 2 <= L)%nat -> nth k (r_even_a rsp) [] = e_ra C c p2 d revealed ch k.
Proof. intros Hk. unfold rsp, run_resp. cbn [r_even_a]. rewrite (nth_map_seq_g (e_ra C c p2 d revealed ch)); [reflexivity|]. now apply e_half. Qed.
Lemma odd_t_run k : (2 * k + 1 <= L)%nat -> nth k (r_odd_t rsp) [] = o_rt C c p1 d ch k.
Proof. intros Hk. unfold rsp, run_resp. cbn [r_odd_t]. rewrite (nth_map_seq_g (o_rt C c p1 d ch)); [reflexivity|]. now apply o_half. Qed.
Lemma even_t_run k : (2 * k + 2 <= L)%nat -> nth k (r_even_t rsp) [] = e_rt C c p2 d ch k.
Proof. intros Hk. unfold rsp, run_resp. cbn [r_even_t]. rewrite (nth_map_seq_g (e_rt C c p2 d ch)); [reflexivity|]. now apply e_half. Qed.
Lemma nth_hidden {M : Type} (f : nat -> M) (rev : list nat) n j (z : M) : (j < n)%nat -> mem j rev = false ->
  nth (unrev_below (fun i => mem i rev) j) (map f (filter (fun j => negb (mem j rev)) (seq 0 n))) z = f j.
Proof.
  intros Hj E. apply nth_error_nth. unfold unrev_below. apply map_nth_error. apply filter_nth; [exact Hj|now rewrite E].
Qed.
Lemma oz_run k j : (2 * k + 1 <= L)%nat -> (j < oatt C c k)%nat -> oz C L cm rsp ch revealed p1 k j = bmul (p1_g1 p1) (nth j (l1_attrs (ol C c k)) m0) (odraw C c d revealed k j) ch.
Proof.
  intros Hk Hj. unfold oz, zv, odraw. rewrite on_run, odd_map_run, odd_a_run by exact Hk. destruct (Nat.ltb_spec j (oatt C c k - 1)) as [Lj|Lj].
  - fold (orev revealed k). unfold o_map. destruct (mem j (orev revealed k)) eqn:E.
    + rewrite (lookup_lookupd _ _ _ m0 (entries_lookup _ m0 _ _ j Lj E)). unfold bmul. module_coefs HK H1; ring.
    + unfold o_ra. rewrite nth_hidden by assumption. reflexivity.
  - rewrite ovk_run by exact Hk. f_equal. destruct (vc_odd C _ _ _ _ _ V k _ (odd_at C c BAL k Hk)) as (_ & (attrs & EA) & _).
    unfold oatt in Hj, Lj. rewrite EA in *. rewrite app_length in Hj, Lj. cbn [length] in Hj, Lj. replace j with (length attrs) by lia. now rewrite nth_middle.
Qed.
Lemma ez_run k j : (2 * k + 2 <= L)%nat -> (j < eatt C c k)%nat -> ez C L cm rsp ch revealed p2 k j = bmul (p2_g2 p2) (nth j (l2_attrs (el C c k)) m0) (edraw C c d revealed k j) ch.
Proof.
  intros Hk Hj. unfold ez, zv, edraw. rewrite en_run, even_map_run, even_a_run by exact Hk. destruct (Nat.ltb_spec j (eatt C c k - 1)) as [Lj|Lj].
  - fold (erev revealed k). unfold e_map. destruct (mem j (erev revealed k)) eqn:E.
    + rewrite (lookup_lookupd _ _ _ m0 (entries_lookup _ m0 _ _ j Lj E)). unfold bmul. module_coefs HK H2; ring.
    + unfold e_ra. rewrite nth_hidden by assumption. reflexivity.
  - rewrite evk_run by exact Hk. f_equal. destruct (vc_even C _ _ _ _ _ V k _ (even_at C c BAL k Hk)) as (_ & (attrs & EA) & _). cbn [nth] in EA.
    unfold eatt in Hj, Lj. rewrite EA in *. rewrite app_length in Hj, Lj. cbn [length] in Hj, Lj. replace j with (length attrs) by lia. now rewrite nth_middle.
Qed.
Lemma hidden_count rev n : (length (filter (fun j => negb (mem j rev)) (seq 0 n)) >= n - length rev)%nat.
Proof.
  pose proof (filter_split_length (fun j => mem j rev) (seq 0 n)) as E. rewrite seq_length in E.
  assert (length (filter (fun j => mem j rev) (seq 0 n)) <= length rev)%nat; [|lia].
  apply NoDup_incl_length; [apply NoDup_filter, seq_NoDup|]. intros j Hj. apply filter_In in Hj as (_ & Hj). now apply mem_in.
Qed.
Lemma odd_shape_run k : (2 * k + 1 <= L)%nat -> odd_shape C L cm rsp revealed p1 k.
Proof.
  intros Hk. pose proof (o_half C c k Hk) as Hh. fold L in Hh. pose proof (odd_at C c BAL k Hk) as OA. pose proof (run_Y1 k _ OA) as YY. destruct (di_odd C c revealed DI k _ OA) as (D1 & D2 & D3).
  fold (oatt C c k) in *. fold (orev revealed k) in D1.
  assert (length (o_ra C c p1 d revealed ch k) >= oatt C c k - 1 - length (orev revealed k))%nat as HC by (unfold o_ra; rewrite map_length; apply hidden_count).
  split; try (rewrite on_run by exact Hk); try (rewrite odd_a_run by exact Hk); try (rewrite odd_map_run by exact Hk); try (rewrite odd_t_run by exact Hk); fold (orev revealed k);
    cbn [cm rsp run_comm run_resp c_t c_odd_r c_odd_rev r_odd_a r_odd_s r_even_vk r_odd_t r_odd_vk]; rewrite ?map_length, ?seq_length; fold L.
  - lia.
  - rewrite (di_levels C c revealed DI). fold L. lia.
  - exact Hh.
  - exact Hh.
  - exact Hh.
  - intros Pk. replace (L - 1)%nat with (k * 2 + (L - 1 - 2 * k))%nat by lia. rewrite Nat.div_add_l by lia. lia.
  - exact Hh.
  - exact Hh.
  - intros NE. pose proof (Nat.div_mod L 2 ltac:(lia)). pose proof (Nat.mod_upper_bound L 2 ltac:(lia)). lia.
  - apply check_counts_eq; lia.
  - lia.
  - exact YY.
  - unfold o_rt. rewrite map_length, seq_length. lia.
  - intros j Lj E. eexists. apply entries_lookup; [exact Lj|exact E].
  - intros j Lj E. unfold o_ra. rewrite map_length. apply unrev_below_lt; [exact Lj|exact E].
Qed.
Lemma even_shape_run k : (2 * k + 2 <= L)%nat -> even_shape C L cm rsp revealed p2 k.
Proof.
  intros Hk. pose proof (e_half C c k Hk) as Hh. fold L in Hh. pose proof (even_at C c BAL k Hk) as OA. pose proof (run_Y2 k _ OA) as YY. destruct (di_even C c revealed DI k _ OA) as (D1 & D2 & D3).
  fold (eatt C c k) in *. fold (erev revealed k) in D1.
  assert (length (e_ra C c p2 d revealed ch k) >= eatt C c k - 1 - length (erev revealed k))%nat as HC by (unfold e_ra; rewrite map_length; apply hidden_count).
  split; try (rewrite en_run by exact Hk); try (rewrite even_a_run by exact Hk); try (rewrite even_map_run by exact Hk); try (rewrite even_t_run by exact Hk); fold (erev revealed k);
    cbn [cm rsp run_comm run_resp c_t c_even_r c_even_rev r_even_a r_even_s r_even_vk r_even_t r_odd_vk]; rewrite ?map_length, ?seq_length; fold L.
  - lia.
  - rewrite (di_levels C c revealed DI). fold L. lia.
  - exact Hh.
  - exact Hh.
  - exact Hh.
  - exact Hh.
  - exact Hh.
  - exact Hh.
  - intros NE. replace (L - 1)%nat with ((k + 1) * 2 + (L - 1 - 2 * (k + 1)))%nat by lia. rewrite Nat.div_add_l by lia. lia.
  - apply check_counts_eq; lia.
  - lia.
  - exact YY.
  - unfold e_rt. rewrite map_length, seq_length. lia.
  - intros j Lj E. eexists. apply entries_lookup; [exact Lj|exact E].
  - intros j Lj E. unfold e_ra. rewrite map_length. apply unrev_below_lt; [exact Lj|exact E].
Qed.
Lemma nth_scaled {M : modOps K} (x : K) (T : list M) j : (j < length T)%nat -> nth j (map (smul x) T) m0 = smul x (nth j T m0).
Proof. intros H. rewrite (nth_indep _ m0 (smul x m0)) by now rewrite map_length. apply map_nth. Qed.
Lemma run_reconstruct : reconstruct_commitment L cm rsp ch revealed ipk p1 p2 = Ok cm.
Proof.
  rewrite reconstruct_eq by assumption. unfold cm at 1, L at 1. rewrite run_comm_valid. cbn [rbind].
  assert (resp_validate rsp L = Ok tt) as ->.
  { unfold resp_validate, rsp, run_resp. cbn [r_odd_s r_even_s r_odd_t r_even_t]. rewrite !map_length, !seq_length. fold L. rewrite halves, Nat.eqb_refl. reflexivity. }
  cbn [rbind].
  rewrite (rmap_eq _ (fun i => (clev_s (clevs C c p1 p2 d revealed i), clev_t (clevs C c p1 p2 d revealed i)))).
  - cbn [rbind]. f_equal. unfold assemble. rewrite !map_map. reflexivity.
  - intros i Hi. apply in_seq in Hi. destruct (level_cases i ltac:(lia)) as [ (k & ->) | (k & ->) ].
    + assert (2 * k + 1 <= L)%nat as Hk by lia. rewrite (rstep_odd_eq C LW) by now apply odd_shape_run. rewrite clevs_odd. cbn [clev_s clev_t o_lev cl_s cl_t]. f_equal.
      pose proof (odd_at C c BAL k Hk) as OA. destruct (vc_odd C _ _ _ _ _ V k _ OA) as (_ & _ & GV). destruct (di_odd C c revealed DI k _ OA) as (_ & D2 & _).
      pose proof (o_half C c k Hk) as Hh. fold L in Hh.
      assert (nth k (c_odd_r cm) m0 = smul (d_sig d (2 * k + 1)) (s1_R (l1_sig (ol C c k)))) as ER by (unfold cm, run_comm; cbn [c_odd_r]; rewrite nth_map_seq_g by exact Hh; reflexivity).
      f_equal.
      * unfold oS. rewrite opv_run, ER by exact Hk. unfold rsp, run_resp. cbn [r_odd_s]. rewrite nth_map_seq_g by exact Hh.
        unfold o_rs, o_sig, randomize1, groth_randomize. cbn [s1_S]. apply (vs_commit HK HT pair (bil1 C LW) _ _ _ _ _ _ _ _ _ _ _ _ GV). apply ND.
      * unfold oT, o_ct. rewrite on_run by exact Hk. apply map_ext_in. intros j Hj. apply in_seq in Hj. rewrite opv_run, oz_run, ER, odd_t_run by (try exact Hk; lia).
        unfold o_rt. rewrite nth_map_seq_g by lia. unfold o_sig, randomize1, groth_randomize. cbn [s1_T]. rewrite nth_scaled by (fold (oatt C c k) in D2; lia).
        apply (vt_commit HK HT pair (bil1 C LW) _ _ _ _ _ _ _ _ _ _ _ _ _ _ GV); [apply ND|]. fold (oatt C c k). lia.
    + assert (2 * k + 2 <= L)%nat as Hk by lia. rewrite (rstep_even_eq C LW) by now apply even_shape_run. rewrite clevs_even. cbn [clev_s clev_t e_lev cl_s cl_t]. f_equal.
      pose proof (even_at C c BAL k Hk) as OA. destruct (vc_even C _ _ _ _ _ V k _ OA) as (_ & _ & GV). destruct (di_even C c revealed DI k _ OA) as (_ & D2 & _).
      pose proof (e_half C c k Hk) as Hh. fold L in Hh.
      assert (nth k (c_even_r cm) m0 = smul (d_sig d (2 * k + 2)) (s2_R (l2_sig (el C c k)))) as ER by (unfold cm, run_comm; cbn [c_even_r]; rewrite nth_map_seq_g by exact Hh; reflexivity).
      f_equal.
      * unfold eS. rewrite odd_vk_run, ER by exact Hk. unfold rsp, run_resp. cbn [r_even_s]. rewrite nth_map_seq_g by exact Hh.
        unfold e_rs, e_sig, randomize2, groth_randomize. cbn [s2_S]. apply (vs_commit HK HT (fun m w => pair w m) (bil2 C LW) _ _ _ _ _ _ _ _ _ _ _ _ GV). apply ND.
      * unfold eT, e_ct. rewrite en_run by exact Hk. apply map_ext_in. intros j Hj. apply in_seq in Hj. rewrite odd_vk_run, ez_run, ER, even_t_run by (try exact Hk; lia).
        unfold e_rt. rewrite nth_map_seq_g by lia. unfold e_sig, randomize2, groth_randomize. cbn [s2_T]. rewrite nth_scaled by (fold (eatt C c k) in D2; lia).
        apply (vt_commit HK HT (fun m w => pair w m) (bil2 C LW) _ _ _ _ _ _ _ _ _ _ _ _ _ _ GV); [apply ND|]. fold (eatt C c k). lia.
Qed.
Lemma entries_disclose {M : modOps K} (attrs : list M) rev n : n = length attrs -> discloses_at attrs rev (rev_entries attrs m0 rev (n - 1)).
Proof.
  intros -> j a. unfold rev_entries. rewrite in_map_iff. split.
  - intros (j' & E & I). assert (j' = j) as -> by congruence. assert (a = nth j attrs m0) as -> by congruence. apply filter_In in I as (I & Mm). apply in_seq in I. apply mem_in in Mm.
    split; [exact Mm|]. split; [lia|]. apply nth_error_nth'. lia.
  - intros (I & Lj & E). exists j. split; [f_equal; now apply nth_error_nth|]. apply filter_In. split; [apply in_seq; lia|now apply mem_in].
Qed.
Lemma run_discloses : discloses c revealed cm.
Proof.
  split; intros k l E.
  - assert (2 * k + 1 <= L)%nat as Hk by (apply (balanced_odd C c k BAL), nth_error_Some; congruence). rewrite odd_map_run by exact Hk.
    pose proof (odd_at C c BAL k Hk) as OA. assert (l = ol C c k) as -> by congruence. now apply entries_disclose.
  - assert (2 * k + 2 <= L)%nat as Hk by (apply (balanced_even C c k BAL), nth_error_Some; congruence). rewrite even_map_run by exact Hk.
    pose proof (even_at C c BAL k Hk) as OA. assert (l = el C c k) as -> by congruence. now apply entries_disclose.
Qed.
End Complete.

(** The holder of a valid chain, knowing the secret of its last key and using parameters with common
    generators, can commit, answer any challenge, and the verifier's reconstruction is the
    commitment (so the recomputed challenge is the same), with or without precomputed values.  The
    commitment shows exactly the attributes at the revealed positions. *)
Theorem C107_complete : forall (C : curve) (p1 : params1 C) (p2 : params2 C) c ipk ev od sk ch revealed d, curve_laws C -> params1_ok p1 -> params2_ok p2 -> p1_g1 p1 = p2_g1 p2 -> p1_g2 p1 = p2_g2 p2 ->
  valid_chain p1 p2 c (ipk :: ev) od -> holds p1 p2 (chain_size c) (ipk :: ev) od sk -> disclosable c revealed -> (forall i, d_sig d i <> f0) ->
  exists t cm r pr, commitment (token_new c p1 p2) revealed d = Ok (t, cm) /\ response t cm sk ch ev od = Ok r /\
    reconstruct_commitment (chain_size c) cm r ch revealed ipk p1 p2 = Ok cm /\
    precomp_recon_new ipk p1 p2 = Ok pr /\ reconstruct_with_precomputed (chain_size c) cm r ch revealed p1 p2 pr = Ok cm /\
    discloses c revealed cm.
Proof.
  intros C p1 p2 c ipk ev od sk ch revealed d LW N1 N2 G1e G2e V HO DI ND. pose proof (vc_balanced C _ _ _ _ _ V) as B.
  assert (exists pr, precomp_recon_new ipk p1 p2 = Ok pr) as (pr & EP).
  { unfold precomp_recon_new. rewrite (at_ok (p1_y p1) 0 m0) by (unfold params1_ok in N1; destruct (p1_y p1); [contradiction|cbn; lia]).
    rewrite (at_ok (p2_y p2) 0 m0) by (unfold params2_ok in N2; destruct (p2_y p2); [contradiction|cbn; lia]). cbn [rbind]. eauto. }
  pose proof (run_reconstruct C LW c p1 p2 d revealed ipk ev od sk ch N1 N2 G1e G2e V HO DI ND) as RR.
  exists (run_token C c p1 p2 d revealed), (run_comm C c p1 p2 d revealed), (run_resp C c p1 p2 d revealed ev od sk ch), pr.
  split; [apply (commitment_run C LW); [exact B|exact DI|intros; eapply run_Y1; eassumption|intros; eapply run_Y2; eassumption]|].
  split; [apply (response_run C); [exact B|exact DI|eapply run_LE; eassumption|eapply run_LO; eassumption|eapply run_size; eassumption]|].
  split; [exact RR|]. split; [exact EP|]. split; [rewrite (precomputed_eq C LW _ _ _ _ _ _ _ _ _ EP); exact RR|].
  eapply run_discloses; eassumption.
Qed.
(** The variants with precomputed values are the same functions: of the commitment, given values
    made by the constructors, and of the reconstruction, on all inputs. *)
Theorem C107_precomputed_same : forall (C : curve), curve_laws C ->
  (forall (t : token C) revealed d, commitment_on_setup t revealed (precomp_setup_new (t_p1 t) (t_p2 t)) d = commitment t revealed d) /\
  (forall (t : token C) revealed pc d, precomp_chain_new (t_chain t) (t_p1 t) (t_p2 t) = Ok pc -> commitment_with_precomputation t revealed (precomp_setup_new (t_p1 t) (t_p2 t)) pc d = commitment t revealed d) /\
  (forall L (cm : comm C) r ch revealed ipk p1 p2 pr, precomp_recon_new ipk p1 p2 = Ok pr -> reconstruct_with_precomputed L cm r ch revealed p1 p2 pr = reconstruct_commitment L cm r ch revealed ipk p1 p2).
Proof.
  intros C LW. split; [reflexivity|]. split.
  - intros t revealed pc d E. unfold commitment. rewrite E. reflexivity.
  - intros. now apply (precomputed_eq C LW).
Qed.

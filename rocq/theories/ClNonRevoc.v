(** Proofs about the non-revocation proof (C39, C40) and its special soundness (C45). *)
From Verif Require Import Base BnModel BnProofs StrMap HelpersModel ClModel Alg ClRevModel ClRevSpec.
Open Scope list_scope.
Open Scope Z_scope.

Lemma x_list_round C (x : xlist C) : x_from_list C (x_as_list C x) = Ok x.
Proof. now destruct x. Qed.
Lemma x_list_round' C l x : length l = 14%nat -> x_from_list C l = Ok x -> x_as_list C x = l.
Proof.
  intros L E. do 15 (destruct l as [|? l]; try discriminate). cbn [x_from_list] in E. injection E as <-. reflexivity.
Qed.

Section NonRevoc.
Variable C : curve.
Hypothesis L : curve_laws C.
Notation K := (cK C). Notation G1 := (cG1 C). Notation G2 := (cG2 C). Notation GT := (cGT C).
Let HK := cl_field C L.
Let H1 := cl_g1 C L.
Let H2 := cl_g2 C L.
Let HT := cl_gt C L.
Add Field KfNR : (proj1 HK).

Lemma pr_add_l (a b : G1) (c : G2) : pair (madd a b) c = madd (pair a c) (pair b c).
Proof. apply (cl_bilinear C L). Qed.
Lemma pr_add_r (a : G1) (b c : G2) : pair a (madd b c) = madd (pair a b) (pair a c).
Proof. apply (cl_bilinear C L). Qed.
Lemma pr_mul_l x (a : G1) (b : G2) : pair (smul x a) b = smul x (pair a b).
Proof. apply (cl_bilinear C L). Qed.
Lemma pr_mul_r x (a : G1) (b : G2) : pair a (smul x b) = smul x (pair a b).
Proof. apply (cl_bilinear C L). Qed.
Lemma pr_opp_l (a : G1) (b : G2) : pair (mopp a) b = mopp (pair a b).
Proof. rewrite (mopp_smul K HK G1 H1), pr_mul_l, (mopp_smul K HK GT HT). reflexivity. Qed.
Lemma pr_opp_r (a : G1) (b : G2) : pair a (mopp b) = mopp (pair a b).
Proof. rewrite (mopp_smul K HK G2 H2), pr_mul_r, (mopp_smul K HK GT HT). reflexivity. Qed.
Lemma pr_0_l (b : G2) : pair (m0 : G1) b = m0.
Proof. rewrite <- (smul_0_l K HK G1 H1 m0), pr_mul_l. apply (smul_0_l K HK GT HT). Qed.
Lemma pr_0_r (a : G1) : pair a (m0 : G2) = m0.
Proof. rewrite <- (smul_0_l K HK G2 H2 m0), pr_mul_r. apply (smul_0_l K HK GT HT). Qed.
Ltac expand := rewrite ?pr_add_l, ?pr_add_r, ?pr_mul_l, ?pr_mul_r, ?pr_opp_l, ?pr_opp_r;
  repeat (progress rewrite ?pr_add_l, ?pr_add_r, ?pr_mul_l, ?pr_mul_r, ?pr_opp_l, ?pr_opp_r).


Lemma msub_eq (a b : GT) : madd a (mopp b) = m0 -> a = b.
Proof. intros E. replace a with (madd (madd a (mopp b)) b) by (module_coefs HK HT; ring). rewrite E. module_coefs HK HT; ring. Qed.
Lemma eq_msub (a b : GT) : a = b -> madd a (mopp b) = m0.
Proof. intros ->. module_coefs HK HT; ring. Qed.
(** to show [a = b], exhibit the difference as a multiple of a known equation *)
Lemma by_eq (k : K) (p q a b : GT) : p = q -> madd a (mopp b) = smul k (madd p (mopp q)) -> a = b.
Proof. intros -> E. apply msub_eq. rewrite E. module_coefs HK HT; ring. Qed.

Lemma nonrevoc_complete (pk : rpk C) (z : GT) accum omega cred d tp ch pr :
  rcred_valid C pk z accum omega cred ->
  finalize_non_revocation_proof C (init_non_revocation_proof C cred accum pk omega d tp) ch = Ok pr ->
  verify_non_revocation_proof C pk accum z ch pr = Ok (nr_tl (init_non_revocation_proof C cred accum pk omega d tp)).
Proof.
  intros [W SI SG UI]. unfold finalize_non_revocation_proof, verify_non_revocation_proof.
  destruct (bignum_to_group_element C ch) as [c|]; cbn [rbind]; [|discriminate].
  cbn [x_as_list init_non_revocation_proof nr_tp nr_cp nr_cl nr_tl combine map x_from_list rbind]. intros E. injection E as <-.
  cbn [nv_x nv_c]. f_equal.
  unfold create_tau_list_values, create_tau_list_expected_values, create_c_list_values, gen_c_list_params.
  cbn [x_rho x_r x_r1 x_r2 x_r3 x_o x_o1 x_m x_m1 x_t x_t1 x_m2 x_s x_c cl_e cl_d cl_a cl_g cl_w cl_s cl_u ta1 ta2 ta3 ta4 ta5 ta6 ta7 ta8].
  rewrite pr_add_l in SI. rewrite pr_add_r, pr_mul_r, !pr_add_l, !pr_mul_l in SG.
  f_equal.
  - module_coefs HK H1; ring.
  - module_coefs HK H1; ring.
  - expand. apply (by_eq (fopp c) _ _ _ _ SG). module_coefs HK HT; ring.
  - expand. apply (by_eq c _ _ _ _ W). module_coefs HK HT; ring.
  - module_coefs HK H1; ring.
  - module_coefs HK H1; ring.
  - expand. apply (by_eq c _ _ _ _ SI). module_coefs HK HT; ring.
  - expand. apply (by_eq c _ _ _ _ UI). module_coefs HK HT; ring.
Qed.

(** finalization succeeds for every challenge that fits 32 bytes *)
Lemma to_bytes_short ch : 0 <= ch < 2 ^ 256 -> (length (bn_to_bytes ch) <= 32)%nat.
Proof.
  intros Hc. unfold bn_to_bytes. rewrite Z.abs_eq by lia.
  destruct (Z.eq_dec ch 0) as [->|Hz]; [cbn; lia|].
  destruct (digits_be_head 256 ch) as (d0 & ds & E & Hd); [lia|lia|].
  pose proof (digits_be_range 256 ch ltac:(lia)) as R. pose proof (digits_be_val 256 ch ltac:(lia) ltac:(lia)) as V.
  rewrite E in *. pose proof (Forall_inv R) as R1. pose proof (Forall_inv_tail R) as R2. rewrite val_be_cons in V. cbv beta in R1.
  pose proof (val_be_bound 256 ds ltac:(lia) R2) as B.
  cbn [length]. destruct (Nat.le_gt_cases (S (length ds)) 32) as [|G]; [assumption|exfalso].
  assert (256 ^ 32 <= 256 ^ Z.of_nat (length ds)) by (apply Z.pow_le_mono_r; lia).
  change (256 ^ 32) with (2 ^ 256) in *. nia.
Qed.
Lemma bignum_to_ge_ok ch : 0 <= ch < 2 ^ 256 -> bignum_to_group_element C ch = Ok (ofZ ch).
Proof.
  intros Hc. unfold bignum_to_group_element, goe_from_bytes. pose proof (to_bytes_short ch Hc).
  replace (32 <? Z.of_nat (length (bn_to_bytes ch))) with false by (symmetry; apply Z.ltb_ge; lia).
  f_equal. f_equal. apply bn_bytes_roundtrip; lia.
Qed.
Lemma nonrevoc_finalize_ok cred accum (pk : rpk C) omega d tp ch : 0 <= ch < 2 ^ 256 ->
  exists pr, finalize_non_revocation_proof C (init_non_revocation_proof C cred accum pk omega d tp) ch = Ok pr /\
    nv_c pr = nr_cl (init_non_revocation_proof C cred accum pk omega d tp).
Proof.
  intros Hc. unfold finalize_non_revocation_proof. rewrite bignum_to_ge_ok by assumption.
  cbn [rbind]. eexists. cbn [x_as_list init_non_revocation_proof nr_tp nr_cp nr_cl nr_tl combine map x_from_list rbind]. split; reflexivity.
Qed.

(** ** special soundness *)
(** the extractor: the fourteen quotients of response and challenge differences *)
Definition x_quot (c1 c2 : K) (p q : xlist C) : xlist C :=
  let f a b := fmul (fadd a (fopp b)) (finv (fadd c2 (fopp c1))) in
  mkX (f (x_rho p) (x_rho q)) (f (x_r p) (x_r q)) (f (x_r1 p) (x_r1 q)) (f (x_r2 p) (x_r2 q)) (f (x_r3 p) (x_r3 q))
      (f (x_o p) (x_o q)) (f (x_o1 p) (x_o1 q)) (f (x_m p) (x_m q)) (f (x_m1 p) (x_m1 q)) (f (x_t p) (x_t q)) (f (x_t1 p) (x_t1 q))
      (f (x_m2 p) (x_m2 q)) (f (x_s p) (x_s q)) (f (x_c p) (x_c q)).
Definition x_cred (pk : rpk C) (y : xlist C) (pc : clist C) : rcred C :=
  mkRCred (madd (cl_a pc) (mopp (smul (x_rho y) (rk_htilde pk)))) (x_c y) (x_s y)
    (mkWitSig (madd (cl_s pc) (mopp (smul (x_r2 y) (rk_h_cap pk)))) (madd (cl_u pc) (mopp (smul (x_r3 y) (rk_h_cap pk))))
              (madd (cl_g pc) (mopp (smul (x_r y) (rk_htilde pk)))))
    (madd (cl_g pc) (mopp (smul (x_r y) (rk_htilde pk)))) 0 (x_m2 y).
Definition x_omega (pk : rpk C) (y : xlist C) (pc : clist C) : G2 := madd (cl_w pc) (mopp (smul (x_r1 y) (rk_h_cap pk))).

Lemma quot_gen (M : modOps K) (HM : mod_laws M) (c1 c2 : K) (te t1 t2 : M) : c1 <> c2 ->
  madd (smul c1 te) t1 = madd (smul c2 te) t2 ->
  te = smul (finv (fadd c2 (fopp c1))) (madd t1 (mopp t2)).
Proof.
  intros N E.
  assert (fadd c2 (fopp c1) <> f0) as Nz.
  { intros Q. apply N. replace c2 with (fadd (fadd c2 (fopp c1)) c1) by ring. rewrite Q. ring. }
  replace t1 with (madd (madd (smul c1 te) t1) (mopp (smul c1 te))) by (module_coefs HK HM; ring).
  rewrite E. module_coefs HK HM; field; exact Nz.
Qed.
Lemma tau_eq_quot pk accum z pc c1 c2 p q : c1 <> c2 ->
  let te := create_tau_list_expected_values C pk accum z pc in
  let t1 := create_tau_list_values C pk accum p pc in
  let t2 := create_tau_list_values C pk accum q pc in
  madd (smul c1 (ta1 te)) (ta1 t1) = madd (smul c2 (ta1 te)) (ta1 t2) ->
  madd (smul c1 (ta2 te)) (ta2 t1) = madd (smul c2 (ta2 te)) (ta2 t2) ->
  madd (smul c1 (ta3 te)) (ta3 t1) = madd (smul c2 (ta3 te)) (ta3 t2) ->
  madd (smul c1 (ta4 te)) (ta4 t1) = madd (smul c2 (ta4 te)) (ta4 t2) ->
  madd (smul c1 (ta5 te)) (ta5 t1) = madd (smul c2 (ta5 te)) (ta5 t2) ->
  madd (smul c1 (ta6 te)) (ta6 t1) = madd (smul c2 (ta6 te)) (ta6 t2) ->
  madd (smul c1 (ta7 te)) (ta7 t1) = madd (smul c2 (ta7 te)) (ta7 t2) ->
  madd (smul c1 (ta8 te)) (ta8 t1) = madd (smul c2 (ta8 te)) (ta8 t2) ->
  te = create_tau_list_values C pk accum (x_quot c1 c2 p q) pc.
Proof.
  intros N te t1 t2 E1 E2 E3 E4 E5 E6 E7 E8.
  apply (quot_gen G1 H1) in E1, E2, E5, E6; try assumption. apply (quot_gen GT HT) in E3, E4, E7, E8; try assumption.
  destruct te as [e1 e2 e3 e4 e5 e6 e7 e8]. cbn [ta1 ta2 ta3 ta4 ta5 ta6 ta7 ta8] in E1, E2, E3, E4, E5, E6, E7, E8.
  rewrite E1, E2, E3, E4, E5, E6, E7, E8. subst t1 t2. unfold create_tau_list_values, x_quot.
  cbn [x_rho x_r x_r1 x_r2 x_r3 x_o x_o1 x_m x_m1 x_t x_t1 x_m2 x_s x_c ta1 ta2 ta3 ta4 ta5 ta6 ta7 ta8].
  f_equal; [module_coefs HK H1; ring|module_coefs HK H1; ring|module_coefs HK HT; ring|module_coefs HK HT; ring|
    module_coefs HK H1; ring|module_coefs HK H1; ring|module_coefs HK HT; ring|module_coefs HK HT; ring].
Qed.

Lemma nonrevoc_extract pk accum z pc ch1 ch2 p q ts c1 c2 :
  bignum_to_group_element C ch1 = Ok c1 -> bignum_to_group_element C ch2 = Ok c2 -> c1 <> c2 ->
  verify_non_revocation_proof C pk accum z ch1 (mkNrProof p pc) = Ok ts ->
  verify_non_revocation_proof C pk accum z ch2 (mkNrProof q pc) = Ok ts ->
  create_tau_list_expected_values C pk accum z pc = create_tau_list_values C pk accum (x_quot c1 c2 p q) pc.
Proof.
  intros B1 B2 N V1 V2. unfold verify_non_revocation_proof in *. rewrite B1 in V1. rewrite B2 in V2. cbn [rbind nv_c nv_x] in *.
  rewrite <- V1 in V2. clear V1.
  match type of V2 with Ok ?a = Ok ?b => assert (b = a) as V by congruence end. clear V2.
  apply tau_eq_quot; [assumption| | | | | | | |].
  - exact (f_equal ta1 V). - exact (f_equal ta2 V). - exact (f_equal ta3 V). - exact (f_equal ta4 V).
  - exact (f_equal ta5 V). - exact (f_equal ta6 V). - exact (f_equal ta7 V). - exact (f_equal ta8 V).
Qed.

Lemma rel_div (M : modOps K) (HM : mod_laws M) (a b : K) (u v : M) : a <> f0 ->
  madd (smul a u) (smul b v) = m0 -> u = smul (fopp (fmul b (finv a))) v.
Proof.
  intros Na E. replace u with (smul (finv a) (madd (madd (smul a u) (smul b v)) (mopp (smul b v)))) by (module_coefs HK HM; field; exact Na).
  rewrite E. module_coefs HK HM; ring.
Qed.

(** what the two relations give *)
Lemma nonrevoc_special pk accum z pc y :
  create_tau_list_expected_values C pk accum z pc = create_tau_list_values C pk accum y pc ->
  (* the representations of the two Pedersen commitments *)
  (madd (smul (fadd (fmul (x_c y) (x_rho y)) (fopp (x_m y))) (rk_h pk)) (smul (fadd (fmul (x_c y) (x_o y)) (fopp (x_t y))) (rk_htilde pk)) = m0) /\
  (madd (smul (fadd (fmul (x_r2 y) (x_r y)) (fopp (x_m1 y))) (rk_g pk)) (smul (fadd (fmul (x_r2 y) (x_o1 y)) (fopp (x_t1 y))) (rk_htilde pk)) = m0) /\
  (x_m y = fmul (x_rho y) (x_c y) -> x_m1 y = fmul (x_r y) (x_r2 y) ->
   rcred_valid C pk z accum (x_omega pk y pc) (x_cred pk y pc)).
Proof.
  intros E.
  assert (E1 := f_equal ta1 E). assert (E2 := f_equal ta2 E). assert (E3 := f_equal ta3 E). assert (E4 := f_equal ta4 E).
  assert (E5 := f_equal ta5 E). assert (E6 := f_equal ta6 E). assert (E7 := f_equal ta7 E). assert (E8 := f_equal ta8 E). clear E.
  unfold create_tau_list_expected_values, create_tau_list_values in *.
  cbn [ta1 ta2 ta3 ta4 ta5 ta6 ta7 ta8] in *.
  split; [|split].
  - rewrite E2, E1. module_coefs HK H1; ring.
  - rewrite E6, E5. module_coefs HK H1; ring.
  - intros Em Em1. rewrite Em in E3. rewrite Em1 in E7.
    constructor; unfold x_cred, x_omega; cbn [rc_g_i rc_sigma rc_c rc_m2 rc_vr rc_ws ws_sigma_i ws_u_i ws_g_i]; clear E1 E2 E5 E6.
    + expand. rewrite ?pr_opp_l in *. apply (by_eq f1 _ _ _ _ E4). module_coefs HK HT; ring.
    + expand. rewrite !pr_add_l in E7. apply (by_eq f1 _ _ _ _ E7). module_coefs HK HT; ring.
    + expand. rewrite !pr_add_l in E3. apply (by_eq (fopp f1) _ _ _ _ E3). module_coefs HK HT; ring.
    + expand. rewrite ?pr_opp_l in *. apply (by_eq f1 _ _ _ _ E8). module_coefs HK HT; ring.
Qed.
End NonRevoc.

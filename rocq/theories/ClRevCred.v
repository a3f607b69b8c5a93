(** Proofs about revocation credentials: issuing, processing, and the whole
    non-revocation protocol (C35, C39). *)
From Verif Require Import Base BnModel BnProofs StrMap HelpersModel HelpersProofs ClModel Alg ClRevModel ClRevSpec ClNonRevoc ClRevProofs.
Open Scope list_scope.
Open Scope Z_scope.

Section Cred.
Variable C : curve.
Hypothesis LW : curve_laws C.
Notation K := (cK C). Notation G1 := (cG1 C). Notation G2 := (cG2 C). Notation GT := (cGT C).
Let HK := cl_field C LW.
Let H1 := cl_g1 C LW.
Let H2 := cl_g2 C LW.
Let HT := cl_gt C LW.
Add Field KfRC : (proj1 HK).

(** the checks of the prover, as equations *)
Lemma test_witness_iff cred pk z accum omega m2z :
  0 <= m2z < 2 ^ 256 ->
  (test_witness_signature C cred pk z accum omega m2z = Ok tt <->
   pair (ws_g_i (rc_ws cred)) accum = madd (pair (rk_g pk) omega) z /\
   pair (madd (rk_pk pk) (rc_g_i cred)) (ws_sigma_i (rc_ws cred)) = pair (rk_g pk) (rk_g_dash pk) /\
   pair (rc_sigma cred) (madd (rk_y pk) (smul (rc_c cred) (rk_h_cap pk))) =
     pair (madd (madd (madd (rk_h0 pk) (smul (ofZ m2z) (rk_h1 pk))) (smul (rc_vr cred) (rk_h2 pk))) (rc_g_i cred)) (rk_h_cap pk)).
Proof.
  intros Hm. unfold test_witness_signature. fold (bignum_to_group_element C m2z). rewrite (bignum_to_ge_ok C m2z Hm). cbn [rbind].
  assert (forall a b : GT, meqb a b = true <-> a = b) as ME by apply (meqb_eq K GT HT).
  assert (forall a b c : GT, madd a (mopp b) = c <-> a = madd b c) as MS.
  { intros a b c. split; intros Q; [rewrite <- Q|rewrite Q]; module_coefs HK HT; ring. }
  destruct (meqb (madd _ _) z) eqn:E1; cbn [negb].
  - apply ME, MS in E1. destruct (meqb _ (pair (rk_g pk) (rk_g_dash pk))) eqn:E2; cbn [negb].
    + apply ME in E2. match goal with |- context [if negb (meqb ?a ?b) then _ else _] => destruct (meqb a b) eqn:E3 end; cbn [negb].
      * apply ME in E3. tauto.
      * split; [discriminate|]. intros (_ & _ & Q). apply ME in Q. congruence.
    + split; [discriminate|]. intros (_ & Q & _). apply ME in Q. congruence.
  - split; [discriminate|]. intros (Q & _). apply MS, ME in Q. congruence.
Qed.

Section Honest.
Variables (g : G1) (g_dash : G2) (h h0 h1 h2 htilde : G1) (h_cap u : G2) (x sk : K).
Let pk := fst (new_credential_revocation_keys C g g_dash h h0 h1 h2 htilde h_cap u x sk).
Let rsk_ := snd (new_credential_revocation_keys C g g_dash h h0 h1 h2 htilde h_cap u x sk).
Variables (L : Z) (gamma : K).
Hypothesis HL : 0 <= L.
Hypothesis HL32 : 2 * L + 1 < 2 ^ 32.
Let z := new_revocation_key_public C pk gamma L.

Lemma issued_valid i ctx vr_prime dflt accum access vr c accum' cred d V cred' r :
  1 <= i <= L -> fadd x c <> f0 -> fadd sk (fpow gamma (Z.to_nat i)) <> f0 ->
  new_non_revocation_credential C i ctx (Some (blinded_revocation_secrets C pk vr_prime)) (Some pk) (Some rsk_) L dflt accum gamma access vr c
    = (accum', Ok (cred, d)) ->
  NoDup V -> (forall j, In j V -> 1 <= j <= L) -> In i V ->
  process_non_revocation_credential C cred vr_prime pk z (accum_of C g_dash gamma L V) (witness_of C g_dash gamma L i V) = (cred', r) ->
  r = Ok tt /\ rcred_valid C pk z (accum_of C g_dash gamma L V) (witness_of C g_dash gamma L i V) cred'.
Proof.
  intros Hi Nx Ns E NV RV IV P.
  unfold new_non_revocation_credential in E.
  destruct (goe_from_bytes C (bn_to_bytes ctx)) as [m2|]; [|congruence].
  assert (gpow C gamma i = fpow gamma (Z.to_nat i)) as GP by (apply gpow_eq; lia). rewrite GP in E.
  assert (z = smul (fpow gamma (Z.to_nat (L + 1))) (pair g g_dash)) as Ez.
  { unfold z, new_revocation_key_public. unfold u32w. rewrite Z.mod_small by lia. rewrite gpow_eq by lia. reflexivity. }
  set (cr := mkRCred _ c vr _ _ i m2) in E.
  assert (cred = cr) as ->.
  { destruct dflt; [congruence|]. destruct (access_loop C access madd _ accum) as [a [?|?]]; congruence. }
  clear E. unfold process_non_revocation_credential in P.
  set (cr' := mkRCred _ _ _ _ _ _ _) in P.
  assert (cred' = cr') as -> by congruence.
  assert (r = test_witness_signature C cr' pk z (accum_of C g_dash gamma L V) (witness_of C g_dash gamma L i V) (toZ (rc_m2 cr))) as -> by congruence.
  clear P.
  pose proof (witness_equation C LW L g_dash gamma g i V Hi NV RV IV) as WE. rewrite <- Ez in WE.
  assert (rcred_valid C pk z (accum_of C g_dash gamma L V) (witness_of C g_dash gamma L i V) cr') as RV'.
  { subst cr' cr. constructor; cbn [rc_g_i rc_sigma rc_c rc_m2 rc_vr rc_ws ws_sigma_i ws_u_i ws_g_i].
    - exact WE.
    - unfold pk. cbn [fst new_credential_revocation_keys rk_pk rk_g rk_g_dash rs_sk rsk_ snd].
      rewrite !(pr_add_l C LW), !(pr_mul_l C LW), !(pr_mul_r C LW). module_coefs HK HT. field. exact Ns.
    - unfold pk, blinded_revocation_secrets. cbn [fst new_credential_revocation_keys rk_pk rk_g rk_g_dash rs_sk rsk_ snd rs_x rk_y rk_h_cap rk_h0 rk_h1 rk_h2].
      rewrite !(pr_add_r C LW), !(pr_mul_r C LW), !(pr_mul_l C LW), !(pr_add_l C LW), !(pr_mul_l C LW).
      module_coefs HK HT; field; exact Nx.
    - unfold pk. cbn [fst new_credential_revocation_keys rk_u rk_g]. now rewrite (pr_mul_l C LW), (pr_mul_r C LW). }
  split; [|exact RV'].
  apply test_witness_iff; [apply (cl_toZ C LW)|]. rewrite (cl_ofZ C LW).
  destruct RV' as [A B D _]. split; [exact A|]. split; [exact B|exact D].
Qed.
End Honest.
End Cred.

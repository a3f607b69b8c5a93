(** Proofs for predicate sub-proofs (C27). *)
From Verif Require Import Base BnModel BnProofs UMod StrMap HelpersModel HelpersSpec HelpersProofs ClModel ClSpec ClLib ClKey ClIssue ClBlind ClPresent.
Open Scope string_scope.
Open Scope list_scope.
Open Scope Z_scope.

Section Pred.
Variables (pk : ppk) (V : valid_pk pk).
Notation n := (pk_n pk).
Let Hn : 2 <= n := vk_n pk V.
Local Notation "a ** b" := (umul n Hn a b) (at level 40, left associativity).
Local Notation "a ^^ k" := (zpow n Hn a k) (at level 30).
Local Notation "a ^-1" := (uinv n Hn a) (at level 25).
Notation S_ := (uS pk V).
Notation Z_ := (uZ pk V).

Lemma s_exp a : bn_mod_exp (pk_s pk) a n = Ok (uv (S_ ^^ a)).
Proof. rewrite (uS_eq pk V). apply (mod_exp_u n Hn). Qed.
Lemma z_exp a : bn_mod_exp (pk_z pk) a n = Ok (uv (Z_ ^^ a)).
Proof. rewrite (uZ_eq pk V). apply (mod_exp_u n Hn). Qed.

Definition less_sign (less : bool) (x : Z) : Z := if less then - x else x.
(** the six values of [calc_tne] *)
Definition tne_list (fu fr : string -> Z) (rd mj alpha : Z) (T : string -> U n) (less : bool) : list (U n) :=
  map (fun i => Z_ ^^ fu i ** S_ ^^ fr i) iter_keys
  ++ [Z_ ^^ mj ** S_ ^^ less_sign less rd; S_ ^^ alpha ** uprod n Hn T fu iter_keys].

Lemma calc_tne_u u r mj alpha t less fu fr rd T :
  (forall i, In i iter_keys -> sm_get i u = Some (fu i) /\ sm_get i r = Some (fr i) /\ sm_get i t = Some (uv (T i))) ->
  sm_get "DELTA" r = Some rd -> (less = true -> 0 <= rd) ->
  calc_tne pk u r mj alpha t less = Ok (map uv (tne_list fu fr rd mj alpha T less)).
Proof.
  intros Hi Hd Hr. unfold calc_tne.
  rewrite (rmap_ok _ (fun i => uv (Z_ ^^ fu i ** S_ ^^ fr i))).
  2:{ intros i Hin. destruct (Hi i Hin) as (E1 & E2 & E3). rewrite (sm_get_or_some _ _ _ _ E1). cbn [rbind].
      rewrite (sm_get_or_some _ _ _ _ E2). cbn [rbind]. rewrite z_exp. cbn [rbind]. rewrite s_exp. cbn [rbind]. apply (mod_mul_u n Hn). }
  cbn [rbind]. rewrite (sm_get_or_some _ _ _ _ Hd). cbn [rbind]. rewrite z_exp. cbn [rbind]. rewrite s_exp. cbn [rbind].
  rewrite (mod_mul_u n Hn). cbn [rbind].
  replace (if less then bn_set_negative rd true else rd) with (less_sign less rd).
  2:{ destruct less; [|reflexivity]. unfold less_sign, bn_set_negative. specialize (Hr eq_refl). destruct (Z.ltb_spec rd 0); cbn [negb]; lia. }
  assert (forall l (q : Z) (acc : U n), (forall i, In i l -> In i iter_keys) -> q mod n = uv acc ->
    exists q', rfold (fun q i => let! cur_t := sm_get_or InvalidStructure i t in let! cur_u := sm_get_or InvalidStructure i u in
       let! x := bn_mod_exp cur_t cur_u n in Ok (bn_mul x q)) l q = Ok q' /\ q' mod n = uv (uprod n Hn T fu l ** acc)) as RL.
  { induction l as [|i l IH]; intros q acc Hl Eq; cbn [rfold uprod].
    - exists q. split; [reflexivity|]. rewrite Eq. f_equal. umod_ring.
    - destruct (Hi i) as (E1 & E2 & E3); [apply Hl; now left|]. rewrite (sm_get_or_some _ _ _ _ E3). cbn [rbind].
      rewrite (sm_get_or_some _ _ _ _ E1). cbn [rbind]. rewrite (mod_exp_u n Hn). cbn [rbind].
      destruct (IH (bn_mul (uv (T i ^^ fu i)) q) (T i ^^ fu i ** acc)) as (q' & F1 & F2).
      + intros; apply Hl; now right.
      + unfold bn_mul. rewrite uv_mul. rewrite Zmult_mod. rewrite Eq. rewrite (uv_mod n). reflexivity.
      + exists q'. split; [exact F1|]. rewrite F2. f_equal. umod_ring. }
  destruct (RL iter_keys 1 (u1 n Hn)) as (q & F1 & F2); [auto|reflexivity|].
  rewrite F1. cbn [rbind]. rewrite s_exp. cbn [rbind]. rewrite (mod_mul_unred n Hn _ q _ F2). cbn [rbind].
  unfold tne_list. rewrite map_app, map_map. cbn [map]. do 4 f_equal. f_equal. f_equal. umod_ring.
Qed.

Section Ne.
Variables (vals : cred_values) (p : predicate) (rnd : nerand) (mtm : smap Z) (mt a : Z).
Hypothesis Hcv : exists cv, sm_get (p_attr p) vals = Some cv /\ cv_value cv = a.
Hypothesis Ha : is_i32 a.
Hypothesis Hmt : sm_get (p_attr p) mtm = Some mt.
Let less := is_less (p_type p).
Let delta := get_delta (p_type p) (p_value p) a.
Let dprime := get_delta_prime (p_type p) (p_value p).
Hypothesis Hdelta : 0 <= delta.
Hypothesis Hrel : delta = if less then dprime - a else a - dprime.
Hypothesis Hrd : 0 <= nr_r_tilde rnd "DELTA".
Hypothesis Hrr : 0 <= nr_r rnd "DELTA".

Variables (u0 u1 u2 u3 : Z).
Hypothesis Hfs : four_squares delta = Ok (u0, u1, u2, u3).
Hypothesis Hsum : u0 ^ 2 + u1 ^ 2 + u2 ^ 2 + u3 ^ 2 = delta.

Definition fu (i : string) : Z := mget [("0", u0); ("1", u1); ("2", u2); ("3", u3)] i.
Definition uTi (i : string) : U n := Z_ ^^ fu i ** S_ ^^ nr_r rnd i.
Definition uTd : U n := Z_ ^^ delta ** S_ ^^ nr_r rnd "DELTA".
Definition t_map : smap Z := map (fun i => (i, uv (uTi i))) iter_keys ++ [("DELTA", uv uTd)].
Definition r_map : smap Z := map (fun i => (i, nr_r rnd i)) (iter_keys ++ ["DELTA"]).
Definition rt_map : smap Z := map (fun i => (i, nr_r_tilde rnd i)) (iter_keys ++ ["DELTA"]).
Definition ut_map : smap Z := map (fun i => (i, nr_u_tilde rnd i)) iter_keys.
Definition taus : list (U n) := tne_list (nr_u_tilde rnd) (nr_r_tilde rnd) (nr_r_tilde rnd "DELTA") mt (nr_alpha_tilde rnd) uTi less.
Definition the_neinit : neinit :=
  mkNeInit (map (fun i => uv (uTi i)) iter_keys ++ [uv uTd]) (map uv taus)
    [("0", u0); ("1", u1); ("2", u2); ("3", u3)] ut_map r_map rt_map (nr_alpha_tilde rnd) p t_map.

Lemma ped_zs a1 b1 : get_pedersen_commitment (pk_z pk) a1 (pk_s pk) b1 n = Ok (uv (Z_ ^^ a1 ** S_ ^^ b1)).
Proof. rewrite (uZ_eq pk V), (uS_eq pk V). apply (pedersen_u n Hn). Qed.

Lemma init_ne_u : init_ne_proof pk mtm vals p rnd = Ok the_neinit.
Proof.
  destruct Hcv as (cv & E1 & E2). unfold init_ne_proof. rewrite (sm_get_or_some _ _ _ _ E1). cbn [rbind]. rewrite E2.
  unfold parse_i32. replace ((- 2 ^ 31 <=? a) && (a <? 2 ^ 31)) with true.
  2:{ symmetry. apply andb_true_iff. unfold is_i32 in Ha. split; [apply Z.leb_le; lia|apply Z.ltb_lt; lia]. }
  cbn [rbind]. fold delta. replace (delta <? 0) with false by (symmetry; apply Z.ltb_ge; lia).
  rewrite Hfs. cbn [rbind].
  replace (rfold _ iter_keys ([], [], [])) with
    (Ok (map (fun i => (i, nr_r rnd i)) iter_keys, map (fun i => (i, uv (uTi i))) iter_keys, map (fun i => uv (uTi i)) iter_keys) : res (smap Z * smap Z * list Z)).
  2:{ symmetry. unfold iter_keys. cbn [rfold]. 
      repeat first [progress cbn [rbind] | rewrite ped_zs | match goal with
      | |- context [sm_get_or InvalidStructure "0" (("0", u0) :: ?l)] => change (sm_get_or InvalidStructure "0" (("0", u0) :: l)) with (Ok u0)
      | |- context [sm_get_or InvalidStructure "1" (("0", u0) :: ?l)] => change (sm_get_or InvalidStructure "1" (("0", u0) :: l)) with (Ok u1)
      | |- context [sm_get_or InvalidStructure "2" (("0", u0) :: ?l)] => change (sm_get_or InvalidStructure "2" (("0", u0) :: l)) with (Ok u2)
      | |- context [sm_get_or InvalidStructure "3" (("0", u0) :: ?l)] => change (sm_get_or InvalidStructure "3" (("0", u0) :: l)) with (Ok u3)
      end]. reflexivity. }
  cbn [rbind]. rewrite ped_zs. cbn [rbind]. fold uTd. rewrite (sm_get_or_some _ _ _ _ Hmt). cbn [rbind].
  match goal with |- context [calc_tne pk ?u ?r _ _ ?t _] =>
    change u with ut_map; change r with rt_map; change t with t_map end.
  fold less. rewrite (calc_tne_u ut_map rt_map mt (nr_alpha_tilde rnd) t_map less (nr_u_tilde rnd) (nr_r_tilde rnd) (nr_r_tilde rnd "DELTA") uTi).
  - cbn [rbind]. reflexivity.
  - intros i Hi. unfold iter_keys in Hi. cbn [In] in Hi. destruct Hi as [<-|[<-|[<-|[<-|[]]]]]; repeat split; reflexivity.
  - reflexivity.
  - auto.
Qed.

Definition the_neproof (c : Z) : neproof :=
  mkNeProof (map (fun i => (i, c * fu i + nr_u_tilde rnd i)) iter_keys)
    (("0", c * nr_r rnd "0" + nr_r_tilde rnd "0") :: ("DELTA", c * nr_r rnd "DELTA" + nr_r_tilde rnd "DELTA") ::
     map (fun i => (i, c * nr_r rnd i + nr_r_tilde rnd i)) ["1"; "2"; "3"])
    (c * a + mt)
    ((nr_r rnd "DELTA" - (u0 * nr_r rnd "0" + u1 * nr_r rnd "1" + u2 * nr_r rnd "2" + u3 * nr_r rnd "3")) * c + nr_alpha_tilde rnd)
    t_map p.

Lemma finalize_ne_u c eq : sm_get (p_attr p) (ep_m eq) = Some (c * a + mt) -> finalize_ne_proof c the_neinit eq = Ok (the_neproof c).
Proof.
  intros Em. unfold finalize_ne_proof. cbn [the_neinit ni_u ni_u_tilde ni_r ni_r_tilde ni_predicate ni_alpha_tilde ni_t].
  unfold iter_keys at 1. cbn [rfold].
  repeat first [progress cbn [rbind] | match goal with
  | |- context [sm_index ?i ut_map] => change (sm_index i ut_map) with (@Ok Z (nr_u_tilde rnd i))
  | |- context [sm_index ?i rt_map] => change (sm_index i rt_map) with (@Ok Z (nr_r_tilde rnd i))
  | |- context [sm_index ?i r_map] => change (sm_index i r_map) with (@Ok Z (nr_r rnd i))
  | |- context [sm_index "0" (("0", u0) :: ?l)] => change (sm_index "0" (("0", u0) :: l)) with (Ok u0)
  | |- context [sm_index "1" (("0", u0) :: ?l)] => change (sm_index "1" (("0", u0) :: l)) with (Ok u1)
  | |- context [sm_index "2" (("0", u0) :: ?l)] => change (sm_index "2" (("0", u0) :: l)) with (Ok u2)
  | |- context [sm_index "3" (("0", u0) :: ?l)] => change (sm_index "3" (("0", u0) :: l)) with (Ok u3)
  end].
  cbn [rbind]. rewrite (sm_index_some _ _ _ Em). cbn [rbind]. unfold the_neproof. do 2 f_equal.
  unfold bn_add, bn_mul, bn_sub. ring.
Qed.

Lemma verify_ne_u c : 0 <= c -> verify_ne_predicate pk (the_neproof c) c = Ok (map uv taus).
Proof.
  intros Hc. unfold verify_ne_predicate. cbn [the_neproof np_u np_r np_mj np_alpha np_t np_predicate]. fold less. fold dprime.
  rewrite (calc_tne_u _ _ _ _ t_map less (fun i => c * fu i + nr_u_tilde rnd i) (fun i => c * nr_r rnd i + nr_r_tilde rnd i) (c * nr_r rnd "DELTA" + nr_r_tilde rnd "DELTA") uTi).
  2:{ intros i Hi. unfold iter_keys in Hi. cbn [In] in Hi. destruct Hi as [<-|[<-|[<-|[<-|[]]]]]; repeat split; reflexivity. }
  2:{ reflexivity. }
  2:{ intros _. nia. }
  cbn [rbind]. unfold tne_list at 1 2 3. rewrite !map_app, !map_map. unfold ITERATION.
  cbn [iter_keys map app firstn combine nth Nat.add rmap].
  repeat match goal with
  | |- context [sm_get_or ProofRejected "DELTA" t_map] => change (sm_get_or ProofRejected "DELTA" t_map) with (Ok (uv uTd))
  | |- context [sm_get_or ProofRejected ?i t_map] => change (sm_get_or ProofRejected i t_map) with (Ok (uv (uTi i)))
  end.
  cbn [rbind]. do 4 (rewrite (mod_exp_u n Hn); cbn [rbind]; rewrite (inverse_u n Hn); cbn [rbind]; rewrite (mod_mul_u n Hn); cbn [rbind]).
  set (D := if less then uTd ^-1 else uTd).
  replace (if less then bn_inverse (uv uTd) n else Ok (uv uTd)) with (Ok (uv D)).
  2:{ unfold D. destruct less; [symmetry; apply (inverse_u n Hn)|reflexivity]. }
  cbn [rbind]. rewrite z_exp. cbn [rbind].
  rewrite (mod_exp_unred n Hn _ (Z_ ^^ dprime ** D)); [|assumption|reflexivity].
  cbn [rbind]. rewrite (inverse_u n Hn). cbn [rbind]. rewrite (mod_mul_u n Hn). cbn [rbind].
  rewrite (mod_exp_u n Hn). cbn [rbind]. rewrite (inverse_u n Hn). cbn [rbind]. rewrite (mod_mul_u n Hn). cbn [rbind].
  f_equal. unfold taus, tne_list. rewrite map_app, map_map. cbn [iter_keys map app].
  assert (forall i, (uTi i ^^ c) ^-1 ** (Z_ ^^ (c * fu i + nr_u_tilde rnd i) ** S_ ^^ (c * nr_r rnd i + nr_r_tilde rnd i))
          = Z_ ^^ nr_u_tilde rnd i ** S_ ^^ nr_r_tilde rnd i) as E1 by (intros i; unfold uTi; umod_ring).
  rewrite !E1. do 4 f_equal. f_equal; [|f_equal]; f_equal.
  - unfold D, uTd, less_sign. rewrite Hrel. destruct less; umod_ring.
  - unfold iter_keys; cbn [uprod]. unfold uTd. rewrite <- Hsum. unfold uTi.
    change (fu "0") with u0. change (fu "1") with u1. change (fu "2") with u2. change (fu "3") with u3. umod_ring.
Qed.
End Ne.
End Pred.

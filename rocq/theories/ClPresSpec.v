(** Specification vocabulary for presentations (C26-C33): what it means that a
    credential can answer a request.  Plain conditions on the inputs. *)
From Verif Require Import Base BnModel StrMap HelpersModel HelpersSpec ClModel ClSpec ClProofModel.

(** the integer values of all attributes *)
Definition attribute_values (vals : cred_values) : list (string * Z) := map (fun kv => (fst kv, cv_value (snd kv))) vals.

(** attribute values and predicate thresholds are i32, the comparison is true and
    the difference fits an i32 *)
Definition predicate_satisfied (vals : cred_values) (p : predicate) : Prop :=
  exists cv, sm_get (p_attr p) vals = Some cv /\ is_i32 (cv_value cv) /\ is_i32 (p_value p) /\
    holds (p_type p) (cv_value cv) (p_value p) /\ true_delta (p_type p) (cv_value cv) (p_value p) < 2 ^ 31.

(** a credential [sg] on [vals] under [pk] that can answer [req]: sets are sorted
    (they are BTreeSets/BTreeMaps), the attributes are those of the two schemas,
    the request reveals schema attributes, its predicates are true and about
    unrevealed attributes, and the signature is valid *)
Record presentable_for (pred_ok : predicate -> Prop) (pk : ppk) (sg : psig) (vals : cred_values) (schema non_schema : sset) (req : subreq) : Prop := {
  pr_schema : ssorted schema;
  pr_non_schema : ssorted non_schema;
  pr_revealed_sorted : ssorted (rq_revealed req);
  pr_preds_sorted : pset_of_list (rq_predicates req) = rq_predicates req;
  pr_vals : ssorted (sm_keys vals);
  pr_attrs : forall k, In k (sm_keys vals) <-> In k schema \/ In k non_schema;
  pr_revealed : forall k, In k (rq_revealed req) -> In k schema;
  pr_preds : forall p, In p (rq_predicates req) -> In (p_attr p) schema /\ ~ In (p_attr p) (rq_revealed req) /\ pred_ok p;
  pr_bases : forall k, In k (sm_keys vals) -> In k (sm_keys (pk_r pk));
  pr_unit : unit_mod (pk_n pk) (sg_a sg);
  pr_sig : cl_signature pk sg (attribute_values vals) }.
Arguments pr_schema {pred_ok pk sg vals schema non_schema req}. Arguments pr_non_schema {pred_ok pk sg vals schema non_schema req}.
Arguments pr_revealed_sorted {pred_ok pk sg vals schema non_schema req}. Arguments pr_preds_sorted {pred_ok pk sg vals schema non_schema req}.
Arguments pr_vals {pred_ok pk sg vals schema non_schema req}. Arguments pr_attrs {pred_ok pk sg vals schema non_schema req}.
Arguments pr_revealed {pred_ok pk sg vals schema non_schema req}. Arguments pr_preds {pred_ok pk sg vals schema non_schema req}.
Arguments pr_bases {pred_ok pk sg vals schema non_schema req}. Arguments pr_unit {pred_ok pk sg vals schema non_schema req}.
Arguments pr_sig {pred_ok pk sg vals schema non_schema req}.
Definition presentable pk sg vals schema non_schema req := presentable_for (predicate_satisfied vals) pk sg vals schema non_schema req.
(** the code's own idea of a provable predicate (i32 arithmetic wraps): used to
    exhibit the predicates for which it differs from [predicate_satisfied] *)
Definition predicate_provable (vals : cred_values) (p : predicate) : Prop :=
  exists cv, sm_get (p_attr p) vals = Some cv /\ is_i32 (cv_value cv) /\ 0 <= get_delta (p_type p) (p_value p) (cv_value cv) /\
    get_delta (p_type p) (p_value p) (cv_value cv) =
      (if is_less (p_type p) then get_delta_prime (p_type p) (p_value p) - cv_value cv else cv_value cv - get_delta_prime (p_type p) (p_value p))%Z.

(** ** whole presentations *)
From Verif Require Import Alg ClRevModel ClRevSpec.
Section Spec.
Variable C : curve.

(** SHA-256 returns 32 bytes *)
Definition hash32 (H : list Z -> list Z) : Prop := forall l, length (H l) = 32%nat /\ Forall (fun b => 0 <= b < 256) (H l).

(** everything the prover and the verifier supply for one credential; the verifier's
    request, schemas, keys and registry are the same ones *)
Record item := mkItem {
  it_req : subreq; it_schema : sset; it_non_schema : sset; it_sig : csig C; it_vals : cred_values; it_pk : cpk C;
  it_accum : option (cG2 C); it_omega : option (cG2 C); it_z : option (cGT C); it_rnd : subrand C }.

(** calls to [ProofBuilder::add_sub_proof_request] / [ProofVerifier::add_sub_proof_request] in order *)
Fixpoint build_all (b : builder C) (items : list item) : builder C * res unit :=
  match items with
  | [] => (b, Ok tt)
  | it :: rest =>
      match builder_add C b (it_req it) (it_schema it) (it_non_schema it) (it_sig it) (it_vals it) (it_pk it) (it_accum it) (it_omega it) (it_rnd it) with
      | (b', Ok _) => build_all b' rest
      | (b', Err e) => (b', Err e)
      end
  end.
Fixpoint expect_all (v : verifier C) (items : list item) : verifier C * res unit :=
  match items with
  | [] => (v, Ok tt)
  | it :: rest =>
      match verifier_add C v (it_req it) (it_schema it) (it_non_schema it) (it_pk it) (it_z it) (it_accum it) with
      | (v', Ok _) => expect_all v' rest
      | (v', Err e) => (v', Err e)
      end
  end.
Definition common_builder (commons : list (string * Z)) : builder C :=
  fold_left (fun b '(a, d) => builder_add_common C b a d) commons (builder_new C).
Definition common_verifier (commons : list string) : verifier C :=
  fold_left (fun v a => verifier_add_common C v a) commons (verifier_new C).

(** the non-revocation inputs of an item fit together: if the prover makes a
    non-revocation proof, its credential and witness are valid for the verifier's
    registry *)
Definition revocation_ok (it : item) : Prop :=
  match cs_r (it_sig it), it_accum it, cp_r (it_pk it), it_omega it with
  | Some rc, Some accum, Some rk, Some omega => exists z, it_z it = Some z /\ rcred_valid C rk z accum omega rc
  | _, _, _, _ => True
  end.
(** an item whose signature is not looked at: the values may be anything *)
Record claim_ok (it : item) : Prop := {
  cl_pk : valid_pk (cp_p (it_pk it));
  cl_schema : ssorted (it_schema it);
  cl_non_schema : ssorted (it_non_schema it);
  cl_revealed_sorted : ssorted (rq_revealed (it_req it));
  cl_preds_sorted : pset_of_list (rq_predicates (it_req it)) = rq_predicates (it_req it);
  cl_vals : ssorted (sm_keys (it_vals it));
  cl_attrs : forall k, In k (sm_keys (it_vals it)) <-> In k (it_schema it) \/ In k (it_non_schema it);
  cl_revealed : forall k, In k (rq_revealed (it_req it)) -> In k (it_schema it);
  cl_preds : forall p, In p (rq_predicates (it_req it)) -> In (p_attr p) (it_schema it) /\ ~ In (p_attr p) (rq_revealed (it_req it)) /\ predicate_satisfied (it_vals it) p;
  cl_bases : forall k, In k (sm_keys (it_vals it)) -> In k (sm_keys (pk_r (cp_p (it_pk it))));
  cl_rnd : forall p, In p (rq_predicates (it_req it)) -> 0 <= nr_r (su_ne C (it_rnd it) p) "DELTA" /\ 0 <= nr_r_tilde (su_ne C (it_rnd it) p) "DELTA" }.
Record item_ok_for (pred_ok : cred_values -> predicate -> Prop) (it : item) : Prop := {
  io_pk : valid_pk (cp_p (it_pk it));
  io_present : presentable_for (pred_ok (it_vals it)) (cp_p (it_pk it)) (cs_p (it_sig it)) (it_vals it) (it_schema it) (it_non_schema it) (it_req it);
  io_rev : revocation_ok it;
  io_rnd : forall p, In p (rq_predicates (it_req it)) -> 0 <= nr_r (su_ne C (it_rnd it) p) "DELTA" /\ 0 <= nr_r_tilde (su_ne C (it_rnd it) p) "DELTA" }.
Definition item_ok := item_ok_for predicate_satisfied.
(** a common attribute is unrevealed in every credential and has the same value in all *)
Definition common_ok (commons : list string) (items : list item) : Prop :=
  forall a, In a commons -> exists x, forall it, In it items ->
    ~ In a (rq_revealed (it_req it)) /\ exists cv, sm_get a (it_vals it) = Some cv /\ cv_value cv = x.
End Spec.
Arguments mkItem {C}. Arguments it_req {C}. Arguments it_schema {C}. Arguments it_non_schema {C}. Arguments it_sig {C}. Arguments it_vals {C}. Arguments it_pk {C}.
Arguments it_accum {C}. Arguments it_omega {C}. Arguments it_z {C}. Arguments it_rnd {C}.

(** ** what the verifier's decision depends on *)
Section Decision.
Variable C : curve.
(** response of a sub proof for attribute [a] *)
Definition response (sp : subproof C) (a : string) : option Z := sm_get a (ep_m (pp_eq (sp_p sp))).
(** the commitments recomputed from one sub proof under challenge [c] *)
Definition recomputed (c : Z) (sp : subproof C) (vc : vcred C) : res (list (list Z)) :=
  let! t1 := match sp_r sp, cp_r (vc_pk vc), vc_accum vc, vc_z vc with
             | Some nrp, Some rk, Some accum, Some z => let! t := verify_non_revocation_proof C rk accum z c nrp in Ok (tau_as_list C t)
             | _, _, _, _ => Ok []
             end in
  let! t2 := verify_primary_proof (cp_p (vc_pk vc)) c (sp_p sp) (vc_schema vc) (vc_non_schema vc) (vc_req vc) in
  Ok (t1 ++ map bn_to_bytes t2).
(** a sub proof reveals exactly the requested names and proves exactly the requested predicates *)
Definition answers (sp : subproof C) (req : subreq) : Prop :=
  (forall k, In k (sm_keys (ep_revealed (pp_eq (sp_p sp)))) <-> In k (rq_revealed req)) /\
  (forall p, In p (map np_predicate (pp_ne (sp_p sp))) <-> In p (rq_predicates req)).
(** all sub proofs have the same response for [a], the remembered one if there is one *)
Definition common_agrees (v : verifier C) (sps : list (subproof C)) (a : string) : Prop :=
  exists m, (forall sp, In sp sps -> response sp a = Some m) /\ (forall w, sm_get a (vf_common v) = Some (Some w) -> w = m).
(** a BTreeSet<String> and a BTreeSet<Predicate> as sorted lists *)
Definition wf_req (req : subreq) : Prop := ssorted (rq_revealed req) /\ pset_of_list (rq_predicates req) = rq_predicates req.
End Decision.

(** the integer value of an attribute (0 if absent) *)
Definition value_of (vals : cred_values) (k : string) : Z := match sm_get k vals with Some cv => cv_value cv | None => 0 end.

(** ** attackers: programs that use only public data *)
(** a "signature" computed from the public key alone: e = 1, v = m2 = 0 *)
Definition forge (pk : ppk) (vals : cred_values) : res psig :=
  let! rx := rfold (fun rx '(k, cv) =>
      let! r := sm_get_or InvalidStructure k (pk_r pk) in
      let! y := bn_mod_exp r (cv_value cv) (pk_n pk) in
      bn_mod_mul rx y (pk_n pk)) vals 1 in
  let! a := bn_mod_div (pk_z pk) rx (pk_n pk) in
  Ok (mkPSig 0 a 1 0).

(** the item with its signature replaced by a forged one, and no witness *)
Definition with_forged {C : curve} (it : item C) : res (item C) :=
  let! sg := forge (cp_p (it_pk it)) (it_vals it) in
  Ok (mkItem (it_req it) (it_schema it) (it_non_schema it) (mkCSig sg None) (it_vals it) (it_pk it) (it_accum it) None (it_z it) (it_rnd it)).

(** a holder of a credential on [vals] proves predicates [ps] about the values [claim],
    which need not be those of the credential: an honest proof without predicates,
    plus predicate proofs made for a made-up attribute map *)
Definition made_up (claim : predicate -> Z) (p : predicate) : cred_values := [(p_attr p, Known (claim p))].
Definition cheat (C : curve) (H : list Z -> list Z) (pk : ppk) (sg : psig) (vals : cred_values) (schema non_schema : sset) (revealed : sset)
    (ps : list predicate) (claim : predicate -> Z) (nonce : Z) (rnd : eqrand) (nrnd : predicate -> nerand) : res (proof C) :=
  let req := mkSubReq revealed [] in
  let! ip := init_primary_proof [] pk sg vals schema non_schema req None rnd nrnd in
  let! nes := rmap (fun p => init_ne_proof pk [(p_attr p, 0)] (made_up claim p) p (nrnd p)) ps in
  let ip' := mkPInit (pi_eq ip) nes in
  let c := get_hash_as_int H (pinit_tau_list ip' ++ pinit_c_list ip' ++ [bn_to_bytes nonce]) in
  let! pf := finalize_primary_proof ip c schema non_schema vals req in
  let fake ne := let p := ni_predicate ne in mkEqProof [] 0 0 0 [(p_attr p, c * claim p)] 0 in
  let! nps := rmap (fun ne => finalize_ne_proof c ne (fake ne)) nes in
  Ok (mkProof [mkSubProof (mkPProof (pp_eq pf) nps) None] c (pinit_c_list ip')).

(** the values of a nonce: 256-ary digits *)
Definition with_suffix (high low : Z) (k : Z) : Z := high * 256 ^ k + low.

(** the signature equation raised to the power c (c = 1: a signature) *)
Definition cl_equation_power (c : Z) (pk : ppk) (sg : psig) (vals : list (string * Z)) : Prop :=
  product_is_one (pk_n pk)
    ((pk_z pk, - c) :: (sg_a sg, c * sg_e sg) :: (pk_s pk, c * sg_v sg) :: (pk_rctxt pk, c * sg_m2 sg)
     :: map (fun kv => (base_of pk (fst kv), c * snd kv)) vals).
(** a predicate that no i32 satisfies but that the code proves *)
Definition wrapped_predicate (vals : cred_values) (p : predicate) : Prop :=
  exists cv, sm_get (p_attr p) vals = Some cv /\
    ((p_type p = GT /\ p_value p = 2 ^ 31 - 1 /\ - 2 ^ 31 <= cv_value cv < 0) \/
     (p_type p = LT /\ p_value p = - 2 ^ 31 /\ 0 <= cv_value cv < 2 ^ 31)).

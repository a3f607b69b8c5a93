(** Specification vocabulary for C149 and C150: the sizes of secrets and masks in the CL
    protocol, and what it means that a response hides a secret. *)
From Verif Require Import Base BnModel StrMap HelpersModel ClModel ClSpec Alg ClRevModel ClRevSpec ClProofModel ClPresSpec.
Open Scope list_scope.
Open Scope Z_scope.

(** a draw of bn_rand(bits) *)
Definition drawn (bits : Z) (x : Z) : Prop := 0 <= x < 2 ^ bits.
(** the integers that a response [x] to challenge [c] with a mask of [bits] bits leaves
    possible for the secret: at most 2^bits / c + 1 of them *)
Definition pinned (bits c x secret : Z) : Prop := x / c - 2 ^ bits / c <= secret <= x / c.

Section S.
Variable C : curve.
(** a prover's session: common attributes with their masks, credentials in order, nonce *)
Definition session (H : list Z -> list Z) (commons : list (string * Z)) (items : list (item C)) (nonce : Z) (pf : proof C) : Prop :=
  exists b, build_all C (common_builder C commons) items = (b, Ok tt) /\ builder_finalize C H b nonce = Ok pf.

(** the sizes of an issued credential: 256-bit attribute values and context, e in the
    interval of [Issuer], v = v' + v'' *)
Record credential_sizes (sg : psig) (vals : cred_values) : Prop := {
  sz_vals : forall k, drawn 256 (value_of vals k);
  sz_m2 : drawn 256 (sg_m2 sg);
  sz_e : 2 ^ 596 <= sg_e sg <= 2 ^ 596 + 2 ^ 119;
  sz_v : drawn 2725 (sg_v sg) }.
(** the draws of [ProofBuilder] for one credential are bn_rand values of the code's sizes *)
Record draws_ok (rnd : eqrand) : Prop := {
  dr_m2 : drawn 592 (er_m2_tilde rnd);
  dr_r : drawn 2128 (er_r rnd);
  dr_e : drawn 456 (er_e_tilde rnd);
  dr_v : drawn 3060 (er_v_tilde rnd);
  dr_m : forall k, drawn 592 (er_m rnd k) }.
(** the responses of a sub proof do not lie at the ends of their ranges *)
Record middle (sp : subproof C) : Prop := {
  mi_m2 : 2 ^ 512 <= ep_m2 (pp_eq (sp_p sp)) < 2 ^ 592;
  mi_e : 2 ^ 375 <= ep_e (pp_eq (sp_p sp)) < 2 ^ 456;
  mi_v : 2 ^ 2981 <= ep_v (pp_eq (sp_p sp)) < 2 ^ 3060 - 2 ^ 2981;
  mi_m : forall k x, response C sp k = Some x -> 2 ^ 512 <= x < 2 ^ 592 }.
(** all draws are at a distance from the ends of their ranges that is tiny compared to
    the range (a part 2^-79 of it or less) *)
Record middle_draws (n : Z) (rnd : eqrand) : Prop := {
  md_m2 : 2 ^ 512 <= er_m2_tilde rnd < 2 ^ 592 - 2 ^ 512;
  md_r : 0 <= er_r rnd < 2 ^ 2128 - n;
  md_e : 2 ^ 375 <= er_e_tilde rnd < 2 ^ 456 - 2 ^ 375;
  md_v : 2 ^ 2982 <= er_v_tilde rnd < 2 ^ 3060 - 2 ^ 2982;
  md_m : forall k, 2 ^ 512 <= er_m rnd k < 2 ^ 592 - 2 ^ 512 }.

(** the same session step with another credential and other draws *)
Definition with_credential (it : item C) (other : csig C * cred_values) (rnd : subrand C) : item C :=
  mkItem (it_req it) (it_schema it) (it_non_schema it) (fst other) (snd other) (it_pk it) (it_accum it) (it_omega it) (it_z it) rnd.
(** a request without predicates, answered without a non-revocation proof, by either of
    two valid credentials with the same revealed values; their A's are in one coset of
    the powers of S *)
Record exchangeable (it : item C) (other : csig C * cred_values) : Prop := {
  ex_ok1 : item_ok C it;
  ex_ok2 : item_ok C (with_credential it other (it_rnd it));
  ex_plain1 : cs_r (it_sig it) = None;
  ex_plain2 : cs_r (fst other) = None;
  ex_no_preds : rq_predicates (it_req it) = [];
  ex_revealed : forall k, In k (rq_revealed (it_req it)) -> value_of (it_vals it) k = value_of (snd other) k;
  ex_size1 : credential_sizes (cs_p (it_sig it)) (it_vals it);
  ex_size2 : credential_sizes (cs_p (fst other)) (snd other);
  ex_coset : exists k, 0 <= k < pk_n (cp_p (it_pk it)) /\
    sg_a (cs_p (it_sig it)) = (sg_a (cs_p (fst other)) * pk_s (cp_p (it_pk it)) ^ k) mod pk_n (cp_p (it_pk it)) }.
Fixpoint exchange (items : list (item C)) (others : list (csig C * cred_values)) (rnds : list (subrand C)) : list (item C) :=
  match items, others, rnds with
  | it :: items', o :: others', r :: rnds' => with_credential it o r :: exchange items' others' rnds'
  | _, _, _ => []
  end.
End S.
Arguments session {C}. Arguments middle {C}. Arguments with_credential {C}. Arguments exchangeable {C}. Arguments exchange {C}.

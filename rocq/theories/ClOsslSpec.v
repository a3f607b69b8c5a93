(** What the statements about the two builds speak of. *)
From Coq Require Import String.
From Verif Require Import Base BnModel HelpersModel StrMap ClModel ClSpec Alg ClRevModel ClProofModel ClPresSpec ClOsslModel.
Local Open Scope Z_scope.

(** the group elements a proof carries are not negative: A' of every equality proof and
    the T of every predicate proof *)
Definition nonneg_proof (C : curve) (pf : proof C) : Prop := forall sp, In sp (pf_proofs pf) ->
  0 <= ep_a_prime (pp_eq (sp_p sp)) /\
  forall ne, In ne (pp_ne (sp_p sp)) -> forall k t, sm_get k (np_t ne) = Some t -> 0 <= t.

(** calls to [ProofBuilder::add_sub_proof_request] of the OpenSSL build, in order *)
Fixpoint o_build_all (inv : Z -> Z -> res Z) (C : curve) (b : builder C) (items : list (item C)) : builder C * res unit :=
  match items with
  | [] => (b, Ok tt)
  | it :: rest =>
      match o_builder_add inv C b (it_req it) (it_schema it) (it_non_schema it) (it_sig it) (it_vals it) (it_pk it) (it_accum it) (it_omega it) (it_rnd it) with
      | (b', Ok _) => o_build_all inv C b' rest
      | (b', Err e) => (b', Err e)
      end
  end.

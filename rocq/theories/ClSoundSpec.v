(** What two accepted answers for one commitment say (C151), in plain integer
    arithmetic.  Only the record fields of the protocol data and the set functions
    of the model are used. *)
From Verif Require Import Base StrMap HelpersModel ClModel ClSpec.
Open Scope list_scope.
Open Scope Z_scope.

(** the attributes a verifier does not see: those of the schemas that are not revealed *)
Definition hidden_names (schema non_schema : sset) (req : subreq) : list string :=
  ss_diff (ss_union schema non_schema) (rq_revealed req).
(** the response for a hidden attribute *)
Definition answer (pr : eqproof) (k : string) : Z := match sm_get k (ep_m pr) with Some x => x | None => 0 end.

(** two answers to challenges that differ by [d]: the published A' with the differences of the
    responses satisfies the signature equation raised to the power [d] *)
Definition answers_relation (pk : ppk) (hidden : list string) (pr1 pr2 : eqproof) (d : Z) : Prop :=
  product_is_one (pk_n pk)
    ((pk_z pk, - d)
     :: (ep_a_prime pr1 mod pk_n pk, (ep_e pr1 - ep_e pr2) + d * 2 ^ 596)
     :: (pk_s pk, ep_v pr1 - ep_v pr2)
     :: (pk_rctxt pk, ep_m2 pr1 - ep_m2 pr2)
     :: map (fun k => (base_of pk k, answer pr1 k - answer pr2 k)) hidden
     ++ map (fun kx => (base_of pk (fst kx), d * snd kx)) (ep_revealed pr1)).

(** the difference of the challenges divides the differences of the responses *)
Definition divisible_answers (hidden : list string) (pr1 pr2 : eqproof) (d : Z) : Prop :=
  (d | ep_e pr1 - ep_e pr2) /\ (d | ep_v pr1 - ep_v pr2) /\ (d | ep_m2 pr1 - ep_m2 pr2) /\
  forall k, In k hidden -> (d | answer pr1 k - answer pr2 k).

(** the credential computed from the two answers, with A' or its negative *)
Definition extracted_sig (n : Z) (pr1 pr2 : eqproof) (d : Z) (negate : bool) : psig :=
  mkPSig ((ep_m2 pr1 - ep_m2 pr2) / d) (if negate then n - ep_a_prime pr1 mod n else ep_a_prime pr1 mod n)
    ((ep_e pr1 - ep_e pr2) / d + 2 ^ 596) ((ep_v pr1 - ep_v pr2) / d).
Definition extracted_values (hidden : list string) (pr1 pr2 : eqproof) (d : Z) : list (string * Z) :=
  map (fun k => (k, (answer pr1 k - answer pr2 k) / d)) hidden ++ ep_revealed pr1.

(** [w] is by what (A, e, v, m2) and the values miss the signature equation modulo n *)
Definition signature_defect (pk : ppk) (sg : psig) (vals : list (string * Z)) (w : Z) : Prop :=
  unit_mod (pk_n pk) w /\
  product_is_one (pk_n pk)
    ((w, -1) :: (pk_z pk, -1) :: (sg_a sg, sg_e sg) :: (pk_s pk, sg_v sg) :: (pk_rctxt pk, sg_m2 sg)
     :: map (fun kv => (base_of pk (fst kv), snd kv)) vals).

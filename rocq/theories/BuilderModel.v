(** Model of the builders of libursa/src/cl/mod.rs: schemas, credential values and
    sub proof requests.  A builder is mutated through [&mut self]: every call returns
    the builder after the call, also on error. *)
From Verif Require Import Base BnModel StrMap HelpersModel ClModel Alg ClRevModel ClProofModel.
Open Scope string_scope.
Open Scope list_scope.
Open Scope Z_scope.

(** mod.rs:49-62, 77-91: [CredentialSchemaBuilder] and [NonCredentialSchemaBuilder]
    (the same code): new, add_attr, finalize *)
Definition schema_new : sset := [].
Definition schema_add_attr (b : sset) (attr : string) : sset * res unit := (ss_insert attr b, Ok tt).
Definition schema_finalize (b : sset) : res sset := Ok b.

(** mod.rs:181-187 *)
Definition values_new : cred_values := [].
(** mod.rs:189-199 [add_dec_known] *)
Definition values_add_dec_known (b : cred_values) (attr : string) (value : list Z) : cred_values * res unit :=
  match bn_from_dec value with Ok x => (bt_insert attr (Known x) b, Ok tt) | Err e => (b, Err e) end.
(** mod.rs:201-211 [add_dec_hidden] *)
Definition values_add_dec_hidden (b : cred_values) (attr : string) (value : list Z) : cred_values * res unit :=
  match bn_from_dec value with Ok x => (bt_insert attr (Hidden x) b, Ok tt) | Err e => (b, Err e) end.
(** mod.rs:213-228 [add_dec_commitment] *)
Definition values_add_dec_commitment (b : cred_values) (attr : string) (value blinding_factor : list Z) : cred_values * res unit :=
  match bn_from_dec value with
  | Ok x => match bn_from_dec blinding_factor with Ok r => (bt_insert attr (Commitment x r) b, Ok tt) | Err e => (b, Err e) end
  | Err e => (b, Err e)
  end.
(** mod.rs:230-265 [add_value_known], [add_value_hidden], [add_value_commitment] *)
Definition values_add_value_known (b : cred_values) (attr : string) (x : Z) : cred_values * res unit := (bt_insert attr (Known x) b, Ok tt).
Definition values_add_value_hidden (b : cred_values) (attr : string) (x : Z) : cred_values * res unit := (bt_insert attr (Hidden x) b, Ok tt).
Definition values_add_value_commitment (b : cred_values) (attr : string) (x r : Z) : cred_values * res unit := (bt_insert attr (Commitment x r) b, Ok tt).
(** mod.rs:267-271 *)
Definition values_finalize (b : cred_values) : res cred_values := Ok b.

(** mod.rs:884-891 *)
Definition request_new : subreq := mkSubReq [] [].
(** mod.rs:893-896 [add_revealed_attr] *)
Definition request_add_revealed (b : subreq) (attr : string) : subreq * res unit := (mkSubReq (ss_insert attr (rq_revealed b)) (rq_predicates b), Ok tt).
(** mod.rs:898-927 [add_predicate]; the value is an i32 *)
Definition request_add_predicate (b : subreq) (attr_name p_type : string) (value : Z) : subreq * res unit :=
  let add t := (mkSubReq (rq_revealed b) (pset_insert (mkPred attr_name t value) (rq_predicates b)), Ok tt) in
  if String.eqb p_type "GE" then add GE
  else if String.eqb p_type "LE" then add LE
  else if String.eqb p_type "GT" then add GT
  else if String.eqb p_type "LT" then add LT
  else (b, Err InvalidStructure).
(** mod.rs:929-931 *)
Definition request_finalize (b : subreq) : res subreq := Ok b.

(** ** calls in sequence, results of single calls ignored (as a caller that logs errors
    and goes on would do); the theorems about single calls say which calls fail *)
Inductive values_op := DecKnown (a : string) (s : list Z) | DecHidden (a : string) (s : list Z) | DecCommitment (a : string) (s r : list Z)
  | ValKnown (a : string) (x : Z) | ValHidden (a : string) (x : Z) | ValCommitment (a : string) (x r : Z).
Definition values_call (b : cred_values) (o : values_op) : cred_values * res unit :=
  match o with
  | DecKnown a s => values_add_dec_known b a s
  | DecHidden a s => values_add_dec_hidden b a s
  | DecCommitment a s r => values_add_dec_commitment b a s r
  | ValKnown a x => values_add_value_known b a x
  | ValHidden a x => values_add_value_hidden b a x
  | ValCommitment a x r => values_add_value_commitment b a x r
  end.
Definition values_run (ops : list values_op) : res cred_values := values_finalize (fold_left (fun b o => fst (values_call b o)) ops values_new).
Definition schema_run (attrs : list string) : res sset := schema_finalize (fold_left (fun b a => fst (schema_add_attr b a)) attrs schema_new).
Inductive request_op := Reveal (a : string) | AddPredicate (a p_type : string) (v : Z).
Definition request_call (b : subreq) (o : request_op) : subreq * res unit :=
  match o with Reveal a => request_add_revealed b a | AddPredicate a t v => request_add_predicate b a t v end.
Definition request_run (ops : list request_op) : res subreq := request_finalize (fold_left (fun b o => fst (request_call b o)) ops request_new).

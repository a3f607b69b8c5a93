(** Model of libzmix/bulletproofs_amcl/src/transcript.rs: the Merlin transcript.

    A transcript is the list of what was appended to it (label and bytes) and of the
    challenges drawn from it (merlin's challenge_bytes is itself recorded in the state).  The
    challenge is an arbitrary function [chal] of the transcript and the label: merlin's
    STROBE sponge is not modelled.  [encM], [encF] are the to_bytes of points and scalars. *)
From Verif Require Import Base Alg.
From Coq Require Import String.
Import List ListNotations.
Open Scope list_scope.

Inductive event := Msg (label : string) (data : list Z) | Chal (label : string).
Definition transcript := list event.
(** merlin [append_message] *)
Definition append (tr : transcript) (label : string) (data : list Z) : transcript := tr ++ [Msg label data].
(** [u64::to_le_bytes] of a usize *)
Definition le64 (n : nat) : list Z := map (fun k => ((Z.of_nat n) / 2 ^ (8 * Z.of_nat k)) mod 256)%Z (seq 0 8).
(** the bytes of the literals of transcript.rs:31-45 *)
Definition text (s : string) : list Z := map (fun c => Z.of_N (Ascii.N_of_ascii c)) (list_ascii_of_string s).

Section Transcript.
Context {K : fieldOps} {M : modOps K}.
Record tcode := mkTcode { encM : M -> list Z; encF : K -> list Z; chal : transcript -> string -> K }.
Context (T : tcode).
(** transcript.rs:30-33 *)
Definition innerproduct_domain_sep (tr : transcript) (n : nat) : transcript := append (append tr "dom-sep" (text "ipp v1")) "n" (le64 n).
(** transcript.rs:35-37 *)
Definition r1cs_domain_sep (tr : transcript) : transcript := append tr "dom-sep" (text "r1cs v1").
(** transcript.rs:39-41, 43-45 *)
Definition r1cs_1phase_domain_sep (tr : transcript) : transcript := append tr "dom-sep" (text "r1cs-1phase").
Definition r1cs_2phase_domain_sep (tr : transcript) : transcript := append tr "dom-sep" (text "r1cs-2phase").
(** transcript.rs:47-49 *)
Definition commit_scalar (tr : transcript) (label : string) (x : K) : transcript := append tr label (encF T x).
(** transcript.rs:51-53 *)
Definition commit_point (tr : transcript) (label : string) (p : M) : transcript := append tr label (encM T p).
(** transcript.rs:55-60 *)
Definition challenge_scalar (tr : transcript) (label : string) : K * transcript := (chal T tr label, tr ++ [Chal label]).
End Transcript.
Arguments tcode {K}. Arguments mkTcode {K M}. Arguments encM {K M}. Arguments encF {K M}. Arguments chal {K M}.

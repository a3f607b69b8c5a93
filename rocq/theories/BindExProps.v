(** Concrete cases for C119: the encodings of IppExProps, with a challenge function that is wrong
    everywhere except where the verifiers ask. *)
From Coq Require Import String.
From Verif Require Import Base Alg Lin Fp NumTheory TranscriptModel IppModel IppLib IppSpec IppProps IppExProps R1csModel R1csSpec R1csProofModel R1csProofLib R1csProofSpec R1csProofExProps BindProps.
Import List ListNotations.
Open Scope list_scope.

(** answers 0 unless the last thing appended is an R, an S2, a T_6, an e_blinding or a challenge *)
Definition last_ok (q : transcript) : bool := match rev q with
  | Msg l _ :: _ => existsb (String.eqb l) ["R"; "S2"; "T_6"; "e_blinding"]%string | Chal _ :: _ => true | [] => false end.
Definition wchal (q : transcript) (l : string) : iK := if last_ok q then ichal q l else f0.
Definition wT : tcode iM := mkTcode (encM iT) (encF iT) wchal.
Lemma last_R q d : last_ok (q ++ [Msg "R" d]) = true. Proof. unfold last_ok. rewrite rev_app_distr. reflexivity. Qed.
Lemma last_c q l : last_ok (q ++ [Chal l]) = true. Proof. unfold last_ok. rewrite rev_app_distr. reflexivity. Qed.
Lemma enc_inj : (forall P Q, encM iT P = encM iT Q -> P = Q) /\ (forall a b, encF iT a = encF iT b -> a = b).
Proof. split; intros P Q E; cbn [encM encF iT] in E; injection E as E; now apply fpv_inj. Qed.
(** the two functions differ; the R1CS proof of C95_ex is accepted with either, as C119_r1cs_queries
    says, and with one changed point it is refused *)
Theorem C119_ex : wchal [] "x" <> ichal [] "x" /\
  (forall tr n LR j L R, wchal (ipp_query iT tr n LR j L R) "x" = ichal (ipp_query iT tr n LR j L R) "x") /\
  (forall t p, wchal (y_query iT t p) "y" = ichal (y_query iT t p) "y" /\ wchal (z_query iT t p) "z" = ichal (z_query iT t p) "z" /\
     wchal (u_query iT t p) "u" = ichal (u_query iT t p) "u" /\ wchal (x_query iT t p) "x" = ichal (x_query iT t p) "x" /\ wchal (w_query iT t p) "w" = ichal (w_query iT t p) "w") /\
  (forall P Q, encM iT P = encM iT Q -> P = Q) /\ (forall a b, encF iT a = encF iT b -> a = b) /\
  (match eProof 15 with Ok (p, _) => is_ok (verify wT Nat.log2 [run_rverifier iT eR] (eVs 15) (v_transcript wT [] (eVs 15)) p eg eh iG iH (ik 1)) | _ => false end)%bool = true.
Proof.
  split; [intros E; apply (f_equal (@fpv 257)) in E; vm_compute in E; discriminate|].
  split. { intros tr n LR j L R. unfold wchal, ipp_query. change [Msg "L" (encM iT L); Msg "R" (encM iT R)] with ([Msg "L" (encM iT L)] ++ [Msg "R" (encM iT R)]). rewrite app_assoc, last_R. reflexivity. }
  split. { intros t p. unfold wchal, w_query, x_query, u_query, z_query, y_query. unfold last_ok. repeat rewrite rev_app_distr. cbn [rev app existsb String.eqb Ascii.eqb Bool.eqb orb]. repeat split; reflexivity. }
  split; [exact (proj1 enc_inj)|]. split; [exact (proj2 enc_inj)|]. vm_compute. reflexivity.
Qed.

(** Concrete keys and ciphertexts meeting the hypotheses of C114-C118, and the challenge bound of C116. *)
From Verif Require Import Base BnModel NumTheory VerEncModel VerEncProps VerEncProofProps.
From Coq Require Import List ZArith Lia Znumtheory. Import ListNotations.
Open Scope Z_scope.

Definition exH (l : list Z) : list Z := [fold_right Z.add 0 l mod 251].
Definition exd (i : nat) : Z := 3 + 2 * Z.of_nat i.
Definition exkey : res (cs_pri * cs_pub) := cs_keypair_new 2 7 11 2 exd 4 7.
Definition exsk : cs_pri := {| sk_x1 := [3; 5]; sk_x2 := 4; sk_x3 := 7 |}.
Definition expk : cs_pub := match exkey with Ok (_, pk) => pk | Err _ => {| pk_n := 0; pk_two_inv2 := 0; pk_group := {| pg_g := 0; pg_h := 0; pg_n_by_4 := 0; pg_modulus := 0 |}; pk_y1 := []; pk_y2 := 0; pk_y3 := 0 |} end.
Definition exms : list Z := [10; 76].
Definition exlab : list Z := [1; 2; 3].
Definition exct : cs_ct := match cs_encrypt exH 8 exms exlab expk with Ok c => c | Err _ => {| ct_u := 0; ct_e := []; ct_v := 0 |} end.

Lemma exkey_ok : exkey = Ok (exsk, expk). Proof. vm_compute. reflexivity. Qed.
Example C114_ex : 3 <= 7 * 11 /\ Z.odd (7 * 11) = true /\ Z.gcd 2 (7 * 11) = 1 /\
  cs_encrypt exH 8 exms exlab expk = Ok exct /\ cs_decrypt exH exlab exct expk exsk = Ok exms.
Proof.
  split; [lia|]. split; [reflexivity|]. split; [reflexivity|]. split; vm_compute; reflexivity.
Qed.
(** another label is refused; and a key whose generator was drawn as 0 cannot decrypt *)
Example C115_ex : cs_decrypt exH [1; 2; 4] exct expk exsk = Err InvalidStructure.
Proof. vm_compute. reflexivity. Qed.
Theorem C114_refuted_any_generator :
  exists sk pk ct, cs_keypair_new 1 7 11 7 exd 4 7 = Ok (sk, pk) /\ cs_encrypt exH 5 [10] exlab pk = Ok ct /\
    cs_decrypt exH exlab ct pk sk = Err InvalidState.
Proof.
  eexists _, _, _. split; [vm_compute; reflexivity|]. split; [vm_compute; reflexivity|]. vm_compute. reflexivity.
Qed.

Definition exbs : list Z := [20; 33].
Definition exresp (c : Z) : list Z := [20 - c * 10; 33 - c * 76].
Example C116_ex : match prove_phase_1 exH 8 6 exms exbs exlab expk, prove_phase_2 8 6 9 expk with
  | Ok (ct, t), Ok rh => ct = exct /\ rh = -66 /\ reconstruct exH ct (exresp 9) rh 9 exlab expk = Ok t /\ reconstruct exH ct (exresp 8) rh 9 exlab expk <> Ok t
  | _, _ => False end.
Proof. vm_compute. split; [reflexivity|]. split; [reflexivity|]. split; [reflexivity|congruence]. Qed.

(** the response is computed modulo n^2, which is not a multiple of the order of the generator:
    with r*c >= n^2 the honest proof is rejected *)
Theorem C116_refuted_any_challenge :
  exists ct t rh, prove_phase_1 exH 11 8 exms exbs exlab expk = Ok (ct, t) /\ prove_phase_2 11 8 539 expk = Ok rh /\
    11 < pg_n_by_4 (pk_group expk) /\
    exists t', reconstruct exH ct (exresp 539) rh 539 exlab expk = Ok t' /\ ct_u t' <> ct_u t.
Proof.
  eexists _, _, _. split; [vm_compute; reflexivity|]. split; [vm_compute; reflexivity|]. split; [vm_compute; reflexivity|].
  eexists. split; [vm_compute; reflexivity|]. vm_compute. congruence.
Qed.

(** two accepting answers: the hypotheses of C117_special_sound (a = 3, b = 5) *)
Example C117_ex : prime 3 /\ prime 5 /\ prime (2 * 3 + 1) /\ prime (2 * 5 + 1) /\
  match prove_phase_1 exH 8 6 exms exbs exlab expk, prove_phase_2 8 6 9 expk, prove_phase_2 8 6 7 expk with
  | Ok (ct, t), Ok rh, Ok rh' => reconstruct exH ct (exresp 9) rh 9 exlab expk = Ok t /\ reconstruct exH ct (exresp 7) rh' 7 exlab expk = Ok t
  | _, _, _ => False end /\
  (Z.gcd (ct_u exct) 77 =? 1) && (Z.gcd (ct_v exct) 77 =? 1) && forallb (fun x => Z.gcd x 77 =? 1) (ct_e exct) && (2 * ct_v exct <=? 77 * 77) = true /\
  (10 * (9 - 7)) mod 77 = (nth 0 (exresp 7) 0 - nth 0 (exresp 9) 0) mod 77.
Proof.
  split; [apply prime_3|]. split; [apply prime_5|]. split; [exact prime_7|].
  split; [apply isprimeb_prime; vm_compute; reflexivity|].
  split; [vm_compute; split; reflexivity|]. split; vm_compute; reflexivity.
Qed.
Example C117_zero_ex : let z := {| ct_u := 0; ct_e := [0]; ct_v := 0 |} in
  reconstruct exH z [41] 6 9 exlab expk = Ok z /\ cs_decrypt exH exlab z expk exsk = Err InvalidState.
Proof. vm_compute. split; reflexivity. Qed.

(** C118: dropping the last component *)
Example C118_ex : match ct_e exct with
  | [e1; e2] => cs_decrypt exH (bn_to_bytes e2 ++ exlab) {| ct_u := ct_u exct; ct_e := [e1]; ct_v := ct_v exct |} expk exsk = Ok [10]
  | _ => False end.
Proof. vm_compute. reflexivity. Qed.
Example C118_hides_ex : pg_modulus (pk_group expk) = 77 * 77 /\ 77 / 4 <= (7 - 5) * 10 /\ 7 * 10 < 77 * 77.
Proof. split; [vm_compute; reflexivity|]. split; [vm_compute; congruence|vm_compute; reflexivity]. Qed.

(** Model of libzmix/src/signatures/delg_cred_cdd/groth_sig.rs (Groth1 and Groth2
    structure-preserving signatures).

    Groth1 signs elements of [cG1 C] under a key in [cG2 C]; Groth2 the other way round.
    Groups are written additively; GT::ate_multi_pairing is the sum of the pairings and
    is_one the test for [m0].  Random scalars are arguments.  from_msg_hash of the two
    groups are the arbitrary functions [hash1], [hash2].  An out-of-range index is a
    panic.  Window tables and w-NAF only affect speed and are not modelled. *)
From Verif Require Import Base BnModel Alg ClRevModel BbsModel PsModel.
Import List ListNotations.
Open Scope list_scope.
Open Scope Z_scope.

(** v[i] on a Vec *)
Definition at_ {A} (l : list A) (i : nat) : res A := match nth_error l i with Some x => Ok x | None => Err Panic end.
(** a loop over indices that returns Ok(false) at the first index where the check fails *)
Fixpoint check_all (f : nat -> res bool) (l : list nat) : res bool :=
  match l with [] => Ok true | i :: l' => let! b := f i in if b then check_all f l' else Ok false end.
(** amcl_wrapper FieldElementVector::new_vandermonde_vector: 1, r, r^2, ...; all zeros for r = 0 *)
Definition powers {K : fieldOps} (r : K) (n : nat) : list K := if feqb r f0 then repeat f0 n else map (fpow r) (seq 0 n).
Definition too_many (expected given : nat) : err := DelgErr (DUnsupportedNoOfMessages expected given).

(** groth_sig.rs:87-108 [impl_GrothSig_new]: the macro, over any pair of groups; [r] is the draw.
    Returns (R, S, T). *)
Definition groth_new {K : fieldOps} {M W : modOps K} (messages : list M) (sk : K) (y : list M) (g_r : W) (g_s : M) (r : K) : res (W * M * list M) :=
  if (length y <? length messages)%nat then Err (too_many (length y) (length messages)) else
  let r_inv := finv r in
  let R := smul r g_r in
  let! y0 := at_ y 0 in
  let S_ := smul r_inv (madd y0 (smul sk g_s)) in
  let! T := rmap (fun i => let! m := at_ messages i in let! yi := at_ y i in Ok (madd m (smul sk yi))) (seq 0 (length messages)) in
  Ok (R, S_, map (smul r_inv) T).
(** groth_sig.rs:110-127 [impl_GrothSig_randomize] *)
Definition groth_randomize {K : fieldOps} {M W : modOps K} (R : W) (S_ : M) (T : list M) (r' : K) : W * M * list M :=
  let i := finv r' in (smul r' R, smul i S_, map (smul i) T).

Section Groth.
Variable C : curve.
Notation K := (cK C). Notation G1 := (cG1 C). Notation G2 := (cG2 C). Notation GT := (cGT C).

(** groth_sig.rs:19-24 [$GrothSetupParams] *)
Record params1 := mkParams1 { p1_g1 : G1; p1_g2 : G2; p1_y : list G1 }.
Record params2 := mkParams2 { p2_g1 : G1; p2_g2 : G2; p2_y : list G2 }.
(** groth_sig.rs:29-34 [$GrothSig] *)
Record sig1 := mkSig1 { s1_R : G2; s1_S : G1; s1_T : list G1 }.
Record sig2 := mkSig2 { s2_R : G1; s2_S : G2; s2_T : list G2 }.

(** groth_sig.rs:67-85 [impl_GrothS_setup]; [bn_to_dec] is to_string() *)
Variables (hash1 : list Z -> G1) (hash2 : list Z -> G2).
Definition str_g1 : list Z := [32; 58; 32; 103; 49].     (* " : g1" *)
Definition str_g2 : list Z := [32; 58; 32; 103; 50].     (* " : g2" *)
Definition str_y : list Z := [32; 58; 32; 121].          (* " : y" *)
Definition setup1 (count : nat) (label : list Z) : params1 :=
  mkParams1 (hash1 (label ++ str_g1)) (hash2 (label ++ str_g2)) (map (fun i => hash1 (label ++ str_y ++ bn_to_dec (Z.of_nat i))) (seq 0 count)).
Definition setup2 (count : nat) (label : list Z) : params2 :=
  mkParams2 (hash1 (label ++ str_g1)) (hash2 (label ++ str_g2)) (map (fun i => hash2 (label ++ str_y ++ bn_to_dec (Z.of_nat i))) (seq 0 count)).
(** groth_sig.rs:174-179, 350-355 [keygen]; [sk] is the draw *)
Definition keygen1 (p : params1) (sk : K) : K * G2 := (sk, smul sk (p1_g2 p)).
Definition keygen2 (p : params2) (sk : K) : K * G1 := (sk, smul sk (p2_g1 p)).

(** groth_sig.rs:183-197, 359-373 [new] *)
Definition sign1 (messages : list G1) (sk : K) (p : params1) (r : K) : res sig1 :=
  let! (R, S_, T) := groth_new messages sk (p1_y p) (p1_g2 p) (p1_g1 p) r in Ok (mkSig1 R S_ T).
Definition sign2 (messages : list G2) (sk : K) (p : params2) (r : K) : res sig2 :=
  let! (R, S_, T) := groth_new messages sk (p2_y p) (p2_g1 p) (p2_g2 p) r in Ok (mkSig2 R S_ T).
(** groth_sig.rs:199, 375 [randomize] *)
Definition randomize1 (s : sig1) (r' : K) : sig1 := let '(R, S_, T) := groth_randomize (s1_R s) (s1_S s) (s1_T s) r' in mkSig1 R S_ T.
Definition randomize2 (s : sig2) (r' : K) : sig2 := let '(R, S_, T) := groth_randomize (s2_R s) (s2_S s) (s2_T s) r' in mkSig2 R S_ T.

(** GT::ate_multi_pairing *)
Definition multi_pair (l : list (G1 * G2)) : GT := fold_left (fun acc ab => madd acc (pair (fst ab) (snd ab))) l m0.
Definition is_one (x : GT) : bool := meqb x m0.

(** groth_sig.rs:202-239 [Groth1Sig::verify] *)
Definition verify1 (s : sig1) (messages : list G1) (vk : G2) (p : params1) : res bool :=
  if (length (p1_y p) <? length messages)%nat then Err (too_many (length (p1_y p)) (length messages)) else
  let! y0 := at_ (p1_y p) 0 in
  if negb (is_one (multi_pair [(y0, p1_g2 p); (p1_g1 p, vk); (mopp (s1_S s), s1_R s)])) then Ok false else
  let negR := mopp (s1_R s) in
  check_all (fun i => let! m := at_ messages i in let! yi := at_ (p1_y p) i in let! ti := at_ (s1_T s) i in
                      Ok (is_one (multi_pair [(m, p1_g2 p); (yi, vk); (ti, negR)]))) (seq 0 (length messages)).
(** groth_sig.rs:378-413 [Groth2Sig::verify] *)
Definition verify2 (s : sig2) (messages : list G2) (vk : G1) (p : params2) : res bool :=
  if (length (p2_y p) <? length messages)%nat then Err (too_many (length (p2_y p)) (length messages)) else
  let negR := mopp (s2_R s) in
  let! y0 := at_ (p2_y p) 0 in
  if negb (is_one (multi_pair [(p2_g1 p, y0); (vk, p2_g2 p); (negR, s2_S s)])) then Ok false else
  check_all (fun i => let! m := at_ messages i in let! yi := at_ (p2_y p) i in let! ti := at_ (s2_T s) i in
                      Ok (is_one (multi_pair [(p2_g1 p, m); (vk, yi); (negR, ti)]))) (seq 0 (length messages)).

(** groth_sig.rs:289-345 [Groth1Sig::prepare_for_pairing_checks]; the pairs it pushes *)
Definition prepare1 (r_vec : list K) (offset : nat) (s : sig1) (messages : list G1) (vk : G2) (p : params1) : res (list (G1 * G2)) :=
  let negR := mopp (s1_R s) in
  let negS := mopp (s1_S s) in
  let! y0 := at_ (p1_y p) 0 in
  let! (a, b, c) := if (offset =? 0)%nat then Ok (y0, p1_g1 p, negS)
                    else let! x := at_ r_vec offset in Ok (smul x y0, smul x (p1_g1 p), smul x negS) in
  let! rest := rmap (fun i => let! x := at_ r_vec (offset + i + 1) in
                              let! m := at_ messages i in let! yi := at_ (p1_y p) i in let! ti := at_ (s1_T s) i in
                              Ok [(smul x m, p1_g2 p); (smul x yi, vk); (smul x ti, negR)]) (seq 0 (length messages)) in
  Ok ([(a, p1_g2 p); (b, vk); (c, s1_R s)] ++ concat rest).
(** groth_sig.rs:460-508 [Groth2Sig::prepare_for_pairing_checks]: for the messages the powers
    are read at i + 1, without the offset (line 496) *)
Definition prepare2 (r_vec : list K) (offset : nat) (s : sig2) (messages : list G2) (vk : G1) (p : params2) : res (list (G1 * G2)) :=
  let negR := mopp (s2_R s) in
  let! (a, b, c) := if (offset =? 0)%nat then Ok (p2_g1 p, vk, negR)
                    else let! x := at_ r_vec offset in Ok (smul x (p2_g1 p), smul x vk, smul x negR) in
  let! y0 := at_ (p2_y p) 0 in
  let! rest := rmap (fun i => let! x := at_ r_vec (i + 1) in
                              let! m := at_ messages i in let! yi := at_ (p2_y p) i in let! ti := at_ (s2_T s) i in
                              Ok [(smul x (p2_g1 p), m); (smul x vk, yi); (smul x negR, ti)]) (seq 0 (length messages)) in
  Ok ([(a, y0); (b, p2_g2 p); (c, s2_S s)] ++ concat rest).

(** groth_sig.rs:251-286 [Groth1Sig::verify_batch]; [r] is the draw *)
Definition verify_batch1 (s : sig1) (messages : list G1) (vk : G2) (p : params1) (r : K) : res bool :=
  if (length (p1_y p) <? length messages)%nat then Err (too_many (length (p1_y p)) (length messages)) else
  let! pairs := prepare1 (powers r (length messages + 1)) 0 s messages vk p in
  Ok (is_one (multi_pair pairs)).
(** groth_sig.rs:424-457 [Groth2Sig::verify_batch] *)
Definition verify_batch2 (s : sig2) (messages : list G2) (vk : G1) (p : params2) (r : K) : res bool :=
  if (length (p2_y p) <? length messages)%nat then Err (too_many (length (p2_y p)) (length messages)) else
  let! pairs := prepare2 (powers r (length messages + 1)) 0 s messages vk p in
  Ok (is_one (multi_pair pairs)).

(** groth_sig.rs:38-65: proof of knowledge of the signing key; [bl] is the draw.
    finish unwraps; an error of the proof becomes PoKVCError. *)
Definition key_pok_start {M : modOps K} (g : M) (bl : K) : committed M := finish (fst (commit committing_new g None bl)).
Definition key_pok_finish {M : modOps K} (c : committed M) (sk challenge : K) : res (vproof M) :=
  match gen_proof c challenge [sk] with Ok p => Ok p | Err _ => Err Panic end.
Definition key_pok_verify {M : modOps K} (g : M) (p : vproof M) (vk : M) (challenge : K) : res bool :=
  match vproof_verify p [g] vk challenge with Err (ZmixErr _) => Err (DelgErr DPoKVCError) | x => x end.
End Groth.

Arguments mkParams1 {C}. Arguments p1_g1 {C}. Arguments p1_g2 {C}. Arguments p1_y {C}.
Arguments mkParams2 {C}. Arguments p2_g1 {C}. Arguments p2_g2 {C}. Arguments p2_y {C}.
Arguments mkSig1 {C}. Arguments s1_R {C}. Arguments s1_S {C}. Arguments s1_T {C}.
Arguments mkSig2 {C}. Arguments s2_R {C}. Arguments s2_S {C}. Arguments s2_T {C}.
Arguments setup1 {C}. Arguments setup2 {C}. Arguments keygen1 {C}. Arguments keygen2 {C}. Arguments sign1 {C}. Arguments sign2 {C}.
Arguments randomize1 {C}. Arguments randomize2 {C}. Arguments multi_pair {C}. Arguments is_one {C}. Arguments verify1 {C}. Arguments verify2 {C}.
Arguments prepare1 {C}. Arguments prepare2 {C}. Arguments verify_batch1 {C}. Arguments verify_batch2 {C}.
Arguments key_pok_start {C M}. Arguments key_pok_finish {C M}. Arguments key_pok_verify {C M}.

(** Specification vocabulary for attribute tokens (C107-C112). *)
From Verif Require Import Base BnModel Alg ClRevModel ClRevSpec GrothModel DelegModel GrothSpec TokenModel.
Import List ListNotations.
Open Scope list_scope.
Open Scope Z_scope.

Section Spec.
Variable C : curve.
Notation K := (cK C). Notation G1 := (cG1 C). Notation G2 := (cG2 C).
(** the last key of the chain belongs to the secret [sk]; [ev] starts with the root key *)
Definition holds (p1 : params1 C) (p2 : params2 C) (L : nat) (ev : list G2) (od : list G1) (sk : K) : Prop :=
  if Nat.odd L then nth (L / 2) od m0 = smul sk (p1_g1 p1) else nth (L / 2) ev m0 = smul sk (p2_g2 p2).
(** what may be asked to be revealed: one set per level, each smaller than the number of attributes
    of the link (the last attribute is the key); T has one element per attribute; sizes fit usize *)
Record disclosable (c : chain C) (revealed : list (list nat)) : Prop := {
  di_levels : length revealed = chain_size c;
  di_odd : forall k l, nth_error (ch_odd c) k = Some l -> (length (nth (2 * k) revealed []) < length (l1_attrs l))%nat /\ length (s1_T (l1_sig l)) = length (l1_attrs l) /\ Z.of_nat (length (l1_attrs l)) < 2 ^ 64;
  di_even : forall k l, nth_error (ch_even c) k = Some l -> (length (nth (2 * k + 1) revealed []) < length (l2_attrs l))%nat /\ length (s2_T (l2_sig l)) = length (l2_attrs l) /\ Z.of_nat (length (l2_attrs l)) < 2 ^ 64 }.
(** the commitment discloses exactly the attributes of the chain at the revealed positions, the key excepted *)
Definition discloses_at {M : Type} (attrs : list M) (rev : list nat) (shown : list (nat * M)) : Prop :=
  forall j a, In (j, a) shown <-> In j rev /\ (j + 1 < length attrs)%nat /\ nth_error attrs j = Some a.
Definition discloses (c : chain C) (revealed : list (list nat)) (cm : comm C) : Prop :=
  (forall k l, nth_error (ch_odd c) k = Some l -> discloses_at (l1_attrs l) (nth (2 * k) revealed []) (nth k (c_odd_rev cm) [])) /\
  (forall k l, nth_error (ch_even c) k = Some l -> discloses_at (l2_attrs l) (nth (2 * k + 1) revealed []) (nth k (c_even_rev cm) [])).
(** the values shown in the commitment at the revealed positions are those of the chain *)
Definition shown_by {M : Type} (attrs : list M) (rev : list nat) (shown : list (nat * M)) : Prop :=
  forall j, In j rev -> (j + 1 < length attrs)%nat -> exists a, lookup shown j = Ok a /\ nth_error attrs j = Some a.
Definition agrees (c : chain C) (revealed : list (list nat)) (cm : comm C) : Prop :=
  (forall k l, nth_error (ch_odd c) k = Some l -> length (l1_attrs l) = length (nth (2 * k) (c_t cm) []) /\ shown_by (l1_attrs l) (nth (2 * k) revealed []) (nth k (c_odd_rev cm) [])) /\
  (forall k l, nth_error (ch_even c) k = Some l -> length (l2_attrs l) = length (nth (2 * k + 1) (c_t cm) []) /\ shown_by (l2_attrs l) (nth (2 * k + 1) revealed []) (nth k (c_even_rev cm) [])).
End Spec.
Arguments holds {C}. Arguments disclosable {C}. Arguments discloses {C}. Arguments agrees {C}.
(** every element is a multiple of every non-zero element *)
Definition line {K : fieldOps} (M : modOps K) : Prop := forall a b : M, a <> m0 -> exists x : K, b = smul x a.
Section Same.
Variable C : curve.
(** two chains of the same length whose links have the same numbers of attributes and the same
    attributes at the revealed positions *)
Definition same_at {M : Type} (attrs attrs' : list M) (rev : list nat) : Prop :=
  length attrs = length attrs' /\ forall j, In j rev -> (j + 1 < length attrs)%nat -> nth_error attrs j = nth_error attrs' j.
Record same_disclosure (c c' : chain C) (revealed : list (list nat)) : Prop := {
  sd_odd_n : length (ch_odd c) = length (ch_odd c'); sd_even_n : length (ch_even c) = length (ch_even c');
  sd_odd : forall k l l', nth_error (ch_odd c) k = Some l -> nth_error (ch_odd c') k = Some l' -> same_at (l1_attrs l) (l1_attrs l') (nth (2 * k) revealed []);
  sd_even : forall k l l', nth_error (ch_even c) k = Some l -> nth_error (ch_even c') k = Some l' -> same_at (l2_attrs l) (l2_attrs l') (nth (2 * k + 1) revealed []) }.
(** no signature has the identity as R (true of signatures made with a non-zero draw) *)
Definition proper_R (c : chain C) : Prop := (forall l, In l (ch_odd c) -> s1_R (l1_sig l) <> m0) /\ (forall l, In l (ch_even c) -> s2_R (l2_sig l) <> m0).
End Same.
Arguments same_disclosure {C}. Arguments proper_R {C}.
(** the verifier of a non-interactive token (attribute_token.rs:1450-1466, the tests): it recomputes the
    commitment and compares the challenge; [L] is the number of levels in the commitment *)
Definition accepts {C : curve} (hash : list Z -> cK C) (extra : list Z) (cm : comm C) (r : resp C) (ch : cK C) (revealed : list (list nat)) (ipk : cG2 C) (p1 : params1 C) (p2 : params2 C) : Prop :=
  exists cm', reconstruct_commitment (length (c_s cm)) cm r ch revealed ipk p1 p2 = Ok cm' /\ gen_challenge hash cm' ipk extra = ch.

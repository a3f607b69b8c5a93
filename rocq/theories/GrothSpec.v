(** Specification vocabulary for Groth signatures and delegation chains (C97-C105). *)
From Verif Require Import Base BnModel Alg ClRevModel ClRevSpec GrothModel DelegModel.
Import List ListNotations.
Open Scope list_scope.
Open Scope Z_scope.

(** A Groth signature (R, S, T) on a list of messages of group M under the key V of group W,
    for a pairing [e], generators [gs] of M and [gr] of W and bases [y]:
    e(S,R) = e(y_0,gr) e(gs,V) and e(T_i,R) = e(m_i,gr) e(y_i,V) for every message. *)
Record groth_valid {K : fieldOps} {M W GT : modOps K} (e : M -> W -> GT) (gs : M) (gr : W) (y : list M) (V R : W) (S_ : M) (T msgs : list M) : Prop := {
  gv_count : (length msgs <= length y)%nat;
  gv_T : (length msgs <= length T)%nat;
  gv_first : e S_ R = madd (e (nth 0 y m0) gr) (e gs V);
  gv_each : forall i, (i < length msgs)%nat -> e (nth i T m0) R = madd (e (nth i msgs m0) gr) (e (nth i y m0) V) }.

Section Spec.
Variable C : curve.
Notation K := (cK C). Notation G1 := (cG1 C). Notation G2 := (cG2 C). Notation GT := (cGT C).
Definition valid1 (p : params1 C) (vk : G2) (s : sig1 C) (msgs : list G1) : Prop :=
  groth_valid pair (p1_g1 p) (p1_g2 p) (p1_y p) vk (s1_R s) (s1_S s) (s1_T s) msgs.
Definition valid2 (p : params2 C) (vk : G1) (s : sig2 C) (msgs : list G2) : Prop :=
  groth_valid (fun m w => pair w m) (p2_g2 p) (p2_g1 p) (p2_y p) vk (s2_R s) (s2_S s) (s2_T s) msgs.
(** usable parameters: at least one base *)
Definition params1_ok (p : params1 C) : Prop := p1_y p <> [].
Definition params2_ok (p : params2 C) : Prop := p2_y p <> [].

(** ** chains.  The k-th odd link (from 0) is at level 2k+1: signed by the k-th even key for
    the k-th odd key; the k-th even link is at level 2k+2: signed by the k-th odd key for the
    (k+1)-th even key.  Even key 0 is the root issuer's. *)
Definition valid_odd (p : params1 C) (l : link1 C) (level : Z) (delegatee : G1) (delegator : G2) : Prop :=
  l1_level l = level /\ (exists attrs, l1_attrs l = attrs ++ [delegatee]) /\ valid1 p delegator (l1_sig l) (l1_attrs l).
Definition valid_even (p : params2 C) (l : link2 C) (level : Z) (delegatee : G2) (delegator : G1) : Prop :=
  l2_level l = level /\ (exists attrs, l2_attrs l = attrs ++ [delegatee]) /\ valid2 p delegator (l2_sig l) (l2_attrs l).
(** levels 1..n without a gap *)
Definition balanced (c : chain C) : Prop := length (ch_odd c) = length (ch_even c) \/ length (ch_odd c) = S (length (ch_even c)).
Record valid_chain (p1 : params1 C) (p2 : params2 C) (c : chain C) (ev : list G2) (od : list G1) : Prop := {
  vc_nonempty : ch_odd c <> [];
  vc_balanced : balanced c;
  vc_ev : length ev = S (length (ch_even c));
  vc_od : length od = length (ch_odd c);
  vc_odd : forall k l, nth_error (ch_odd c) k = Some l -> valid_odd p1 l (2 * Z.of_nat k + 1) (nth k od m0) (nth k ev m0);
  vc_even : forall k l, nth_error (ch_even c) k = Some l -> valid_even p2 l (2 * Z.of_nat k + 2) (nth (S k) ev m0) (nth k od m0) }.

(** chains that can be built with the API *)
Inductive built : chain C -> Prop :=
| built_new : built chain_new
| built_odd c l c' : built c -> 0 <= l1_level l < 2 ^ 64 -> extend_with_odd c l = Ok c' -> built c'
| built_even c l c' : built c -> 0 <= l2_level l < 2 ^ 64 -> extend_with_even c l = Ok c' -> built c'.
End Spec.
Arguments valid1 {C}. Arguments valid2 {C}. Arguments params1_ok {C}. Arguments params2_ok {C}.
Arguments valid_odd {C}. Arguments valid_even {C}. Arguments balanced {C}. Arguments valid_chain {C}. Arguments built {C}.

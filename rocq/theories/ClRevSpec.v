(** Specification vocabulary for the revocation properties (C34-C39). *)
From Verif Require Import Base StrMap HelpersModel ClModel Alg ClRevModel.
Open Scope list_scope.
Open Scope Z_scope.

(** the algebra of a pairing curve of prime order: scalars form a field, the three
    groups are modules over it, the pairing is bilinear, and scalar/integer
    conversion round-trips on 32 bytes *)
Record curve_laws (C : curve) : Prop := {
  cl_field : field_laws (cK C);
  cl_g1 : mod_laws (cG1 C);
  cl_g2 : mod_laws (cG2 C);
  cl_gt : mod_laws (cGT C);
  cl_bilinear : bilinear (cG1 C) (cG2 C) (cGT C) pair;
  cl_toZ : forall x : cK C, 0 <= toZ x < 2 ^ 256;
  cl_ofZ : forall x : cK C, ofZ (toZ x) = x }.

Section Spec.
Variable C : curve.
Notation K := (cK C). Notation G1 := (cG1 C). Notation G2 := (cG2 C). Notation GT := (cGT C).

(** the four pairing equations of a revocation credential with witness [omega] *)
Record rcred_valid (pk : rpk C) (z : GT) (accum omega : G2) (cred : rcred C) : Prop := {
  rv_witness : pair (rc_g_i cred) accum = madd (pair (rk_g pk) omega) z;
  rv_sigma_i : pair (madd (rk_pk pk) (rc_g_i cred)) (ws_sigma_i (rc_ws cred)) = pair (rk_g pk) (rk_g_dash pk);
  rv_sigma : pair (rc_sigma cred) (madd (rk_y pk) (smul (rc_c cred) (rk_h_cap pk))) =
             pair (madd (madd (madd (rk_h0 pk) (smul (rc_m2 cred) (rk_h1 pk))) (smul (rc_vr cred) (rk_h2 pk))) (rc_g_i cred)) (rk_h_cap pk);
  rv_u_i : pair (rc_g_i cred) (rk_u pk) = pair (rk_g pk) (ws_u_i (rc_ws cred)) }.

(** g' to the power gamma^i *)
Definition tail_at (g_dash : G2) (gamma : K) (i : Z) : G2 := smul (fpow gamma (Z.to_nat i)) g_dash.
(** the accumulator of a set of valid indices of a registry of size [L]: the sum of
    the tails L+1-j *)
Definition accum_of (g_dash : G2) (gamma : K) (L : Z) (valid : list Z) : G2 :=
  msum (map (fun j => tail_at g_dash gamma (L + 1 - j)) valid).
(** the witness of index i: the sum of the tails L+1-j+i for the other valid indices *)
Definition witness_of (g_dash : G2) (gamma : K) (L i : Z) (valid : list Z) : G2 :=
  msum (map (fun j => tail_at g_dash gamma (L + 1 - j + i)) (filter (fun j => negb (Z.eqb i j)) valid)).

(** ** registry histories *)
(** an accessor that serves the published tails 0..2L *)
Definition serves_tails (access : Z -> res G2) (g_dash : G2) (gamma : K) (L : Z) : Prop :=
  forall i, 0 <= i <= 2 * L -> access i = Ok (tail_at g_dash gamma i).

(** the set of valid indices of a fresh registry *)
Definition initial_valid (L : Z) (by_default : bool) : list Z :=
  if by_default then map Z.of_nat (seq 1 (Z.to_nat L)) else [].
Definition without (r : list Z) (V : list Z) : list Z := filter (fun j => negb (existsb (Z.eqb j) r)) V.

(** One successful call on the registry.  [reg_step L dflt access (accum, V) d (accum', V')]:
    a call allowed by the documentation (revoke a valid index, recover an invalid one,
    ...) returned Ok with delta [d], turned the accumulator [accum] into [accum'],
    and the valid set [V] into [V'] *)
Inductive reg_step (L : Z) (dflt : bool) (access : Z -> res G2) : G2 * list Z -> option (rdelta C) -> G2 * list Z -> Prop :=
| st_issue V accum accum' i ctx ur pk sk gamma vr c cred d :
    1 <= i <= L -> (dflt = false -> ~ In i V) ->
    new_non_revocation_credential C i ctx ur pk sk L dflt accum gamma access vr c = (accum', Ok (cred, d)) ->
    reg_step L dflt access (accum, V) d (accum', if dflt then V else i :: V)
| st_revoke V accum accum' i d :
    In i V -> revoke_credential C accum L i access = (accum', Ok d) ->
    reg_step L dflt access (accum, V) (Some d) (accum', without [i] V)
| st_recover V accum accum' i d :
    1 <= i <= L -> ~ In i V -> recovery_credential C accum L i access = (accum', Ok d) ->
    reg_step L dflt access (accum, V) (Some d) (accum', i :: V)
| st_update V accum accum' issued revoked d :
    NoDup issued -> (forall i, In i issued -> 1 <= i <= L /\ ~ In i V) ->
    NoDup revoked -> (forall i, In i revoked -> In i V) ->
    update_revocation_registry C accum L issued revoked access = (accum', Ok d) ->
    reg_step L dflt access (accum, V) (Some d) (accum', without revoked (issued ++ V)).

(** a history of calls and the deltas it produced *)
Inductive reg_history (L : Z) (dflt : bool) (access : Z -> res G2) : G2 * list Z -> list (option (rdelta C)) -> G2 * list Z -> Prop :=
| h_nil s : reg_history L dflt access s [] s
| h_step s s' s'' d ds : reg_step L dflt access s d s' -> reg_history L dflt access s' ds s'' -> reg_history L dflt access s (d :: ds) s''.

(** a delta says exactly what changed from [V] to [V'] *)
Definition net_change (d : rdelta C) (V V' : list Z) : Prop :=
  forall i, (In i (rd_issued d) <-> In i V' /\ ~ In i V) /\ (In i (rd_revoked d) <-> In i V /\ ~ In i V').
Definition keep_delta (d : option (rdelta C)) : list (rdelta C) := match d with Some d => [d] | None => [] end.
Definition same_set (a b : list Z) : Prop := forall i, In i a <-> In i b.
(** merging a list of deltas into a first one *)
Fixpoint merge_all (d : rdelta C) (ds : list (rdelta C)) : res (rdelta C) :=
  match ds with
  | [] => Ok d
  | x :: r => let! d' := delta_merge C d x in merge_all d' r
  end.
Fixpoint update_all (omega : G2) (i L : Z) (access : Z -> res G2) (ds : list (rdelta C)) : res G2 :=
  match ds with
  | [] => Ok omega
  | x :: r => let! w := witness_update C omega i L x access in update_all w i L access r
  end.
End Spec.

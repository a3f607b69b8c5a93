(** What two accepted answers of a predicate proof say (C152). *)
From Coq Require Import String.
From Verif Require Import Base StrMap HelpersModel HelpersSpec ClModel ClSpec.
Open Scope string_scope.
Open Scope list_scope.
Open Scope Z_scope.

Definition at_name (m : smap Z) (k : string) : Z := match sm_get k m with Some x => x | None => 0 end.
Definition four_names : list string := ["0"; "1"; "2"; "3"].
(** the exponent of S the verifier uses for the response named DELTA *)
Definition delta_answer (pr : neproof) : Z :=
  if is_less (p_type (np_predicate pr)) then - Z.abs (at_name (np_r pr) "DELTA") else at_name (np_r pr) "DELTA".
(** the predicate's bound, over the integers: value, value + 1 or value - 1 *)
Definition bound (p : predicate) : Z :=
  match p_type p with GE => p_value p | LE => p_value p | GT => p_value p + 1 | LT => p_value p - 1 end.
Definition bound_in_range (p : predicate) : Prop := - 2 ^ 31 <= bound p < 2 ^ 31.

Section Two.
Variables (pr1 pr2 : neproof) (d : Z).
Definition divisible_ne : Prop :=
  (d | np_mj pr1 - np_mj pr2) /\ (d | np_alpha pr1 - np_alpha pr2) /\ (d | delta_answer pr1 - delta_answer pr2) /\
  forall i, In i four_names -> (d | at_name (np_u pr1) i - at_name (np_u pr2) i) /\ (d | at_name (np_r pr1) i - at_name (np_r pr2) i).
(** the value the answers speak about, the four numbers and the blindings *)
Definition ext_value : Z := (np_mj pr1 - np_mj pr2) / d.
Definition ext_u (i : string) : Z := (at_name (np_u pr1) i - at_name (np_u pr2) i) / d.
Definition ext_r (i : string) : Z := (at_name (np_r pr1) i - at_name (np_r pr2) i) / d.
Definition ext_alpha : Z := (np_alpha pr1 - np_alpha pr2) / d.
Definition ext_delta : Z := (delta_answer pr1 - delta_answer pr2) / d.
Definition sum4 (f : string -> Z) : Z := f "0" + f "1" + f "2" + f "3".
Definition side : Z := if is_less (p_type (np_predicate pr1)) then -1 else 1.
(** 0 iff value = bound + (sum of four squares), for LE and LT value = bound - (sum of four squares) *)
Definition value_gap : Z := ext_value - bound (np_predicate pr1) - side * sum4 (fun i => ext_u i * ext_u i).
Definition blinding_gap : Z := ext_delta - side * (ext_alpha + sum4 (fun i => ext_u i * ext_r i)).
End Two.

(** Specification vocabulary for the helper properties (C21, C22): what the
    English statements mean, independent of the algorithms. *)
From Verif Require Import Base HelpersModel.

Definition is_i32 (x : Z) : Prop := - 2 ^ 31 <= x < 2 ^ 31.
(** the predicate "attribute OP value" as plain integer comparison *)
Definition holds (t : predicate_type) (attr value : Z) : Prop :=
  match t with GE => attr >= value | LE => attr <= value | GT => attr > value | LT => attr < value end.
(** the delta over the unbounded integers *)
Definition true_delta (t : predicate_type) (attr value : Z) : Z :=
  match t with GE => attr - value | LE => value - attr | GT => attr - value - 1 | LT => value - attr - 1 end.


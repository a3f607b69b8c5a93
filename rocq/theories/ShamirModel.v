(** Model of libursa/src/sharing/shamir.rs. *)
From Verif Require Import Base BnModel.

(** shamir.rs:19-24 *)
Record element := mkElement { el_modulus : Z; el_value : Z }.

(** slice indexing; out of bounds panics *)
Definition idx {A} (l : list A) (i : nat) : res A :=
  match nth_error l i with Some x => Ok x | None => Err Panic end.

(** shamir.rs:28-31 [Element::new]: unwrap of [modulus] *)
Definition element_new (modulus value : Z) : res element :=
  match bn_modulus value modulus with
  | Ok v => Ok (mkElement modulus v)
  | Err _ => Err Panic
  end.
(** shamir.rs:34-36 *)
Definition element_is_valid (e : element) : bool :=
  negb (bn_is_negative (el_value e)) && (el_value e <? el_modulus e).
(** shamir.rs:39-41 *)
Definition element_to_bytes (e : element) : list Z := bn_to_bytes (el_value e).
(** shamir.rs:44-47 *)
Definition element_from_bytes (modulus : Z) (bs : list Z) : res element :=
  element_new modulus (bn_from_bytes bs).
(** shamir.rs:99-107 [validate] *)
Definition element_validate (a b : element) : res unit :=
  if el_modulus a =? el_modulus b then Ok tt else Err GeneralError.
(** shamir.rs:50-57 *)
Definition element_add (a b : element) : res element :=
  let! _ := element_validate a b in
  let! v := bn_modulus (bn_add (el_value a) (el_value b)) (el_modulus a) in
  Ok (mkElement (el_modulus a) v).
(** shamir.rs:60-67 *)
Definition element_sub (a b : element) : res element :=
  let! _ := element_validate a b in
  let! v := bn_mod_sub (el_value a) (el_value b) (el_modulus a) in
  Ok (mkElement (el_modulus a) v).
(** shamir.rs:70-77 *)
Definition element_mul (a b : element) : res element :=
  let! _ := element_validate a b in
  let! v := bn_mod_mul (el_value a) (el_value b) (el_modulus b) in
  Ok (mkElement (el_modulus a) v).
(** shamir.rs:80-87 *)
Definition element_div (a b : element) : res element :=
  let! _ := element_validate a b in
  let! v := bn_mod_div (el_value a) (el_value b) (el_modulus b) in
  Ok (mkElement (el_modulus a) v).
(** shamir.rs:90-97 *)
Definition element_neg (a : element) : res element :=
  let! v := bn_mod_sub 0 (el_value a) (el_modulus a) in
  Ok (mkElement (el_modulus a) v).

(** shamir.rs:145-161 [Polynomial::new]; [draws k] is the k-th output of
    [modulus.rand_range()]. *)
Definition polynomial_new (intercept : element) (degree : nat) (draws : nat -> Z) : list element :=
  intercept :: map (fun k => mkElement (el_modulus intercept) (draws k)) (seq 0 degree).

(** shamir.rs:164-175 [Polynomial::evaluate], Horner from the last coefficient *)
Definition polynomial_evaluate (coefficients : list element) (x : element) : res element :=
  match rev coefficients with
  | [] => Err Panic
  | top :: rest =>
      rfold (fun out c => let! m := element_mul out x in element_add m c) rest top
  end.

(** shamir.rs:179-213 [Polynomial::interpolate] *)
Definition interpolate_step (xs : list element) (i : nat) (basis : element) (j : nat) : res element :=
  if Nat.eqb i j then Ok basis
  else
    let! xj := idx xs j in
    let! num := element_neg xj in
    let! xi := idx xs i in
    let! denom := element_sub xi xj in
    let! q := element_div num denom in
    element_mul basis q.
Definition interpolate_basis (xs : list element) (x0 : element) (i : nat) : res element :=
  rfold (interpolate_step xs i) (seq 0 (length xs)) (mkElement (el_modulus x0) 1).
Definition polynomial_interpolate (xs ys : list element) : res element :=
  let! x0 := idx xs 0%nat in
  rfold (fun result i =>
           let! basis := interpolate_basis xs x0 i in
           let! yi := idx ys i in
           let! group := element_mul yi basis in
           element_add result group)
        (seq 0 (length xs)) (mkElement (el_modulus x0) 0).

(** shamir.rs:217-223 *)
Record share := mkShare { sh_id : Z; sh_value : Z }.

(** shamir.rs:227-231 *)
Definition share_to_bytes (s : share) : list Z := bn_to_bytes (sh_value s) ++ [sh_id s].
(** shamir.rs:234-239: [data.len() - 1] underflows (panics) on empty data *)
Definition share_from_bytes (data : list Z) (modulus : Z) : res share :=
  match rev data with
  | [] => Err Panic
  | id :: rvalue =>
      let! v := bn_modulus (bn_from_bytes (rev rvalue)) modulus in
      Ok (mkShare id v)
  end.

(** shamir.rs:259-308 [split_secret]; threshold and total are u8. *)
Definition split_secret (draws : nat -> Z) (secret : list Z) (threshold total field : Z) : res (list share) :=
  if total <? threshold then Err GeneralError
  else if threshold <? 2 then Err GeneralError
  else if Nat.eqb (length secret) 0 then Err GeneralError
  else if field <? 2 then Err GeneralError
  else
    let el := mkElement field (bn_from_bytes secret) in
    if negb (element_is_valid el) then Err GeneralError
    else
      let poly := polynomial_new el (Z.to_nat (threshold - 1)) draws in
      rmap (fun i =>
              let identifier := Z.of_nat i + 1 in
              let! x := element_from_bytes field [identifier] in
              let! y := polynomial_evaluate poly x in
              Ok (mkShare identifier (el_value y)))
           (seq 0 (Z.to_nat total)).

(** shamir.rs:326-356, the checking loop of [combine_shares]; [dups] is the
    set of identifiers seen, xs/ys the coordinates collected so far. *)
Definition combine_step (field : Z) (st : list Z * (list element * list element)) (s : share)
  : res (list Z * (list element * list element)) :=
  let '(dups, (xs, ys)) := st in
  if sh_value s =? 0 then Err GeneralError
  else if sh_id s =? 0 then Err GeneralError
  else if existsb (Z.eqb (sh_id s)) dups then Err GeneralError
  else
    let! x := element_from_bytes field [sh_id s] in
    Ok (sh_id s :: dups, (xs ++ [x], ys ++ [mkElement field (sh_value s)])).

(** shamir.rs:311-359 [combine_shares] *)
Definition combine_shares (shares : list share) (field : Z) : res (list Z) :=
  if Nat.ltb (length shares) 2 then Err GeneralError
  else if field <? 2 then Err GeneralError
  else
    let! (_, (xs, ys)) := rfold (combine_step field) shares ([], ([], [])) in
    let! secret := polynomial_interpolate xs ys in
    Ok (element_to_bytes secret).

(** Model of libzmix/src/signatures/delg_cred_cdd/issuer.rs (delegation links and chains).

    The link at an odd level carries G1 attributes signed with Groth1 under a G2 key; the
    link at an even level G2 attributes signed with Groth2 under a G1 key.  The last
    attribute of a link is the delegatee's verification key.  Levels are usize: arithmetic
    on them wraps modulo 2^64 (release build; a debug build panics instead).  Sizes of
    vectors are natural numbers.  Random scalars are arguments. *)
From Verif Require Import Base BnModel Alg ClRevModel GrothModel.
Import List ListNotations.
Open Scope list_scope.
Open Scope Z_scope.

Definition usize (x : Z) : Z := x mod 2 ^ 64.
Definition derr {A} (e : delg_err) : res A := Err (DelgErr e).

Section Deleg.
Variable C : curve.
Notation K := (cK C). Notation G1 := (cG1 C). Notation G2 := (cG2 C). Notation GT := (cGT C).

(** issuer.rs:21-26 [$CredLink] *)
Record link1 := mkLink1 { l1_level : Z; l1_attrs : list G1; l1_sig : sig1 C }.
Record link2 := mkLink2 { l2_level : Z; l2_attrs : list G2; l2_sig : sig2 C }.

(** issuer.rs:33-35 [has_verkey]: attributes[len - 1]; with no attributes the index wraps and is out of range *)
Definition has_verkey1 (l : link1) (vk : G1) : res bool :=
  match l1_attrs l with [] => Err Panic | _ => let! a := at_ (l1_attrs l) (length (l1_attrs l) - 1) in Ok (meqb a vk) end.
Definition has_verkey2 (l : link2) (vk : G2) : res bool :=
  match l2_attrs l with [] => Err Panic | _ => let! a := at_ (l2_attrs l) (length (l2_attrs l) - 1) in Ok (meqb a vk) end.
(** issuer.rs:51-67 [validate] *)
Definition validate1 (l : link1) (delegatee : G1) (p : params1 C) : res unit :=
  if (length (p1_y p) <? length (l1_attrs l))%nat then derr (DMoreAttributesThanExpected (length (p1_y p)) (length (l1_attrs l))) else
  let! b := has_verkey1 l delegatee in if negb b then derr DVerkeyNotFoundInDelegationLink else Ok tt.
Definition validate2 (l : link2) (delegatee : G2) (p : params2 C) : res unit :=
  if (length (p2_y p) <? length (l2_attrs l))%nat then derr (DMoreAttributesThanExpected (length (p2_y p)) (length (l2_attrs l))) else
  let! b := has_verkey2 l delegatee in if negb b then derr DVerkeyNotFoundInDelegationLink else Ok tt.
(** issuer.rs:39-48 [verify]; [r] is the draw of verify_batch *)
Definition link_verify1 (l : link1) (delegatee : G1) (delegator : G2) (p : params1 C) (r : K) : res bool :=
  let! _ := validate1 l delegatee p in verify_batch1 (l1_sig l) (l1_attrs l) delegator p r.
Definition link_verify2 (l : link2) (delegatee : G2) (delegator : G1) (p : params2 C) (r : K) : res bool :=
  let! _ := validate2 l delegatee p in verify_batch2 (l2_sig l) (l2_attrs l) delegator p r.

(** issuer.rs:80-86, 139-141 [EvenLevelIssuer::new], [OddLevelIssuer::new]: the level of the issuer *)
Definition even_issuer_new (level : Z) : res Z := if negb (level mod 2 =? 0) then derr (DExpectedEvenLevel level) else Ok level.
Definition odd_issuer_new (level : Z) : res Z := if level mod 2 =? 0 then derr (DExpectedOddLevel level) else Ok level.
(** issuer.rs:92-113 [delegate]; [r] is the draw of the signature *)
Definition even_delegate (level : Z) (attrs : list G1) (delegatee : G1) (sk : K) (p : params1 C) (r : K) : res link1 :=
  if (length (p1_y p) <=? length attrs)%nat then derr (DMoreAttributesThanExpected (length (p1_y p)) (length attrs)) else
  let attrs' := attrs ++ [delegatee] in
  let! s := sign1 attrs' sk p r in
  Ok (mkLink1 (usize (level + 1)) attrs' s).
Definition odd_delegate (level : Z) (attrs : list G2) (delegatee : G2) (sk : K) (p : params2 C) (r : K) : res link2 :=
  if (length (p2_y p) <=? length attrs)%nat then derr (DMoreAttributesThanExpected (length (p2_y p)) (length attrs)) else
  let attrs' := attrs ++ [delegatee] in
  let! s := sign2 attrs' sk p r in
  Ok (mkLink2 (usize (level + 1)) attrs' s).
(** issuer.rs:472-480 [RootIssuer::delegate] *)
Definition root_delegate (attrs : list G1) (delegatee : G1) (sk : K) (p : params1 C) (r : K) : res link1 :=
  let! level := even_issuer_new 0 in even_delegate level attrs delegatee sk p r.

(** issuer.rs:133-137 [CredChain] *)
Record chain := mkChain { ch_odd : list link1; ch_even : list link2 }.
(** issuer.rs:148-165 *)
Definition chain_new : chain := mkChain [] [].
Definition chain_size (c : chain) : nat := length (ch_odd c) + length (ch_even c).
(** issuer.rs:167-187 [get_odd_link], [get_even_link] *)
Definition get_odd_link (c : chain) (i : nat) : res link1 :=
  if (length (ch_odd c) <=? i)%nat then derr (DNoOddLinkInChainAtGivenIndex i (length (ch_odd c))) else at_ (ch_odd c) i.
Definition get_even_link (c : chain) (i : nat) : res link2 :=
  if (length (ch_even c) <=? i)%nat then derr (DNoEvenLinkInChainAtGivenIndex i (length (ch_even c))) else at_ (ch_even c) i.
(** issuer.rs:189-211 [extend_with_odd] *)
Definition extend_with_odd (c : chain) (l : link1) : res chain :=
  if l1_level l mod 2 =? 0 then derr (DExpectedOddLevel (l1_level l)) else
  if (length (ch_odd c) =? 0)%nat && negb (l1_level l =? 1) then derr (DUnexpectedLevel 1 (l1_level l)) else
  if negb (length (ch_odd c) =? 0)%nat then
    let! last := at_ (ch_odd c) (length (ch_odd c) - 1) in
    if negb (usize (l1_level l - l1_level last) =? 2) then derr (DUnexpectedLevel (usize (l1_level last + 2)) (l1_level l))
    else Ok (mkChain (ch_odd c ++ [l]) (ch_even c))
  else Ok (mkChain (ch_odd c ++ [l]) (ch_even c)).
(** issuer.rs:213-235 [extend_with_even] *)
Definition extend_with_even (c : chain) (l : link2) : res chain :=
  if negb (l2_level l mod 2 =? 0) then derr (DExpectedEvenLevel (l2_level l)) else
  if (length (ch_even c) =? 0)%nat && negb (l2_level l =? 2) then derr (DUnexpectedLevel 2 (l2_level l)) else
  if negb (length (ch_even c) =? 0)%nat then
    let! last := at_ (ch_even c) (length (ch_even c) - 1) in
    if negb (usize (l2_level l - l2_level last) =? 2) then derr (DUnexpectedLevel (usize (l2_level last + 2)) (l2_level l))
    else Ok (mkChain (ch_odd c) (ch_even c ++ [l]))
  else Ok (mkChain (ch_odd c) (ch_even c ++ [l])).
(** issuer.rs:237-261 [verify_last_odd_delegation], [verify_last_even_delegation] *)
Definition verify_last_odd (c : chain) (delegatee : G1) (delegator : G2) (p : params1 C) (r : K) : res bool :=
  if (length (ch_odd c) =? 0)%nat then derr DNoOddLinksInChain else
  let! l := at_ (ch_odd c) (length (ch_odd c) - 1) in link_verify1 l delegatee delegator p r.
Definition verify_last_even (c : chain) (delegatee : G2) (delegator : G1) (p : params2 C) (r : K) : res bool :=
  if (length (ch_even c) =? 0)%nat then derr DNoEvenLinksInChain else
  let! l := at_ (ch_even c) (length (ch_even c) - 1) in link_verify2 l delegatee delegator p r.

(** issuer.rs:423-463 [validate]; [ev], [od] are the even and odd level keys *)
Definition chain_validate (c : chain) (ev : list G2) (od : list G1) : res unit :=
  let size := chain_size c in
  if (size =? 0)%nat then derr DChainEmpty else
  if negb (length ev + length od =? size + 1)%nat then derr (DIncorrectNumberOfVerkeys (size + 1) (length ev + length od)) else
  if negb (length ev =? size / 2 + 1)%nat then derr (DIncorrectNumberOfEvenLevelVerkeys (size / 2 + 1) (length ev)) else
  if (size mod 2 =? 1)%nat then
    if negb (length od =? size / 2 + 1)%nat then derr (DIncorrectNumberOfOddLevelVerkeys (size / 2 + 1) (length od)) else Ok tt
  else
    if negb (length od =? size / 2)%nat then derr (DIncorrectNumberOfOddLevelVerkeys (size / 2) (length od)) else Ok tt.

(** issuer.rs:266-308 [verify_delegations]; [rs i] is the draw used for level i *)
Definition verify_delegations (c : chain) (ev : list G2) (od : list G1) (p1 : params1 C) (p2 : params2 C) (rs : nat -> K) : res bool :=
  let! _ := chain_validate c ev od in
  check_all (fun i =>
    if (i mod 2 =? 1)%nat then
      let idx := (i / 2)%nat in
      let! l := at_ (ch_odd c) idx in
      if negb (l1_level l =? Z.of_nat i) then derr (DUnexpectedLevel (Z.of_nat i) (l1_level l)) else
      let! vd := at_ od idx in let! vr := at_ ev idx in
      link_verify1 l vd vr p1 (rs i)
    else
      let! l := at_ (ch_even c) (i / 2 - 1) in
      if negb (l2_level l =? Z.of_nat i) then derr (DUnexpectedLevel (Z.of_nat i) (l2_level l)) else
      let! vd := at_ ev (i / 2) in let! vr := at_ od (i / 2 - 1) in
      link_verify2 l vd vr p2 (rs i)) (seq 1 (chain_size c)).

(** issuer.rs:314-403 [verify_delegations_batched]; [r] is the draw.  The first loop sums
    attribute_count + 1 over the levels; the second accumulates the pairs and the offset. *)
Definition total_attrib_count (c : chain) : res nat :=
  rfold (fun n i =>
    if (i mod 2 =? 1)%nat then let! l := at_ (ch_odd c) (i / 2) in Ok (n + (length (l1_attrs l) + 1))%nat
    else let! l := at_ (ch_even c) (i / 2 - 1) in Ok (n + (length (l2_attrs l) + 1))%nat) (seq 1 (chain_size c)) 0%nat.
Definition verify_delegations_batched (c : chain) (ev : list G2) (od : list G1) (p1 : params1 C) (p2 : params2 C) (r : K) : res bool :=
  let! _ := chain_validate c ev od in
  let! total := total_attrib_count c in
  let r_vec := powers r total in
  let! (pairs, _) := rfold (fun st i =>
    let '(pairs, offset) := st in
    if (i mod 2 =? 1)%nat then
      let idx := (i / 2)%nat in
      let! l := at_ (ch_odd c) idx in
      if negb (l1_level l =? Z.of_nat i) then derr (DUnexpectedLevel (Z.of_nat i) (l1_level l)) else
      let! vd := at_ od idx in
      let! _ := validate1 l vd p1 in
      let! vr := at_ ev idx in
      let! new := prepare1 r_vec offset (l1_sig l) (l1_attrs l) vr p1 in
      Ok (pairs ++ new, (offset + (length (l1_attrs l) + 1))%nat)
    else
      let! l := at_ (ch_even c) (i / 2 - 1) in
      if negb (l2_level l =? Z.of_nat i) then derr (DUnexpectedLevel (Z.of_nat i) (l2_level l)) else
      let! vd := at_ ev (i / 2) in
      let! _ := validate2 l vd p2 in
      let! vr := at_ od (i / 2 - 1) in
      let! new := prepare2 r_vec offset (l2_sig l) (l2_attrs l) vr p2 in
      Ok (pairs ++ new, (offset + (length (l2_attrs l) + 1))%nat)) (seq 1 (chain_size c)) ([], 0%nat) in
  Ok (is_one (multi_pair pairs)).

(** issuer.rs:406-420 [get_truncated] *)
Definition get_truncated (c : chain) (size : nat) : res chain :=
  if (chain_size c <? size)%nat then derr (DChainIsShorterThanExpected (chain_size c) size) else
  rfold (fun new i =>
    if (i mod 2 =? 1)%nat then let! l := at_ (ch_odd c) (i / 2) in Ok (mkChain (ch_odd new ++ [l]) (ch_even new))
    else let! l := at_ (ch_even c) (i / 2 - 1) in Ok (mkChain (ch_odd new) (ch_even new ++ [l]))) (seq 1 size) chain_new.
End Deleg.

Arguments mkLink1 {C}. Arguments l1_level {C}. Arguments l1_attrs {C}. Arguments l1_sig {C}.
Arguments mkLink2 {C}. Arguments l2_level {C}. Arguments l2_attrs {C}. Arguments l2_sig {C}.
Arguments mkChain {C}. Arguments ch_odd {C}. Arguments ch_even {C}. Arguments chain_new {C}. Arguments chain_size {C}.
Arguments has_verkey1 {C}. Arguments has_verkey2 {C}. Arguments validate1 {C}. Arguments validate2 {C}.
Arguments link_verify1 {C}. Arguments link_verify2 {C}. Arguments even_delegate {C}. Arguments odd_delegate {C}. Arguments root_delegate {C}.
Arguments get_odd_link {C}. Arguments get_even_link {C}. Arguments extend_with_odd {C}. Arguments extend_with_even {C}.
Arguments verify_last_odd {C}. Arguments verify_last_even {C}. Arguments chain_validate {C}. Arguments verify_delegations {C}.
Arguments total_attrib_count {C}. Arguments verify_delegations_batched {C}. Arguments get_truncated {C}.

(** Concrete programs over the C interface: the hypotheses of C134-C138 are met. *)
From Coq Require Import String.
From Verif Require Import Base FfiModel FfiSpec FfiLib FfiProps.
From Coq Require Import Lia.
Import List ListNotations.
Local Open Scope string_scope.
Local Open Scope list_scope.
Local Open Scope Z_scope.

(** an allocator that reuses addresses: the smallest one above the two reserved that is free *)
Fixpoint free_from {V} (fuel : nat) (a : addr) (h : list (addr * (ty * V))) : addr :=
  match fuel with O => a | S n => match look h a with None => a | Some _ => free_from n (S a) h end end.
Definition top {V} (h : list (addr * (ty * V))) : nat := fold_right (fun x m => Nat.max (S (fst x)) m) 2%nat h.
Definition al {V} (h : list (addr * (ty * V))) : addr := let a := free_from (length h) 2%nat h in match look h a with None => a | Some _ => top h end.
Lemma top_above {V} (h : list (addr * (ty * V))) : (2 <= top h)%nat /\ forall p, In p (map fst h) -> (p < top h)%nat.
Proof.
  induction h as [|[q x] h [IH1 IH2]]; [split; [cbn; lia|intros p []]|]. change (top ((q, x) :: h)) with (Nat.max (S q) (top h)). cbn [map fst]. split; [lia|]. intros p [<-|I]; [lia|]. specialize (IH2 p I). lia.
Qed.
Lemma free_ge {V} n : forall a (h : list (addr * (ty * V))), (a <= free_from n a h)%nat.
Proof. induction n as [|n IH]; intros a h; cbn [free_from]; [lia|]. destruct (look h a); [|lia]. specialize (IH (S a) h). lia. Qed.
Lemma al_fresh V : fresh_alloc (@al V).
Proof.
  intros h. unfold al. cbv zeta. destruct (look h (free_from (length h) 2%nat h)) eqn:L.
  - destruct (top_above h) as [T1 T2]. unfold null, unit_box. split; [lia|]. split; [lia|]. apply look_absent. intros I. specialize (T2 _ I). lia.
  - pose proof (free_ge (length h) 2%nat h). unfold null, unit_box. split; [lia|]. split; [lia|]. exact L.
Qed.

(** values are lists of numbers; a builder collects the strings added, finalizing an empty builder
    fails *)
Definition Vx := list (list Z).
Definition bx (n : string) (k : nat) (i : list (@inp Vx)) : @bres Vx :=
  let ok := BOk (fun _ => []) (fun _ => []) (fun _ => false) (fun _ => 0) in
  if String.eqb n "ursa_cl_credential_schema_builder_add_attr" then match i with [IV v; IB (Some s)] => BOk (fun _ => s :: v) (fun _ => []) (fun _ => false) (fun _ => 0) | _ => BPanic end
  else if String.eqb n "ursa_cl_credential_schema_builder_finalize" then match i with [IV []; _] => BFail KInvalidState (fun _ => []) | [IV v; _] => BOk (fun _ => []) (fun _ => v) (fun _ => false) (fun _ => 0) | _ => BPanic end
  else ok.
Definition new := fn_of "ursa_cl_credential_schema_builder_new".
Definition add := fn_of "ursa_cl_credential_schema_builder_add_attr".
Definition fin := fn_of "ursa_cl_credential_schema_builder_finalize".
Definition fre := fn_of "ursa_cl_credential_schema_free".
Definition prog : list (fn * list carg) :=
  [ (new, [CO true]); (add, [CH (Some (0, 0)%nat); CS (Some [97])]); (add, [CH (Some (0, 0)%nat); CS (Some [])]); (new, [CO true]); (add, [CH (Some (0, 0)%nat); CS (Some [98])]);
    (fin, [CH (Some (3, 0)%nat); CO true]); (fin, [CH (Some (0, 0)%nat); CO true]); (new, [CO true]) ].
Example C134_example_run : vrun (fun _ => true) bx (mem unchecked_slot) 0 prog [] None =
  VREnd [VODone 0 [] [0%nat]; VODone 0 [] []; VORefused; VODone 0 [] [0%nat]; VODone 0 [] []; VODone 112 [] []; VODone 0 [] [1%nat]; VODone 0 [] [0%nat]]
    [((7, 0)%nat, (TCredentialSchemaBuilder, [])); ((6, 1)%nat, (TCredentialSchema, [[98]; [97]]))] (Some 5%nat).
Proof. vm_compute. reflexivity. Qed.
Lemma in_table n f : find (fun f => String.eqb (f_name f) n) table = Some f -> In f table.
Proof. intros E. apply find_some in E. apply E. Qed.
Lemma prog_in f c : In (f, c) prog -> In f table /\ mem wrong_type (f_name f) = false.
Proof.
  assert (N : In new table /\ mem wrong_type (f_name new) = false) by (split; [apply (in_table "ursa_cl_credential_schema_builder_new")|]; vm_compute; reflexivity).
  assert (A : In add table /\ mem wrong_type (f_name add) = false) by (split; [apply (in_table "ursa_cl_credential_schema_builder_add_attr")|]; vm_compute; reflexivity).
  assert (F : In fin table /\ mem wrong_type (f_name fin) = false) by (split; [apply (in_table "ursa_cl_credential_schema_builder_finalize")|]; vm_compute; reflexivity).
  unfold prog. intros I. repeat (destruct I as [E|I]; [injection E as <- <-; assumption|]). destruct I.
Qed.
Example C134_example : exists o' h sl', mrun (fun _ => true) al bx 0 prog [] (fun _ => 0%nat) None = REnd o' h sl' (Some 5%nat) /\ length h = 2%nat /\ look h (sl' (6, 1)%nat) = Some (TCredentialSchema, [[98]; [97]]).
Proof.
  destruct (C134_no_leak (fun _ => true) al (al_fresh Vx) bx prog (fun _ => 0%nat) _ _ _ prog_in C134_example_run) as (o' & h & sl' & R & L & _ & H & _).
  exists o', h, sl'. split; [exact R|]. split; [exact L|]. exact (proj1 (H (6, 1)%nat TCredentialSchema [[98]; [97]] eq_refl)).
Qed.

(** a state of the caller: two deltas and two keys *)
Definition ex_e : @env Vx := [((0, 0)%nat, (TRevocationRegistryDelta, [])); ((1, 0)%nat, (TRevocationRegistryDelta, [])); ((2, 0)%nat, (TGenerator, [])); ((3, 0)%nat, (TSignKey, [])); ((4, 0)%nat, (TCredentialSchemaBuilder, []))].
Definition ex_sl : slots := fun n => (2 + fst n)%nat.
Definition ex_h : list (addr * (ty * Vx)) := map (fun x => (ex_sl (fst x), snd x)) ex_e.
Lemma ex_acc : accounted ex_e ex_h ex_sl.
Proof. split; [reflexivity|]. split; [|split]; cbn; [repeat constructor; cbn; intuition lia| |]; unfold null, unit_box; intuition lia. Qed.
Definition vk := fn_of "ursa_bls_ver_key_new".
Example C135_example : mcall (fun _ => true) al bx vk 5 (map (resolve ex_sl) [CH (Some (2, 0)%nat); CH None; CO true]) ex_h = MRefused 101 ex_h.
Proof. vm_compute. reflexivity. Qed.
Example C136_example : bad_at (fun _ => true) (combine (seq 0 2) (combine (f_params fin) [CH (Some (4, 0)%nat); CO false])) = Some 101.
Proof. vm_compute. reflexivity. Qed.
Example C137_example : exists h', mcall (fun _ => true) al bx fin 5 (map (resolve ex_sl) [CH (Some (4, 0)%nat); CO true]) ex_h = MDone 112 h' [] /\ map fst h' = [2; 3; 4; 5]%nat /\
  mcall (fun _ => true) al bx fin 6 (map (resolve ex_sl) [CH (Some (4, 0)%nat); CO true]) h' = MUB.
Proof. eexists. split; [vm_compute; reflexivity|]. split; vm_compute; reflexivity. Qed.
Example C138_example_slot : mcall (fun _ => true) al bx vk 5 (map (resolve ex_sl) [CH (Some (2, 0)%nat); CH (Some (3, 0)%nat); CO false]) ex_h = MUB.
Proof.
  apply (proj2 (C138_refuted_null_slot (fun _ => true) al bx "ursa_bls_ver_key_new" vk 5 _ ex_e ex_h ex_sl (fun _ => []) (fun _ => []) (fun _ => false) (fun _ => 0) (or_intror (or_introl eq_refl)) eq_refl)).
  - exact ex_acc.
  - vm_compute. reflexivity.
  - right; right; left; reflexivity.
  - intros p x I. change (combine (f_params vk) _) with [(PIn TGenerator false, CH (Some (2, 0)%nat)); (PIn TSignKey false, CH (Some (3, 0)%nat)); (POut TVerKey, CO false)] in I.
    destruct I as [E|[E|[E|[]]]]; injection E as <- <-; cbn [missing]; intros H; [discriminate|discriminate|reflexivity].
  - vm_compute. reflexivity.
Qed.
Example C138_example_merge : exists h', mcall (fun _ => true) al bx (fn_of "ursa_cl_issuer_merge_revocation_registry_deltas") 5 [AH 2%nat; AH 3%nat; AO true] ex_h = MDone 0 h' [(2%nat, SPtr unit_box)] /\
  mcall (fun _ => true) al bx (fn_of "ursa_cl_revocation_registry_delta_free") 6 [AH unit_box] h' = MUB.
Proof. apply (C138_refuted_merge (fun _ => true) al bx 5 6 (0, 0)%nat (1, 0)%nat ex_e ex_h ex_sl (fun _ => []) (fun _ => []) (fun _ => false) (fun _ => 0) ex_acc); [reflexivity|reflexivity|discriminate|reflexivity]. Qed.

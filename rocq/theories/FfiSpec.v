(** What a caller of the C interface may rely on, said without pointers: a handle is a name for
    a value, a call works on the values of the names passed, names die when their instance is
    deallocated. *)
From Coq Require Import String.
From Verif Require Import Base FfiModel.
Import List ListNotations.
Open Scope list_scope.
Open Scope Z_scope.

Section Spec.
Context {V : Type} (utf8 : list Z -> bool) (body : string -> nat -> list (@inp V) -> @bres V).
(** the instances the caller holds *)
Definition env := list (name * (ty * V)).
Fixpoint look_n (e : env) (n : name) : option (ty * V) := match e with [] => None | (m, x) :: e' => if name_eqb m n then Some x else look_n e' n end.
Fixpoint put_n (e : env) (n : name) (f : ty * V -> ty * V) : env := match e with [] => [] | (m, x) :: e' => if name_eqb m n then (m, f x) :: e' else (m, x) :: put_n e' n f end.
Fixpoint del_n (e : env) (n : name) : env := match e with [] => [] | (m, x) :: e' => if name_eqb m n then e' else (m, x) :: del_n e' n end.
Definition holds (e : env) (t : ty) (n : name) : bool := match look_n e n with Some (t', _) => ty_eqb t' t | None => false end.

(** the caller's duty: an instance parameter gets null or an instance it holds, of the documented
    type; the elements of an array of instances are instances it holds *)
Definition fits (e : env) (p : param) (c : carg) : bool :=
  match p, c with
  | (PIn t _ | PInOpt t | PTake t | PTakeOpt t), CH None => true
  | (PIn t _ | PInOpt t | PTake t | PTakeOpt t), CH (Some n) => holds e t n
  | PArr t, CHs None => true
  | PArr t, CHs (Some ns) => forallb (fun n => match n with Some n => holds e t n | None => false end) ns
  | PStr, CS _ | PBuf, CB _ | PBufOpt, CB _ | PInts, CB _ | PVal, CV _ => true
  | (POut _ | POutOpt _ | POutStr | POutVal), CO _ => true
  | _, _ => false
  end.
(** a required argument that is not there *)
Definition missing (p : param) (c : carg) : bool :=
  match p, c with
  | (PIn _ _ | PTake _), CH None => true
  | PArr _, (CHs None | CHs (Some [])) => true
  | PStr, CS None => true
  | PStr, CS (Some s) => negb (utf8 s) || match s with [] => true | _ => false end
  | PBuf, (CB None | CB (Some [])) => true
  | PBufOpt, CB (Some []) => true
  | PInts, CB None => true
  | (POut _ | POutOpt _ | POutStr | POutVal), CO false => true
  | _, _ => false
  end.
Definition both {A B} (f : A -> B -> bool) (l : list A) (m : list B) : bool := (length l =? length m)%nat && forallb (fun x => f (fst x) (snd x)) (combine l m).

Definition input_n (e : env) (c : carg) : @inp V :=
  match c with
  | CH (Some n) => match look_n e n with Some (_, v) => IV v | None => INone end
  | CHs (Some ns) => IVs (flat_map (fun n => match n with Some n => match look_n e n with Some (_, v) => [v] | None => [] end | None => [] end) ns)
  | CH None | CHs None | CO _ => INone
  | CS s => IB s | CB b => IB b | CV z => IZ z
  end.
Definition index {A} (l : list A) : list (nat * A) := combine (seq 0 (length l)) l.
(** deallocated parameters, and parameters that are changed *)
Definition taken_n (c : list carg) (e : env) (ps : list (nat * param)) : env :=
  fold_left (fun e ip => match snd ip with PTake _ | PTakeOpt _ => match nth (fst ip) c (CV 0) with CH (Some n) => del_n e n | _ => e end | _ => e end) ps e.
Definition changed_n (c : list carg) (mv : nat -> V) (e : env) (ps : list (nat * param)) : env :=
  fold_left (fun e ip => match snd ip with PIn _ true => match nth (fst ip) c (CV 0) with CH (Some n) => put_n e n (fun x => (fst x, mv (fst ip))) | _ => e end | _ => e end) ps e.
(** new instances, plain results, and the slots that received an instance *)
Fixpoint results (k : nat) (ps : list (nat * param)) (ov : nat -> V) (on : nat -> bool) (oz : nat -> Z) (e : env) : env * list (nat * Z) * list nat :=
  match ps with
  | [] => (e, [], [])
  | (i, p) :: ps' =>
      let new t := let '(e', vs, g) := results k ps' ov on oz (((k, i), (t, ov i)) :: e) in (e', vs, i :: g) in
      match p with
      | POut t => new t
      | POutOpt t => if on i then results k ps' ov on oz e else new t
      | POutStr => new TCString
      | POutVal => let '(e', vs, g) := results k ps' ov on oz e in (e', (i, oz i) :: vs, g)
      | _ => results k ps' ov on oz e
      end
  end.

Inductive vres := VStuck | VPanic | VRefused | VDone (c : Z) (e : env) (vals : list (nat * Z)) (given : list nat).
(** [slot] names the functions whose result slots must not be null *)
Context (slot : string -> bool).
Definition vcall (f : fn) (k : nat) (c : list carg) (e : env) : vres :=
  if negb (both (fits e) (f_params f) c) then VStuck else
  if slot (f_name f) && existsb (fun x => match x with CO false => true | _ => false end) c then VStuck else
  if existsb (fun x => missing (fst x) (snd x)) (combine (f_params f) c) then VRefused else
  match body (f_name f) k (map (input_n e) c) with
  | BPanic => VPanic
  | BFail er mv => VDone (code_of er) (changed_n c mv (taken_n c e (index (f_params f))) (index (f_params f))) [] []
  | BOk mv ov on oz => let '(e', vs, g) := results k (index (f_params f)) ov on oz (changed_n c mv (taken_n c e (index (f_params f))) (index (f_params f))) in VDone success e' vs g
  end.
Inductive vobs := VORefused | VODone (c : Z) (vals : list (nat * Z)) (given : list nat).
Inductive vrun_r := VRStuck | VRPanic (o : list vobs) | VREnd (o : list vobs) (e : env) (last : option nat).
Fixpoint vrun (k : nat) (p : list (fn * list carg)) (e : env) (last : option nat) : vrun_r :=
  match p with
  | [] => VREnd [] e last
  | (f, c) :: p' =>
      match vcall f k c e with
      | VStuck => VRStuck
      | VPanic => VRPanic []
      | VRefused => match vrun (S k) p' e (Some k) with VRStuck => VRStuck | VRPanic o => VRPanic (VORefused :: o) | VREnd o e' la => VREnd (VORefused :: o) e' la end
      | VDone er e1 vs g =>
          match vrun (S k) p' e1 (if er =? success then last else Some k) with
          | VRStuck => VRStuck | VRPanic o => VRPanic (VODone er vs g :: o) | VREnd o e' la => VREnd (VODone er vs g :: o) e' la
          end
      end
  end.
End Spec.

(** a refusal shows as one of the parameter error codes or CommonInvalidState *)
Definition sees (o : obs) (v : vobs) : Prop :=
  match o, v with
  | ORefused c, VORefused => 100 <= c <= 112
  | ODone c vs g, VODone c' vs' g' => c = c' /\ vs = vs' /\ g = g'
  | _, _ => False
  end.
(** an allocator returns a pointer that is not null, not the pointer of a zero-sized box, and not
    in use (it may have been used before) *)
Definition fresh_alloc {V} (alloc : @heap V -> addr) : Prop := forall h, alloc h <> null /\ alloc h <> unit_box /\ look h (alloc h) = None.
(** the memory is exactly what the caller holds *)
Definition accounted {V} (e : @env V) (h : @heap V) (sl : slots) : Prop := h = map (fun x => (sl (fst x), snd x)) e /\ NoDup (map fst h) /\ ~ In null (map fst h) /\ ~ In unit_box (map fst h).

(** ** functions that do what they declare (a check of the body against the parameters) *)
Definition code_ok (c : Z) : bool := (100 <=? c) && (c <=? 112).
Definition required_ptr (p : param) : bool := match p with PIn _ _ | PTake _ | PArr _ | PBuf | PInts | POut _ | POutOpt _ | POutStr | POutVal => true | _ => false end.
Definition step_eqb (a b : step) : bool :=
  match a, b with
  | Null i _, Null j _ | StrOk i _, StrOk j _ | LenOk i _, LenOk j _ => (i =? j)%nat
  | Ref i t m, Ref j t' m' => (i =? j)%nat && ty_eqb t t' && Bool.eqb m m'
  | RefOpt i t, RefOpt j t' | Refs i t, Refs j t' | Take i t, Take j t' | TakeOpt i t, TakeOpt j t' => (i =? j)%nat && ty_eqb t t'
  | _, _ => false
  end.
Definition does (l : list step) (s : step) : bool := existsb (step_eqb s) l.
Fixpoint steps_ok (ps : list param) (ck : list nat) (l : list step) : bool :=
  match l with
  | [] => true
  | s :: l' =>
      let p i := nth i ps PVal in
      let checked i := existsb (Nat.eqb i) ck in
      match s with
      | Null i c => required_ptr (p i) && code_ok c && steps_ok ps (i :: ck) l'
      | StrOk i c => match p i with PStr => code_ok c && steps_ok ps ck l' | _ => false end
      | LenOk i c => match p i with PArr _ | PBuf | PBufOpt => code_ok c && steps_ok ps ck l' | _ => false end
      | Ref i t m => match p i with PIn t' m' => ty_eqb t t' && Bool.eqb m m' && checked i && steps_ok ps ck l' | _ => false end
      | RefOpt i t => match p i with PInOpt t' => ty_eqb t t' && steps_ok ps ck l' | _ => false end
      | Refs i t => match p i with PArr t' => ty_eqb t t' && checked i && steps_ok ps ck l' | _ => false end
      | Take i t => match p i, l' with PTake t', [] => ty_eqb t t' && checked i | _, _ => false end
      | TakeOpt i t => match p i, l' with PTakeOpt t', [] => ty_eqb t t' | _, _ => false end
      end
  end.
Definition covered (lax : bool) (l : list step) (ip : nat * param) : bool :=
  let (i, p) := ip in
  match p with
  | PIn t m => does l (Null i 0) && does l (Ref i t m)
  | PInOpt t => does l (RefOpt i t)
  | PTake t => does l (Null i 0) && does l (Take i t)
  | PTakeOpt t => does l (TakeOpt i t)
  | PArr t => does l (Null i 0) && does l (LenOk i 0) && does l (Refs i t)
  | PStr => does l (StrOk i 0)
  | PBuf => does l (Null i 0) && does l (LenOk i 0)
  | PBufOpt => does l (LenOk i 0)
  | PInts => does l (Null i 0)
  | POut _ | POutOpt _ | POutStr | POutVal => lax || does l (Null i 0)
  | PVal => true
  end.
Definition type_of (p : param) : option ty := match p with PIn t _ | PInOpt t | PTake t | PTakeOpt t | PArr t => Some t | _ => None end.
Definition no_alias (ps : list param) (l : list step) : bool :=
  forallb (fun i => forallb (fun jp => (fst jp =? i)%nat || match type_of (snd jp), type_of (nth i ps PVal) with Some a, Some b => negb (ty_eqb a b) | _, _ => true end) (index ps)) (exclusive l).
Definition mut_steps (l : list step) : list nat := flat_map (fun s => match s with Ref i _ true => [i] | _ => [] end) l.
Definition mut_params (ps : list (nat * param)) : list nat := flat_map (fun ip => match snd ip with PIn _ true => [fst ip] | _ => [] end) ps.
Definition takes (l : list step) : list nat := flat_map (fun s => match s with Take i _ | TakeOpt i _ => [i] | _ => [] end) l.
Definition take_params (ps : list (nat * param)) : list nat := flat_map (fun ip => match snd ip with PTake _ | PTakeOpt _ => [fst ip] | _ => [] end) ps.
Definition nats_eqb (a b : list nat) : bool := if list_eq_dec Nat.eq_dec a b then true else false.
Fixpoint outs_ok (outs : list (nat * wr)) (ps : list (nat * param)) : bool :=
  match ps, outs with
  | [], [] => true
  | (i, p) :: ps', _ =>
      match p, outs with
      | POut t, (j, WBox t') :: o | POutOpt t, (j, WBoxOpt t') :: o => (i =? j)%nat && ty_eqb t t' && outs_ok o ps'
      | POutStr, (j, WStr) :: o | POutVal, (j, WVal) :: o => (i =? j)%nat && outs_ok o ps'
      | (POut _ | POutOpt _ | POutStr | POutVal), _ => false
      | _, _ => outs_ok outs ps'
      end
  | _, _ => false
  end.
(** [slot]: the function need not check its result slots *)
Definition sound (slot : string -> bool) (f : fn) : bool :=
  steps_ok (f_params f) [] (f_steps f) && forallb (covered (slot (f_name f)) (f_steps f)) (index (f_params f)) && no_alias (f_params f) (f_steps f) &&
  nats_eqb (mut_steps (f_steps f)) (mut_params (index (f_params f))) && nats_eqb (takes (f_steps f)) (take_params (index (f_params f))) && outs_ok (f_outs f) (index (f_params f)).

(** the functions of the library that write through a null result slot, and those that treat an
    instance as one of another type *)
Definition mem (l : list string) (n : string) : bool := existsb (String.eqb n) l.
Definition unchecked_slot : list string := ["ursa_bls_sign_key_new"; "ursa_bls_ver_key_new"; "ursa_bls_pop_new"; "ursa_cl_witness_new"; "ursa_revocation_registry_delta_from_parts";
  "ursa_cl_issuer_revoke_credential"; "ursa_cl_issuer_recovery_credential"; "ursa_cl_prover_get_credential_revocation_index"]%string.
Definition wrong_type : list string := ["ursa_cl_revocation_registry_delta_to_json"; "ursa_cl_revocation_registry_delta_from_json"; "ursa_cl_issuer_merge_revocation_registry_deltas"]%string.
(** codes: the check of the first missing parameter (counted from 0) returns 100 + its number, or
    100 + the number of the length parameter when the length is what is wrong *)
Definition bad_at (utf8 : list Z -> bool) (ps : list (nat * (param * carg))) : option Z :=
  match find (fun x => missing utf8 (fst (snd x)) (snd (snd x))) ps with
  | Some (i, (_, (CHs (Some []) | CB (Some [])))) => Some (101 + Z.of_nat i)
  | Some (i, _) => Some (100 + Z.of_nat i)
  | None => None
  end.
(** the checks of a body, and those its parameters call for, in order *)
Definition checks (l : list step) : list step := filter (fun s => match s with Null _ _ | StrOk _ _ | LenOk _ _ => true | _ => false end) l.
Definition expect (ip : nat * param) : list step :=
  let (i, p) := ip in
  match p with
  | PIn _ _ | PTake _ | PInts | POut _ | POutOpt _ | POutStr | POutVal => [Null i (100 + Z.of_nat i)]
  | PArr _ | PBuf => [Null i (100 + Z.of_nat i); LenOk i (101 + Z.of_nat i)]
  | PStr => [StrOk i (100 + Z.of_nat i)]
  | PBufOpt => [LenOk i (101 + Z.of_nat i)]
  | _ => []
  end.
Definition step_dec : forall a b : step, {a = b} + {a <> b}. Proof. repeat decide equality. Defined.
Definition steps_eqb (a b : list step) : bool := if list_eq_dec step_dec a b then true else false.
Definition coded (f : fn) : bool := steps_eqb (checks (f_steps f)) (flat_map expect (index (f_params f))).
(** the functions whose codes do not follow the rule *)
Definition miscoded : list string := ["ursa_bls_generator_from_bytes"; "ursa_bls_sign_key_from_bytes"; "ursa_bls_ver_key_from_bytes"; "ursa_bls_signature_from_bytes"; "ursa_bls_multi_signature_from_bytes";
  "ursa_bls_sign"; "ursa_cl_issuer_new_credential_def"; "ursa_cl_issuer_sign_credential"; "ursa_cl_issuer_sign_credential_with_revoc"]%string.
(** the instances a call deallocates: what it was given for the parameters documented so *)
Definition given_up (ps : list param) (args : list arg) : list addr :=
  flat_map (fun x => match fst x with PTake _ | PTakeOpt _ => addrs_of (snd x) | _ => [] end) (combine ps args).
(** the call ursa_get_current_error tells about, by what the calls returned *)
Definition failed (o : obs) : bool := match o with ORefused _ => true | ODone c _ _ => negb (c =? success) end.
Fixpoint last_failed (k : nat) (o : list obs) : option nat := match o with [] => None | x :: o' => match last_failed (S k) o' with Some j => Some j | None => if failed x then Some k else None end end.
(** a function by its name *)
Definition fn_of (n : string) : fn := match find (fun f => String.eqb (f_name f) n) table with Some f => f | None => mkFn n [] [] [] end.

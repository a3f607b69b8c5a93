(** C134-C140: the C interface. *)
From Coq Require Import String.
From Verif Require Import Base FfiModel FfiSpec FfiLib.
From Coq Require Import Lia.
Import List ListNotations.
Open Scope list_scope.
Open Scope Z_scope.
Local Open Scope string_scope.
Local Open Scope list_scope.
Local Open Scope Z_scope.

Lemma table_sound : forallb (fun f => mem wrong_type (f_name f) || sound (mem unchecked_slot) f) table = true.
Proof. vm_compute. reflexivity. Qed.
Lemma table_coded : forallb (fun f => mem unchecked_slot (f_name f) || mem wrong_type (f_name f) || mem miscoded (f_name f) || coded f) table = true.
Proof. vm_compute. reflexivity. Qed.
Lemma in_sound f : In f table -> mem wrong_type (f_name f) = false -> sound (mem unchecked_slot) f = true.
Proof. intros I N. pose proof table_sound as T. rewrite forallb_forall in T. specialize (T f I). rewrite N in T. exact T. Qed.

Section Ffi.
Context {V : Type} (utf8 : list Z -> bool) (alloc : list (addr * (ty * V)) -> addr) (HA : fresh_alloc alloc) (body : string -> nat -> list (@inp V) -> @bres V).

(** C134: whatever the library functions return and wherever the allocator puts things, a program
    that keeps to the documented use of handles gets what the value-level interface gives, never
    runs into undefined behaviour, and the memory allocated at every point is what it holds *)
Theorem C134_faithful p sl : (forall f c, In (f, c) p -> In f table /\ mem wrong_type (f_name f) = false) ->
  match vrun utf8 body (mem unchecked_slot) 0 p [] None with
  | VRStuck => True
  | VRPanic o => exists o', mrun utf8 alloc body 0 p [] sl None = RPanic o' /\ Forall2 sees o' o
  | VREnd o e la => exists o' h sl', mrun utf8 alloc body 0 p [] sl None = REnd o' h sl' la /\ Forall2 sees o' o /\ accounted e h sl'
  end.
Proof.
  intros Hp. apply (run_sim utf8 alloc HA body (mem unchecked_slot) p 0 [] [] sl None).
  - apply Forall_forall. intros [f c] I. destruct (Hp f c I) as [I1 I2]. exact (in_sound f I1 I2).
  - split; [reflexivity|]. split; [constructor|]. split; intros [].
  - intros n [].
Qed.
Theorem C134_no_leak p sl o e la : (forall f c, In (f, c) p -> In f table /\ mem wrong_type (f_name f) = false) ->
  vrun utf8 body (mem unchecked_slot) 0 p [] None = VREnd o e la ->
  exists o' h sl', mrun utf8 alloc body 0 p [] sl None = REnd o' h sl' la /\ length h = length e /\ (e = [] -> h = []) /\
    (forall n t v, look_n e n = Some (t, v) -> look h (sl' n) = Some (t, v) /\ sl' n <> null) /\
    (forall n m, look_n e n <> None -> look_n e m <> None -> sl' n = sl' m -> n = m).
Proof.
  intros Hp Hv. pose proof (C134_faithful p sl Hp) as F. rewrite Hv in F. destruct F as (o' & h & sl' & R & _ & A). exists o', h, sl'. split; [exact R|].
  pose proof A as (Eh & _). split; [rewrite Eh; apply map_length|]. split; [intros ->; rewrite Eh; reflexivity|]. split.
  - intros n t v Ln. assert (Hn := look_n_in _ _ _ Ln). split; [|exact (acc_nonnull _ _ _ _ A Hn)].
    rewrite Eh. change (map (fun x => (sl' (fst x), snd x)) e) with (hp sl' e). rewrite (sim_look sl' (dom e) e n (acc_inj _ _ _ A) (incl_refl _) Hn). exact Ln.
  - intros n m Hn Hm E. destruct (look_n e n) as [x|] eqn:Ln; [|congruence]. destruct (look_n e m) as [y|] eqn:Lm; [|congruence].
    exact (acc_inj _ _ _ A n m (look_n_in _ _ _ Ln) (look_n_in _ _ _ Lm) E).
Qed.

(** C135: a call is refused exactly when a required argument is missing; the memory is then what
    it was *)
Theorem C135_refused f k c e h sl : In f table -> mem wrong_type (f_name f) = false -> accounted e h sl -> (forall n, In n (map fst e) -> (fst n < k)%nat) -> both (fits e) (f_params f) c = true ->
  (mem unchecked_slot (f_name f) = true -> ~ In (CO false) c) ->
  (existsb (fun x => missing utf8 (fst x) (snd x)) (combine (f_params f) c) = true <-> exists z h', mcall utf8 alloc body f k (map (resolve sl) c) h = MRefused z h') /\
  (forall z h', mcall utf8 alloc body f k (map (resolve sl) c) h = MRefused z h' -> h' = h /\ 100 <= z <= 112).
Proof.
  intros I W A O F S0. pose proof (call_sim utf8 alloc HA k body (mem unchecked_slot) f c e h sl (in_sound f I W) A) as Cs.
  assert (O' : old k 0 e) by (intros n Hn; left; apply O, Hn). specialize (Cs O'). unfold vcall in Cs. rewrite F in Cs. cbn [negb] in Cs.
  assert (Sx : mem unchecked_slot (f_name f) && existsb (fun x => match x with CO false => true | _ => false end) c = false).
  { destruct (mem unchecked_slot (f_name f)); [|reflexivity]. cbn [andb]. destruct (existsb _ c) eqn:E; [|reflexivity]. exfalso. apply (S0 eq_refl). apply existsb_exists in E as (x & Ix & Ex). destruct x as [| | | |[|]|]; try discriminate. exact Ix. }
  rewrite Sx in Cs. destruct (existsb (fun x => missing utf8 (fst x) (snd x)) (combine (f_params f) c)).
  - destruct Cs as (z & E & Hz). split; [split; [intros _; exists z, h; exact E|reflexivity]|]. intros z' h' E'. rewrite E in E'. injection E' as <- <-. auto.
  - assert (N : forall z h', mcall utf8 alloc body f k (map (resolve sl) c) h <> MRefused z h').
    { intros z h' E. destruct (body (f_name f) k (map (input_n e) c)) as [|er mv|mv ov on oz].
      - rewrite Cs in E. discriminate.
      - destruct Cs as (h1 & l & E1 & _). rewrite E1 in E. discriminate.
      - destruct (results k (index (f_params f)) ov on oz _) as [[e1 vs] g]. destruct Cs as (h1 & l & E1 & _). rewrite E1 in E. discriminate. }
    split; [split; [discriminate|intros (z & h' & E); exfalso; exact (N z h' E)]|]. intros z h' E. exfalso. exact (N z h' E).
Qed.

(** ** codes *)
Definition trips (args : list arg) (s : step) : option Z :=
  match s with
  | Null i c => if is_null (nth i args (AV 0)) then Some c else None
  | StrOk i c => if bad_str utf8 (nth i args (AV 0)) then Some c else None
  | LenOk i c => if is_empty (nth i args (AV 0)) then Some c else None
  | _ => None
  end.
Fixpoint first_trip (args : list arg) (l : list step) : option Z := match l with [] => None | s :: l' => match trips args s with Some z => Some z | None => first_trip args l' end end.
Lemma early_trip args l : forall (h : list (addr * (ty * V))) z h', run_steps utf8 args l h = SEarly z h' -> first_trip args (checks l) = Some z.
Proof.
  induction l as [|s l IH]; intros h z h' E; [discriminate|]. destruct s as [i k|i k|i k|i t m|i t|i t|i t|i t]; cbn [run_steps checks filter] in *; cbn [first_trip trips]; change (filter _ l) with (checks l).
  - destruct (is_null (nth i args (AV 0))); [congruence|exact (IH _ _ _ E)].
  - destruct (bad_str utf8 (nth i args (AV 0))); [congruence|exact (IH _ _ _ E)].
  - destruct (is_empty (nth i args (AV 0))); [congruence|exact (IH _ _ _ E)].
  - destruct (nth i args (AV 0)); try discriminate. destruct (live h t p); [exact (IH _ _ _ E)|discriminate].
  - destruct (nth i args (AV 0)); try discriminate. destruct ((p =? null)%nat || live h t p); [exact (IH _ _ _ E)|discriminate].
  - destruct (nth i args (AV 0)); try discriminate. destruct ps as [ps|]; [|discriminate]. destruct (forallb (live h t) ps); [exact (IH _ _ _ E)|discriminate].
  - destruct (nth i args (AV 0)); try discriminate. destruct (live h t p); [exact (IH _ _ _ E)|discriminate].
  - destruct (nth i args (AV 0)); try discriminate. destruct (p =? null)%nat; [exact (IH _ _ _ E)|]. destruct (live h t p); [exact (IH _ _ _ E)|discriminate].
Qed.
Lemma first_trip_app args a b : first_trip args (a ++ b) = match first_trip args a with Some z => Some z | None => first_trip args b end.
Proof. induction a as [|s a IH]; cbn [app first_trip]; [reflexivity|]. destruct (trips args s); [reflexivity|exact IH]. Qed.
Lemma first_trip_bad (e : @env V) h sl ps c : accounted e h sl -> both (fits e) ps c = true ->
  forall l, (forall i p, In (i, p) l -> p = nth i ps PVal) -> first_trip (map (resolve sl) c) (flat_map expect l) = bad_at utf8 (map (fun ip => (fst ip, (snd ip, nth (fst ip) c (CV 0)))) l).
Proof.
  intros A F. induction l as [|[i p] l IH]; intros Hl; [reflexivity|]. cbn [flat_map map fst snd]. rewrite first_trip_app, IH by (intros j q Iq; apply Hl; right; exact Iq).
  unfold bad_at. cbn [find fst snd].
  pose proof (fits_at ps c e F i) as Fi. rewrite <- (Hl i p (or_introl eq_refl)) in Fi.
  assert (HN : forall t n, holds e t n = true -> (sl n =? null)%nat = false) by (intros t n H; apply Nat.eqb_neq; exact (acc_nonnull _ _ _ _ A (holds_in _ _ _ H))).
  destruct p as [t m|t|t|t|t| | | | |t|t| | | ]; cbn [expect first_trip trips]; try (rewrite (arg_at c sl i));
    destruct (nth i c (CV 0)) as [[n|]|[[|y ns]|]|[[|y s]|]|[[|y b]|]|[|]|z]; cbn [fits missing resolve is_null is_empty bad_str negb orb map] in *; try discriminate; try reflexivity;
    try (rewrite (HN _ _ Fi); reflexivity).
  - rewrite Bool.orb_true_r. reflexivity.
  - destruct (negb (utf8 (y :: s)) || false); reflexivity.
Qed.
Lemma zip_index (ps : list param) : forall (c pre : list carg), length ps = length c -> combine (seq (length pre) (length c)) (combine ps c) = map (fun ip : nat * param => (fst ip, (snd ip, nth (fst ip) (pre ++ c) (CV 0)))) (combine (seq (length pre) (length ps)) ps).
Proof.
  induction ps as [|p ps IH]; intros [|x c] pre L; try discriminate; [reflexivity|]. cbn [length seq combine map fst snd]. f_equal.
  - rewrite app_nth2, Nat.sub_diag by lia. reflexivity.
  - specialize (IH c (pre ++ [x])). rewrite <- app_assoc in IH. cbn [app] in IH. rewrite app_length in IH. cbn [length] in IH. rewrite Nat.add_1_r in IH. apply IH. cbn [length] in L. lia.
Qed.
(** C136: the code of a refused call is 100 plus the number of the first missing parameter
    (counted from 0; plus 101 for an array of length 0, whose length parameter follows it) *)
Theorem C136_code f k c e h sl z h' : In f table -> mem (unchecked_slot ++ wrong_type ++ miscoded) (f_name f) = false -> accounted e h sl -> both (fits e) (f_params f) c = true ->
  mcall utf8 alloc body f k (map (resolve sl) c) h = MRefused z h' -> bad_at utf8 (combine (seq 0 (length c)) (combine (f_params f) c)) = Some z.
Proof.
  intros I M A F E. unfold mem in M. rewrite !existsb_app in M. apply Bool.orb_false_iff in M as [M1 M]. apply Bool.orb_false_iff in M as [M2 M3].
  pose proof table_coded as T. rewrite forallb_forall in T. specialize (T f I). unfold mem in T. rewrite M1, M2, M3 in T. cbn [orb] in T.
  unfold coded, steps_eqb in T. destruct (list_eq_dec step_dec (checks (f_steps f)) (flat_map expect (index (f_params f)))) as [Ec|]; [|discriminate].
  unfold mcall in E. destruct (run_steps utf8 (map (resolve sl) c) (f_steps f) h) as [|z' h1|h1] eqn:R; try discriminate.
  - injection E as -> ->. apply early_trip in R. rewrite Ec in R.
    rewrite (first_trip_bad e h sl (f_params f) c A F (index (f_params f))) in R by (intros i p Hi; exact (index_in _ _ _ PVal Hi)).
    rewrite <- R. f_equal. exact (zip_index (f_params f) c [] (len_pc (f_params f) c e F)).
  - destruct (aliased (map (resolve sl) c) (f_steps f)); [discriminate|]. destruct (body (f_name f) k (map (input h) (map (resolve sl) c))) as [|er mv|mv ov on oz]; try discriminate.
    destruct (write alloc (map (resolve sl) c) (f_outs f) ov on oz (mutate (map (resolve sl) c) (f_steps f) mv h1)) as [[h2 l]|]; discriminate.
Qed.

(** ** what a call deallocates *)
Lemma del_filter {A} (h : list (addr * A)) p : NoDup (map fst h) -> map fst (del h p) = filter (fun q => negb (q =? p)%nat) (map fst h).
Proof.
  induction h as [|[q x] h IH]; intros N; [reflexivity|]. inversion N as [|y m N1 N2]; subst. cbn [del map fst filter]. destruct (Nat.eqb_spec q p) as [->|Ne]; cbn [negb].
  - symmetry. cbn [fst] in N1. clear - N1. induction (map fst h) as [|q l IH]; [reflexivity|]. cbn [filter]. destruct (Nat.eqb_spec q p) as [->|Ne]; [exfalso; apply N1; left; reflexivity|]. cbn [negb]. f_equal. apply IH. intros I. apply N1. right. exact I.
  - cbn [map fst]. f_equal. exact (IH N2).
Qed.
Lemma filter_filter {A} (f g : A -> bool) l : filter f (filter g l) = filter (fun x => g x && f x) l.
Proof. induction l as [|x l IH]; [reflexivity|]. cbn [filter]. destruct (g x); cbn [filter andb]; [destruct (f x); rewrite IH; reflexivity|exact IH]. Qed.
Lemma filter_all {A} (f : A -> bool) l : (forall x, In x l -> f x = true) -> filter f l = l.
Proof. induction l as [|x l IH]; intros H; [reflexivity|]. cbn [filter]. rewrite (H x (or_introl eq_refl)). f_equal. apply IH. intros y Hy. apply H. right. exact Hy. Qed.
Lemma dels_filter c sl l : forall h : list (addr * (ty * V)), NoDup (map fst h) -> (forall i, In i l -> match nth i (map (resolve sl) c) (AV 0) with AH _ => True | _ => False end) ->
  map fst (fold_left (del_arg c sl) l h) = filter (fun q => negb (existsb (Nat.eqb q) (flat_map (fun i => addrs_of (nth i (map (resolve sl) c) (AV 0))) l))) (map fst h).
Proof.
  induction l as [|i l IH]; intros h N Hi; [symmetry; apply filter_all; reflexivity|]. cbn [fold_left flat_map].
  rewrite IH; [|unfold del_arg; destruct (nth i (map (resolve sl) c) (AV 0)) as [p| | | | |]; auto; destruct (p =? null)%nat; [exact N|apply del_nodup, N]|intros j Hj; apply Hi; right; exact Hj].
  pose proof (Hi i (or_introl eq_refl)) as Hp. unfold del_arg. destruct (nth i (map (resolve sl) c) (AV 0)) as [p| | | | |]; try contradiction. cbn [addrs_of].
  destruct (p =? null)%nat; [reflexivity|]. rewrite del_filter by exact N. rewrite filter_filter. apply filter_ext. intros q. cbn [app existsb]. rewrite Bool.negb_orb. reflexivity.
Qed.
Lemma given_up_takes (ps : list param) : forall (c : list carg) sl (pre : list carg), length ps = length c ->
  flat_map (fun i => addrs_of (nth i (map (resolve sl) (pre ++ c)) (AV 0))) (take_params (combine (seq (length pre) (length ps)) ps)) = given_up ps (map (resolve sl) c).
Proof.
  induction ps as [|p ps IH]; intros [|x c] sl pre L; try discriminate; [reflexivity|]. cbn [length seq combine map]. unfold given_up in *. cbn [combine flat_map fst snd].
  specialize (IH c sl (pre ++ [x])). rewrite <- app_assoc in IH. cbn [app] in IH. rewrite app_length in IH. cbn [length] in IH. rewrite Nat.add_1_r in IH. cbn [length] in L. rewrite <- IH by lia.
  assert (E : nth (length pre) (map (resolve sl) (pre ++ x :: c)) (AV 0) = resolve sl x) by (rewrite map_app, app_nth2; rewrite map_length; [rewrite Nat.sub_diag; reflexivity|lia]).
  destruct p; cbn [take_params flat_map fst snd app]; try reflexivity; rewrite E; reflexivity.
Qed.
(** C137: a call that returns an error has deallocated exactly the instances it is documented to
    deallocate (so a finalizer that fails has used up its builder), and allocated nothing *)
Theorem C137_failed_call f k c e h sl z h' l : In f table -> mem wrong_type (f_name f) = false -> accounted e h sl -> both (fits e) (f_params f) c = true ->
  mcall utf8 alloc body f k (map (resolve sl) c) h = MDone z h' l -> z <> success ->
  l = [] /\ map fst h' = filter (fun p => negb (existsb (Nat.eqb p) (given_up (f_params f) (map (resolve sl) c)))) (map fst h) /\
  (forall p t v, look h' p = Some (t, v) -> exists v0, look h p = Some (t, v0)).
Proof.
  intros I W A F E Nz. pose proof (in_sound f I W) as So. unfold sound in So. repeat (apply Bool.andb_true_iff in So as [So ?S0]).
  apply nats_eqb_eq in S1, S2. unfold mcall in E.
  destruct (steps_sound utf8 (f_params f) c e h sl A F (f_steps f) [] So (fun i (H : In i []) => match H with end)) as [(z' & R & _)|[R Hp]]; rewrite R in E; [discriminate|].
  destruct (aliased (map (resolve sl) c) (f_steps f)); [discriminate|]. destruct (body (f_name f) k (map (input h) (map (resolve sl) c))) as [|er mv|mv ov on oz]; try discriminate.
  2: { destruct (write alloc (map (resolve sl) c) (f_outs f) ov on oz _) as [[h2 l2]|]; [|discriminate]. injection E as <- _ _. congruence. }
  injection E as _ <- <-. split; [reflexivity|].
  assert (K : map fst (mutate (map (resolve sl) c) (f_steps f) mv (fold_left (del_arg c sl) (takes (f_steps f)) h)) = filter (fun p => negb (existsb (Nat.eqb p) (given_up (f_params f) (map (resolve sl) c)))) (map fst h)).
  { rewrite mutate_fold, put_fold_keys, dels_filter; [|apply A|].
    - rewrite S1. pose proof (given_up_takes (f_params f) c sl [] (len_pc (f_params f) c e F)) as G. cbn [app length] in G. unfold index. rewrite G. reflexivity.
    - intros i Hi. rewrite S1 in Hi. unfold take_params in Hi. apply in_flat_map in Hi as ([j p] & Hj & Hi). cbn [fst snd] in Hi. rewrite arg_at. pose proof (index_in _ _ _ PVal Hj) as Pj.
      pose proof (fits_at (f_params f) c e F j) as Fj. rewrite <- Pj in Fj.
      destruct p; try (destruct Hi; fail); destruct Hi as [<-|[]]; destruct (nth j c (CV 0)) as [[n|]|[ns|]|[x|]|[b|]|[|]|zz]; cbn [fits resolve] in *; try discriminate; exact Logic.I. }
  split; [exact K|].
  rewrite mutate_fold. assert (Pl : forall (h0 : list (addr * (ty * V))) q g p t v, (forall x, fst (g x) = fst x) -> look (put h0 q g) p = Some (t, v) -> exists v0, look h0 p = Some (t, v0)).
  { intros h0 q g p t v Hg. induction h0 as [|[r [t0 v0]] h0 IH]; cbn [put look]; [discriminate|]. destruct (r =? q)%nat; cbn [look]; destruct (r =? p)%nat; eauto.
    intros Eg. injection Eg as Eg. pose proof (Hg (t0, v0)) as Hx. rewrite Eg in Hx. cbn [fst] in Hx. subst t. eauto. }
  assert (Dl : forall (h0 : list (addr * (ty * V))) q p x, NoDup (map fst h0) -> look (del h0 q) p = Some x -> look h0 p = Some x).
  { intros h0 q p x. induction h0 as [|[r y] h0 IH]; cbn [del look map fst]; intros N L; [exact L|]. inversion N as [|a b N1 N2]; subst. destruct (r =? q)%nat eqn:Erq.
    - destruct (Nat.eqb_spec r p) as [->|]; [|exact L]. exfalso. cbn [fst] in N1. apply look_absent in N1. congruence.
    - cbn [look] in L. destruct (r =? p)%nat; [exact L|exact (IH N2 L)]. }
  assert (Dls : forall m (h0 : list (addr * (ty * V))) p x, NoDup (map fst h0) -> look (fold_left (del_arg c sl) m h0) p = Some x -> look h0 p = Some x).
  { induction m as [|i m IH]; intros h0 p x N L; [exact L|]. cbn [fold_left] in L. apply IH in L.
    - unfold del_arg in L. destruct (nth i (map (resolve sl) c) (AV 0)) as [q| | | | |]; try exact L. destruct (q =? null)%nat; [exact L|exact (Dl _ _ _ _ N L)].
    - unfold del_arg. destruct (nth i (map (resolve sl) c) (AV 0)) as [q| | | | |]; try exact N. destruct (q =? null)%nat; [exact N|apply del_nodup, N]. }
  intros p t v L. assert (G : exists v0, look (fold_left (del_arg c sl) (takes (f_steps f)) h) p = Some (t, v0)).
  { revert L. generalize (fold_left (del_arg c sl) (takes (f_steps f)) h) v. clear - Pl. induction (mut_steps (f_steps f)) as [|i m IH]; intros h0 v L; [eauto|]. cbn [fold_left] in L. destruct (IH _ _ L) as (v1 & L1).
    unfold put_arg in L1. destruct (nth i (map (resolve sl) c) (AV 0)) as [q| | | | |]; eauto. refine (Pl _ _ _ _ _ _ _ L1). reflexivity. }
  destruct G as (v0 & G). exists v0. exact (Dls _ _ _ _ (proj1 (proj2 A)) G).
Qed.

(** a library error never shows as success, and the kinds of error can be told apart (a parameter
    error outside 1..12 shows as an invalid state) *)
Theorem C137_error_code f k args h z h' l : mcall utf8 alloc body f k args h = MDone z h' l ->
  (z = 0 /\ exists mv ov on oz, body (f_name f) k (map (input h) args) = BOk mv ov on oz) \/
  (100 <= z <= 118 /\ exists er mv, body (f_name f) k (map (input h) args) = BFail er mv /\
    forall er', code_of er' = z -> er' = er \/ z = 112).
Proof.
  intros E. unfold mcall in E. destruct (run_steps utf8 args (f_steps f) h) as [|z1 h1|h1]; try discriminate. destruct (aliased args (f_steps f)); [discriminate|].
  destruct (body (f_name f) k (map (input h) args)) as [|er mv|mv ov on oz]; try discriminate.
  - right. injection E as <- _ _. split.
    + destruct er; cbn [code_of]; try lia. destruct ((1 <=? n) && (n <=? 12)) eqn:B; [apply Bool.andb_true_iff in B|]; lia.
    + exists er, mv. split; [reflexivity|]. intros er' Ec. destruct er, er'; cbn [code_of] in *; auto;
        repeat match goal with H : context [if ?b then _ else _] |- _ => destruct b eqn:?B | |- context [if ?b then _ else _] => destruct b eqn:?B end;
        repeat match goal with H : _ && _ = true |- _ => apply Bool.andb_true_iff in H as [? ?] end; try lia. left. f_equal. lia.
  - left. destruct (write alloc args (f_outs f) ov on oz _) as [[h2 l2]|]; [|discriminate]. injection E as <- _ _. split; [reflexivity|]. exists mv, ov, on, oz. reflexivity.
Qed.

(** ** C138: where it goes wrong *)
Lemma write_null args outs ov on oz : (exists i w, In (i, w) outs /\ is_null (nth i args (AV 0)) = true) -> forall h, write alloc args outs ov on oz h = None.
Proof.
  induction outs as [|[j w] o IH]; intros (i & w' & Ii & N) h; [destruct Ii|]. cbn [write]. destruct (is_null (nth j args (AV 0))) eqn:Nj; [reflexivity|].
  assert (Ho : forall h, write alloc args o ov on oz h = None) by (apply IH; destruct Ii as [E|Ii]; [injection E as -> ->; congruence|eauto]).
  destruct w; rewrite ?Ho; try reflexivity. destruct (on j); rewrite ?Ho; reflexivity.
Qed.
Lemma outs_slot ps : forall outs i p, outs_ok outs ps = true -> In (i, p) ps -> is_slot p = true -> exists w, In (i, w) outs.
Proof.
  induction ps as [|[j q] ps IH]; intros outs i p OK I S; [destruct I|]. cbn [outs_ok] in OK. destruct I as [E|I].
  - injection E as -> ->. destruct p; try discriminate; destruct outs as [|[j w] o]; try discriminate; destruct w; try discriminate; repeat (apply Bool.andb_true_iff in OK as [OK ?]); apply Nat.eqb_eq in OK; subst; eexists; left; reflexivity.
  - destruct q; try (exact (IH outs i p OK I S)); destruct outs as [|[j' w] o]; try discriminate; destruct w; try discriminate; apply Bool.andb_true_iff in OK as [OK OK2]; destruct (IH o i p OK2 I S) as (w & Iw); eexists; right; exact Iw.
Qed.
(** eight functions write a result through a null slot *)
Theorem C138_refuted_null_slot n f k c e h sl mv ov on oz : In n unchecked_slot -> f = fn_of n -> In f table /\
  (accounted e h sl -> both (fits e) (f_params f) c = true -> In (CO false) c ->
   (forall p x, In (p, x) (combine (f_params f) c) -> missing utf8 p x = true -> x = CO false) ->
   body (f_name f) k (map (input h) (map (resolve sl) c)) = BOk mv ov on oz -> mcall utf8 alloc body f k (map (resolve sl) c) h = MUB).
Proof.
  intros In0 ->. assert (T : forallb (fun n => existsb (fun g => String.eqb (f_name g) (f_name (fn_of n)) && if list_eq_dec step_dec (f_steps g) (f_steps (fn_of n)) then true else false) table &&
     (negb (mem wrong_type (f_name (fn_of n))) && sound (mem unchecked_slot) (fn_of n) && forallb (fun ip => negb (is_slot (snd ip)) || negb (does (f_steps (fn_of n)) (Null (fst ip) 0))) (index (f_params (fn_of n))))) unchecked_slot = true) by (vm_compute; reflexivity).
  rewrite forallb_forall in T. specialize (T n In0). apply Bool.andb_true_iff in T as [_ T]. apply Bool.andb_true_iff in T as [T Ts]. apply Bool.andb_true_iff in T as [_ So].
  split. { clear - In0. unfold fn_of. destruct (find (fun f => String.eqb (f_name f) n) table) eqn:Fd; [apply find_some in Fd; apply Fd|]. exfalso.
    assert (G : forallb (fun n => match find (fun f => String.eqb (f_name f) n) table with Some _ => true | None => false end) unchecked_slot = true) by (vm_compute; reflexivity).
    rewrite forallb_forall in G. specialize (G n In0). cbv beta in G. rewrite Fd in G. discriminate. }
  revert So Ts. generalize (fn_of n). clear n In0. intros f So Ts A F Hs Hm Hb.
  unfold sound in So. repeat (apply Bool.andb_true_iff in So as [So ?S0]). unfold mcall.
  destruct (steps_sound utf8 (f_params f) c e h sl A F (f_steps f) [] So (fun i (H : In i []) => match H with end)) as [(z' & R & _ & i & Mi & Di)|[R Hp]]; rewrite R.
  - exfalso. assert (Li : (i < length (f_params f))%nat). { destruct (Nat.lt_ge_cases i (length (f_params f))) as [H|H]; [exact H|]. rewrite !nth_overflow in Mi by (try rewrite <- (len_pc (f_params f) c e F); exact H). discriminate. }
    pose proof (Hm _ _ (combine_at (f_params f) c e F i Li) Mi) as Ci. rewrite forallb_forall in Ts. specialize (Ts _ (in_index (f_params f) i PVal Li)). cbn [fst snd] in Ts.
    pose proof (fits_at (f_params f) c e F i) as Fi. rewrite Ci in Fi. assert (Si : is_slot (nth i (f_params f) PVal) = true) by (destruct (nth i (f_params f) PVal); try discriminate; reflexivity).
    rewrite (Di Si), Si in Ts. discriminate.
  - destruct (aliased (map (resolve sl) c) (f_steps f)); [reflexivity|]. rewrite Hb. rewrite write_null; [reflexivity|].
    destruct (In_nth c (CO false) (CV 0) Hs) as (i & Li & Ei). pose proof (fits_at (f_params f) c e F i) as Fi. rewrite Ei in Fi.
    assert (Si : is_slot (nth i (f_params f) PVal) = true) by (destruct (nth i (f_params f) PVal); try discriminate; reflexivity).
    assert (Li' : (i < length (f_params f))%nat) by (rewrite (len_pc (f_params f) c e F); exact Li).
    destruct (outs_slot _ _ _ _ S0 (in_index (f_params f) i PVal Li') Si) as (w & Iw). exists i, w. split; [exact Iw|]. rewrite arg_at, Ei. reflexivity.
Qed.

Lemma del_look (h0 : list (addr * (ty * V))) q p x : NoDup (map fst h0) -> look (del h0 q) p = Some x -> look h0 p = Some x.
Proof.
  induction h0 as [|[r y] h0 IH]; cbn [del look map fst]; intros N L; [exact L|]. inversion N as [|a b N1 N2]; subst. destruct (r =? q)%nat eqn:Erq.
  - destruct (Nat.eqb_spec r p) as [->|]; [|exact L]. exfalso. cbn [fst] in N1. apply look_absent in N1. congruence.
  - cbn [look] in L. destruct (r =? p)%nat; [exact L|exact (IH N2 L)].
Qed.
Lemma go_live args l : forall (h h2 : list (addr * (ty * V))) i t, NoDup (map fst h) -> run_steps utf8 args l h = SGo h2 -> In (Take i t) l -> exists p, nth i args (AV 0) = AH p /\ look h p <> None.
Proof.
  assert (Dl : forall (h : list (addr * (ty * V))) q i, NoDup (map fst h) -> (exists p, nth i args (AV 0) = AH p /\ look (del h q) p <> None) -> exists p, nth i args (AV 0) = AH p /\ look h p <> None).
  { intros h q i N (p & E & L). exists p. split; [exact E|]. destruct (look (del h q) p) as [x|] eqn:Lx; [|congruence]. rewrite (del_look h q p x N Lx). discriminate. }
  induction l as [|s l IH]; intros h h2 i t N R I; [destruct I|]. destruct I as [->|I].
  - cbn [run_steps] in R. destruct (nth i args (AV 0)) as [p| | | | |]; try discriminate. exists p. split; [reflexivity|]. destruct (live h t p) eqn:Lv; [|discriminate]. unfold live in Lv. destruct (look h p); [discriminate|discriminate].
  - destruct s as [j k|j k|j k|j t' m|j t'|j t'|j t'|j t']; cbn [run_steps] in R.
    + destruct (is_null _); [discriminate|]. exact (IH _ _ _ _ N R I).
    + destruct (bad_str utf8 _); [discriminate|]. exact (IH _ _ _ _ N R I).
    + destruct (is_empty _); [discriminate|]. exact (IH _ _ _ _ N R I).
    + destruct (nth j args (AV 0)) as [p| | | | |]; try discriminate. destruct (live h t' p); [|discriminate]. exact (IH _ _ _ _ N R I).
    + destruct (nth j args (AV 0)) as [p| | | | |]; try discriminate. destruct ((p =? null)%nat || live h t' p); [|discriminate]. exact (IH _ _ _ _ N R I).
    + destruct (nth j args (AV 0)) as [|[ps|]| | | |]; try discriminate. destruct (forallb (live h t') ps); [|discriminate]. exact (IH _ _ _ _ N R I).
    + destruct (nth j args (AV 0)) as [p| | | | |]; try discriminate. destruct (live h t' p); [|discriminate]. apply (Dl h p i N). exact (IH _ _ _ _ (del_nodup _ _ N) R I).
    + destruct (nth j args (AV 0)) as [p| | | | |]; try discriminate. destruct (p =? null)%nat; [exact (IH _ _ _ _ N R I)|]. destruct (live h t' p); [|discriminate]. apply (Dl h p i N). exact (IH _ _ _ _ (del_nodup _ _ N) R I).
Qed.
Lemma go_no_trip args l : forall (h h2 : list (addr * (ty * V))), run_steps utf8 args l h = SGo h2 -> first_trip args (checks l) = None.
Proof.
  induction l as [|s l IH]; intros h h2 E; [reflexivity|]. destruct s as [i k|i k|i k|i t m|i t|i t|i t|i t]; cbn [run_steps checks filter] in *; cbn [first_trip trips]; change (filter _ l) with (checks l).
  - destruct (is_null (nth i args (AV 0))); [discriminate|exact (IH _ _ E)].
  - destruct (bad_str utf8 (nth i args (AV 0))); [discriminate|exact (IH _ _ E)].
  - destruct (is_empty (nth i args (AV 0))); [discriminate|exact (IH _ _ E)].
  - destruct (nth i args (AV 0)); try discriminate. destruct (live h t p); [exact (IH _ _ E)|discriminate].
  - destruct (nth i args (AV 0)); try discriminate. destruct ((p =? null)%nat || live h t p); [exact (IH _ _ E)|discriminate].
  - destruct (nth i args (AV 0)); try discriminate. destruct ps as [ps|]; [|discriminate]. destruct (forallb (live h t) ps); [exact (IH _ _ E)|discriminate].
  - destruct (nth i args (AV 0)); try discriminate. destruct (live h t p); [exact (IH _ _ E)|discriminate].
  - destruct (nth i args (AV 0)); try discriminate. destruct (p =? null)%nat; [exact (IH _ _ E)|]. destruct (live h t p); [exact (IH _ _ E)|discriminate].
Qed.
(** retrying a failed call that deallocates an instance is undefined behaviour *)
Theorem C138_refuted_retry f k k' c e h sl z h' l i t : In f table -> mem wrong_type (f_name f) = false -> accounted e h sl -> both (fits e) (f_params f) c = true ->
  nth i (f_params f) PVal = PTake t -> mcall utf8 alloc body f k (map (resolve sl) c) h = MDone z h' l -> z <> success -> mcall utf8 alloc body f k' (map (resolve sl) c) h' = MUB.
Proof.
  intros I W A F Pi E Nz. destruct (C137_failed_call f k c e h sl z h' l I W A F E Nz) as (_ & K & _).
  pose proof (in_sound f I W) as So. unfold sound in So. repeat (apply Bool.andb_true_iff in So as [So ?S0]). apply nats_eqb_eq in S1.
  assert (Li : (i < length (f_params f))%nat) by (destruct (Nat.lt_ge_cases i (length (f_params f))) as [H|H]; [exact H|rewrite nth_overflow in Pi by exact H; discriminate]).
  assert (It : In i (takes (f_steps f))). { rewrite S1. unfold take_params. apply in_flat_map. exists (i, PTake t). split; [rewrite <- Pi; apply in_index, Li|left; reflexivity]. }
  assert (Is : exists t', In (Take i t') (f_steps f)).
  { rewrite forallb_forall in S4. specialize (S4 _ (in_index (f_params f) i PVal Li)). rewrite Pi in S4. unfold covered in S4. apply Bool.andb_true_iff in S4 as [_ S4]. apply existsb_exists in S4 as (s & Is & Es). destruct s; try discriminate. cbn [step_eqb] in Es. apply Bool.andb_true_iff in Es as [Es _]. apply Nat.eqb_eq in Es. subst. eauto. }
  destruct Is as (t' & Is).
  unfold mcall in E. destruct (run_steps utf8 (map (resolve sl) c) (f_steps f) h) as [|z1 h1|h1] eqn:R; try discriminate.
  pose proof (go_no_trip _ _ _ _ R) as Nt.
  assert (N' : NoDup (map fst h')) by (rewrite K; apply NoDup_filter, A).
  unfold mcall. destruct (run_steps utf8 (map (resolve sl) c) (f_steps f) h') as [|z2 h2|h2] eqn:R'; [reflexivity| |].
  - apply early_trip in R'. congruence.
  - exfalso. destruct (go_live _ _ _ _ _ _ N' R' Is) as (p & Ep & Lp). apply Lp. apply look_absent. rewrite K. intros Ip. apply filter_In in Ip as [_ Ip].
    assert (Gp : In p (given_up (f_params f) (map (resolve sl) c))).
    { pose proof (given_up_takes (f_params f) c sl [] (len_pc (f_params f) c e F)) as G. cbn [app length] in G. rewrite <- G. apply in_flat_map. exists i. split; [rewrite S1 in It; exact It|]. rewrite Ep. cbn [addrs_of].
      destruct (Nat.eqb_spec p null) as [->|]; [|left; reflexivity]. exfalso. destruct (go_live _ _ _ _ _ _ (proj1 (proj2 A)) R Is) as (q & Eq & Lq). rewrite Ep in Eq. injection Eq as <-. apply Lq. apply look_absent, A. }
    apply Bool.negb_true_iff in Ip. assert (existsb (Nat.eqb p) (given_up (f_params f) (map (resolve sl) c)) = true); [|congruence]. apply existsb_exists. exists p. split; [exact Gp|apply Nat.eqb_refl].
Qed.

(** converting a delta to JSON reads it as an instance of another type *)
Theorem C138_refuted_delta_to_json k n g e h sl : accounted e h sl -> holds e TRevocationRegistryDelta n = true ->
  mcall utf8 alloc body (fn_of "ursa_cl_revocation_registry_delta_to_json"%string) k [AH (sl n); AO g] h = MUB.
Proof.
  intros A Hn. assert (Ef : fn_of "ursa_cl_revocation_registry_delta_to_json" = mkFn "ursa_cl_revocation_registry_delta_to_json" [PIn TRevocationRegistryDelta false; POutStr] [Null 0 100; Ref 0 TSignatureCorrectnessProof false; Null 1 101] [(1%nat, WStr)]) by (vm_compute; reflexivity).
  rewrite Ef. unfold mcall. cbn [f_steps run_steps nth is_null]. assert (Nn := acc_nonnull _ _ _ _ A (holds_in _ _ _ Hn)). apply Nat.eqb_neq in Nn. rewrite Nn.
  pose proof (acc_live _ _ _ _ _ A Hn) as L. unfold live in *. destruct (look h (sl n)) as [[t v]|]; [|discriminate]. apply ty_eqb_eq in L. subst t. reflexivity.
Qed.
(** a delta read from JSON is not a delta: releasing it as one, or passing it on, is undefined
    behaviour *)
Theorem C138_refuted_delta_from_json s sl mv ov on oz : utf8 s = true -> s <> [] -> body "ursa_cl_revocation_registry_delta_from_json" 0 [IB (Some s); INone] = BOk mv ov on oz ->
  mrun utf8 alloc body 0 [(fn_of "ursa_cl_revocation_registry_delta_from_json", [CS (Some s); CO true]); (fn_of "ursa_cl_revocation_registry_delta_free", [CH (Some (0%nat, 1%nat))])] [] sl None = RUB.
Proof.
  intros Us Ns Hb. assert (E1 : fn_of "ursa_cl_revocation_registry_delta_from_json" = mkFn "ursa_cl_revocation_registry_delta_from_json" [PStr; POut TRevocationRegistryDelta] [StrOk 0 100; Null 1 101] [(1%nat, WBox TSignatureCorrectnessProof)]) by (vm_compute; reflexivity).
  assert (E2 : fn_of "ursa_cl_revocation_registry_delta_free" = mkFn "ursa_cl_revocation_registry_delta_free" [PTake TRevocationRegistryDelta] [Null 0 100; Take 0 TRevocationRegistryDelta] []) by (vm_compute; reflexivity).
  rewrite E1, E2. cbn [mrun map resolve]. unfold mcall at 1. cbn [f_steps run_steps nth is_null bad_str]. rewrite Us. destruct s as [|y s]; [congruence|]. cbn [negb orb].
  unfold aliased. cbn [exclusive flat_map app existsb]. cbn [f_name map input]. rewrite Hb. cbn [f_outs write nth is_null mutate fold_left store snd fst].
  unfold mcall. cbn [f_steps run_steps nth is_null]. unfold name_eqb. cbn [fst snd Nat.eqb andb].
  destruct (HA []) as (F1 & _). apply Nat.eqb_neq in F1. change (@nil (addr * (ty * V))) with (@nil (nat * (ty * V))) in *. rewrite F1. unfold live. cbn [look]. rewrite Nat.eqb_refl. reflexivity.
Qed.
(** merging two deltas gives a pointer that is no delta; merging a delta with itself is undefined
    behaviour *)
Theorem C138_refuted_merge k k' n m e h sl mv ov on oz : accounted e h sl -> holds e TRevocationRegistryDelta n = true -> holds e TRevocationRegistryDelta m = true -> n <> m ->
  body "ursa_cl_issuer_merge_revocation_registry_deltas" k [input_n e (CH (Some n)); input_n e (CH (Some m)); INone] = BOk mv ov on oz ->
  exists h', mcall utf8 alloc body (fn_of "ursa_cl_issuer_merge_revocation_registry_deltas") k [AH (sl n); AH (sl m); AO true] h = MDone success h' [(2%nat, SPtr unit_box)] /\
    mcall utf8 alloc body (fn_of "ursa_cl_revocation_registry_delta_free") k' [AH unit_box] h' = MUB.
Proof.
  intros A Hn Hm Nnm Hb.
  assert (E1 : fn_of "ursa_cl_issuer_merge_revocation_registry_deltas" = mkFn "ursa_cl_issuer_merge_revocation_registry_deltas" [PIn TRevocationRegistryDelta true; PIn TRevocationRegistryDelta false; POut TRevocationRegistryDelta] [Null 0 100; Ref 0 TRevocationRegistryDelta true; Null 1 101; Ref 1 TRevocationRegistryDelta false] [(2%nat, WUnit)]) by (vm_compute; reflexivity).
  assert (E2 : fn_of "ursa_cl_revocation_registry_delta_free" = mkFn "ursa_cl_revocation_registry_delta_free" [PTake TRevocationRegistryDelta] [Null 0 100; Take 0 TRevocationRegistryDelta] []) by (vm_compute; reflexivity).
  assert (N1 := acc_nonnull _ _ _ _ A (holds_in _ _ _ Hn)). apply Nat.eqb_neq in N1. assert (N2 := acc_nonnull _ _ _ _ A (holds_in _ _ _ Hm)). apply Nat.eqb_neq in N2.
  exists (put h (sl n) (fun x => (fst x, mv 0%nat))). split.
  - rewrite E1. unfold mcall. cbn [f_steps run_steps nth is_null]. rewrite N1, N2, (acc_live _ _ _ _ _ A Hn), (acc_live _ _ _ _ _ A Hm).
    assert (Al : aliased [AH (sl n); AH (sl m); AO true] [Null 0 100; Ref 0 TRevocationRegistryDelta true; Null 1 101; Ref 1 TRevocationRegistryDelta false] = false).
    { unfold aliased. cbn [exclusive flat_map app existsb length seq nth addrs_of Nat.eqb negb andb]. rewrite N1, N2. cbn [existsb].
      destruct (Nat.eqb_spec (sl n) (sl m)) as [En|]; [|reflexivity]. exfalso. apply Nnm. exact (acc_inj _ _ _ A n m (holds_in _ _ _ Hn) (holds_in _ _ _ Hm) En). }
    rewrite Al. cbn [f_name map].
    assert (Iv : forall x, holds e TRevocationRegistryDelta x = true -> input h (AH (sl x)) = input_n e (CH (Some x))).
    { intros x Hx. cbn [input input_n]. unfold value. pose proof A as (Eh & _). rewrite Eh. change (map (fun y => (sl (fst y), snd y)) e) with (hp sl e). rewrite (sim_look sl (dom e) e x (acc_inj _ _ _ A) (incl_refl _) (holds_in _ _ _ Hx)). reflexivity. }
    rewrite (Iv n Hn), (Iv m Hm). cbn [input]. rewrite Hb. reflexivity.
  - rewrite E2. unfold mcall. cbn [f_steps run_steps nth is_null]. change (unit_box =? null)%nat with false. cbn iota.
    assert (L : look (put h (sl n) (fun x => (fst x, mv 0%nat))) unit_box = None) by (apply look_absent; rewrite put_keys; apply A). unfold live. rewrite L. reflexivity.
Qed.
Theorem C138_refuted_merge_same k n g e h sl : accounted e h sl -> holds e TRevocationRegistryDelta n = true ->
  mcall utf8 alloc body (fn_of "ursa_cl_issuer_merge_revocation_registry_deltas") k [AH (sl n); AH (sl n); AO g] h = MUB.
Proof.
  intros A Hn.
  assert (E1 : fn_of "ursa_cl_issuer_merge_revocation_registry_deltas" = mkFn "ursa_cl_issuer_merge_revocation_registry_deltas" [PIn TRevocationRegistryDelta true; PIn TRevocationRegistryDelta false; POut TRevocationRegistryDelta] [Null 0 100; Ref 0 TRevocationRegistryDelta true; Null 1 101; Ref 1 TRevocationRegistryDelta false] [(2%nat, WUnit)]) by (vm_compute; reflexivity).
  assert (N1 := acc_nonnull _ _ _ _ A (holds_in _ _ _ Hn)). apply Nat.eqb_neq in N1.
  rewrite E1. unfold mcall. cbn [f_steps run_steps nth is_null]. rewrite N1, (acc_live _ _ _ _ _ A Hn).
  assert (Al : aliased [AH (sl n); AH (sl n); AO g] [Null 0 100; Ref 0 TRevocationRegistryDelta true; Null 1 101; Ref 1 TRevocationRegistryDelta false] = true).
  { unfold aliased. cbn [exclusive flat_map app existsb length seq nth addrs_of Nat.eqb negb andb]. rewrite N1. cbn [existsb]. rewrite Nat.eqb_refl. reflexivity. }
  rewrite Al. reflexivity.
Qed.
(** a null element in the array of signatures is not noticed *)
Theorem C138_refuted_null_element k ps x g e h sl : accounted e h sl -> In null ps ->
  mcall utf8 alloc body (fn_of "ursa_bls_multi_signature_new") k [AHs (Some ps); AV x; AO g] h = MUB.
Proof.
  intros A Hn. assert (E1 : fn_of "ursa_bls_multi_signature_new" = mkFn "ursa_bls_multi_signature_new" [PArr TSignature; PVal; POut TMultiSignature] [Null 0 100; LenOk 0 101; Refs 0 TSignature; Null 2 102] [(2%nat, WBox TMultiSignature)]) by (vm_compute; reflexivity).
  rewrite E1. unfold mcall. cbn [f_steps run_steps nth is_null is_empty]. destruct ps as [|p ps]; [destruct Hn|].
  assert (L : forallb (live h TSignature) (p :: ps) = false).
  { destruct (forallb (live h TSignature) (p :: ps)) eqn:Ef; [|reflexivity]. rewrite forallb_forall in Ef. specialize (Ef null Hn). unfold live in Ef. assert (Ln : look h null = None) by (apply look_absent, A). rewrite Ln in Ef. discriminate. }
  rewrite L. reflexivity.
Qed.
(** the code for a null result slot blames the bytes *)
Theorem C136_refuted_from_bytes n k b x h : In n ["ursa_bls_generator_from_bytes"; "ursa_bls_sign_key_from_bytes"; "ursa_bls_ver_key_from_bytes"; "ursa_bls_signature_from_bytes"; "ursa_bls_multi_signature_from_bytes"]%string -> b <> [] ->
  mcall utf8 alloc body (fn_of n) k [AB (Some b); AV x; AO false] h = MRefused 100 h.
Proof.
  intros I Nb. destruct b as [|y b]; [congruence|].
  assert (E : checks (f_steps (fn_of n)) = [Null 0 100; LenOk 0 101; Null 2 100] /\ f_steps (fn_of n) = checks (f_steps (fn_of n))) by (repeat (destruct I as [<-|I]; [split; vm_compute; reflexivity|]); destruct I).
  destruct E as [E1 E2]. unfold mcall. rewrite E2, E1. reflexivity.
Qed.

(** C139: the error reported is that of the last call that failed, whatever calls succeeded since *)
Theorem C139_last_error : forall p k h sl last o h' sl' la, mrun utf8 alloc body k p h sl last = REnd o h' sl' la -> la = match last_failed k o with Some j => Some j | None => last end.
Proof.
  induction p as [|[f c] p IH]; intros k h sl last o h' sl' la R; cbn [mrun] in R; [injection R as <- _ _ <-; reflexivity|].
  destruct (mcall utf8 alloc body f k (map (resolve sl) c) h) as [| |z h1|z h1 l]; try discriminate.
  - destruct (mrun utf8 alloc body (S k) p h1 sl (Some k)) as [|o1|o1 h2 sl2 la2] eqn:R2; try discriminate. injection R as <- _ _ <-. apply IH in R2. cbn [last_failed failed]. destruct (last_failed (S k) o1); exact R2.
  - destruct (mrun utf8 alloc body (S k) p h1 (store k l sl) (if z =? success then last else Some k)) as [|o1|o1 h2 sl2 la2] eqn:R2; try discriminate. injection R as <- _ _ <-. apply IH in R2. cbn [last_failed failed]. destruct (last_failed (S k) o1); [exact R2|]. destruct (z =? success); exact R2.
Qed.
End Ffi.

(** C140: every type of instance the interface hands out is deallocated by some function of it;
    the five builders and the proof verifier only by being finalized, the others by a
    function that does nothing else *)
Definition gives (t : ty) (f : fn) : Prop := In (POut t) (f_params f) \/ In (POutOpt t) (f_params f) \/ (t = TCString /\ In POutStr (f_params f)).
Definition unfinished : list ty := [TCredentialSchemaBuilder; TNonCredentialSchemaBuilder; TCredentialValuesBuilder; TSubProofRequestBuilder; TProofBuilder; TProofVerifier].
Theorem C140_releasable t : (exists f, In f table /\ gives t f) /\
  (In t unfinished -> (exists f, In f table /\ In (PTake t) (f_params f) /\ (1 < length (f_params f))%nat) /\ ~ exists f, In f table /\ (f_params f = [PTake t] \/ f_params f = [PTakeOpt t])) /\
  (~ In t unfinished -> exists f, In f table /\ (f_params f = [PTake t] \/ f_params f = [PTakeOpt t])).
Proof.
  assert (G : existsb (fun f => existsb (fun p => match p with POut t' | POutOpt t' => ty_eqb t' t | POutStr => ty_eqb TCString t | _ => false end) (f_params f)) table = true) by (destruct t; vm_compute; reflexivity).
  assert (U : if existsb (ty_eqb t) unfinished then existsb (fun f => existsb (fun p => match p with PTake t' => ty_eqb t' t | _ => false end) (f_params f) && (1 <? length (f_params f))%nat) table = true /\
      existsb (fun f => match f_params f with [PTake t'] | [PTakeOpt t'] => ty_eqb t' t | _ => false end) table = false
    else existsb (fun f => match f_params f with [PTake t'] | [PTakeOpt t'] => ty_eqb t' t | _ => false end) table = true) by (destruct t; vm_compute; try split; reflexivity).
  split; [|split].
  - apply existsb_exists in G as (f & If & G). exists f. split; [exact If|]. apply existsb_exists in G as (p & Ip & G). unfold gives. destruct p; try discriminate; apply ty_eqb_eq in G; subst; auto.
  - intros Iu. assert (Eu : existsb (ty_eqb t) unfinished = true) by (apply existsb_exists; exists t; split; [exact Iu|apply ty_eqb_eq; reflexivity]). rewrite Eu in U. destruct U as [U1 U2]. split.
    + apply existsb_exists in U1 as (f & If & U1). apply Bool.andb_true_iff in U1 as [U1 U3]. exists f. split; [exact If|]. split; [|apply Nat.ltb_lt, U3]. apply existsb_exists in U1 as (p & Ip & U1). destruct p; try discriminate. apply ty_eqb_eq in U1. subst. exact Ip.
    + intros (f & If & Hf). assert (X : existsb (fun f => match f_params f with [PTake t'] | [PTakeOpt t'] => ty_eqb t' t | _ => false end) table = true); [|congruence].
      apply existsb_exists. exists f. split; [exact If|]. destruct Hf as [-> | ->]; apply ty_eqb_eq; reflexivity.
  - intros Nu. destruct (existsb (ty_eqb t) unfinished) eqn:Eu; [exfalso; apply Nu; apply existsb_exists in Eu as (u & Iu & Eu); apply ty_eqb_eq in Eu; subst; exact Iu|].
    apply existsb_exists in U as (f & If & U). exists f. split; [exact If|]. destruct (f_params f) as [|p [|q ps]]; [discriminate| |destruct p; discriminate]. destruct p; try discriminate; apply ty_eqb_eq in U; subst; auto.
Qed.

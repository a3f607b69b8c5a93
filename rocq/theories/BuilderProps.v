(** Property C41: builders. *)
From Verif Require Import Base BnModel BnProofs BnProps StrMap HelpersModel ClModel ClSpec Alg ClRevModel ClProofModel ClPresSpec ClPresentation ClVerify BuilderModel.
From Coq Require Import Permutation.
Open Scope string_scope.
Open Scope list_scope.
Open Scope Z_scope.

(** ** specification: what the calls mean *)
(** the attribute and value a call adds; None if a number does not parse *)
Definition adds (o : values_op) : option (string * cred_value) :=
  match o with
  | DecKnown a s => match bn_from_dec s with Ok x => Some (a, Known x) | Err _ => None end
  | DecHidden a s => match bn_from_dec s with Ok x => Some (a, Hidden x) | Err _ => None end
  | DecCommitment a s r => match bn_from_dec s, bn_from_dec r with Ok x, Ok y => Some (a, Commitment x y) | _, _ => None end
  | ValKnown a x => Some (a, Known x)
  | ValHidden a x => Some (a, Hidden x)
  | ValCommitment a x r => Some (a, Commitment x r)
  end.
(** [v] was added under the name [k] and nothing was added under [k] later *)
Definition last_added (ops : list values_op) (k : string) (v : cred_value) : Prop :=
  exists before o after, ops = before ++ o :: after /\ adds o = Some (k, v) /\ forall o' v', In o' after -> adds o' <> Some (k, v').
(** the predicate types users can name *)
Definition named_type (s : string) : option predicate_type :=
  match s with "GE" => Some GE | "LE" => Some LE | "GT" => Some GT | "LT" => Some LT | _ => None end.

Lemma call_adds b o : fst (values_call b o) = match adds o with Some (k, v) => bt_insert k v b | None => b end.
Proof.
  destruct o; cbn [values_call adds]; unfold values_add_dec_known, values_add_dec_hidden, values_add_dec_commitment;
    repeat (match goal with |- context [bn_from_dec ?s] => destruct (bn_from_dec s) end); reflexivity.
Qed.
Definition vrun ops b := fold_left (fun b o => fst (values_call b o)) ops b.
Lemma vrun_sorted : forall ops b, ssorted (sm_keys b) -> ssorted (sm_keys (vrun ops b)).
Proof.
  induction ops as [|o ops IH]; intros b Hb; cbn [vrun fold_left]; [assumption|]. apply IH. rewrite call_adds. destruct (adds o) as [[k v]|]; [now apply bt_insert_sorted|assumption].
Qed.
Lemma vrun_get k : forall ops b v, sm_get k (vrun ops b) = Some v <-> last_added ops k v \/ ((forall o v', In o ops -> adds o <> Some (k, v')) /\ sm_get k b = Some v).
Proof.
  induction ops as [|o ops IH]; intros b v; cbn [vrun fold_left].
  { split; [intros E; right; split; [intros o v' []|assumption]|]. intros [(bf & o & af & E & _)|[_ E]]; [destruct bf; discriminate|assumption]. }
  change (fold_left _ ops ?x) with (vrun ops x). rewrite IH, call_adds. split.
  - intros [(bf & o' & af & -> & E1 & E2)|[E1 E2]]; [left; exists (o :: bf), o', af; auto|].
    destruct (adds o) as [[k' v1]|] eqn:Ea.
    + rewrite sm_get_bt_insert in E2. destruct (String.eqb_spec k k') as [<-|N].
      * left. exists [], o, ops. split; [reflexivity|]. split; [congruence|exact E1].
      * right. split; [|assumption]. intros o' v' [<-|Ho]; [rewrite Ea; congruence|now apply E1].
    + right. split; [|assumption]. intros o' v' [<-|Ho]; [rewrite Ea; discriminate|now apply E1].
  - intros [(bf & o' & af & E & E1 & E2)|[E1 E2]].
    + destruct bf as [|o1 bf]; cbn [app] in E.
      * assert (o = o' /\ ops = af) as [-> ->] by (split; congruence). right. split; [exact E2|]. rewrite E1, sm_get_bt_insert, String.eqb_refl. reflexivity.
      * assert (o = o1 /\ ops = bf ++ o' :: af) as [-> ->] by (split; congruence). left. exists bf, o', af. auto.
    + right. split; [intros o' v' Ho; apply E1; now right|]. destruct (adds o) as [[k' v1]|] eqn:Ea; [|assumption].
      rewrite sm_get_bt_insert. destruct (String.eqb_spec k k') as [<-|N]; [|assumption]. exfalso. apply (E1 o v1); [now left|exact Ea].
Qed.
(** a map with sorted keys is determined by its lookups *)
Lemma smap_sorted_ext {V} (a b : smap V) : ssorted (sm_keys a) -> ssorted (sm_keys b) -> (forall k, sm_get k a = sm_get k b) -> a = b.
Proof.
  intros Sa Sb E. assert (sm_keys a = sm_keys b) as K by (apply sorted_ext; auto; intros k; rewrite !sm_get_keys, E; reflexivity).
  revert b Sb E K. induction a as [|[k v] a IH]; intros [|[k' v'] b] Sb E K; try discriminate; [reflexivity|].
  cbn [sm_keys map fst] in K. assert (k = k') as <- by congruence. assert (v = v') as <-.
  { pose proof (E k) as Ek. cbn [sm_get] in Ek. rewrite String.eqb_refl in Ek. congruence. }
  f_equal. destruct Sa as [Sa1 Sa2], Sb as [Sb1 Sb2]. apply IH; auto.
  - intros x. pose proof (E x) as Ex. cbn [sm_get] in Ex. destruct (String.eqb_spec x k) as [E0|N]; [clear Ex; subst x|exact Ex].
    rewrite (proj2 (sm_get_none k a)), (proj2 (sm_get_none k b)); [reflexivity| |]; intros Hin; [apply Sb1 in Hin|apply Sa1 in Hin]; now apply slt_irrefl in Hin.
  - unfold sm_keys. congruence.
Qed.

(** ** schemas *)
(** the schema is the set of all added names: ascending, each once *)
Theorem C41_schema_exact : forall attrs, exists s, schema_run attrs = Ok s /\ ssorted s /\ NoDup s /\ forall k, In k s <-> In k attrs.
Proof.
  intros attrs. exists (ss_of_list attrs). split; [reflexivity|]. split; [apply ss_of_list_sorted|]. split; [apply sorted_nodup, ss_of_list_sorted|]. apply ss_of_list_in.
Qed.
Theorem C41_schema_order : forall attrs attrs', (forall k, In k attrs <-> In k attrs') -> schema_run attrs = schema_run attrs'.
Proof.
  intros attrs attrs' E. unfold schema_run, schema_finalize. f_equal. apply (sorted_ext (ss_of_list attrs) (ss_of_list attrs')); try apply ss_of_list_sorted.
  intros k. rewrite !ss_of_list_in. apply E.
Qed.

(** ** values *)
Theorem C41_values_last_wins : forall ops, exists vals, values_run ops = Ok vals /\ ssorted (sm_keys vals) /\
  forall k v, sm_get k vals = Some v <-> last_added ops k v.
Proof.
  intros ops. exists (vrun ops []). split; [reflexivity|]. split; [apply vrun_sorted; exact I|]. intros k v. rewrite vrun_get. split; [|auto]. now intros [Q|[_ Q]].
Qed.
(** with one call per name the order of the calls does not matter *)
Theorem C41_values_order : forall ops ops', Permutation ops ops' ->
  NoDup (map (fun o => match adds o with Some (k, _) => Some k | None => None end) (filter (fun o => match adds o with Some _ => true | None => false end) ops)) ->
  values_run ops = values_run ops'.
Proof.
  intros ops ops' P N. unfold values_run, values_finalize. f_equal. apply (smap_sorted_ext (vrun ops []) (vrun ops' [])); try (apply vrun_sorted; exact I).
  intros k. assert (forall ops ops' v, Permutation ops ops' -> NoDup (map (fun o => match adds o with Some (k, _) => Some k | None => None end) (filter (fun o => match adds o with Some _ => true | None => false end) ops)) ->
    sm_get k (vrun ops []) = Some v -> sm_get k (vrun ops' []) = Some v) as G.
  { clear. intros ops ops' v P N E. apply vrun_get in E as [(bf & o & af & -> & E1 & E2)|[_ E]]; [|discriminate]. apply vrun_get. left.
    assert (In o ops') as Ho by (eapply Permutation_in; [exact P|]; apply in_or_app; right; now left).
    apply in_split in Ho as (bf' & af' & ->). exists bf', o, af'. split; [reflexivity|]. split; [exact E1|].
    intros o' v' Ho' E'.
    assert (Permutation (bf ++ af) (bf' ++ af')) as P'.
    { apply Permutation_cons_inv with (a := o). rewrite !Permutation_middle. exact P. }
    assert (In o' (bf ++ af)) as Hin by (eapply Permutation_in; [symmetry; exact P'|]; apply in_or_app; now right).
    rewrite filter_app, map_app in N. cbn [filter] in N. rewrite E1 in N. cbn [map] in N. rewrite E1 in N. apply NoDup_remove_2 in N. apply N.
    rewrite <- map_app, <- filter_app. apply in_map_iff. exists o'. rewrite E'. split; [reflexivity|]. apply filter_In. split; [exact Hin|now rewrite E']. }
  destruct (sm_get k (vrun ops [])) as [v|] eqn:E.
  - symmetry. now apply (G ops ops').
  - destruct (sm_get k (vrun ops' [])) as [v|] eqn:E'; [|reflexivity]. exfalso.
    assert (sm_get k (vrun ops []) = Some v) as Q; [|congruence]. apply (G ops' ops v); [now symmetry| |exact E'].
    eapply Permutation_NoDup; [|exact N]. apply Permutation_map. clear - P. induction P; cbn [filter].
    + constructor.
    + destruct (adds x); [now constructor|assumption].
    + destruct (adds x), (adds y); try reflexivity. apply perm_swap.
    + eapply perm_trans; eassumption.
Qed.
(** a number that does not parse: the error of [from_dec], nothing is added *)
Theorem C41_bad_number : forall b o e, snd (values_call b o) = Err e -> fst (values_call b o) = b /\ adds o = None /\
  exists s, In s (match o with DecKnown _ s => [s] | DecHidden _ s => [s] | DecCommitment _ s r => [s; r] | _ => [] end) /\ bn_from_dec s = Err e.
Proof.
  intros b o e. destruct o; cbn [values_call adds]; unfold values_add_dec_known, values_add_dec_hidden, values_add_dec_commitment, values_add_value_known, values_add_value_hidden, values_add_value_commitment;
    repeat (match goal with |- context [bn_from_dec ?s] => destruct (bn_from_dec s) eqn:? end); cbn [fst snd]; intros E; try discriminate; assert (e = e0) as -> by congruence;
    (split; [reflexivity|]); (split; [reflexivity|]); (eexists; split; [|eassumption]); cbn; auto.
Qed.
(** decimal strings of integers and integers are interchangeable *)
Theorem C41_decimal : forall b a x r,
  values_add_dec_known b a (bn_to_dec x) = values_add_value_known b a x /\ values_add_dec_hidden b a (bn_to_dec x) = values_add_value_hidden b a x /\
  values_add_dec_commitment b a (bn_to_dec x) (bn_to_dec r) = values_add_value_commitment b a x r.
Proof.
  intros b a x r. assert (forall y, bn_from_dec (bn_to_dec y) = Ok y) as E by (intros y; exact (proj1 (C06_dec_hex_roundtrip y))).
  unfold values_add_dec_known, values_add_dec_hidden, values_add_dec_commitment. rewrite !E. auto.
Qed.

(** ** sub proof requests *)
Definition rrun ops b := fold_left (fun b o => fst (request_call b o)) ops b.
Lemma add_predicate_spec b a t v : request_add_predicate b a t v =
  match named_type t with
  | Some ty => (mkSubReq (rq_revealed b) (pset_insert (mkPred a ty v) (rq_predicates b)), Ok tt)
  | None => (b, Err InvalidStructure)
  end.
Proof.
  unfold request_add_predicate. destruct (String.eqb_spec t "GE") as [->|N1]; [reflexivity|]. destruct (String.eqb_spec t "LE") as [->|N2]; [reflexivity|].
  destruct (String.eqb_spec t "GT") as [->|N3]; [reflexivity|]. destruct (String.eqb_spec t "LT") as [->|N4]; [reflexivity|].
  assert (named_type t = None) as ->; [|reflexivity].
  unfold named_type. repeat (match goal with |- context [match ?x with _ => _ end] => is_var x; destruct x end; try reflexivity); congruence.
Qed.
Lemma rrun_in : forall ops b, (forall k, In k (rq_revealed (rrun ops b)) <-> In (Reveal k) ops \/ In k (rq_revealed b)) /\
  (forall p, In p (rq_predicates (rrun ops b)) <-> (exists t, In (AddPredicate (p_attr p) t (p_value p)) ops /\ named_type t = Some (p_type p)) \/ In p (rq_predicates b)).
Proof.
  induction ops as [|o ops IH]; intros b; cbn [rrun fold_left].
  { split; intros x; cbn [In]; [tauto|]. split; [auto|]. intros [(t & [] & _)|Q]; assumption. }
  change (fold_left _ ops ?x) with (rrun ops x). destruct (IH (fst (request_call b o))) as [I1 I2]. split.
  - intros k. rewrite I1. destruct o as [a|a t v]; cbn [request_call request_add_revealed fst rq_revealed In].
    + rewrite ss_insert_in. split; [intros [Q|[->|Q]]; auto|]. intros [[Q|Q]|Q]; auto. right. left. congruence.
    + rewrite add_predicate_spec. destruct (named_type t); cbn [fst rq_revealed]; (split; [intros [Q|Q]; auto|]; intros [[Q|Q]|Q]; auto; discriminate).
  - intros p. rewrite I2. destruct o as [a|a t v]; cbn [request_call request_add_revealed fst rq_predicates In].
    + split; [intros [(t & Q1 & Q2)|Q]; eauto|]. intros [(t & [Q1|Q1] & Q2)|Q]; eauto. discriminate.
    + rewrite add_predicate_spec. destruct (named_type t) as [ty|] eqn:Et; cbn [fst rq_predicates].
      * rewrite pset_insert_in. split.
        -- intros [(t0 & Q1 & Q2)|[->|Q]]; [left; exists t0; auto|left; exists t; cbn [p_attr p_value p_type]; auto|auto].
        -- intros [(t' & [Q1|Q1] & Q2)|Q]; eauto. right. left. assert (a = p_attr p /\ t = t' /\ v = p_value p) as (-> & <- & ->) by (split; [|split]; congruence).
           destruct p as [pa pt pv]. cbn [p_attr p_type p_value] in *. congruence.
      * split; [intros [(t' & Q1 & Q2)|Q]; eauto|]. intros [(t' & [Q1|Q1] & Q2)|Q]; eauto. exfalso. congruence.
Qed.
Lemma psorted_of_list s : psorted s -> pset_of_list s = s.
Proof. intros S. apply psorted_ext; [apply pset_of_list_sorted|assumption|intros x; apply pset_of_list_in]. Qed.
Lemma rrun_sorted : forall ops b, ssorted (rq_revealed b) -> psorted (rq_predicates b) -> ssorted (rq_revealed (rrun ops b)) /\ psorted (rq_predicates (rrun ops b)).
Proof.
  induction ops as [|o ops IH]; intros b S1 S2; cbn [rrun fold_left]; [auto|]. apply IH; destruct o as [a|a t v]; cbn [request_call request_add_revealed fst rq_revealed rq_predicates];
    try rewrite add_predicate_spec; try (destruct (named_type t)); cbn [fst rq_revealed rq_predicates]; auto; [now apply ss_insert_sorted|now apply pset_insert_sorted].
Qed.
(** the request is the set of all revealed names and all predicates with a valid type;
    it is of the form the presentation theorems ask for *)
Theorem C41_request_exact : forall ops, exists r, request_run ops = Ok r /\ wf_req r /\
  (forall k, In k (rq_revealed r) <-> In (Reveal k) ops) /\
  (forall p, In p (rq_predicates r) <-> exists t, In (AddPredicate (p_attr p) t (p_value p)) ops /\ named_type t = Some (p_type p)).
Proof.
  intros ops. exists (rrun ops request_new). split; [reflexivity|]. destruct (rrun_sorted ops request_new I I) as [S1 S2]. split; [split; [exact S1|now apply psorted_of_list]|].
  destruct (rrun_in ops request_new) as [I1 I2]. split; [intros k; rewrite I1|intros p; rewrite I2]; cbn [request_new rq_revealed rq_predicates In]; tauto.
Qed.
Theorem C41_request_order : forall ops ops', (forall o, In o ops <-> In o ops') -> request_run ops = request_run ops'.
Proof.
  intros ops ops' E. destruct (C41_request_exact ops) as (r & -> & [S1 S2] & R1 & R2). destruct (C41_request_exact ops') as (r' & -> & [S1' S2'] & R1' & R2'). f_equal.
  destruct r as [rv rp], r' as [rv' rp']. cbn [rq_revealed rq_predicates] in *. f_equal.
  - apply sorted_ext; auto. intros k. now rewrite R1, R1', E.
  - rewrite <- S2, <- S2'. apply psorted_ext; try apply pset_of_list_sorted. intros p. rewrite S2, S2', R2, R2'. split; intros (t & Q1 & Q2); exists t; split; auto; now apply E.
Qed.
(** any other predicate type is rejected and changes nothing *)
Theorem C41_unknown_type : forall b a t v, t <> "GE" -> t <> "LE" -> t <> "GT" -> t <> "LT" -> request_add_predicate b a t v = (b, Err InvalidStructure).
Proof.
  intros b a t v N1 N2 N3 N4. unfold request_add_predicate. rewrite (proj2 (String.eqb_neq _ _) N1), (proj2 (String.eqb_neq _ _) N2), (proj2 (String.eqb_neq _ _) N3), (proj2 (String.eqb_neq _ _) N4). reflexivity.
Qed.
Theorem C41_known_type : forall b a t v ty, named_type t = Some ty -> snd (request_add_predicate b a t v) = Ok tt.
Proof. intros b a t v ty E. rewrite add_predicate_spec, E. reflexivity. Qed.
Print Assumptions C41_schema_exact. Print Assumptions C41_schema_order. Print Assumptions C41_values_last_wins. Print Assumptions C41_values_order.
Print Assumptions C41_bad_number. Print Assumptions C41_decimal. Print Assumptions C41_request_exact. Print Assumptions C41_request_order. Print Assumptions C41_unknown_type.

(** ** concrete case *)
Example C41_ex : values_run [DecKnown "name" [49;50]; DecHidden "age" [120]; ValHidden "age" 7; DecKnown "name" [51]] = Ok [("age", Hidden 7); ("name", Known 3)] /\
  request_run [AddPredicate "age" "GE" 18; Reveal "name"; AddPredicate "age" "EQ" 3; AddPredicate "age" "GE" 18; Reveal "city"] = Ok (mkSubReq ["city"; "name"] [mkPred "age" GE 18]).
Proof. split; vm_compute; reflexivity. Qed.

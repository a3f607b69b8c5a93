(** What the verification of attribute tokens does not guarantee, and concrete cases for C107-C112. *)
From Verif Require Import Base BnModel NumTheory Alg Lin Fp ClRevModel ClRevSpec CurveInst BbsModel BbsLib BbsProps BbsExProps PsModel GrothModel DelegModel GrothSpec GrothLib GrothProps DelegLib DelegProps DelegChainProps DelegBatchProps DelegForgeProps GrothExProps
  TokenModel TokenSpec TokenLib TokenRecon TokenRun TokenSoundProps TokenProps TokenHideProps.
Import List ListNotations.
Open Scope list_scope.
Open Scope Z_scope.

Lemma rbind_ext' {A B} (a : res A) (f g : A -> res B) : (forall x, a = Ok x -> f x = g x) -> rbind a f = rbind a g.
Proof. destruct a; cbn [rbind]; [intros H; now apply H|reflexivity]. Qed.
Lemma at_nth {A} (l : list A) k x d : at_ l k = Ok x -> nth k l d = x.
Proof. unfold at_. intros E. destruct (nth_error l k) eqn:Q; [|discriminate]. injection E as <-. now apply nth_error_nth. Qed.
Lemma at_same {A B} (l l' : list A) k (f g : A -> res B) d : length l = length l' -> f (nth k l d) = g (nth k l' d) -> rbind (at_ l k) f = rbind (at_ l' k) g.
Proof.
  intros EL E. destruct (Nat.lt_ge_cases k (length l)) as [H|H].
  - rewrite (at_ok l k d H), (at_ok l' k d) by lia. exact E.
  - unfold at_. rewrite (proj2 (nth_error_None l k) H), (proj2 (nth_error_None l' k)) by lia. reflexivity.
Qed.

Lemma cut_at {A} (m : list A) k d : (k < length m)%nat -> m = firstn k m ++ nth k m d :: skipn (S k) m.
Proof. revert k. induction m as [|x m IH]; intros [|k] H; cbn [length] in H; try lia; [reflexivity|]. cbn [firstn nth app]. rewrite skipn_cons. f_equal. apply IH. lia. Qed.

Section Find.
Variable C : curve.
Notation K := (cK C). Notation G1 := (cG1 C). Notation G2 := (cG2 C). Notation GT := (cGT C).
(** the commitment with other revealed-attribute maps *)
Definition with_shown (cm : comm C) (o : list (list (nat * G1))) (e : list (list (nat * G2))) : comm C := mkComm (c_odd_r cm) (c_even_r cm) (c_s cm) (c_t cm) o e.
(** the maps give the same values at the positions the verifier asked for *)
Definition same_asked {M : Type} (rev : nat -> list nat) (m m' : list (list (nat * M))) : Prop :=
  length m = length m' /\ forall k j, In j (rev k) -> lookup (nth k m []) j = lookup (nth k m' []) j.

Lemma recon_t_rev_ext {M W : modOps K} (e : M -> W -> GT) (gw gw_c R : W) f rt ra rev (m m' : list (nat * M)) n vk :
  (forall j, In j rev -> lookup m j = lookup m' j) -> recon_t e gw gw_c R f rt ra rev m n vk = recon_t e gw gw_c R f rt ra rev m' n vk.
Proof.
  intros H. unfold recon_t. f_equal. apply rmap_ext. intros j _. apply rbind_ext'. intros tj _. f_equal. destruct (mem j rev) eqn:Q; [|reflexivity].
  rewrite H; [reflexivity|]. now apply mem_in.
Qed.

(** the verifier looks only at the values at the positions it asked for *)
Lemma reconstruct_shown L (cm : comm C) r ch revealed ipk p1 p2 o e :
  same_asked (fun k => nth (2 * k) revealed []) (c_odd_rev cm) o -> same_asked (fun k => nth (2 * k + 1) revealed []) (c_even_rev cm) e ->
  reconstruct_commitment L cm r ch revealed ipk p1 p2 = Ok cm -> reconstruct_commitment L (with_shown cm o e) r ch revealed ipk p1 p2 = Ok (with_shown cm o e).
Proof.
  intros (LO & SO) (LE & SE) H. unfold reconstruct_commitment in *. unfold comm_validate in *. unfold with_shown. cbn [c_odd_r c_even_r c_odd_rev c_even_rev c_s c_t] in *. rewrite <- LO, <- LE.
  match goal with H : rbind ?x _ = _ |- rbind ?y _ = _ => change y with x; destruct x; cbn [rbind] in *; [|discriminate] end.
  destruct (resp_validate r L); cbn [rbind] in *; [|discriminate]. destruct (at_ (p1_y p1) 0); cbn [rbind] in *; [|discriminate]. destruct (at_ (p2_y p2) 0); cbn [rbind] in *; [|discriminate].
  match goal with H : rbind (rmap ?f ?l) _ = _ |- rbind (rmap ?g ?l) _ = _ => assert (rmap g l = rmap f l) as -> end.
  2: { match goal with H : rbind ?x _ = _ |- rbind ?x _ = _ => destruct x as [ls|]; cbn [rbind] in *; [|discriminate] end.
       assert (map fst ls = c_s cm /\ map snd ls = c_t cm) as (-> & ->); [|reflexivity].
       destruct cm as [xa xb xs xt xf xg]; cbn [c_odd_r c_even_r c_odd_rev c_even_rev c_s c_t] in *. split; congruence. }
  apply rmap_ext. intros i Hi. apply in_seq in Hi. destruct (level_cases i ltac:(lia)) as [ (k & ->) | (k & ->) ].
  - destruct (odd_double k) as (-> & ->). cbn [Nat.eqb]. replace (2 * k + 1 - 1)%nat with (2 * k)%nat by lia.
    apply rbind_ext'. intros ct _. apply rbind_ext'. intros rev Er. apply rbind_ext'. intros ra _. apply rbind_ext'. intros _ _. apply rbind_ext'. intros rs _. apply rbind_ext'. intros R _. apply rbind_ext'. intros pv _. apply rbind_ext'. intros rt _.
    apply (at_same _ _ _ _ _ []); [now symmetry|]. f_equal. apply recon_t_rev_ext. intros j Hj. symmetry. apply SO. now rewrite (at_nth _ _ _ [] Er).
  - destruct (even_double k) as (-> & -> & _). cbn [Nat.eqb]. replace (2 * k + 2 - 1)%nat with (2 * k + 1)%nat by lia.
    apply rbind_ext'. intros ct _. apply rbind_ext'. intros rev Er. apply rbind_ext'. intros ra _. apply rbind_ext'. intros _ _. apply rbind_ext'. intros R _. apply rbind_ext'. intros rs _. apply rbind_ext'. intros v _. apply rbind_ext'. intros rt _.
    apply (at_same _ _ _ _ _ []); [now symmetry|]. f_equal. apply recon_t_rev_ext. intros j Hj. symmetry. apply SE. now rewrite (at_nth _ _ _ [] Er).
Qed.
End Find.
Arguments with_shown {C}.

(** ** C107, the whole exchange: the holder's non-interactive token is accepted. *)
Theorem C107_accepted : forall (C : curve) (p1 : params1 C) (p2 : params2 C) c ipk ev od sk hash extra revealed d, curve_laws C -> params1_ok p1 -> params2_ok p2 -> p1_g1 p1 = p2_g1 p2 -> p1_g2 p1 = p2_g2 p2 ->
  valid_chain p1 p2 c (ipk :: ev) od -> holds p1 p2 (chain_size c) (ipk :: ev) od sk -> disclosable c revealed -> (forall i, d_sig d i <> f0) ->
  exists t cm r, commitment (token_new c p1 p2) revealed d = Ok (t, cm) /\ response t cm sk (gen_challenge hash cm ipk extra) ev od = Ok r /\
    accepts hash extra cm r (gen_challenge hash cm ipk extra) revealed ipk p1 p2 /\ length (c_s cm) = chain_size c /\ discloses c revealed cm.
Proof.
  intros C p1 p2 c ipk ev od sk hash extra revealed d LW N1 N2 G1e G2e V HO DI ND. pose proof (vc_balanced C _ _ _ _ _ V) as B.
  assert (length (c_s (run_comm C c p1 p2 d revealed)) = chain_size c) as LC by (unfold run_comm; cbn [c_s]; rewrite !map_length, seq_length; reflexivity).
  exists (run_token C c p1 p2 d revealed), (run_comm C c p1 p2 d revealed), (run_resp C c p1 p2 d revealed ev od sk (gen_challenge hash (run_comm C c p1 p2 d revealed) ipk extra)).
  split; [apply (commitment_run C LW); [exact B|exact DI|apply (run_Y1 C c p1 p2 ipk ev od V)|apply (run_Y2 C c p1 p2 ipk ev od V)]|].
  split; [apply (response_run C); [exact B|exact DI|apply (run_LE C c p1 p2 ipk ev od V)|apply (run_LO C c p1 p2 ipk ev od V)|apply (run_size C c p1 p2 ipk ev od V)]|].
  split; [|split; [exact LC|eapply run_discloses; eassumption]].
  exists (run_comm C c p1 p2 d revealed). rewrite LC. split; [now apply run_reconstruct|reflexivity].
Qed.

(** ** C110: what is shown but was not asked for is not verified.  Every holder of a chain can have a
    token accepted that shows any value at all at a position outside the revealed sets. *)
Theorem C110_refuted_shown_is_signed : forall (C : curve) (p1 : params1 C) (p2 : params2 C) c ipk ev od sk hash extra revealed (d : draws (cK C)) k j a, curve_laws C -> params1_ok p1 -> params2_ok p2 -> p1_g1 p1 = p2_g1 p2 -> p1_g2 p1 = p2_g2 p2 ->
  valid_chain p1 p2 c (ipk :: ev) od -> holds p1 p2 (chain_size c) (ipk :: ev) od sk -> disclosable c revealed -> (forall i, d_sig d i <> f0) ->
  (k < length (ch_odd c))%nat -> ~ In j (nth (2 * k) revealed []) ->
  exists cm r ch, accepts hash extra cm r ch revealed ipk p1 p2 /\ lookup (nth k (c_odd_rev cm) []) j = Ok a.
Proof.
  intros C p1 p2 c ipk ev od sk hash extra revealed d k j a LW N1 N2 G1e G2e V HO DI ND Hk NJ.
  set (cm := run_comm C c p1 p2 d revealed).
  assert (length (c_s cm) = chain_size c) as LC by (unfold cm, run_comm; cbn [c_s]; rewrite !map_length, seq_length; reflexivity).
  assert (length (c_odd_rev cm) = length (ch_odd c)) as LR.
  { unfold cm, run_comm. cbn [c_odd_rev]. rewrite map_length, seq_length. symmetry. now apply balanced_counts, (vc_balanced C _ _ _ _ _ V). }
  set (m := c_odd_rev cm). set (o := firstn k m ++ ((j, a) :: nth k m []) :: skipn (S k) m). set (cm' := with_shown cm o (c_even_rev cm)).
  set (ch := gen_challenge hash cm' ipk extra).
  assert (k < length m)%nat as Hm by (unfold m; lia).
  exists cm', (run_resp C c p1 p2 d revealed ev od sk ch), ch. split.
  - exists cm'. split; [|reflexivity]. change (length (c_s cm')) with (length (c_s cm)). rewrite LC. apply reconstruct_shown; [|split; reflexivity|now apply run_reconstruct].
    split.
    + unfold o. rewrite app_length. cbn [length]. rewrite firstn_length, skipn_length. fold m. lia.
    + intros k' j' Hj. fold m. destruct (Nat.eq_dec k' k) as [->|NE].
      * unfold o. rewrite app_nth2; rewrite firstn_length_le by lia; [|lia]. rewrite Nat.sub_diag. cbn [nth]. unfold lookup. cbn [find fst].
        destruct (Nat.eqb_spec j j') as [->|]; [contradiction|reflexivity].
      * rewrite (cut_at m k []) at 1 by exact Hm. unfold o. f_equal. apply nth_other. rewrite firstn_length_le by lia. exact NE.
  - unfold cm', with_shown, o. cbn [c_odd_rev]. rewrite app_nth2; rewrite firstn_length_le by lia; [|lia]. rewrite Nat.sub_diag. cbn [nth]. unfold lookup. cbn [find fst]. rewrite Nat.eqb_refl. reflexivity.
Qed.

(** A position asked for but not in the link (or the position of the key) is silently skipped: the
    token is accepted and shows nothing there. *)
Theorem C110_refuted_asked_is_shown : forall (C : curve) (p1 : params1 C) (p2 : params2 C) c ipk ev od sk hash extra revealed (d : draws (cK C)) k j (l : link1 C), curve_laws C -> params1_ok p1 -> params2_ok p2 -> p1_g1 p1 = p2_g1 p2 -> p1_g2 p1 = p2_g2 p2 ->
  valid_chain p1 p2 c (ipk :: ev) od -> holds p1 p2 (chain_size c) (ipk :: ev) od sk -> disclosable c revealed -> (forall i, d_sig d i <> f0) ->
  nth_error (ch_odd c) k = Some l -> In j (nth (2 * k) revealed []) -> (length (l1_attrs l) <= j + 1)%nat ->
  exists cm r ch, accepts hash extra cm r ch revealed ipk p1 p2 /\ forall a, ~ In (j, a) (nth k (c_odd_rev cm) []).
Proof.
  intros C p1 p2 c ipk ev od sk hash extra revealed d k j l LW N1 N2 G1e G2e V HO DI ND El Hj HL.
  destruct (C107_accepted C p1 p2 c ipk ev od sk hash extra revealed d LW N1 N2 G1e G2e V HO DI ND) as (t & cm & r & _ & _ & A & _ & (DS & _)).
  exists cm, r, (gen_challenge hash cm ipk extra). split; [exact A|]. intros a Ha. apply (DS k l El) in Ha. lia.
Qed.

(** A verifier that takes the number of levels from the commitment accepts the empty commitment,
    for every issuer, from a holder of nothing. *)
Theorem C110_refuted_needs_credential : forall (C : curve) (p1 : params1 C) (p2 : params2 C) (ipk : cG2 C) hash extra, params1_ok p1 -> params2_ok p2 ->
  exists cm r ch, accepts hash extra cm r ch [] ipk p1 p2.
Proof.
  intros C p1 p2 ipk hash extra N1 N2. set (cm := mkComm [] [] [] [] [] [] : comm C).
  exists cm, (mkResp f0 [] [] [] [] [] [] [] []), (gen_challenge hash cm ipk extra), cm. split; [|reflexivity].
  unfold reconstruct_commitment. change (comm_validate cm _) with (@Ok unit tt). change (resp_validate (C := C) _ _) with (@Ok unit tt). cbn [rbind].
  rewrite (at_ok (p1_y p1) 0 m0) by (unfold params1_ok in N1; destruct (p1_y p1); [contradiction|cbn; lia]).
  rewrite (at_ok (p2_y p2) 0 m0) by (unfold params2_ok in N2; destruct (p2_y p2); [contradiction|cbn; lia]). reflexivity.
Qed.

(** ** C111: the challenge.  Two commitments with the same maps of revealed attributes, enumerated in a
    different order, are both recomputed correctly but have different challenges unless the hash
    collides; commitments cut differently into levels have the same challenge. *)
Theorem C111_refuted_order_independent : forall (C : curve) L (cm : comm C) r ch revealed ipk p1 p2 hash extra a b rest,
  c_odd_rev cm = [(0%nat, a); (1%nat, b)] :: rest -> reconstruct_commitment L cm r ch revealed ipk p1 p2 = Ok cm ->
  let cm' := with_shown cm ([(1%nat, b); (0%nat, a)] :: rest) (c_even_rev cm) in
  reconstruct_commitment L cm' r ch revealed ipk p1 p2 = Ok cm' /\
  (gen_challenge hash cm' ipk extra = gen_challenge hash cm ipk extra -> exists x y, x <> y /\ hash x = hash y).
Proof.
  intros C L cm r ch revealed ipk p1 p2 hash extra a b rest E A. cbn zeta. split.
  - apply reconstruct_shown; [|split; reflexivity|exact A]. rewrite E. split; [reflexivity|]. intros [|k] j _; [|reflexivity]. cbn [nth]. unfold lookup. cbn [find fst].
    destruct j as [|[|j]]; reflexivity.
  - unfold gen_challenge. intros H. eexists _, _. split; [|exact H]. intros Q. apply app_inv_head in Q. unfold comm_bytes, with_shown in Q. cbn [c_odd_r c_even_r c_odd_rev c_even_rev c_s c_t] in Q. rewrite E in Q.
    rewrite <- !app_assoc in Q. do 4 apply app_inv_head in Q. cbn [flat_map] in Q. unfold entry_bytes at 1 3 in Q. cbn [fst snd] in Q.
    change (bn_to_dec (Z.of_nat 1)) with [49] in Q. change (bn_to_dec (Z.of_nat 0)) with [48] in Q. cbn [app] in Q. discriminate Q.
Qed.
Theorem C111_refuted_levels_bound : forall (C : curve) (o : list (cG2 C)) e s a x b rest ro re hash ipk extra,
  let cm := mkComm o e s ((a ++ [x]) :: b :: rest) ro re in let cm' := mkComm o e s (a :: (x :: b) :: rest) ro re in
  cm <> cm' /\ gen_challenge hash cm ipk extra = gen_challenge hash cm' ipk extra.
Proof.
  intros C o e s a x b rest ro re hash ipk extra. cbn zeta. split.
  - intros Q. apply (f_equal (fun c => length (nth 0 (c_t c) []))) in Q. cbn [c_t nth] in Q. rewrite app_length in Q. cbn [length] in Q. lia.
  - unfold gen_challenge, comm_bytes. cbn [c_odd_r c_even_r c_odd_rev c_even_rev c_s c_t flat_map]. rewrite flat_map_app. cbn [flat_map]. rewrite app_nil_r, <- !app_assoc. reflexivity.
Qed.

(** ** C112: a token object works once.  After a second call of commitment on the same object the
    response to the new commitment fails and verifiers reject that commitment. *)
Lemma rmap_len {A B} (f : A -> res B) l r : rmap f l = Ok r -> length r = length l.
Proof. revert r. induction l as [|x l IH]; cbn [rmap]; intros r E; [injection E as <-; reflexivity|]. destruct (f x); cbn [rbind] in E; [|discriminate]. destruct (rmap f l) eqn:Q; cbn [rbind] in E; [|discriminate]. injection E as <-. cbn [length]. now rewrite (IH _ eq_refl). Qed.
Lemma clev_split {C : curve} {A B} (f : sig1 C -> clevel C (cG1 C) -> A) (g : sig2 C -> clevel C (cG2 C) -> B) (ls : list (clev C)) :
  (length (flat_map (fun x => match x with COdd s l => [f s l] | _ => [] end) ls) + length (flat_map (fun x => match x with CEven s l => [g s l] | _ => [] end) ls) = length ls)%nat.
Proof. induction ls as [|[s l|s l] ls IH]; [reflexivity| |]; cbn [flat_map app length]; lia. Qed.
Lemma commitment_counts {C : curve} (t : token C) revealed d t' cm : commitment t revealed d = Ok (t', cm) ->
  t_L t' = t_L t /\ length (c_t cm) = t_L t /\ length (c_s cm) = t_L t /\ (length (c_odd_rev cm) + length (c_even_rev cm) = t_L t)%nat /\
  (length (t_odd_sigs t') + length (t_even_sigs t') = length (t_odd_sigs t) + length (t_even_sigs t) + t_L t)%nat /\ (length (c_odd_r cm) + length (c_even_r cm) = length (t_odd_sigs t') + length (t_even_sigs t'))%nat.
Proof.
  unfold commitment. destruct (precomp_chain_new _ _ _) as [pc|]; cbn [rbind]; [|discriminate]. unfold commitment_with_precomputation. destruct (negb _); [discriminate|].
  match goal with |- rbind (rmap ?f ?l) _ = _ -> _ => destruct (rmap f l) as [ls|] eqn:Q end; cbn [rbind]; [|discriminate]. apply rmap_len in Q. rewrite seq_length in Q.
  intros E. assert (forall T (x y : T), Ok x = Ok y -> x = y) as INJ by (intros ? ? ? H; injection H; auto). apply INJ in E. apply pair_equal_spec in E as (<- & <-).
  cbn [t_L t_odd_sigs t_even_sigs c_t c_s c_odd_rev c_even_rev c_odd_r c_even_r]. rewrite !map_length, !app_length.
  pose proof (clev_split (fun s _ => s) (fun s _ => s) ls) as H1. pose proof (clev_split (fun _ l => cl_rev l) (fun _ l => cl_rev l) ls) as H2. cbv beta in H1, H2. rewrite H2. repeat split; lia.
Qed.
Theorem C112_refuted_reusable : forall (C : curve) c p1 p2 revealed d t1 cm1 revealed' d' t2 cm2, (1 <= chain_size c)%nat ->
  commitment (@token_new C c p1 p2) revealed d = Ok (t1, cm1) -> commitment t1 revealed' d' = Ok (t2, cm2) ->
  (forall sk ch ev od, response t2 cm2 sk ch ev od = Err (DelgErr (DIncorrectNumberOfBlindedR (chain_size c) (2 * chain_size c)))) /\
  (forall hash extra r ch rv ipk, ~ accepts hash extra cm2 r ch rv ipk p1 p2).
Proof.
  intros C c p1 p2 revealed d t1 cm1 revealed' d' t2 cm2 HL E1 E2.
  apply commitment_counts in E1 as (L1 & _ & _ & _ & S1 & _). apply commitment_counts in E2 as (L2 & T2 & S2 & R2 & S2' & B2). cbn [token_new t_L t_odd_sigs t_even_sigs length] in *.
  assert (forall L, L = chain_size c -> comm_validate cm2 L = Err (DelgErr (DIncorrectNumberOfBlindedR (chain_size c) (2 * chain_size c)))) as VAL.
  { intros L ->. unfold comm_validate. rewrite T2, S2, R2, L1. rewrite !Nat.eqb_refl. cbn [negb]. destruct (Nat.eqb_spec (length (c_odd_r cm2) + length (c_even_r cm2)) (chain_size c)); [lia|]. cbn [negb]. unfold derr. do 3 f_equal. lia. }
  split.
  - intros. unfold response. rewrite VAL by congruence. reflexivity.
  - intros hash extra r ch rv ipk (cm' & A & _). unfold reconstruct_commitment in A. rewrite VAL in A by congruence. discriminate.
Qed.

(** ** C113: verification of a malformed token.  A response without the vectors of hidden attributes, or
    too few revealed sets given by the caller, passes the validation of the response and panics. *)
Theorem C113_refuted_no_panic : forall (C : curve) (p1 : params1 C) (p2 : params2 C) L (cm : comm C) r ch revealed ipk, params1_ok p1 -> params2_ok p2 -> (1 <= L)%nat ->
  comm_validate cm L = Ok tt -> resp_validate r L = Ok tt -> r_odd_a r = [] \/ revealed = [] -> reconstruct_commitment L cm r ch revealed ipk p1 p2 = Err Panic.
Proof.
  intros C p1 p2 L cm r ch revealed ipk N1 N2 HL VC VR H. unfold reconstruct_commitment. rewrite VC, VR. cbn [rbind].
  rewrite (at_ok (p1_y p1) 0 m0) by (unfold params1_ok in N1; destruct (p1_y p1); [contradiction|cbn; lia]).
  rewrite (at_ok (p2_y p2) 0 m0) by (unfold params2_ok in N2; destruct (p2_y p2); [contradiction|cbn; lia]). cbn [rbind].
  destruct L as [|L]; [lia|]. rewrite <- cons_seq. cbn [rmap]. change ((1 mod 2 =? 1)%nat) with true. cbv iota. change (1 / 2)%nat with 0%nat. change (1 - 1)%nat with 0%nat.
  apply comm_validate_iff in VC. rewrite (at_ok (c_t cm) 0 []) by (rewrite (cmv_t _ _ _ VC); lia). cbn [rbind].
  destruct H as [-> | ->]; [|reflexivity]. unfold at_ at 1. destruct (nth_error revealed 0); reflexivity.
Qed.

(** The counts that are checked are reported as errors: a commitment of the right shape with a response
    that does not have one blinded signature component s (or t) per level is refused with both counts. *)
Theorem C113_counts_checked : forall (C : curve) (p1 : params1 C) (p2 : params2 C) L (cm : comm C) r ch revealed ipk pr, comm_validate cm L = Ok tt ->
  let ns := (length (r_odd_s r) + length (r_even_s r))%nat in let nt := (length (r_odd_t r) + length (r_even_t r))%nat in
  (ns <> L -> reconstruct_commitment L cm r ch revealed ipk p1 p2 = Err (DelgErr (DUnequalNoOfCommitmentAndResponses L ns)) /\
              reconstruct_with_precomputed L cm r ch revealed p1 p2 pr = Err (DelgErr (DUnequalNoOfCommitmentAndResponses L ns))) /\
  (ns = L -> nt <> L -> reconstruct_commitment L cm r ch revealed ipk p1 p2 = Err (DelgErr (DUnequalNoOfCommitmentAndResponses L nt)) /\
              reconstruct_with_precomputed L cm r ch revealed p1 p2 pr = Err (DelgErr (DUnequalNoOfCommitmentAndResponses L nt))).
Proof.
  intros C p1 p2 L cm r ch revealed ipk pr V ns nt. unfold reconstruct_commitment, reconstruct_with_precomputed. rewrite V. cbn [rbind]. unfold resp_validate.
  split.
  - intros H. apply Nat.eqb_neq in H. fold ns. rewrite H. split; reflexivity.
  - intros E H. apply Nat.eqb_neq in H. fold ns nt. rewrite E, Nat.eqb_refl, H. split; reflexivity.
Qed.

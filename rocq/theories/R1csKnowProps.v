(** Complete proofs made with a gadget. *)
From Coq Require Import String.
From Verif Require Import Base Alg Lin Poly TranscriptModel IppModel IppLib IppSpec IppSoundSpec IppForkSpec R1csModel R1csSpec R1csLib R1csProofModel R1csProofLib R1csProofSpec R1csProofComplete R1csProofProps R1csCheckProps InterpLib R1csSoundSpec R1csSoundLib R1csSoundProps IppFloatProps R1csKnowSpec.
Import List ListNotations.
Open Scope list_scope.

Section Know.
Context {K : fieldOps} (HK : field_laws K) {M : modOps K} (HM : mod_laws M).
Add Field Kf : (proj1 HK).

(** ** completeness *)
Theorem C132_honest_proof (T : tcode M) : forall lg (g h : M) pf vf label (G H : list M) d r comms ps vs,
  challenges_nonzero T -> pf p_new = Ok (comms, ps) -> vf v_new = Ok (tt, vs) -> pgood ps -> sim (commit_elem g h) ps vs ->
  enough lg (v_num vs) G H ->
  exists p, gen_proof T pf label g h G H d = Ok (p, comms) /\ verify_proof T lg vf p label g h G H r = Ok tt.
Proof.
  intros lg g h pf vf label G H d r comms ps vs HT Ep Ev Hg Hs (HG & HH & Hk & Hlg). rewrite (sm_num _ _ _ Hs) in *.
  destruct (C95_one_phase HK HM T lg g h ps vs G H (p_transcript T g h label ps) d r HT Hg Hs HG HH Hk Hlg) as (p & tr' & E1 & E2).
  exists p. unfold gen_proof, verify_proof. rewrite Ep, Ev. cbn [rbind]. rewrite E1. cbn [rbind]. split; [reflexivity|].
  assert (v_transcript T label vs = p_transcript T g h label ps) as -> by (unfold v_transcript, p_transcript; now rewrite (sm_V _ _ _ Hs)). exact E2.
Qed.

(** ** openings *)
Section Solving.
Context (g h : M) (Vs : list M) (cons : list (lc K)) (w : @assignment K) (left_over : nat -> K).
Definition opens (v b : nat -> K) (i : nat) : Prop := nth i Vs m0 = madd (smul (v i) g) (smul (b i) h).
Lemma upd_eq (v : nat -> K) i x : upd v i x i = x.
Proof. unfold upd. now rewrite Nat.eqb_refl. Qed.
Lemma upd_ne (v : nat -> K) i x j : j <> i -> upd v i x j = v j.
Proof. intros N. unfold upd. now rewrite (proj2 (Nat.eqb_neq j i) N). Qed.
Lemma point_value_one v b i done (l : lc K) : (forall j, In j done -> opens v b j) -> (forall j c, In (Committed j, c) l -> j = i \/ In j done) ->
  point_value g Vs w l = madd (madd (smul (lc_value (with_committed w (upd v i f0)) l) g) (smul (blinding_of (upd b i f0) l) h)) (smul (ccoef i l) (nth i Vs m0)).
Proof.
  intros O D. induction l as [|[x c] l IH].
  - unfold point_value, blinding_of, ccoef. rewrite lv_nil. cbn [map msum fsum]. module_coefs HK HM; ring.
  - specialize (IH (fun j c I => D j c (or_intror I))). unfold point_value, blinding_of, ccoef in *. cbn [map msum fsum fst snd]. rewrite IH, lv_cons. clear IH.
    destruct x as [j| | | |]; cbn [with_committed]; try (module_coefs HK HM; ring).
    destruct (Nat.eqb_spec j i) as [->|Ne].
    + rewrite !upd_eq. module_coefs HK HM; ring.
    + rewrite !upd_ne by exact Ne. destruct (D j c (or_introl eq_refl)) as [|I]; [contradiction|]. rewrite (O j I). module_coefs HK HM; ring.
Qed.
Hypothesis Hc : forall q, (q < length cons)%nat -> point_value g Vs w (nth q cons []) = smul (left_over q) h.
Lemma solve_opens order : forall done v b, (forall j, In j done -> opens v b j) -> triangular cons order done ->
  let (v', b') := solve cons w left_over order v b in forall j, In j done \/ In j (map fst order) -> opens v' b' j.
Proof.
  induction order as [|[i q] o IH]; intros done v b O Tr; cbn [solve]; [intros j [I|[]]; exact (O j I)|].
  cbn [triangular] in Tr. destruct Tr as (Hq & Nz & D & Tr). set (l := nth q cons []) in *.
  set (v' := upd v i _). set (b' := upd b i _).
  assert (forall j, In j (i :: done) -> opens v' b' j) as O'.
  { intros j Ij. unfold opens, v', b'. destruct (Nat.eq_dec j i) as [->|Ne].
    - rewrite !upd_eq. pose proof (point_value_one v b i done l O D) as E. unfold l in E at 1. rewrite (Hc q Hq) in E. fold l in E.
      assert (smul (ccoef i l) (nth i Vs m0) = msub (msub (smul (left_over q) h) (smul (lc_value (with_committed w (upd v i f0)) l) g)) (smul (blinding_of (upd b i f0) l) h)) as E'.
      { rewrite E. module_coefs HK HM; ring. }
      transitivity (smul (finv (ccoef i l)) (smul (ccoef i l) (nth i Vs m0))); [module_coefs HK HM; field; exact Nz|]. rewrite E'. module_coefs HK HM; ring.
    - rewrite !upd_ne by exact Ne. destruct Ij as [E|Ij]; [congruence|]. exact (O j Ij). }
  specialize (IH (i :: done) v' b' O' Tr). destruct (solve cons w left_over o v' b') as [v2 b2]. intros j Ij. apply IH. cbn [map fst In] in *. tauto.
Qed.
End Solving.

(** ** knowledge soundness, once there is an order in which the constraints open all the
    commitments *)
Section Accepted.
Context (lg : nat -> nat) (vs : vstate K M) (tr : transcript) (g h : M) (G H : list M) (AI1 AO1 S1' AI2 AO2 S2' : M) (order : list (nat * nat)).
Notation n := (v_num vs). Notation m := (length (v_V vs)). Notation k := (Nat.log2_up (v_num vs)). Notation N := (2 ^ Nat.log2_up (v_num vs))%nat. Notation cons := (v_cons vs).
Hypothesis Hen : enough lg n G H.
Hypothesis Hsc : v_scoped vs.
Hypothesis Htr : triangular cons order [].
Hypothesis Hall : forall i, (i < m)%nat -> In i (map fst order).
Theorem C133_knowledge : forall t : list (fy M), r1cs_accepted lg (fun _ => []) vs (v_clear vs) tr g h G H AI1 AO1 S1' AI2 AO2 S2' t ->
  let s := map s_y t in let v := fun i => fst (opening vs order s i) in
  ((forall i, (i < m)%nat -> nth i (v_V vs) m0 = commit_elem g h (fst (opening vs order s i)) (snd (opening vs order s i))) /\ vsat (ex_assignment n n m k cons s (map v (seq 0 m))) vs)
  \/ relation_known vs g h G H order s.
Proof.
  destruct Hen as (HG & HH & Hk & Hlg). intros t A s v0. unfold opening in v0. cbv zeta in v0. cbn [fst] in v0.
  set (v := fst (openings n n m k cons order s)) in *. set (b := snd (openings n n m k cons order s)) in *. set (w := ex_assignment n n m k cons s (map v (seq 0 m))) in *.
  assert (((forall i, (i < m)%nat -> nth i (v_V vs) m0 = commit_elem g h (v i) (b i)) /\ vsat w vs) \/ relation_known vs g h G H order s) as Goal; [|exact Goal].
  clear v0.
  destruct (C131_gates_and_constraints HK HM lg (fun _ => []) vs (v_clear vs) tr g h G H AI1 AO1 S1' AI2 AO2 S2' (le_n _) HG HH Hk Hlg Hsc t A) as [[Ga Co]|R]; [|right; right; exact R].
  cbn [v_clear v_num v_V v_cons] in Ga, Co. fold s in Ga, Co.
  assert (forall i, (i < m)%nat -> nth i (v_V vs) m0 = madd (smul (v i) g) (smul (b i) h)) as O.
  { intros i Hi. pose proof (solve_opens g h (v_V vs) cons (ex_assignment n n m k cons s []) (ex_blinding s) (fun q Hq => Co q [] Hq) order [] (fun _ => f0) (fun _ => f0) (fun j I => match I with end) Htr) as S.
    unfold v, b, openings. destruct (solve _ _ _ _ _ _) as [v' b']. cbn [fst snd]. apply S. right. now apply Hall. }
  destruct (C131_satisfied HK HM lg (fun _ => []) vs (v_clear vs) tr g h G H AI1 AO1 S1' AI2 AO2 S2' (le_n _) HG HH Hk Hlg Hsc t (map v (seq 0 m)) (map b (seq 0 m)) A) as [S|[(q & Hq & Nz & E)|R]].
  - cbn [v_clear v_num v_V]. intros i Hi. rewrite !nth_map_seq by exact Hi. now apply O.
  - left. split; [exact O|]. exact S.
  - right. left. exists (nth q cons []), q. split; [exact Hq|]. split; [reflexivity|]. cbv zeta in *. cbn [v_clear v_num v_V v_cons] in *. fold v b. split; [exact Nz|]. rewrite <- E. f_equal. f_equal. f_equal.
    unfold blinding_of, lc_blinding. f_equal. apply map_ext_in. intros [x c] Ix. cbn [fst snd]. destruct x as [j| | | |]; try reflexivity.
    rewrite nth_map_seq; [reflexivity|]. apply (Hsc (nth q cons []) (Committed j) c); [now apply nth_In|exact Ix].
  - right. right. exact R.
Qed.
End Accepted.
End Know.

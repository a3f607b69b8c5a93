(** Algebraic specification layer: fields, modules (groups written additively
    with scalar multiplication by field elements) and pairings, as operation
    records plus explicit law predicates.  Nothing here is assumed: every
    theorem using a law takes it as a hypothesis, and [Fp.v] provides an
    instance. *)
From Verif Require Import Base.
From Coq Require Export Field_theory Ring_theory Field.

Record fieldOps := {
  fcar :> Type;
  f0 : fcar; f1 : fcar;
  fadd : fcar -> fcar -> fcar;
  fmul : fcar -> fcar -> fcar;
  fsub : fcar -> fcar -> fcar;
  fopp : fcar -> fcar;
  fdiv : fcar -> fcar -> fcar;
  finv : fcar -> fcar;
  feqb : fcar -> fcar -> bool
}.
Arguments f0 {f}. Arguments f1 {f}. Arguments fadd {f}. Arguments fmul {f}. Arguments fsub {f}.
Arguments fopp {f}. Arguments fdiv {f}. Arguments finv {f}. Arguments feqb {f}.

Definition field_laws (K : fieldOps) : Prop :=
  field_theory (@f0 K) f1 fadd fmul fsub fopp fdiv finv (@eq K)
  /\ (forall x y : K, feqb x y = true <-> x = y).

Record modOps (K : fieldOps) := {
  mcar :> Type;
  m0 : mcar;
  madd : mcar -> mcar -> mcar;
  mopp : mcar -> mcar;
  smul : K -> mcar -> mcar;
  meqb : mcar -> mcar -> bool
}.
Arguments mcar {K}. Arguments m0 {K m}. Arguments madd {K m}. Arguments mopp {K m}.
Arguments smul {K m}. Arguments meqb {K m}.

Definition msub {K} {M : modOps K} (a b : M) : M := madd a (mopp b).

Definition mod_laws {K} (M : modOps K) : Prop :=
  (forall a b c : M, madd a (madd b c) = madd (madd a b) c) /\
  (forall a b : M, madd a b = madd b a) /\
  (forall a : M, madd m0 a = a) /\
  (forall a : M, madd a (mopp a) = m0) /\
  (forall (x y : K) (a : M), smul (fadd x y) a = madd (smul x a) (smul y a)) /\
  (forall (x : K) (a b : M), smul x (madd a b) = madd (smul x a) (smul x b)) /\
  (forall (x y : K) (a : M), smul (fmul x y) a = smul x (smul y a)) /\
  (forall a : M, smul f1 a = a) /\
  (forall a b : M, meqb a b = true <-> a = b).

(** a pairing is bilinear *)
Definition bilinear {K} (G1 G2 GT : modOps K) (e : G1 -> G2 -> GT) : Prop :=
  (forall a b c, e (madd a b) c = madd (e a c) (e b c)) /\
  (forall a b c, e a (madd b c) = madd (e a b) (e a c)) /\
  (forall x a b, e (smul x a) b = smul x (e a b)) /\
  (forall x a b, e a (smul x b) = smul x (e a b)).

(** [g] has full (prime) order: scalars are determined by the multiple of [g]. *)
Definition faithful {K} {M : modOps K} (g : M) : Prop :=
  forall x y : K, smul x g = smul y g -> x = y.

(** powers and finite sums *)
Fixpoint fpow {K : fieldOps} (x : K) (n : nat) : K :=
  match n with O => f1 | S k => fmul x (fpow x k) end.
Fixpoint fsum {K : fieldOps} (l : list K) : K :=
  match l with [] => f0 | x :: xs => fadd x (fsum xs) end.
Fixpoint fprod {K : fieldOps} (l : list K) : K :=
  match l with [] => f1 | x :: xs => fmul x (fprod xs) end.
Fixpoint msum {K} {M : modOps K} (l : list M) : M :=
  match l with [] => m0 | x :: xs => madd x (msum xs) end.

(** The field itself as a module. *)
Definition self_mod (K : fieldOps) : modOps K :=
  {| mcar := K; m0 := f0; madd := fadd; mopp := fopp; smul := fmul; meqb := feqb |}.

Section Laws.
  Variable K : fieldOps.
  Hypothesis HK : field_laws K.
  Add Field Kfield : (proj1 HK).

  Lemma feqb_eq (x y : K) : feqb x y = true <-> x = y.
  Proof. apply (proj2 HK). Qed.
  Lemma feqb_refl (x : K) : feqb x x = true.
  Proof. now apply feqb_eq. Qed.
  Lemma feqb_neq (x y : K) : feqb x y = false <-> x <> y.
  Proof.
    destruct (feqb x y) eqn:E.
    - apply feqb_eq in E. split; [discriminate|contradiction].
    - split; [|reflexivity]. intros _ H. apply feqb_eq in H. congruence.
  Qed.
  Lemma feq_dec (x y : K) : {x = y} + {x <> y}.
  Proof. destruct (feqb x y) eqn:E; [left; now apply feqb_eq|right; now apply feqb_neq]. Qed.
  Lemma f1_neq_0 : (f1 : K) <> f0.
  Proof. exact (F_1_neq_0 (proj1 HK)). Qed.
  Lemma fmul_integral (x y : K) : fmul x y = f0 -> x = f0 \/ y = f0.
  Proof.
    intros H. destruct (feq_dec x f0) as [->|Hx]; [now left|right].
    transitivity (fmul (finv x) (fmul x y)).
    - field. exact Hx.
    - rewrite H. ring.
  Qed.
  Lemma fsub_eq0 (x y : K) : fsub x y = f0 -> x = y.
  Proof. intros H. transitivity (fadd (fsub x y) y); [ring|rewrite H; ring]. Qed.
  Lemma fsub_neq0 (x y : K) : x <> y -> fsub x y <> f0.
  Proof. intros H E. apply H, fsub_eq0, E. Qed.
  Lemma fprod_nonzero (l : list K) : (forall x, In x l -> x <> f0) -> fprod l <> f0.
  Proof.
    induction l as [|x xs IH]; cbn; intros H; [apply f1_neq_0|].
    intros E. apply fmul_integral in E as [E|E]; [apply (H x); auto|apply IH; auto].
  Qed.
  Lemma finv_mul_l (x : K) : x <> f0 -> fmul (finv x) x = f1.
  Proof. intros H. field. exact H. Qed.

  Lemma self_mod_laws : mod_laws (self_mod K).
  Proof.
    repeat split; cbn; intros; try ring; now apply feqb_eq.
  Qed.

  Section Mod.
    Variable M : modOps K.
    Hypothesis HM : mod_laws M.
    Lemma madd_assoc (a b c : M) : madd a (madd b c) = madd (madd a b) c.
    Proof. destruct HM as (L1 & L2 & L3 & L4 & L5 & L6 & L7 & L8 & L9); auto. Qed.
    Lemma madd_comm (a b : M) : madd a b = madd b a.
    Proof. destruct HM as (L1 & L2 & L3 & L4 & L5 & L6 & L7 & L8 & L9); auto. Qed.
    Lemma madd_0_l (a : M) : madd m0 a = a.
    Proof. destruct HM as (L1 & L2 & L3 & L4 & L5 & L6 & L7 & L8 & L9); auto. Qed.
    Lemma madd_0_r (a : M) : madd a m0 = a.
    Proof. rewrite madd_comm. apply madd_0_l. Qed.
    Lemma madd_opp (a : M) : madd a (mopp a) = m0.
    Proof. destruct HM as (L1 & L2 & L3 & L4 & L5 & L6 & L7 & L8 & L9); auto. Qed.
    Lemma smul_add_l x y (a : M) : smul (fadd x y) a = madd (smul x a) (smul y a).
    Proof. destruct HM as (L1 & L2 & L3 & L4 & L5 & L6 & L7 & L8 & L9); auto. Qed.
    Lemma smul_add_r x (a b : M) : smul x (madd a b) = madd (smul x a) (smul x b).
    Proof. destruct HM as (L1 & L2 & L3 & L4 & L5 & L6 & L7 & L8 & L9); auto. Qed.
    Lemma smul_mul x y (a : M) : smul (fmul x y) a = smul x (smul y a).
    Proof. destruct HM as (L1 & L2 & L3 & L4 & L5 & L6 & L7 & L8 & L9); auto. Qed.
    Lemma smul_1 (a : M) : smul f1 a = a.
    Proof. destruct HM as (L1 & L2 & L3 & L4 & L5 & L6 & L7 & L8 & L9); auto. Qed.
    Lemma meqb_eq (a b : M) : meqb a b = true <-> a = b.
    Proof. destruct HM as (L1 & L2 & L3 & L4 & L5 & L6 & L7 & L8 & L9); auto. Qed.
    Lemma meqb_refl (a : M) : meqb a a = true.
    Proof. now apply meqb_eq. Qed.
    Lemma meqb_neq (a b : M) : meqb a b = false <-> a <> b.
    Proof.
      destruct (meqb a b) eqn:E.
      - apply meqb_eq in E. split; [discriminate|contradiction].
      - split; [|reflexivity]. intros _ H. apply meqb_eq in H. congruence.
    Qed.
    Lemma meq_dec (a b : M) : {a = b} + {a <> b}.
    Proof. destruct (meqb a b) eqn:E; [left; now apply meqb_eq|right; now apply meqb_neq]. Qed.
    Lemma madd_cancel (a b c : M) : madd a b = madd a c -> b = c.
    Proof.
      intros H. apply (f_equal (madd (mopp a))) in H.
      rewrite !madd_assoc, (madd_comm (mopp a) a), madd_opp, !madd_0_l in H. exact H.
    Qed.
    Lemma smul_0_l (a : M) : smul f0 a = m0.
    Proof.
      apply (madd_cancel (smul f0 a)). rewrite <- smul_add_l, madd_0_r. f_equal. ring.
    Qed.
    Lemma smul_0_r x : smul x (m0 : M) = m0.
    Proof. apply (madd_cancel (smul x m0)). rewrite <- smul_add_r, !madd_0_r. reflexivity. Qed.
    Lemma mopp_smul (a : M) : mopp a = smul (fopp f1) a.
    Proof.
      apply (madd_cancel a). rewrite madd_opp.
      transitivity (madd (smul f1 a) (smul (fopp f1) a)); [|now rewrite smul_1].
      rewrite <- smul_add_l. replace (fadd f1 (fopp f1)) with (f0 : K) by ring. now rewrite smul_0_l.
    Qed.
    Lemma msub_0 (a b : M) : msub a b = m0 <-> a = b.
    Proof.
      unfold msub. split; intros H.
      - apply (f_equal (fun z => madd z b)) in H.
        rewrite <- madd_assoc, (madd_comm (mopp b) b), madd_opp, madd_0_r, madd_0_l in H. exact H.
      - subst. apply madd_opp.
    Qed.
    Lemma msum_app (l1 l2 : list M) : msum (l1 ++ l2) = madd (msum l1) (msum l2).
    Proof.
      induction l1 as [|x l1 IH]; cbn; [now rewrite madd_0_l|]. now rewrite IH, madd_assoc.
    Qed.
    Lemma msum_smul x (l : list M) : msum (map (smul x) l) = smul x (msum l).
    Proof. induction l as [|a l IH]; cbn; [now rewrite smul_0_r|]. now rewrite IH, smul_add_r. Qed.

    (** reflective normalisation of module expressions *)
    Inductive mexpr : Type :=
    | MVar (i : nat) | MZero | MAdd (a b : mexpr) | MOpp (a : mexpr) | MSmul (k : K) (a : mexpr).
    Fixpoint mden (env : list M) (e : mexpr) : M :=
      match e with
      | MVar i => nth i env m0
      | MZero => m0
      | MAdd a b => madd (mden env a) (mden env b)
      | MOpp a => mopp (mden env a)
      | MSmul k a => smul k (mden env a)
      end.
    Fixpoint mcoef (i : nat) (e : mexpr) : K :=
      match e with
      | MVar j => if Nat.eqb i j then f1 else f0
      | MZero => f0
      | MAdd a b => fadd (mcoef i a) (mcoef i b)
      | MOpp a => fopp (mcoef i a)
      | MSmul k a => fmul k (mcoef i a)
      end.
    Fixpoint mlin (i : nat) (env : list M) (e : mexpr) : M :=
      match env with
      | [] => m0
      | a :: env' => madd (smul (mcoef i e) a) (mlin (S i) env' e)
      end.
    Lemma mlin_add env : forall i a b, mlin i env (MAdd a b) = madd (mlin i env a) (mlin i env b).
    Proof.
      induction env as [|x env IH]; intros i a b; cbn; [now rewrite madd_0_l|].
      rewrite IH, smul_add_l.
      rewrite !madd_assoc. f_equal. rewrite <- !madd_assoc. f_equal. apply madd_comm.
    Qed.
    Lemma mlin_smul k env : forall i a, mlin i env (MSmul k a) = smul k (mlin i env a).
    Proof.
      induction env as [|x env IH]; intros i a; cbn; [now rewrite smul_0_r|].
      now rewrite IH, smul_mul, smul_add_r.
    Qed.
    Lemma mlin_opp env : forall i a, mlin i env (MOpp a) = mopp (mlin i env a).
    Proof.
      intros i a. rewrite mopp_smul, <- mlin_smul. revert i.
      induction env as [|x env IH]; intros i; cbn; [reflexivity|].
      rewrite IH. f_equal. f_equal. ring.
    Qed.
    Lemma mlin_zero env : forall i, mlin i env MZero = m0.
    Proof.
      induction env as [|x env IH]; intros i; cbn; [reflexivity|]. rewrite IH, madd_0_r. apply smul_0_l.
    Qed.
    Lemma mlin_var_lt env : forall i j, (j < i)%nat -> mlin i env (MVar j) = m0.
    Proof.
      induction env as [|x env IH]; intros i j H; cbn; [reflexivity|].
      rewrite IH by lia. destruct (Nat.eqb_spec i j); [lia|]. now rewrite smul_0_l, madd_0_l.
    Qed.
    Lemma mlin_var env : forall i j, mlin i env (MVar (i + j)) = nth j env m0.
    Proof.
      induction env as [|x env IH]; intros i j; cbn; [now destruct j|].
      destruct j as [|j].
      - rewrite Nat.add_0_r, Nat.eqb_refl, smul_1. rewrite mlin_var_lt by lia. now rewrite madd_0_r.
      - destruct (Nat.eqb_spec i (i + S j)); [lia|].
        rewrite smul_0_l, madd_0_l. replace (i + S j)%nat with (S i + j)%nat by lia. apply IH.
    Qed.
    Lemma mden_mlin env e : mden env e = mlin 0 env e.
    Proof.
      induction e as [j| |a IHa b IHb|a IHa|k a IHa]; cbn [mden].
      - symmetry. apply (mlin_var env 0 j).
      - symmetry. apply mlin_zero.
      - now rewrite mlin_add, IHa, IHb.
      - now rewrite mlin_opp, IHa.
      - now rewrite mlin_smul, IHa.
    Qed.
    Fixpoint coefs_eq (i : nat) (env : list M) (a b : mexpr) : Prop :=
      match env with
      | [] => True
      | _ :: env' => mcoef i a = mcoef i b /\ coefs_eq (S i) env' a b
      end.
    Lemma mlin_eq env : forall i a b, coefs_eq i env a b -> mlin i env a = mlin i env b.
    Proof.
      induction env as [|x env IH]; cbn; intros i a b H; [reflexivity|].
      destruct H as [H1 H2]. now rewrite H1, (IH (S i) a b H2).
    Qed.
    Lemma module_reflect env a b : coefs_eq 0 env a b -> mden env a = mden env b.
    Proof. intros H. rewrite !mden_mlin. now apply mlin_eq. Qed.
  End Mod.
End Laws.

Ltac m_mem x l :=
  match l with
  | nil => constr:(false)
  | x :: _ => constr:(true)
  | _ :: ?tl => m_mem x tl
  end.
Ltac m_index x l :=
  match l with
  | x :: _ => constr:(O)
  | _ :: ?tl => let i := m_index x tl in constr:(S i)
  end.
Ltac m_atoms K M t l :=
  lazymatch t with
  | madd ?a ?b => let l := m_atoms K M a l in m_atoms K M b l
  | msub ?a ?b => let l := m_atoms K M a l in m_atoms K M b l
  | mopp ?a => m_atoms K M a l
  | smul ?k ?a => m_atoms K M a l
  | m0 => l
  | _ => match m_mem t l with true => l | false => constr:(t :: l) end
  end.
Ltac m_reify K M t l :=
  lazymatch t with
  | madd ?a ?b => let a := m_reify K M a l in let b := m_reify K M b l in constr:(MAdd K a b)
  | msub ?a ?b => let a := m_reify K M a l in let b := m_reify K M b l in constr:(MAdd K a (MOpp K b))
  | mopp ?a => let a := m_reify K M a l in constr:(MOpp K a)
  | smul ?k ?a => let a := m_reify K M a l in constr:(MSmul K k a)
  | m0 => constr:(MZero K)
  | _ => let i := m_index t l in constr:(MVar K i)
  end.
(** [module HK HM]: reduce an equation of a module to equations of coefficients. *)
Ltac module_coefs HK HM :=
  lazymatch type of HM with
  | @mod_laws ?K ?M =>
    lazymatch goal with
    | |- ?a = ?b =>
      let l := m_atoms K M a (@nil (mcar M)) in
      let l := m_atoms K M b l in
      let ea := m_reify K M a l in
      let eb := m_reify K M b l in
      change (mden K M l ea = mden K M l eb);
      apply (module_reflect K HK M HM l ea eb);
      cbn [coefs_eq mcoef Nat.eqb]; repeat split
    end
  end.

(** Simulation of the pointer machine by the machine of names. *)
From Coq Require Import String.
From Verif Require Import Base FfiModel FfiSpec.
From Coq Require Import Lia.
Import List ListNotations.
Open Scope list_scope.
Open Scope Z_scope.

Lemma ty_eqb_eq a b : ty_eqb a b = true <-> a = b.
Proof. split; [destruct a, b; (reflexivity || discriminate)|intros ->; destruct b; reflexivity]. Qed.
Lemma name_eqb_eq a b : name_eqb a b = true <-> a = b.
Proof. unfold name_eqb. destruct a as [a1 a2], b as [b1 b2]. cbn [fst snd]. rewrite Bool.andb_true_iff, !Nat.eqb_eq. split; [intros [-> ->]; reflexivity|intros E; injection E; auto]. Qed.
Lemma name_eqb_refl a : name_eqb a a = true. Proof. apply name_eqb_eq. reflexivity. Qed.
Lemma nodup_map_inj {A B} (f : A -> B) l : NoDup (map f l) -> forall a b, In a l -> In b l -> f a = f b -> a = b.
Proof.
  induction l as [|x l IH]; cbn [map]; intros N a b; [intros []|]. inversion N as [|y m N1 N2]; subst.
  intros [->|Ha] [->|Hb] E; auto.
  - exfalso. apply N1. rewrite E. apply in_map, Hb.
  - exfalso. apply N1. rewrite <- E. apply in_map, Ha.
Qed.
Lemma look_absent {A} (h : list (addr * A)) p : look h p = None <-> ~ In p (map fst h).
Proof.
  induction h as [|[q x] h IH]; cbn [look map fst]; [split; auto|]. destruct (Nat.eqb_spec q p) as [->|N].
  - split; [discriminate|]. intros H. exfalso. apply H. left. reflexivity.
  - rewrite IH. cbn [In]. split; [intros H [E|I]; [congruence|auto]|intros H I; apply H; auto].
Qed.
Lemma put_absent {A} (h : list (addr * A)) p f : ~ In p (map fst h) -> put h p f = h.
Proof. induction h as [|[q x] h IH]; cbn [put map fst]; intros H; [reflexivity|]. destruct (Nat.eqb_spec q p) as [->|N]; [exfalso; apply H; left; reflexivity|]. rewrite IH; [reflexivity|]. intros I. apply H. right. exact I. Qed.
Lemma put_keys {A} (h : list (addr * A)) p f : map fst (put h p f) = map fst h.
Proof. induction h as [|[q x] h IH]; cbn [put map fst]; [reflexivity|]. destruct (q =? p)%nat; cbn [map fst]; [reflexivity|]. rewrite IH. reflexivity. Qed.
Lemma del_keys {A} (h : list (addr * A)) p q : In q (map fst (del h p)) -> In q (map fst h).
Proof. induction h as [|[r x] h IH]; cbn [del map fst]; [intros []|]. destruct (r =? p)%nat; cbn [map fst In]; [auto|]. intros [E|I]; auto. Qed.
Lemma del_nodup {A} (h : list (addr * A)) p : NoDup (map fst h) -> NoDup (map fst (del h p)).
Proof.
  induction h as [|[r x] h IH]; cbn [del map fst]; intros N; [exact N|]. inversion N as [|y m N1 N2]; subst.
  destruct (r =? p)%nat; cbn [map fst]; [exact N2|]. constructor; [|exact (IH N2)]. intros I. apply N1. exact (del_keys _ _ _ I).
Qed.

Section Sim.
Context {V : Type}.
Notation env := (@env V).
Definition hp (sl : slots) (e : env) : list (addr * (ty * V)) := map (fun x => (sl (fst x), snd x)) e.
Definition dom (e : env) : list name := map fst e.
Lemma hp_keys sl e : map fst (hp sl e) = map sl (dom e).
Proof. unfold hp, dom. rewrite !map_map. reflexivity. Qed.
Definition injd (sl : slots) (D : list name) : Prop := forall a b, In a D -> In b D -> sl a = sl b -> a = b.

Lemma sim_eqb sl D a b : injd sl D -> In a D -> In b D -> (sl a =? sl b)%nat = name_eqb a b.
Proof.
  intros J Ha Hb. destruct (name_eqb a b) eqn:E.
  - apply name_eqb_eq in E. subst. apply Nat.eqb_refl.
  - apply Nat.eqb_neq. intros F. apply J in F; auto. subst. rewrite name_eqb_refl in E. discriminate.
Qed.
Lemma sim_look sl D e n : injd sl D -> incl (dom e) D -> In n D -> look (hp sl e) (sl n) = look_n e n.
Proof.
  intros J. induction e as [|[m x] e IH]; cbn; intros I H; [reflexivity|].
  rewrite (sim_eqb sl D m n J) by (auto; apply I; left; reflexivity). destruct (name_eqb m n); [reflexivity|]. apply IH; auto. intros y Hy. apply I. right. exact Hy.
Qed.
Lemma sim_put sl D e n f : injd sl D -> incl (dom e) D -> In n D -> put (hp sl e) (sl n) f = hp sl (put_n e n f).
Proof.
  intros J. induction e as [|[m x] e IH]; cbn; intros I H; [reflexivity|].
  rewrite (sim_eqb sl D m n J) by (auto; apply I; left; reflexivity). destruct (name_eqb m n); cbn; [reflexivity|]. f_equal. apply IH; auto. intros y Hy. apply I. right. exact Hy.
Qed.
Lemma sim_del sl D e n : injd sl D -> incl (dom e) D -> In n D -> del (hp sl e) (sl n) = hp sl (del_n e n).
Proof.
  intros J. induction e as [|[m x] e IH]; cbn; intros I H; [reflexivity|].
  rewrite (sim_eqb sl D m n J) by (auto; apply I; left; reflexivity). destruct (name_eqb m n); cbn; [reflexivity|]. f_equal. apply IH; auto. intros y Hy. apply I. right. exact Hy.
Qed.
Lemma dom_put (e : env) n f : dom (put_n e n f) = dom e.
Proof. unfold dom. induction e as [|[m x] e IH]; cbn; [reflexivity|]. destruct (name_eqb m n); cbn; [reflexivity|]. rewrite IH. reflexivity. Qed.
Lemma dom_del (e : env) n : incl (dom (del_n e n)) (dom e).
Proof. unfold dom. induction e as [|[m x] e IH]; cbn; [intros y Hy; exact Hy|]. destruct (name_eqb m n); cbn; intros y Hy; [right; exact Hy|]. destruct Hy as [E|Hy]; [left; exact E|right; apply IH, Hy]. Qed.
Lemma look_n_in (e : env) n x : look_n e n = Some x -> In n (dom e).
Proof. unfold dom. induction e as [|[m y] e IH]; cbn; [discriminate|]. destruct (name_eqb m n) eqn:E; intros H; [left; apply name_eqb_eq, E|right; apply IH, H]. Qed.
Lemma holds_in e t n : holds e t n = true -> In n (dom e).
Proof. unfold holds. destruct (look_n e n) as [x|] eqn:E; [intros _; exact (look_n_in _ _ _ E)|discriminate]. Qed.

Lemma acc_inj (e : env) h sl : accounted e h sl -> injd sl (dom e).
Proof. intros (-> & N & _ & _) a b Ha Hb E. change (map (fun x => (sl (fst x), snd x)) e) with (hp sl e) in N. rewrite hp_keys in N. exact (nodup_map_inj sl (dom e) N a b Ha Hb E). Qed.
Lemma acc_nonnull (e : env) h sl n : accounted e h sl -> In n (dom e) -> sl n <> null.
Proof. intros (-> & _ & N & _) Hn E. apply N. change (map (fun x => (sl (fst x), snd x)) e) with (hp sl e). rewrite hp_keys, <- E. apply in_map, Hn. Qed.
Lemma acc_live (e : env) h sl n t : accounted e h sl -> holds e t n = true -> live h t (sl n) = true.
Proof.
  intros A Hh. assert (Hn := holds_in _ _ _ Hh). assert (J := acc_inj _ _ _ A). destruct A as (-> & _). unfold live. change (map (fun x => (sl (fst x), snd x)) e) with (hp sl e).
  rewrite (sim_look sl (dom e) e n J (incl_refl _) Hn). exact Hh.
Qed.
(** renaming outside what is held does not matter *)
Lemma acc_ext (e : env) h sl sl' : accounted e h sl -> (forall n, In n (dom e) -> sl' n = sl n) -> accounted e h sl'.
Proof.
  intros (-> & R) E. split; [|exact R]. apply map_ext_in. intros [n x] I. cbn [fst snd]. rewrite E; [reflexivity|]. unfold dom. change n with (fst (n, x)). apply in_map, I.
Qed.

(** ** the arguments *)
Context (utf8 : list Z -> bool).
Section Call.
Context (ps : list param) (c : list carg) (e : env) (h : list (addr * (ty * V))) (sl : slots) (HA : accounted e h sl) (HF : both (fits e) ps c = true).
Notation P i := (nth i ps PVal).
Notation C i := (nth i c (CV 0)).
Notation args := (map (resolve sl) c).
Lemma arg_at i : nth i args (AV 0) = resolve sl (C i).
Proof. change (AV 0) with (resolve sl (CV 0)). apply map_nth. Qed.
Lemma len_pc : length ps = length c.
Proof. pose proof HF as H0. unfold both in H0. apply Bool.andb_true_iff in H0. destruct H0 as [H _]. apply Nat.eqb_eq, H. Qed.
Lemma combine_at i : (i < length ps)%nat -> In (P i, C i) (combine ps c).
Proof. intros H. rewrite <- (combine_nth ps c i PVal (CV 0) len_pc). apply nth_In. rewrite combine_length, <- len_pc, Nat.min_id. exact H. Qed.
Lemma fits_at i : fits e (P i) (C i) = true.
Proof.
  destruct (Nat.lt_ge_cases i (length ps)) as [H|H].
  - pose proof HF as H0. unfold both in H0. apply Bool.andb_true_iff in H0. destruct H0 as [_ F]. rewrite forallb_forall in F. exact (F _ (combine_at i H)).
  - rewrite !nth_overflow by (try rewrite <- len_pc; exact H). reflexivity.
Qed.
Lemma missing_some : existsb (fun x => missing utf8 (fst x) (snd x)) (combine ps c) = true <-> exists i, missing utf8 (P i) (C i) = true.
Proof.
  rewrite existsb_exists. split.
  - intros (x & I & M). destruct (In_nth (combine ps c) x (PVal, CV 0) I) as (i & L & E). exists i. rewrite (combine_nth ps c i PVal (CV 0) len_pc) in E. rewrite <- E in M. exact M.
  - intros (i & M). exists (P i, C i). split; [|exact M]. apply combine_at. destruct (Nat.lt_ge_cases i (length ps)) as [H|H]; [exact H|]. rewrite !nth_overflow in M by (try rewrite <- len_pc; exact H). discriminate.
Qed.

Definition passes (s : step) : Prop :=
  match s with
  | Null i _ => is_null (resolve sl (C i)) = false
  | StrOk i _ => bad_str utf8 (resolve sl (C i)) = false
  | LenOk i _ => is_empty (resolve sl (C i)) = false
  | _ => True
  end.
Definition del_arg (h : list (addr * (ty * V))) (i : nat) : list (addr * (ty * V)) := match nth i args (AV 0) with AH p => if (p =? null)%nat then h else del h p | _ => h end.
Lemma handle_null n t : holds e t n = true -> (sl n =? null)%nat = false.
Proof. intros H. apply Nat.eqb_neq. exact (acc_nonnull _ _ _ _ HA (holds_in _ _ _ H)). Qed.

Lemma null_missing i : required_ptr (P i) = true -> is_null (resolve sl (C i)) = true -> missing utf8 (P i) (C i) = true.
Proof.
  pose proof (fits_at i) as F. destruct (P i); destruct (C i) as [[n|]|[ns|]|[s|]|[b|]|[|]|z]; cbn [required_ptr fits resolve is_null missing] in *; try discriminate; auto; intros _ N; rewrite (handle_null _ _ F) in N; discriminate.
Qed.
Definition is_slot (p : param) : bool := match p with POut _ | POutOpt _ | POutStr | POutVal => true | _ => false end.
Lemma does_cons s l x : does l x = true -> does (s :: l) x = true.
Proof. unfold does. cbn [existsb]. intros ->. apply Bool.orb_true_r. Qed.
Lemma steps_sound l : forall ck, steps_ok ps ck l = true -> (forall i, In i ck -> is_null (resolve sl (C i)) = false) ->
  (exists k, run_steps utf8 args l h = SEarly k h /\ 100 <= k <= 112 /\ exists i, missing utf8 (P i) (C i) = true /\ (is_slot (P i) = true -> does l (Null i 0) = true)) \/
  (run_steps utf8 args l h = SGo (fold_left del_arg (takes l) h) /\ Forall passes l).
Proof.
  induction l as [|s l IH]; intros ck OK CK.
  - right. split; [reflexivity|constructor].
  - cbn [steps_ok] in OK. cbn [run_steps].
    destruct s as [i k|i k|i k|i t m|i t|i t|i t|i t]; rewrite ?arg_at.
    + apply Bool.andb_true_iff in OK as [OK OK3]. apply Bool.andb_true_iff in OK as [OK1 OK2].
      destruct (is_null (resolve sl (C i))) eqn:N.
      * left. exists k. split; [reflexivity|]. split; [unfold code_ok in OK2; apply Bool.andb_true_iff in OK2; lia|]. exists i. split; [apply null_missing; auto|]. intros _. unfold does. cbn [existsb step_eqb]. rewrite Nat.eqb_refl. reflexivity.
      * destruct (IH _ OK3) as [H|[H1 H2]]; [|left; destruct H as (kk & Hr & Hk & ii & Hi1 & Hi2); exists kk; split; [exact Hr|]; split; [exact Hk|]; exists ii; split; [exact Hi1|]; intros Hs; apply does_cons; exact (Hi2 Hs)|right; split; [exact H1|constructor; [exact N|exact H2]]]. intros j [<-|Hj]; auto.
    + destruct (P i) eqn:Pi; try discriminate. apply Bool.andb_true_iff in OK as [OK1 OK2].
      destruct (bad_str utf8 (resolve sl (C i))) eqn:N.
      * left. exists k. split; [reflexivity|]. split; [unfold code_ok in OK1; apply Bool.andb_true_iff in OK1; lia|]. exists i. pose proof (fits_at i) as F. rewrite Pi in F |- *. split; [|discriminate].
        destruct (C i) as [[n|]|[ns|]|[s|]|[b|]|[|]|z]; cbn [fits resolve bad_str missing] in *; try discriminate; auto.
      * destruct (IH _ OK2 CK) as [H|[H1 H2]]; [left; destruct H as (kk & Hr & Hk & ii & Hi1 & Hi2); exists kk; split; [exact Hr|]; split; [exact Hk|]; exists ii; split; [exact Hi1|]; intros Hs; apply does_cons; exact (Hi2 Hs)|right; split; [exact H1|constructor; [exact N|exact H2]]].
    + assert (OK' : code_ok k && steps_ok ps ck l = true) by (destruct (P i); try discriminate; exact OK). apply Bool.andb_true_iff in OK' as [OK1 OK2].
      destruct (is_empty (resolve sl (C i))) eqn:N.
      * left. exists k. split; [reflexivity|]. split; [unfold code_ok in OK1; apply Bool.andb_true_iff in OK1; lia|]. exists i. pose proof (fits_at i) as F.
        destruct (P i); try discriminate; (split; [|discriminate]); destruct (C i) as [[n|]|[[|x ns]|]|[s|]|[[|x b]|]|[|]|z]; cbn [fits resolve is_empty missing map] in *; try discriminate; auto.
      * destruct (IH _ OK2 CK) as [H|[H1 H2]]; [left; destruct H as (kk & Hr & Hk & ii & Hi1 & Hi2); exists kk; split; [exact Hr|]; split; [exact Hk|]; exists ii; split; [exact Hi1|]; intros Hs; apply does_cons; exact (Hi2 Hs)|right; split; [exact H1|constructor; [exact N|exact H2]]].
    + destruct (P i) eqn:Pi; try discriminate. apply Bool.andb_true_iff in OK as [OK OK2]. apply Bool.andb_true_iff in OK as [OK OKc]. apply Bool.andb_true_iff in OK as [OKt OKm].
      apply ty_eqb_eq in OKt. subst t0. apply existsb_exists in OKc as (j & Ij & Ej). apply Nat.eqb_eq in Ej. subst j. pose proof (CK i Ij) as Nn.
      pose proof (fits_at i) as F. rewrite Pi in F. destruct (C i) as [[n|]|[ns|]|[s|]|[b|]|[|]|z]; cbn [fits resolve is_null] in *; try discriminate.
      rewrite (acc_live _ _ _ _ _ HA F). destruct (IH _ OK2 CK) as [H|[H1 H2]]; [left; destruct H as (kk & Hr & Hk & ii & Hi1 & Hi2); exists kk; split; [exact Hr|]; split; [exact Hk|]; exists ii; split; [exact Hi1|]; intros Hs; apply does_cons; exact (Hi2 Hs)|right; split; [exact H1|constructor; [exact I|exact H2]]].
    + destruct (P i) eqn:Pi; try discriminate. apply Bool.andb_true_iff in OK as [OKt OK2].
      apply ty_eqb_eq in OKt. subst t0.
      pose proof (fits_at i) as F. rewrite Pi in F. destruct (C i) as [[n|]|[ns|]|[s|]|[b|]|[|]|z]; cbn [fits resolve is_null] in *; try discriminate;
        [rewrite (acc_live _ _ _ _ _ HA F), Bool.orb_true_r|]; destruct (IH _ OK2 CK) as [H|[H1 H2]]; try (left; destruct H as (kk & Hr & Hk & ii & Hi1 & Hi2); exists kk; split; [exact Hr|]; split; [exact Hk|]; exists ii; split; [exact Hi1|]; intros Hs; apply does_cons; exact (Hi2 Hs)); right; (split; [exact H1|constructor; [exact I|exact H2]]).
    + destruct (P i) eqn:Pi; try discriminate. apply Bool.andb_true_iff in OK as [OK OK2]. apply Bool.andb_true_iff in OK as [OKt OKc].
      apply ty_eqb_eq in OKt. subst t0. apply existsb_exists in OKc as (j & Ij & Ej). apply Nat.eqb_eq in Ej. subst j. pose proof (CK i Ij) as Nn.
      pose proof (fits_at i) as F. rewrite Pi in F. destruct (C i) as [[n|]|[ns|]|[s|]|[b|]|[|]|z]; cbn [fits resolve is_null] in *; try discriminate.
      assert (L : forallb (live h t) (map (fun n => match n with Some n => sl n | None => null end) ns) = true).
      { rewrite forallb_forall in *. intros p Hp. apply in_map_iff in Hp as (x & <- & Ix). specialize (F x Ix). destruct x as [n|]; [|discriminate]. exact (acc_live _ _ _ _ _ HA F). }
      rewrite L. destruct (IH _ OK2 CK) as [H|[H1 H2]]; [left; destruct H as (kk & Hr & Hk & ii & Hi1 & Hi2); exists kk; split; [exact Hr|]; split; [exact Hk|]; exists ii; split; [exact Hi1|]; intros Hs; apply does_cons; exact (Hi2 Hs)|right; split; [exact H1|constructor; [exact I|exact H2]]].
    + destruct (P i) eqn:Pi; try discriminate. destruct l as [|s' l']; [|discriminate]. apply Bool.andb_true_iff in OK as [OKt OKc].
      apply ty_eqb_eq in OKt. subst t0. apply existsb_exists in OKc as (j & Ij & Ej). apply Nat.eqb_eq in Ej. subst j. pose proof (CK i Ij) as Nn.
      pose proof (fits_at i) as F. rewrite Pi in F. destruct (C i) as [[n|]|[ns|]|[s|]|[b|]|[|]|z] eqn:Ci; cbn [fits resolve is_null] in *; try discriminate.
      rewrite (acc_live _ _ _ _ _ HA F). right. split; [|repeat constructor]. cbn [takes flat_map app fold_left run_steps]. unfold del_arg. rewrite arg_at, Ci. cbn [resolve]. rewrite Nn. reflexivity.
    + destruct (P i) eqn:Pi; try discriminate. destruct l as [|s' l']; [|discriminate].
      apply ty_eqb_eq in OK. subst t0.
      pose proof (fits_at i) as F. rewrite Pi in F. right. split; [|repeat constructor]. cbn [takes flat_map app fold_left run_steps]. unfold del_arg. rewrite arg_at.
      destruct (C i) as [[n|]|[ns|]|[s|]|[b|]|[|]|z] eqn:Ci; cbn [fits resolve is_null] in *; try discriminate; [|reflexivity].
      rewrite (handle_null _ _ F), (acc_live _ _ _ _ _ HA F). reflexivity.
Qed.

Lemma in_index {A} (l : list A) i d : (i < length l)%nat -> In (i, nth i l d) (index l).
Proof.
  intros H. unfold index. assert (E : (i, nth i l d) = nth i (combine (seq 0 (length l)) l) (0%nat, d)).
  { rewrite combine_nth by (rewrite seq_length; reflexivity). rewrite seq_nth by exact H. reflexivity. }
  rewrite E. apply nth_In. rewrite combine_length, seq_length, Nat.min_id. exact H.
Qed.
Lemma index_in {A} (l : list A) i x d : In (i, x) (index l) -> x = nth i l d.
Proof.
  unfold index. intros I. destruct (In_nth _ _ (0%nat, d) I) as (j & L & E). rewrite combine_nth in E by (rewrite seq_length; reflexivity).
  rewrite combine_length, seq_length, Nat.min_id in L. rewrite seq_nth in E by exact L. injection E as E1 E2. cbn in E1. subst. reflexivity.
Qed.
Lemma does_null l i : does l (Null i 0) = true -> Forall passes l -> is_null (resolve sl (C i)) = false.
Proof. intros D F. apply existsb_exists in D as (s & I & E). rewrite Forall_forall in F. specialize (F s I). destruct s; try discriminate. cbn in E. apply Nat.eqb_eq in E. subst. exact F. Qed.
Lemma does_str l i : does l (StrOk i 0) = true -> Forall passes l -> bad_str utf8 (resolve sl (C i)) = false.
Proof. intros D F. apply existsb_exists in D as (s & I & E). rewrite Forall_forall in F. specialize (F s I). destruct s; try discriminate. cbn in E. apply Nat.eqb_eq in E. subst. exact F. Qed.
Lemma does_len l i : does l (LenOk i 0) = true -> Forall passes l -> is_empty (resolve sl (C i)) = false.
Proof. intros D F. apply existsb_exists in D as (s & I & E). rewrite Forall_forall in F. specialize (F s I). destruct s; try discriminate. cbn in E. apply Nat.eqb_eq in E. subst. exact F. Qed.

Lemma passed_none l lax : forallb (covered lax l) (index ps) = true -> (lax = true -> existsb (fun x => match x with CO false => true | _ => false end) c = false) -> Forall passes l -> forall i, missing utf8 (P i) (C i) = false.
Proof.
  intros Cv Lx Fa i. destruct (missing utf8 (P i) (C i)) eqn:M; [exfalso|reflexivity].
  assert (Hi : (i < length ps)%nat). { destruct (Nat.lt_ge_cases i (length ps)) as [H|H]; [exact H|]. rewrite !nth_overflow in M by (try rewrite <- len_pc; exact H). discriminate. }
  rewrite forallb_forall in Cv. specialize (Cv _ (in_index ps i PVal Hi)). unfold covered in Cv.
  assert (Slot : C i = CO false -> lax || does l (Null i 0) = true -> False).
  { intros Ci H. destruct lax; cbn [orb] in H.
    - specialize (Lx eq_refl). assert (Hx : existsb (fun x => match x with CO false => true | _ => false end) c = true); [|congruence].
      apply existsb_exists. exists (C i). split; [apply nth_In; rewrite <- len_pc; exact Hi|]. rewrite Ci. reflexivity.
    - pose proof (does_null l i H Fa) as N. rewrite Ci in N. discriminate. }
  pose proof (does_null l i) as DN. pose proof (does_str l i) as DS. pose proof (does_len l i) as DL.
  destruct (P i); destruct (C i) as [[n|]|[[|y ns]|]|[[|y s]|]|[[|y b]|]|[|]|z]; cbn [missing] in M; try discriminate; try (apply Slot; [reflexivity|exact Cv]);
    repeat match type of Cv with _ && _ = true => apply Bool.andb_true_iff in Cv as [Cv ?] end;
    repeat match goal with
    | H : does l (Null i 0) = true |- _ => specialize (DN H Fa); clear H
    | H : does l (StrOk i 0) = true |- _ => specialize (DS H Fa); clear H
    | H : does l (LenOk i 0) = true |- _ => specialize (DL H Fa); clear H
    end; cbn [resolve is_null is_empty bad_str map null] in *; try discriminate; try congruence.
Qed.

Lemma input_sim : map (input h) args = map (input_n e) c.
Proof.
  rewrite map_map. apply map_ext_in. intros x Ix. destruct (In_nth c x (CV 0) Ix) as (i & Li & <-). pose proof (fits_at i) as F. pose proof (acc_inj _ _ _ HA) as J.
  assert (Hh : h = hp sl e) by apply HA.
  assert (Lk : forall n t, holds e t n = true -> look h (sl n) = look_n e n) by (intros n t Hn; rewrite Hh; apply (sim_look sl (dom e)); [exact J|apply incl_refl|exact (holds_in _ _ _ Hn)]).
  assert (Ln : look h null = None) by (apply look_absent; apply HA).
  destruct (P i); destruct (C i) as [[n|]|[ns|]|[s|]|[b|]|[|]|z]; cbn [fits resolve input input_n] in *; try discriminate; try reflexivity; unfold value; try (rewrite Ln; reflexivity); try (rewrite (Lk _ _ F); reflexivity).
  f_equal. clear - F Lk. induction ns as [|x ns IH]; cbn [map flat_map forallb] in *; [reflexivity|]. apply Bool.andb_true_iff in F as [F1 F2]. destruct x as [n|]; [|discriminate]. rewrite (Lk _ _ F1), (IH F2). reflexivity.
Qed.

(** ** no aliasing *)
Lemma excl_type l i : forall ck, steps_ok ps ck l = true -> In i (exclusive l) -> exists t, type_of (P i) = Some t /\ forall p, In p (addrs_of (resolve sl (C i))) -> exists n, p = sl n /\ holds e t n = true.
Proof.
  induction l as [|s l IH]; intros ck OK I; [destruct I|]. cbn [steps_ok] in OK. cbn [exclusive flat_map] in I. apply in_app_or in I.
  assert (Q : forall ck', steps_ok ps ck' l = true -> In i (exclusive l) -> exists t, type_of (P i) = Some t /\ forall p, In p (addrs_of (resolve sl (C i))) -> exists n, p = sl n /\ holds e t n = true) by (intros ck' H1 H2; exact (IH ck' H1 H2)).
  assert (R : forall j t, (exists m, P j = PIn t m) \/ P j = PTake t \/ P j = PTakeOpt t -> exists t, type_of (P j) = Some t /\ forall p, In p (addrs_of (resolve sl (C j))) -> exists n, p = sl n /\ holds e t n = true).
  { intros j t Hj. exists t. split; [destruct Hj as [(m & ->)|[-> | ->]]; reflexivity|]. intros p Hp. pose proof (fits_at j) as F.
    destruct Hj as [(m & Hj)|[Hj|Hj]]; rewrite Hj in F; destruct (C j) as [[n|]|[ns|]|[x|]|[b|]|[|]|z]; cbn [fits resolve addrs_of] in *; try discriminate; try (destruct Hp; fail);
      rewrite (handle_null _ _ F) in Hp; destruct Hp as [<-|[]]; exists n; auto. }
  destruct s as [j k|j k|j k|j t m|j t|j t|j t|j t]; cbn [In] in I.
  - destruct I as [[]|I]. apply Bool.andb_true_iff in OK as [_ OK]. exact (Q _ OK I).
  - destruct I as [[]|I]. destruct (P j); try discriminate. apply Bool.andb_true_iff in OK as [_ OK]. exact (Q _ OK I).
  - destruct I as [[]|I]. destruct (P j); try discriminate; apply Bool.andb_true_iff in OK as [_ OK]; exact (Q _ OK I).
  - destruct (P j) eqn:Pj; try discriminate. apply Bool.andb_true_iff in OK as [_ OK]. destruct I as [I|I]; [|exact (Q _ OK I)]. destruct m; [|destruct I]. destruct I as [<-|[]]. apply (R j t0). left. exists mut. exact Pj.
  - destruct I as [[]|I]. destruct (P j); try discriminate. apply Bool.andb_true_iff in OK as [_ OK]. exact (Q _ OK I).
  - destruct I as [[]|I]. destruct (P j); try discriminate. apply Bool.andb_true_iff in OK as [_ OK]. exact (Q _ OK I).
  - destruct (P j) eqn:Pj; try discriminate. destruct l; [|discriminate]. destruct I as [[<-|[]]|[]]. apply (R j t0). auto.
  - destruct (P j) eqn:Pj; try discriminate. destruct l; [|discriminate]. destruct I as [[<-|[]]|[]]. apply (R j t0). auto.
Qed.
Lemma arg_type j p : In p (addrs_of (resolve sl (C j))) -> exists t n, type_of (P j) = Some t /\ p = sl n /\ holds e t n = true.
Proof.
  intros Hp. pose proof (fits_at j) as F.
  destruct (P j) as [t m|t|t|t|t| | | | |t|t| | | ]; destruct (C j) as [[n|]|[ns|]|[x|]|[b|]|[|]|z]; cbn [fits resolve addrs_of type_of] in *; try discriminate; try (destruct Hp; fail);
    try (rewrite (handle_null _ _ F) in Hp; destruct Hp as [<-|[]]; exists t, n; auto; fail).
  apply in_map_iff in Hp as (x & <- & Ix). rewrite forallb_forall in F. specialize (F x Ix). destruct x as [n|]; [|discriminate]. exists t, n. auto.
Qed.
Lemma not_aliased l : steps_ok ps [] l = true -> no_alias ps l = true -> aliased args l = false.
Proof.
  intros OK NA. unfold aliased. destruct (existsb _ (exclusive l)) eqn:E; [exfalso|reflexivity].
  apply existsb_exists in E as (i & Ii & E). apply existsb_exists in E as (j & Ij & E). apply Bool.andb_true_iff in E as [Nij E]. rewrite !arg_at in E.
  apply existsb_exists in E as (p & Ip & E). apply existsb_exists in E as (q & Iq & E). apply Nat.eqb_eq in E. subst q.
  destruct (excl_type l i [] OK Ii) as (t & Ti & Hi). destruct (Hi p Ip) as (n & En & Hn). destruct (arg_type j p Iq) as (t' & n' & Tj & En' & Hn').
  assert (n = n') by (apply (acc_inj _ _ _ HA); [exact (holds_in _ _ _ Hn)|exact (holds_in _ _ _ Hn')|congruence]). subst n'.
  assert (t = t'). { unfold holds in Hn, Hn'. destruct (look_n e n) as [[a v]|]; [|discriminate]. apply ty_eqb_eq in Hn, Hn'. congruence. } subst t'.
  unfold no_alias in NA. rewrite forallb_forall in NA. specialize (NA i Ii). rewrite forallb_forall in NA.
  rewrite map_length, in_seq in Ij. assert (Lj : (j < length ps)%nat) by (rewrite len_pc; lia). specialize (NA _ (in_index ps j PVal Lj)). cbn [fst snd] in NA.
  rewrite Ti, Tj in NA. apply Bool.orb_true_iff in NA as [NA|NA].
  - rewrite Nat.eqb_sym in NA. rewrite NA in Nij. discriminate.
  - rewrite (proj2 (ty_eqb_eq t t) eq_refl) in NA. discriminate.
Qed.

(** ** what is changed and deallocated *)
Definition put_arg (mv : nat -> V) (h : list (addr * (ty * V))) (i : nat) : list (addr * (ty * V)) := match nth i args (AV 0) with AH p => put h p (fun x => (fst x, mv i)) | _ => h end.
Lemma mutate_fold mv l : forall h0, mutate args l mv h0 = fold_left (put_arg mv) (mut_steps l) h0.
Proof.
  unfold mutate. induction l as [|s l IH]; intros h0; [reflexivity|]. cbn [fold_left mut_steps flat_map]. rewrite IH, fold_left_app.
  destruct s as [j k|j k|j k|j t [|]|j t|j t|j t|j t]; reflexivity.
Qed.
Lemma take_sim : forall l e0, incl (dom e0) (dom e) -> incl l (index ps) -> ~ In null (map fst (hp sl e0)) ->
  fold_left del_arg (take_params l) (hp sl e0) = hp sl (taken_n c e0 l) /\ incl (dom (taken_n c e0 l)) (dom e).
Proof.
  induction l as [|[i p] l IH]; intros e0 I0 Il Nn; [split; [reflexivity|exact I0]|].
  assert (Pi : p = P i) by (apply index_in; apply Il; left; reflexivity).
  assert (Il' : incl l (index ps)) by (intros y Hy; apply Il; right; exact Hy).
  assert (Step : forall t, p = PTake t \/ p = PTakeOpt t -> fold_left del_arg (take_params ((i, p) :: l)) (hp sl e0) = hp sl (taken_n c e0 ((i, p) :: l)) /\ incl (dom (taken_n c e0 ((i, p) :: l))) (dom e)).
  { intros t Hp.
    assert (Q : take_params ((i, p) :: l) = i :: take_params l) by (destruct Hp as [-> | ->]; reflexivity). rewrite Q.
    assert (Q2 : taken_n c e0 ((i, p) :: l) = taken_n c (match C i with CH (Some n) => del_n e0 n | _ => e0 end) l) by (destruct Hp as [-> | ->]; reflexivity). rewrite Q2.
    assert (F : match C i with CH (Some n) => holds e t n = true | CH None => True | _ => False end).
    { pose proof (fits_at i) as F. rewrite <- Pi in F. destruct Hp as [-> | ->]; destruct (C i) as [[n|]|[ns|]|[x|]|[b|]|[|]|z]; cbn [fits] in F; try discriminate; auto. }
    cbn [fold_left]. unfold del_arg at 2. rewrite arg_at. destruct (C i) as [[n|]|[ns|]|[x|]|[b|]|[|]|z]; try contradiction; cbn [resolve].
    - rewrite (handle_null _ _ F). rewrite (sim_del sl (dom e) e0 n (acc_inj _ _ _ HA) I0 (holds_in _ _ _ F)).
      apply IH; [intros y Hy; apply I0, (dom_del _ _ _ Hy)|exact Il'|].
      intros Hy. apply Nn. rewrite hp_keys in *. apply in_map_iff in Hy as (y & <- & Iy). apply in_map, (dom_del _ _ _ Iy).
    - apply IH; auto. }
  destruct p as [t m|t|t|t|t| | | | |t|t| | | ]; try (apply (Step t); auto; fail); cbn [take_params flat_map snd app]; apply (IH e0 I0 Il' Nn).
Qed.
Lemma put_sim mv : forall l e0, incl (dom e0) (dom e) -> incl l (index ps) -> ~ In null (map fst (hp sl e0)) ->
  fold_left (put_arg mv) (mut_params l) (hp sl e0) = hp sl (changed_n c mv e0 l) /\ dom (changed_n c mv e0 l) = dom e0.
Proof.
  induction l as [|[i p] l IH]; intros e0 I0 Il Nn; [split; reflexivity|].
  assert (Pi : p = P i) by (apply index_in; apply Il; left; reflexivity).
  assert (Il' : incl l (index ps)) by (intros y Hy; apply Il; right; exact Hy).
  destruct p as [t [|]|t|t|t|t| | | | |t|t| | | ]; try (exact (IH e0 I0 Il' Nn)).
  assert (Q2 : changed_n c mv e0 ((i, PIn t true) :: l) = changed_n c mv (match C i with CH (Some n) => put_n e0 n (fun x => (fst x, mv i)) | _ => e0 end) l) by reflexivity. rewrite Q2.
  change (mut_params ((i, PIn t true) :: l)) with (i :: mut_params l). cbn [fold_left]. unfold put_arg at 2. rewrite arg_at.
  pose proof (fits_at i) as F. rewrite <- Pi in F. destruct (C i) as [[n|]|[ns|]|[x|]|[b|]|[|]|z]; cbn [fits] in F; try discriminate; cbn [resolve].
  - rewrite (sim_put sl (dom e) e0 n _ (acc_inj _ _ _ HA) I0 (holds_in _ _ _ F)).
    destruct (IH (put_n e0 n (fun x => (fst x, mv i)))) as [H1 H2]; [rewrite dom_put; exact I0|exact Il'|rewrite hp_keys, dom_put, <- hp_keys; exact Nn|].
    split; [exact H1|]. rewrite H2. apply dom_put.
  - rewrite put_absent by exact Nn. exact (IH e0 I0 Il' Nn).
Qed.
Lemma del_fold_acc : forall l h0, NoDup (map fst h0) -> ~ In null (map fst h0) -> ~ In unit_box (map fst h0) ->
  NoDup (map fst (fold_left del_arg l h0)) /\ ~ In null (map fst (fold_left del_arg l h0)) /\ ~ In unit_box (map fst (fold_left del_arg l h0)).
Proof.
  induction l as [|i l IH]; intros h0 A B D; [auto|]. cbn [fold_left]. unfold del_arg at 2 4 6. destruct (nth i args (AV 0)) as [p|ps'|s|b|g|z]; try (apply IH; auto; fail).
  destruct (p =? null)%nat; [apply IH; auto|]. apply IH; [apply del_nodup, A|intros H; apply B, (del_keys _ _ _ H)|intros H; apply D, (del_keys _ _ _ H)].
Qed.
Lemma put_fold_keys mv : forall l h0, map fst (fold_left (put_arg mv) l h0) = map fst h0.
Proof. induction l as [|i l IH]; intros h0; [reflexivity|]. cbn [fold_left]. rewrite IH. unfold put_arg. destruct (nth i args (AV 0)); try reflexivity. apply put_keys. Qed.
Lemma after_sim mv l : takes l = take_params (index ps) -> mut_steps l = mut_params (index ps) ->
  accounted (changed_n c mv (taken_n c e (index ps)) (index ps)) (mutate args l mv (fold_left del_arg (takes l) h)) sl /\
  incl (dom (changed_n c mv (taken_n c e (index ps)) (index ps))) (dom e).
Proof.
  intros T M. rewrite mutate_fold, T, M. pose proof HA as HA'. destruct HA' as (Hh & N1 & N2 & N3).
  destruct (take_sim (index ps) e (incl_refl _) (incl_refl _)) as [S1 I1]; [change (hp sl e) with (map (fun x => (sl (fst x), snd x)) e); rewrite <- Hh; exact N2|].
  destruct (del_fold_acc (take_params (index ps)) h N1 N2 N3) as (D1 & D2 & D3).
  assert (Hh' : h = hp sl e) by exact Hh. rewrite Hh' in D1, D2, D3 |- *. rewrite S1 in D1, D2, D3 |- *.
  destruct (put_sim mv (index ps) (taken_n c e (index ps)) I1 (incl_refl _) D2) as [S2 I2].
  split; [|rewrite I2; exact I1]. split; [rewrite S2; reflexivity|].
  rewrite put_fold_keys. auto.
Qed.
End Call.

(** ** the results *)
Context (alloc : list (addr * (ty * V)) -> addr) (HAl : fresh_alloc alloc) (k : nat).
Definition old (o : nat) (e : env) : Prop := forall n, In n (dom e) -> (fst n < k)%nat \/ (fst n = k /\ (snd n < o)%nat).
Lemma old_new o i (e : env) : old o e -> (o <= i)%nat -> ~ In (k, i) (dom e).
Proof. intros O L I. destruct (O _ I) as [H|[_ H]]; cbn [fst snd] in H; lia. Qed.
Lemma old_more o o' (e : env) : old o e -> (o <= o')%nat -> old o' e.
Proof. intros O L n I. destruct (O _ I) as [H|[H1 H2]]; [left; exact H|right; split; [exact H1|lia]]. Qed.
Definition sl_at (i : nat) (p : addr) (sl : slots) : slots := fun n => if name_eqb n (k, i) then p else sl n.
Lemma sl_at_old i p sl o (e : env) : old o e -> (o <= i)%nat -> forall n, In n (dom e) -> sl_at i p sl n = sl n.
Proof. intros O L n I. unfold sl_at. destruct (name_eqb n (k, i)) eqn:E; [|reflexivity]. apply name_eqb_eq in E. subst. exfalso. exact (old_new _ _ _ O L I). Qed.
Lemma acc_new e h sl o i t v : accounted e h sl -> old o e -> (o <= i)%nat -> accounted (((k, i), (t, v)) :: e) ((alloc h, (t, v)) :: h) (sl_at i (alloc h) sl) /\ old (S i) (((k, i), (t, v)) :: e).
Proof.
  intros A O L. destruct (HAl h) as (F1 & F2 & F3). apply look_absent in F3.
  pose proof (acc_ext _ _ _ _ A (sl_at_old i (alloc h) sl o e O L)) as (A1 & A2 & A3 & A4). split; [split; [|split; [|split]]|].
  - cbn [map fst snd]. unfold sl_at at 1. rewrite name_eqb_refl. f_equal. exact A1.
  - cbn [map fst]. constructor; assumption.
  - cbn [map fst In]. intros [E|E]; [congruence|auto].
  - cbn [map fst In]. intros [E|E]; [congruence|auto].
  - intros n [<-|I]; cbn [fst snd]; [right; split; [reflexivity|lia]|]. destruct (O n I) as [H|[H1 H2]]; [left; exact H|right; split; [exact H1|lia]].
Qed.
Lemma write_sim args ov on oz : forall ps o outs h e sl,
  outs_ok outs (combine (seq o (length ps)) ps) = true -> accounted e h sl -> old o e ->
  (forall i p, In (i, p) (combine (seq o (length ps)) ps) -> match p with POut _ | POutOpt _ | POutStr | POutVal => is_null (nth i args (AV 0)) = false | _ => True end) ->
  exists h' l, write alloc args outs ov on oz h = Some (h', l) /\
    let '(e', vs, g) := results k (combine (seq o (length ps)) ps) ov on oz e in
    vs = vals_of l /\ g = ptrs_of l /\ accounted e' h' (store k l sl) /\ old (o + length ps) e'.
Proof.
  induction ps as [|p ps IH]; intros o outs h e sl OK A O Nn.
  - cbn in OK. destruct outs; [|discriminate]. exists h, []. cbn. rewrite Nat.add_0_r. auto.
  - cbn [length seq combine] in *. cbn [outs_ok] in OK. cbn [results].
    assert (Nn' : forall i q, In (i, q) (combine (seq (S o) (length ps)) ps) -> match q with POut _ | POutOpt _ | POutStr | POutVal => is_null (nth i args (AV 0)) = false | _ => True end) by (intros i q I; apply Nn; right; exact I).
    pose proof (Nn o p (or_introl eq_refl)) as N0.
    assert (New : forall t w outs', (w = WBox t \/ (w = WBoxOpt t /\ on o = false) \/ (w = WStr /\ t = TCString)) -> is_null (nth o args (AV 0)) = false -> outs_ok outs' (combine (seq (S o) (length ps)) ps) = true ->
      exists h' l, write alloc args ((o, w) :: outs') ov on oz h = Some (h', l) /\
      let '(e', vs, g) := (let '(e', vs, g) := results k (combine (seq (S o) (length ps)) ps) ov on oz (((k, o), (t, ov o)) :: e) in (e', vs, o :: g)) in
      vs = vals_of l /\ g = ptrs_of l /\ accounted e' h' (store k l sl) /\ old (o + S (length ps)) e').
    { intros t w outs' Hw N OK'. destruct (acc_new e h sl o o t (ov o) A O (le_n _)) as [A' O'].
      destruct (IH (S o) outs' _ _ _ OK' A' O' Nn') as (h' & l & W & R).
      exists h', ((o, SPtr (alloc h)) :: l). split.
      - cbn [write]. rewrite N. destruct Hw as [-> | [[-> Hon] | [-> ->]]]; [|rewrite Hon|]; rewrite W; reflexivity.
      - destruct (results k (combine (seq (S o) (length ps)) ps) ov on oz (((k, o), (t, ov o)) :: e)) as [[e' vs] g]. destruct R as (R1 & R2 & R3 & R4).
        destruct (HAl h) as (F1 & _). cbn [vals_of ptrs_of flat_map fst snd app]. apply Nat.eqb_neq in F1. rewrite F1. cbn [app].
        split; [exact R1|]. split; [f_equal; exact R2|]. split; [exact R3|]. replace (o + S (length ps))%nat with (S o + length ps)%nat by lia. exact R4. }
    assert (O1 : old (S o) e) by (apply (old_more o); [exact O|lia]).
    assert (Skip : forall outs', outs_ok outs' (combine (seq (S o) (length ps)) ps) = true -> exists h' l, write alloc args outs' ov on oz h = Some (h', l) /\
      let '(e', vs, g) := results k (combine (seq (S o) (length ps)) ps) ov on oz e in vs = vals_of l /\ g = ptrs_of l /\ accounted e' h' (store k l sl) /\ old (o + S (length ps)) e').
    { intros outs' OK'. replace (o + S (length ps))%nat with (S o + length ps)%nat by lia. exact (IH (S o) outs' h e sl OK' A O1 Nn'). }
    destruct p as [t m|t|t|t|t| | | | |t|t| | | ]; try (exact (Skip outs OK)).
    + destruct outs as [|[j w] outs]; [discriminate|]. destruct w as [t'|t'| | | ]; try discriminate. apply Bool.andb_true_iff in OK as [OK OK2]. apply Bool.andb_true_iff in OK as [OKi OKt].
      apply Nat.eqb_eq in OKi. apply ty_eqb_eq in OKt. subst j t'. apply (New t (WBox t) outs); auto.
    + destruct outs as [|[j w] outs]; [discriminate|]. destruct w as [t'|t'| | | ]; try discriminate. apply Bool.andb_true_iff in OK as [OK OK2]. apply Bool.andb_true_iff in OK as [OKi OKt].
      apply Nat.eqb_eq in OKi. apply ty_eqb_eq in OKt. subst j t'. destruct (on o) eqn:On; [|apply (New t (WBoxOpt t) outs); auto].
      destruct (IH (S o) outs h e (sl_at o null sl) OK2 (acc_ext _ _ _ _ A (sl_at_old o null sl o e O (le_n _))) O1 Nn') as (h' & l & W & R).
      exists h', ((o, SPtr null) :: l). split; [cbn [write]; rewrite N0, On, W; reflexivity|].
      destruct (results k (combine (seq (S o) (length ps)) ps) ov on oz e) as [[e' vs] g]. replace (o + S (length ps))%nat with (S o + length ps)%nat by lia. exact R.
    + destruct outs as [|[j w] outs]; [discriminate|]. destruct w as [t'|t'| | | ]; try discriminate. apply Bool.andb_true_iff in OK as [OKi OK2].
      apply Nat.eqb_eq in OKi. subst j. apply (New TCString WStr outs); auto.
    + destruct outs as [|[j w] outs]; [discriminate|]. destruct w as [t'|t'| | | ]; try discriminate. apply Bool.andb_true_iff in OK as [OKi OK2].
      apply Nat.eqb_eq in OKi. subst j. destruct (IH (S o) outs h e sl OK2 A O1 Nn') as (h' & l & W & R).
      exists h', ((o, SVal (oz o)) :: l). split; [cbn [write]; rewrite N0, W; reflexivity|].
      destruct (results k (combine (seq (S o) (length ps)) ps) ov on oz e) as [[e' vs] g]. destruct R as (R1 & R2 & R3 & R4).
      cbn [vals_of ptrs_of flat_map fst snd app]. replace (o + S (length ps))%nat with (S o + length ps)%nat by lia. split; [f_equal; exact R1|auto].
Qed.

(** ** a call *)
Context (body : string -> nat -> list (@inp V) -> @bres V) (slot : string -> bool).
Lemma nats_eqb_eq a b : nats_eqb a b = true -> a = b.
Proof. unfold nats_eqb. destruct (list_eq_dec Nat.eq_dec a b); [auto|discriminate]. Qed.
Lemma call_sim f c e h sl : sound slot f = true -> accounted e h sl -> old 0 e ->
  match vcall utf8 body slot f k c e with
  | VStuck => True
  | VPanic => mcall utf8 alloc body f k (map (resolve sl) c) h = MPanic
  | VRefused => exists z, mcall utf8 alloc body f k (map (resolve sl) c) h = MRefused z h /\ 100 <= z <= 112
  | VDone z e' vs g => exists h' l, mcall utf8 alloc body f k (map (resolve sl) c) h = MDone z h' l /\ vs = vals_of l /\ g = ptrs_of l /\ accounted e' h' (store k l sl) /\ old (length (f_params f)) e'
  end.
Proof.
  intros So A O. unfold sound in So. repeat (apply Bool.andb_true_iff in So as [So ?S0]).
  rename S0 into SOut, S1 into STk, S2 into SMu, S3 into SAl, S4 into SCv. apply nats_eqb_eq in STk, SMu.
  unfold vcall. destruct (both (fits e) (f_params f) c) eqn:HF; [|exact I]. cbn [negb].
  destruct (slot (f_name f) && existsb (fun x => match x with CO false => true | _ => false end) c) eqn:HS; [exact I|].
  unfold mcall. destruct (steps_sound (f_params f) c e h sl A HF (f_steps f) [] So (fun i (H : In i []) => match H with end)) as [(z & R & Hz & i & Hm & _)|[R Hp]]; rewrite R.
  - rewrite (proj2 (missing_some (f_params f) c e HF) (ex_intro _ i Hm)). exists z. auto.
  - assert (Hn : forall i, missing utf8 (nth i (f_params f) PVal) (nth i c (CV 0)) = false).
    { apply (passed_none (f_params f) c e sl HF (f_steps f) (slot (f_name f)) SCv); [|exact Hp]. intros Hs. rewrite Hs in HS. exact HS. }
    destruct (existsb (fun x => missing utf8 (fst x) (snd x)) (combine (f_params f) c)) eqn:Hm.
    { exfalso. apply (missing_some (f_params f) c e HF) in Hm as (i & Hm). rewrite Hn in Hm. discriminate. }
    rewrite (not_aliased (f_params f) c e h sl A HF (f_steps f) So SAl). rewrite (input_sim (f_params f) c e h sl A HF).
    destruct (body (f_name f) k (map (input_n e) c)) as [|er mv|mv ov on oz]; [reflexivity| |].
    + destruct (after_sim (f_params f) c e h sl A HF mv (f_steps f) STk SMu) as [A' I'].
      eexists. exists []. split; [reflexivity|]. split; [reflexivity|]. split; [reflexivity|]. split; [exact A'|]. intros n Hi. destruct (O n (I' n Hi)) as [H|[_ H]]; [left; exact H|lia].
    + destruct (after_sim (f_params f) c e h sl A HF mv (f_steps f) STk SMu) as [A' I'].
      destruct (write_sim (map (resolve sl) c) ov on oz (f_params f) 0 (f_outs f) _ _ sl SOut A') as (h' & l & W & Rs).
      { intros n Hi. destruct (O n (I' n Hi)) as [H|[_ H]]; [left; exact H|lia]. }
      { intros i p Ip. assert (Pi := index_in _ _ _ PVal Ip). specialize (Hn i). rewrite <- Pi in Hn. pose proof (fits_at (f_params f) c e HF i) as F. rewrite <- Pi in F. rewrite arg_at.
        destruct p; try exact I; destruct (nth i c (CV 0)) as [[n|]|[ns|]|[x|]|[b|]|[|]|z]; cbn [fits missing resolve is_null] in *; try discriminate; reflexivity. }
      rewrite W. unfold index. change (combine (seq 0 (length (f_params f))) (f_params f)) with (index (f_params f)) in *.
      destruct (results k (index (f_params f)) ov on oz _) as [[e' vs] g]. exists h', l. auto.
Qed.
End Sim.

(** ** a program *)
Section Prog.
Context {V : Type} (utf8 : list Z -> bool) (alloc : list (addr * (ty * V)) -> addr) (HAl : fresh_alloc alloc) (body : string -> nat -> list (@inp V) -> @bres V) (slot : string -> bool).
Lemma run_sim : forall p k e h sl last, Forall (fun x => sound slot (fst x) = true) p -> accounted e h sl -> old k 0 e ->
  match vrun utf8 body slot k p e last with
  | VRStuck => True
  | VRPanic o => exists o', mrun utf8 alloc body k p h sl last = RPanic o' /\ Forall2 sees o' o
  | VREnd o e' la => exists o' h' sl', mrun utf8 alloc body k p h sl last = REnd o' h' sl' la /\ Forall2 sees o' o /\ accounted e' h' sl'
  end.
Proof.
  induction p as [|[f c] p IH]; intros k e h sl last So A O; cbn [vrun mrun].
  - exists [], h, sl. repeat split; try constructor; apply A.
  - inversion So as [|x y So1 So2]; subst. cbn [fst] in So1.
    pose proof (call_sim utf8 alloc HAl k body slot f c e h sl So1 A O) as Cs.
    destruct (vcall utf8 body slot f k c e) as [| | |z e1 vs g].
    + exact I.
    + rewrite Cs. exists []. split; [reflexivity|constructor].
    + destruct Cs as (z & -> & Hz). assert (O' : old (S k) 0 e) by (intros n Hn; destruct (O n Hn) as [H|[_ H]]; lia).
      specialize (IH (S k) e h sl (Some k) So2 A O'). destruct (vrun utf8 body slot (S k) p e (Some k)) as [|o|o e' la].
      * exact I.
      * destruct IH as (o' & -> & F). exists (ORefused z :: o'). split; [reflexivity|constructor; [exact Hz|exact F]].
      * destruct IH as (o' & h' & sl' & -> & F & A'). exists (ORefused z :: o'), h', sl'. split; [reflexivity|]. split; [constructor; [exact Hz|exact F]|exact A'].
    + destruct Cs as (h1 & l & -> & Ev & Eg & A1 & O1). assert (O' : old (S k) 0 e1) by (intros n Hn; destruct (O1 n Hn) as [H|[H _]]; lia).
      specialize (IH (S k) e1 h1 (store k l sl) (if z =? success then last else Some k) So2 A1 O'). destruct (vrun utf8 body slot (S k) p e1 (if z =? success then last else Some k)) as [|o|o e' la].
      * exact I.
      * destruct IH as (o' & -> & F). eexists. split; [reflexivity|constructor; [split; [reflexivity|auto]|exact F]].
      * destruct IH as (o' & h' & sl' & -> & F & A'). eexists _, h', sl'. split; [reflexivity|]. split; [constructor; [split; [reflexivity|auto]|exact F]|exact A'].
Qed.
End Prog.

(** Lemmas about the sparse Merkle tree model. *)
From Verif Require Import Base SmtModel.

Lemma bytes_eqb_spec a b : bytes_eqb a b = true <-> a = b.
Proof.
  revert b; induction a as [|x xs IH]; destruct b as [|y ys]; cbn [bytes_eqb]; try (split; [discriminate|discriminate]).
  - tauto.
  - rewrite andb_true_iff, Z.eqb_eq, IH. split; [intros [-> ->]; reflexivity|now injection 1].
Qed.
Lemma bytes_eqb_refl a : bytes_eqb a a = true.
Proof. now apply bytes_eqb_spec. Qed.

(** Digits. *)
Lemma lsb_digits_eq n s k : 0 <= s ->
  lsb_digits n s k = map (fun j => Z.to_nat ((s / 2 ^ (Z.of_nat n * Z.of_nat j)) mod 2 ^ Z.of_nat n)) (seq 0 k).
Proof.
  revert s; induction k as [|k IH]; intros s Hs; cbn [lsb_digits]; [reflexivity|].
  destruct (Z.eqb_spec s 0) as [->|N].
  - cbn [seq map]. clear IH.
    assert (forall a m, repeat 0%nat m = map (fun j => Z.to_nat ((0 / 2 ^ (Z.of_nat n * Z.of_nat j)) mod 2 ^ Z.of_nat n)) (seq a m)) as H.
    { intros a m; revert a; induction m as [|m IH]; intros a; cbn [repeat seq map]; [reflexivity|].
      rewrite (IH (S a)). f_equal. }
    apply (H 0%nat (S k)).
  - cbn [seq map]. f_equal.
    + rewrite Z.mul_0_r, Z.pow_0_r, Z.div_1_r. reflexivity.
    + rewrite IH by (apply Z.div_pos; [lia|apply Z.pow_pos_nonneg; lia]).
      rewrite <- seq_shift, map_map. apply map_ext. intros j. do 2 f_equal.
      rewrite Z.div_div by (try apply Z.pow_nonzero; try apply Z.pow_pos_nonneg; lia).
      f_equal. rewrite <- Z.pow_add_r by lia. f_equal. lia.
Qed.

Lemma lsb_digits_length n s k : length (lsb_digits n s k) = k.
Proof.
  revert s; induction k as [|k IH]; intros s; cbn [lsb_digits]; [reflexivity|].
  destruct (s =? 0); [apply repeat_length|cbn [length]; now rewrite IH].
Qed.

Lemma lsb_digits_lt n s k : Forall (fun d => (d < 2 ^ n)%nat) (lsb_digits n s k).
Proof.
  revert s; induction k as [|k IH]; intros s; cbn [lsb_digits]; [constructor|].
  assert ((0 < 2 ^ n)%nat) as Hp by (pose proof (Nat.pow_nonzero 2 n); lia).
  destruct (s =? 0).
  - apply Forall_forall. intros x Hx. apply repeat_spec in Hx. lia.
  - constructor; [|apply IH].
    assert (0 < 2 ^ Z.of_nat n) by (apply Z.pow_pos_nonneg; lia).
    pose proof (Z.mod_pos_bound s (2 ^ Z.of_nat n) H).
    assert (Z.of_nat (2 ^ n) = 2 ^ Z.of_nat n) by (rewrite Nat2Z.inj_pow; reflexivity). lia.
Qed.

(** Two numbers have the same k digits exactly when they agree modulo (2^n)^k. *)
Lemma lsb_digits_inj n s t k : 0 <= s -> 0 <= t ->
  (lsb_digits n s k = lsb_digits n t k <-> s mod (2 ^ Z.of_nat n) ^ Z.of_nat k = t mod (2 ^ Z.of_nat n) ^ Z.of_nat k).
Proof.
  intros Hs Ht. rewrite !lsb_digits_eq by assumption.
  set (B := 2 ^ Z.of_nat n). assert (0 < B) as HB by (apply Z.pow_pos_nonneg; lia).
  assert (forall j, 2 ^ (Z.of_nat n * Z.of_nat j) = B ^ Z.of_nat j) as Hpow
    by (intros j; unfold B; rewrite <- Z.pow_mul_r by lia; reflexivity).
  assert (forall s k, 0 <= s -> s mod B ^ Z.of_nat (S k) = s mod B ^ Z.of_nat k + B ^ Z.of_nat k * ((s / B ^ Z.of_nat k) mod B)) as Hstep.
  { intros s0 k0 _. rewrite Nat2Z.inj_succ, Z.pow_succ_r by lia. rewrite (Z.mul_comm B).
    apply Z.rem_mul_r; [|exact HB]. pose proof (Z.pow_pos_nonneg B (Z.of_nat k0)). lia. }
  induction k as [|k IH].
  - cbn [seq map]. rewrite Z.pow_0_r, !Z.mod_1_r. tauto.
  - rewrite seq_S, !map_app. cbn [map]. rewrite Nat.add_0_l, !Hpow.
    pose proof (Z.pow_pos_nonneg B (Z.of_nat k) HB ltac:(lia)) as Hk.
    pose proof (Z.mod_pos_bound s (B ^ Z.of_nat k) Hk) as Bs.
    pose proof (Z.mod_pos_bound t (B ^ Z.of_nat k) Hk) as Bt.
    pose proof (Z.mod_pos_bound (s / B ^ Z.of_nat k) B HB) as Ds.
    pose proof (Z.mod_pos_bound (t / B ^ Z.of_nat k) B HB) as Dt.
    rewrite !Hstep by assumption. split.
    + intros H. apply app_inj_tail in H as [H1 H2]. apply Z2Nat.inj in H2; [|lia|lia].
      rewrite H2. f_equal. apply IH. exact H1.
    + intros H.
      set (a := s mod B ^ Z.of_nat k) in *. set (b := t mod B ^ Z.of_nat k) in *.
      set (c := (s / B ^ Z.of_nat k) mod B) in *. set (d := (t / B ^ Z.of_nat k) mod B) in *.
      assert (c = d) as E1.
      { rewrite (Z.add_comm a), (Z.add_comm b) in H.
        transitivity ((B ^ Z.of_nat k * c + a) / B ^ Z.of_nat k).
        - apply (Z.div_unique _ _ c a); lia.
        - rewrite H. symmetry. apply (Z.div_unique _ _ d b); lia. }
      assert (a = b) as E2 by (rewrite E1 in H; lia).
      f_equal; [apply IH; exact E2|now rewrite E1].
Qed.

Section SmtLib.
Context (P : smt_params).
Notation K := (sK P).
Implicit Types (db : hash_db P).

(** What the code relies on: == is equality, [to_bytes] is injective, [to_bignum] is not
    negative.  (All hold for elements of a prime field.) *)
Record smt_ok := {
  ok_eqb : forall a b, seqb P a b = true <-> a = b;
  ok_bytes : forall a b, sbytes P a = sbytes P b -> a = b;
  ok_toZ : forall a, 0 <= stoZ P a }.

(** Every entry of the database is a list of [arity] children stored under the encoding of
    its hash. *)
Definition honest_db (db : hash_db P) : Prop :=
  forall k l, In (k, l) db -> length l = arity P /\ exists h, shash P l = Ok h /\ k = sbytes P h.

Definition consistent (db : hash_db P) : Prop :=
  forall k l1 l2, In (k, l1) db -> In (k, l2) db -> l1 = l2.

Lemma consistent_app l db : consistent (l ++ db) -> consistent db.
Proof. intros H k l1 l2 H1 H2. apply (H k); apply in_or_app; now right. Qed.
Lemma consistent_cons x db : consistent (x :: db) -> consistent db.
Proof. apply (consistent_app [x]). Qed.
Lemma honest_cons k l db : honest_db ((k, l) :: db) <-> (length l = arity P /\ exists h, shash P l = Ok h /\ k = sbytes P h) /\ honest_db db.
Proof.
  split.
  - intros H. split; [apply (H k l); now left|]. intros k' l' Hin. apply H. now right.
  - intros [H1 H2] k' l' [E|Hin]; [injection E as <- <-; exact H1|now apply H2].
Qed.

Lemma db_get_in db k l : db_get P db k = Ok l -> In (k, l) db.
Proof.
  induction db as [|[k' l'] rest IH]; cbn [db_get]; [discriminate|].
  destruct (bytes_eqb k' k) eqn:E.
  - apply bytes_eqb_spec in E as ->. injection 1 as ->. now left.
  - intros H; right; auto.
Qed.
Lemma in_db_get db k l : In (k, l) db -> exists l', db_get P db k = Ok l'.
Proof.
  induction db as [|[k' l'] rest IH]; intros H; [destruct H|]. cbn [db_get].
  destruct (bytes_eqb k' k) eqn:E; [eauto|].
  destruct H as [H|H]; [|auto]. injection H as -> ->. rewrite bytes_eqb_refl in E. discriminate.
Qed.
Lemma db_get_mono new db k l : consistent (new ++ db) -> db_get P db k = Ok l -> db_get P (new ++ db) k = Ok l.
Proof.
  intros C H. apply db_get_in in H. assert (In (k, l) (new ++ db)) as Hin by (apply in_or_app; now right).
  destruct (in_db_get _ _ _ Hin) as [l' H']. rewrite H'. f_equal. apply db_get_in in H'. apply (C k); assumption.
Qed.

Lemma get_loop_mono new db r p x : consistent (new ++ db) ->
  get_loop P db r p = Ok x -> get_loop P (new ++ db) r p = Ok x.
Proof.
  intros C; revert r x; induction p as [|d p IH]; intros r x; cbn [get_loop]; [tauto|].
  intros H. apply rbind_ok in H as (ch & Hch & H). rewrite (db_get_mono _ _ _ _ C Hch). cbn [rbind].
  apply rbind_ok in H as (c & Hc & H). rewrite Hc. cbn [rbind].
  apply rbind_ok in H as ([v pf] & Hv & H). rewrite (IH _ _ Hv). exact H.
Qed.

Lemma arity_pos : (0 < arity P)%nat.
Proof. unfold arity. pose proof (Nat.pow_nonzero 2 (sbits P)). lia. Qed.

(** The subtree of depth [d] below [r] holds the values [f]. *)
Fixpoint reads (db : hash_db P) (d : nat) (r : K) (f : list nat -> K) : Prop :=
  match d with
  | O => r = f []
  | S d' => exists ch, db_get P db (sbytes P r) = Ok ch /\ length ch = arity P /\
              forall i c, nth_error ch i = Some c -> reads db d' c (fun p => f (i :: p))
  end.

Lemma reads_ext db d r f g : (forall p, length p = d -> Forall (fun i => (i < arity P)%nat) p -> f p = g p) ->
  reads db d r f -> reads db d r g.
Proof.
  revert r f g; induction d as [|d IH]; intros r f g E; cbn [reads].
  - intros ->. now apply E.
  - intros (ch & Hg & Hl & H). exists ch. repeat split; [assumption..|].
    intros i c Hc. apply (IH c (fun p => f (i :: p))); [|now apply H].
    intros p Hp Fp. apply E; [cbn [length]; now rewrite Hp|]. constructor; [|assumption].
    rewrite <- Hl. apply nth_error_Some. now rewrite Hc.
Qed.

Lemma reads_mono new db d r f : consistent (new ++ db) -> reads db d r f -> reads (new ++ db) d r f.
Proof.
  intros C; revert r f; induction d as [|d IH]; intros r f; cbn [reads]; [tauto|].
  intros (ch & Hg & Hl & H). exists ch. repeat split; [now apply db_get_mono|assumption|].
  intros i c Hc. apply IH. now apply H.
Qed.

Lemma siblings_length d ch : (d < length ch)%nat -> length (siblings P d ch) = (length ch - 1)%nat.
Proof.
  revert d; induction ch as [|c cs IH]; intros d H; cbn [length] in H; [lia|].
  destruct d as [|d]; cbn [siblings length]; [lia|]. rewrite IH by lia. lia.
Qed.

Lemma reads_get db d r f p : reads db d r f -> length p = d -> Forall (fun i => (i < arity P)%nat) p ->
  exists pf, get_loop P db r p = Ok (f p, pf) /\ length pf = d.
Proof.
  revert r f p; induction d as [|d IH]; intros r f p; cbn [reads].
  - intros -> Hp _. destruct p; [|discriminate]. exists []. auto.
  - intros (ch & Hg & Hl & H) Hp Fp. destruct p as [|i p]; [discriminate|]. cbn [length] in Hp.
    inversion Fp as [|? ? Hi Fp']; subst.
    destruct (nth_error ch i) as [c|] eqn:Hc; [|apply nth_error_None in Hc; lia].
    destruct (IH c (fun p => f (i :: p)) p (H i c Hc)) as (pf & E & L); [lia|assumption|].
    exists (siblings P i ch :: pf). cbn [get_loop]. rewrite Hg. cbn [rbind].
    unfold at_index. rewrite Hc. cbn [rbind]. rewrite E. cbn [rbind length]. auto.
Qed.

(** [Vec::insert] undoes the removal of a position. *)
Fixpoint replace_at (d : nat) (x : K) (l : list K) : list K :=
  match l with
  | [] => []
  | c :: cs => match d with O => x :: cs | S d' => c :: replace_at d' x cs end
  end.
Lemma insert_siblings d x ch : (d < length ch)%nat -> vec_insert P d x (siblings P d ch) = Ok (replace_at d x ch).
Proof.
  intros H. unfold vec_insert. rewrite siblings_length by assumption.
  destruct (Nat.ltb_spec (length ch - 1) d) as [L|_]; [lia|]. f_equal.
  revert d H; induction ch as [|c cs IH]; intros d H; cbn [length] in H; [lia|].
  destruct d as [|d]; [reflexivity|].
  cbn [siblings replace_at firstn skipn app]. f_equal. apply IH. lia.
Qed.
Lemma replace_at_length d x ch : length (replace_at d x ch) = length ch.
Proof. revert d; induction ch as [|c cs IH]; intros [|d]; cbn [replace_at length]; auto. Qed.
Lemma nth_replace_same d x ch : (d < length ch)%nat -> nth_error (replace_at d x ch) d = Some x.
Proof. revert d; induction ch as [|c cs IH]; intros [|d] H; cbn [length] in H; try lia; cbn [replace_at nth_error]; [reflexivity|]. apply IH. lia. Qed.
Lemma nth_replace_other d x ch i : i <> d -> nth_error (replace_at d x ch) i = nth_error ch i.
Proof. revert d i; induction ch as [|c cs IH]; intros [|d] [|i] H; cbn [replace_at nth_error]; try reflexivity; try congruence. apply IH. congruence. Qed.
Lemma replace_at_self d x ch : nth_error ch d = Some x -> replace_at d x ch = ch.
Proof. revert d; induction ch as [|c cs IH]; intros [|d] H; cbn [replace_at nth_error] in *; try discriminate; [congruence|]. f_equal. auto. Qed.

(** [update_loop] over an appended path. *)
Lemma update_loop_app p1 p2 s1 s2 cur db : length p1 = length s1 ->
  update_loop P (p1 ++ p2) (s1 ++ s2) cur db =
  let (db', r) := update_loop P p1 s1 cur db in
  match r with Ok h => update_loop P p2 s2 h db' | Err e => (db', Err e) end.
Proof.
  revert s1 cur db; induction p1 as [|d p1 IH]; intros [|s s1] cur db H; try discriminate; [reflexivity|].
  cbn [app update_loop]. destruct (vec_insert P d cur s) as [ch|e]; [|reflexivity].
  destruct (shash P ch) as [h|e]; [|reflexivity]. apply IH. now injection H.
Qed.

(** The insertions of an update only extend the log. *)
Lemma update_loop_extends p s cur db db' r : update_loop P p s cur db = (db', r) -> exists new, db' = new ++ db.
Proof.
  revert s cur db; induction p as [|d p IH]; intros s cur db; cbn [update_loop].
  - injection 1 as <- _. exists []; reflexivity.
  - destruct s as [|s0 s]; [injection 1 as <- _; exists []; reflexivity|].
    destruct (vec_insert P d cur s0) as [ch|e]; [|injection 1 as <- _; exists []; reflexivity].
    destruct (shash P ch) as [h|e]; [|injection 1 as <- _; exists []; reflexivity].
    intros H. apply IH in H as [new ->]. exists (new ++ [(sbytes P h, ch)]). now rewrite <- app_assoc.
Qed.

Definition node_len (s : list K) : Prop := length s = (arity P - 1)%nat.

Lemma vec_insert_ok d x s : node_len s -> (d < arity P)%nat ->
  exists l, vec_insert P d x s = Ok l /\ length l = arity P.
Proof.
  unfold node_len, vec_insert. intros Hs Hd. destruct (Nat.ltb_spec (length s) d) as [L|_]; [lia|].
  eexists; split; [reflexivity|]. rewrite app_length, firstn_length. cbn [length]. rewrite skipn_length. lia.
Qed.

Lemma update_loop_honest p s cur db db' r : Forall (fun d => (d < arity P)%nat) p -> Forall node_len s ->
  honest_db db -> update_loop P p s cur db = (db', r) -> honest_db db'.
Proof.
  revert s cur db; induction p as [|d p IH]; intros s cur db Fp Fs Hh; cbn [update_loop].
  - injection 1 as <- _. assumption.
  - inversion Fp as [|? ? Hd Fp']; subst.
    destruct s as [|s0 s]; [injection 1 as <- _; assumption|].
    inversion Fs as [|? ? Hs0 Fs']; subst.
    destruct (vec_insert_ok d cur s0 Hs0 Hd) as (ch & E & Lc). rewrite E.
    destruct (shash P ch) as [h|e] eqn:Eh; [|injection 1 as <- _; assumption].
    intros H. eapply (IH s h); [assumption..| |exact H]. apply honest_cons. split; [|assumption]. eauto.
Qed.

Lemma get_loop_nodes db r p v pf : honest_db db -> Forall (fun d => (d < arity P)%nat) p ->
  get_loop P db r p = Ok (v, pf) -> length pf = length p /\ Forall node_len pf.
Proof.
  intros Hh; revert r pf; induction p as [|d p IH]; intros r pf Fp; cbn [get_loop].
  - injection 1 as _ <-. split; [reflexivity|constructor].
  - inversion Fp as [|? ? Hd Fp']; subst. intros H.
    apply rbind_ok in H as (ch & Hch & H). apply rbind_ok in H as (c & Hc & H).
    apply rbind_ok in H as ([v0 pf0] & Hg & H). injection H as -> <-.
    destruct (IH _ _ Fp' Hg) as [L F]. apply db_get_in in Hch. destruct (Hh _ _ Hch) as [Lc _].
    split; [cbn [length]; now rewrite L|]. constructor; [|assumption].
    unfold node_len. rewrite siblings_length by lia. now rewrite Lc.
Qed.

Lemma update_loop_total p s cur db : (forall l, length l = arity P -> exists h, shash P l = Ok h) ->
  Forall (fun d => (d < arity P)%nat) p -> Forall node_len s -> length s = length p ->
  exists db' h, update_loop P p s cur db = (db', Ok h).
Proof.
  intros Ht; revert s cur db; induction p as [|d p IH]; intros s cur db Fp Fs L.
  - exists db, cur. reflexivity.
  - inversion Fp as [|? ? Hd Fp']; subst. destruct s as [|s0 s]; [discriminate|].
    inversion Fs as [|? ? Hs0 Fs']; subst. cbn [update_loop].
    destruct (vec_insert_ok d cur s0 Hs0 Hd) as (ch & E & Lc). rewrite E.
    destruct (Ht ch Lc) as [h ->]. apply IH; auto.
Qed.

Definition list_nat_eqb (a b : list nat) : bool := if list_eq_dec Nat.eq_dec a b then true else false.
Lemma list_nat_eqb_spec a b : list_nat_eqb a b = true <-> a = b.
Proof. unfold list_nat_eqb. destruct (list_eq_dec Nat.eq_dec a b); split; intros; congruence. Qed.

(** The core of [update]: the new root holds the old values except at the path. *)
Lemma update_reads db d r f p pf v0 val db' r' :
  reads db d r f -> length p = d -> Forall (fun i => (i < arity P)%nat) p ->
  get_loop P db r p = Ok (v0, pf) ->
  update_loop P (rev p) (rev pf) val db = (db', Ok r') -> consistent db' ->
  reads db' d r' (fun q => if list_nat_eqb q p then val else f q).
Proof.
  revert r f p pf db' r'; induction d as [|d IH]; intros r f p pf db' r' R Lp Fp G U C.
  - destruct p; [|discriminate]. cbn in U. injection U as <- <-. cbn [reads]. reflexivity.
  - destruct p as [|i p]; [discriminate|]. inversion Fp as [|? ? Hi Fp']; subst.
    cbn [reads] in R. destruct R as (ch & Hg & Hl & R).
    cbn [get_loop] in G. rewrite Hg in G. cbn [rbind] in G.
    apply rbind_ok in G as (c & Hc & G). apply rbind_ok in G as ([v pf0] & Gv & G). injection G as -> <-.
    unfold at_index in Hc. destruct (nth_error ch i) as [c'|] eqn:Hci; [|discriminate]. injection Hc as ->.
    cbn [rev] in U.
    assert (length pf0 = length p) as Lpf.
    { destruct (reads_get db d c (fun q => f (i :: q)) p (R i c Hci)) as (pf1 & E1 & L1); [now injection Lp|assumption|].
      rewrite Gv in E1. injection E1 as _ ->. injection Lp as Lp. lia. }
    rewrite update_loop_app in U by (rewrite !rev_length; lia).
    destruct (update_loop P (rev p) (rev pf0) val db) as [db1 r1] eqn:U1.
    destruct r1 as [h1|e]; [|discriminate].
    cbn [update_loop] in U. rewrite insert_siblings in U by lia.
    destruct (shash P (replace_at i h1 ch)) as [h|e]; [|discriminate]. injection U as <- <-.
    assert (consistent db1) as C1 by (eapply consistent_cons; exact C).
    destruct (update_loop_extends _ _ _ _ _ _ U1) as [new ->].
    exists (replace_at i h1 ch). unfold db_insert. cbn [db_get]. rewrite bytes_eqb_refl.
    split; [reflexivity|]. split; [now rewrite replace_at_length|].
    intros j c0 Hj. destruct (Nat.eq_dec j i) as [->|N].
    + rewrite nth_replace_same in Hj by lia. injection Hj as <-.
      pose proof (IH c (fun q => f (i :: q)) p pf0 (new ++ db) h1 (R i c Hci) ltac:(now injection Lp) Fp' Gv U1 C1) as R1.
      apply (reads_mono [(sbytes P h, replace_at i h1 ch)]) in R1; [|exact C].
      revert R1. apply reads_ext. intros q _ _.
      unfold list_nat_eqb. destruct (list_eq_dec Nat.eq_dec q p), (list_eq_dec Nat.eq_dec (i :: q) (i :: p)); try reflexivity; try congruence.
    + rewrite nth_replace_other in Hj by assumption.
      pose proof (R j c0 Hj) as R1.
      apply (reads_mono ((sbytes P h, replace_at i h1 ch) :: new)) in R1; [|exact C].
      revert R1. apply reads_ext. intros q _ _.
      unfold list_nat_eqb. destruct (list_eq_dec Nat.eq_dec (j :: q) (i :: p)); [congruence|reflexivity].
Qed.

Lemma new_loop_extends n h db db2 r2 : new_loop P n h db = (db2, r2) -> exists new, db2 = new ++ db.
Proof.
  revert h db; induction n as [|n IH]; intros h db; cbn [new_loop].
  - injection 1 as <- _. exists []; reflexivity.
  - destruct (shash P (repeat h (arity P))) as [h'|e]; [|injection 1 as <- _; exists []; reflexivity].
    intros H. apply IH in H as [new ->]. exists (new ++ [(sbytes P h', repeat h (arity P))]). now rewrite <- app_assoc.
Qed.
Lemma new_loop_honest n h db db2 r2 : honest_db db -> new_loop P n h db = (db2, r2) -> honest_db db2.
Proof.
  revert h db; induction n as [|n IH]; intros h db Hh; cbn [new_loop].
  - injection 1 as <- _. assumption.
  - destruct (shash P (repeat h (arity P))) as [h'|e] eqn:E'; [|injection 1 as <- _; assumption].
    apply IH. apply honest_cons. split; [|assumption]. split; [apply repeat_length|eauto].
Qed.

Lemma new_loop_spec n d prev db db' r :
  reads db d prev (fun _ => s0 P) -> honest_db db -> new_loop P n prev db = (db', r) ->
  honest_db db' /\ (exists new, db' = new ++ db) /\
  (forall root, r = Ok root -> consistent db' -> reads db' (n + d) root (fun _ => s0 P)).
Proof.
  revert d prev db; induction n as [|n IH]; intros d prev db R Hh; cbn [new_loop].
  - injection 1 as <- <-. split; [assumption|]. split; [exists []; reflexivity|]. intros root [= <-] _. exact R.
  - destruct (shash P (repeat prev (arity P))) as [h|e] eqn:E.
    2:{ injection 1 as <- <-. split; [assumption|]. split; [exists []; reflexivity|]. discriminate. }
    intros H. unfold db_insert in H.
    set (db1 := (sbytes P h, repeat prev (arity P)) :: db) in *.
    assert (honest_db db1) as Hh1.
    { apply honest_cons. split; [|assumption]. split; [apply repeat_length|eauto]. }
    pose proof (new_loop_extends n h db1) as Hext.
    assert (consistent db1 -> reads db1 (S d) h (fun _ => s0 P)) as R1.
    { intros C. exists (repeat prev (arity P)). unfold db1. cbn [db_get]. rewrite bytes_eqb_refl.
      split; [reflexivity|]. split; [apply repeat_length|]. intros i c Hc.
      apply nth_error_In in Hc. apply repeat_spec in Hc as ->. now apply (reads_mono [(sbytes P h, repeat prev (arity P))]). }
    destruct (Hext _ _ H) as [new Enew].
    split; [|split].
    + exact (new_loop_honest _ _ _ _ _ Hh1 H).
    + exists (new ++ [(sbytes P h, repeat prev (arity P))]). rewrite Enew. unfold db1. now rewrite <- app_assoc.
    + intros root -> C. assert (consistent db1) as C1 by (rewrite Enew in C; now apply consistent_app in C).
      destruct (IH (S d) h db1 (R1 C1) Hh1 H) as (_ & _ & Hr).
      rewrite Nat.add_succ_r in Hr. exact (Hr root eq_refl C).
Qed.

Lemma new_loop_total n prev db : (forall l, length l = arity P -> exists h, shash P l = Ok h) ->
  exists db' h, new_loop P n prev db = (db', Ok h).
Proof.
  intros Ht; revert prev db; induction n as [|n IH]; intros prev db; cbn [new_loop]; [eauto|].
  destruct (Ht (repeat prev (arity P)) (repeat_length _ _)) as [h ->]. apply IH.
Qed.

(** Paths. *)
Lemma path_length idx d : length (leaf_index_to_path P idx d) = d.
Proof. unfold leaf_index_to_path, repr_in_power_2_base. now rewrite rev_length, lsb_digits_length. Qed.
Lemma path_lt idx d : Forall (fun i => (i < arity P)%nat) (leaf_index_to_path P idx d).
Proof. unfold leaf_index_to_path, repr_in_power_2_base, arity. apply Forall_rev. apply lsb_digits_lt. Qed.
Lemma path_eq (OK : smt_ok) i j d : leaf_index_to_path P i d = leaf_index_to_path P j d <->
  stoZ P i mod Z.of_nat (arity P) ^ Z.of_nat d = stoZ P j mod Z.of_nat (arity P) ^ Z.of_nat d.
Proof.
  unfold leaf_index_to_path, repr_in_power_2_base, arity. rewrite Nat2Z.inj_pow.
  rewrite <- lsb_digits_inj by apply (ok_toZ OK).
  split; [|now intros ->]. intros H. apply (f_equal (@rev nat)) in H. now rewrite !rev_involutive in H.
Qed.

(** The Merkle root of a content, as a function of the content alone. *)
Fixpoint mroot (d : nat) (f : list nat -> K) : res K :=
  match d with
  | O => Ok (f [])
  | S d' => let! hs := rmap (fun i => mroot d' (fun p => f (i :: p))) (seq 0 (arity P)) in shash P hs
  end.
Lemma rmap_seq_nth {A} (g : nat -> res A) a (l : list A) :
  (forall i c, nth_error l i = Some c -> g (a + i)%nat = Ok c) -> rmap g (seq a (length l)) = Ok l.
Proof.
  revert a; induction l as [|x xs IH]; intros a H; cbn [length seq rmap]; [reflexivity|].
  rewrite <- (Nat.add_0_r a) at 1. rewrite (H 0%nat x eq_refl). cbn [rbind].
  rewrite IH; [reflexivity|]. intros i c Hc. rewrite Nat.add_succ_l, <- Nat.add_succ_r. now apply (H (S i)).
Qed.
Lemma reads_mroot (OK : smt_ok) db d r f : honest_db db -> reads db d r f -> mroot d f = Ok r.
Proof.
  intros Hh; revert r f; induction d as [|d IH]; intros r f; cbn [reads mroot]; [now intros ->|].
  intros (ch & Hg & Hl & R). rewrite <- Hl, (rmap_seq_nth _ 0 ch).
  - cbn [rbind]. apply db_get_in in Hg. destruct (Hh _ _ Hg) as (_ & h & Eh & Eb).
    apply (ok_bytes OK) in Eb as ->. exact Eh.
  - intros i c Hc. cbn [Nat.add]. apply IH. now apply R.
Qed.
Lemma mroot_ext d f g : (forall p, length p = d -> Forall (fun i => (i < arity P)%nat) p -> f p = g p) -> mroot d f = mroot d g.
Proof.
  revert f g; induction d as [|d IH]; intros f g E; cbn [mroot]; [now rewrite E|].
  replace (rmap (fun i => mroot d (fun p => f (i :: p))) (seq 0 (arity P)))
    with (rmap (fun i => mroot d (fun p => g (i :: p))) (seq 0 (arity P))); [reflexivity|].
  assert (forall l, (forall i, In i l -> (i < arity P)%nat) ->
    rmap (fun i => mroot d (fun p => g (i :: p))) l = rmap (fun i => mroot d (fun p => f (i :: p))) l) as H.
  { induction l as [|i l IHl]; intros Hl; cbn [rmap]; [reflexivity|].
    rewrite IHl by (intros j Hj; apply Hl; now right).
    rewrite (IH (fun p => g (i :: p)) (fun p => f (i :: p))); [reflexivity|].
    intros p Lp Fp. symmetry. apply E; [cbn [length]; now rewrite Lp|]. constructor; [apply Hl; now left|assumption]. }
  apply H. intros i Hi. apply in_seq in Hi. lia.
Qed.

(** [verify_proof]: the loop with the proof read backwards. *)
Fixpoint fold_up (path_rev : list nat) (pf_rev : list (list K)) (cur : K) : res K :=
  match path_rev, pf_rev with
  | [], _ => Ok cur
  | d :: rest, s :: ss => let! p := vec_insert P d cur s in let! h := shash P p in fold_up rest ss h
  | _ :: _, [] => Err Panic
  end.
Lemma verify_loop_fold depth i path_rev proof cur :
  (length path_rev + i = depth)%nat -> (depth <= length proof)%nat ->
  verify_loop P depth i path_rev proof cur = fold_up path_rev (rev (firstn (depth - i) proof)) cur.
Proof.
  revert i cur; induction path_rev as [|d rest IH]; intros i cur L1 L2; cbn [verify_loop]; [now destruct (rev _)|].
  cbn [length] in L1. unfold at_index.
  destruct (nth_error proof (depth - 1 - i)) as [nd|] eqn:E; [|apply nth_error_None in E; lia].
  assert (firstn (depth - i) proof = firstn (depth - S i) proof ++ [nd]) as Ef.
  { replace (depth - i)%nat with (S (depth - S i)) by lia. replace (depth - 1 - i)%nat with (depth - S i)%nat in E by lia.
    clear - E. revert proof E; induction (depth - S i)%nat as [|k IH]; intros [|x xs] E; cbn [nth_error] in E; try discriminate.
    - injection E as ->. reflexivity.
    - change (firstn (S (S k)) (x :: xs)) with (x :: firstn (S k) xs). rewrite (IH xs E). reflexivity. }
  rewrite Ef, rev_app_distr. cbn [rev app fold_up rbind].
  destruct (vec_insert P d cur nd) as [p|e]; [|reflexivity]. cbn [rbind].
  destruct (shash P p) as [h|e]; [|reflexivity]. cbn [rbind]. apply IH; lia.
Qed.
Lemma fold_up_app p1 s1 p2 s2 cur : length p1 = length s1 ->
  fold_up (p1 ++ p2) (s1 ++ s2) cur = let! h := fold_up p1 s1 cur in fold_up p2 s2 h.
Proof.
  revert s1 cur; induction p1 as [|d p1 IH]; intros [|s s1] cur L; try discriminate; [reflexivity|].
  cbn [app fold_up]. destruct (vec_insert P d cur s) as [p|e]; [|reflexivity]. cbn [rbind].
  destruct (shash P p) as [h|e]; [|reflexivity]. cbn [rbind]. apply IH. now injection L.
Qed.
Lemma get_loop_fold (OK : smt_ok) db r p v pf : honest_db db -> Forall (fun i => (i < arity P)%nat) p ->
  get_loop P db r p = Ok (v, pf) -> fold_up (rev p) (rev pf) v = Ok r.
Proof.
  intros Hh; revert r pf; induction p as [|d p IH]; intros r pf Fp; cbn [get_loop].
  - injection 1 as -> <-. reflexivity.
  - inversion Fp as [|? ? Hd Fp']; subst. intros H.
    apply rbind_ok in H as (ch & Hch & H). apply rbind_ok in H as (c & Hc & H).
    apply rbind_ok in H as ([v0 pf0] & Hg & H). injection H as -> <-.
    destruct (get_loop_nodes _ _ _ _ _ Hh Fp' Hg) as [L _].
    cbn [rev]. rewrite fold_up_app by (rewrite !rev_length; lia).
    rewrite (IH _ _ Fp' Hg). cbn [rbind fold_up].
    apply db_get_in in Hch. destruct (Hh _ _ Hch) as (Lc & h & Eh & Eb).
    rewrite insert_siblings by lia. cbn [rbind].
    unfold at_index in Hc. destruct (nth_error ch d) as [c'|] eqn:Hcd; [|discriminate]. injection Hc as ->.
    rewrite (replace_at_self _ _ _ Hcd), Eh. cbn [rbind]. apply (ok_bytes OK) in Eb as ->. reflexivity.
Qed.

Lemma vec_insert_inj d x y s t l : vec_insert P d x s = Ok l -> vec_insert P d y t = Ok l -> x = y /\ s = t.
Proof.
  unfold vec_insert. destruct (Nat.ltb_spec (length s) d) as [L|L1]; [discriminate|].
  destruct (Nat.ltb_spec (length t) d) as [L|L2]; [discriminate|].
  intros [= <-] [= H]. 
  assert (forall a b : list K, length a = length b -> forall u v, a ++ u = b ++ v -> a = b /\ u = v) as A.
  { induction a as [|q a IH]; intros [|q' b] E u v Huv; try discriminate; [auto|].
    cbn [app] in Huv. injection Huv as -> Huv. injection E as E. destruct (IH b E u v Huv) as [-> ->]. auto. }
  apply A in H as [H1 H2]; [|rewrite !firstn_length; lia]. injection H2 as -> H2.
  split; [reflexivity|]. rewrite <- (firstn_skipn d s), <- (firstn_skipn d t). congruence.
Qed.

End SmtLib.

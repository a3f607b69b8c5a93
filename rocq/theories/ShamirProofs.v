(** Proofs about libursa's Shamir secret sharing model. *)
From Verif Require Import Base BnModel BnProofs Alg Poly Fp ShamirModel.
From Coq Require Import ZArith.Znumtheory.

Lemma idx_nth {A} (l : list A) i d : (i < length l)%nat -> idx l i = Ok (nth i l d).
Proof. intros H. unfold idx. rewrite (nth_error_nth' l d H). reflexivity. Qed.

Lemma map_nth_seq {A} (xs : list A) d : forall start,
  map (fun j => nth (j - start) xs d) (seq start (length xs)) = xs.
Proof.
  induction xs as [|x xs IH]; intros start; [reflexivity|].
  cbn [length seq map]. rewrite Nat.sub_diag. cbn [nth]. f_equal.
  rewrite <- (IH (S start)) at 2. apply map_ext_in. intros j Hj. apply in_seq in Hj.
  replace (j - start)%nat with (S (j - S start)) by lia. reflexivity.
Qed.

Lemma filter_id {A} (f : A -> bool) l : (forall x, In x l -> f x = true) -> filter f l = l.
Proof.
  induction l as [|a l IH]; cbn; intros H; [reflexivity|]. rewrite H by auto. f_equal. auto.
Qed.

Lemma others_filter_gen {K : fieldOps} (xs : list K) : forall start i,
  others i xs = map (fun j => nth (j - start) xs f0)
                    (filter (fun j => negb (Nat.eqb (start + i) j)) (seq start (length xs))).
Proof.
  induction xs as [|x xs IH]; intros start i; [now destruct i|].
  cbn [length seq filter]. destruct i as [|i].
  - rewrite Nat.add_0_r, Nat.eqb_refl. cbn [negb others].
    rewrite filter_id.
    + rewrite <- (map_nth_seq xs f0 (S start)) at 1. apply map_ext_in. intros j Hj. apply in_seq in Hj.
      replace (j - start)%nat with (S (j - S start)) by lia. reflexivity.
    + intros j Hj. apply in_seq in Hj. destruct (Nat.eqb_spec start j); [lia|reflexivity].
  - cbn [others]. rewrite (IH (S start) i).
    destruct (Nat.eqb_spec (start + S i) start); [lia|]. cbn [negb map].
    rewrite Nat.sub_diag. cbn [nth]. f_equal.
    replace (S start + i)%nat with (start + S i)%nat by lia.
    apply map_ext_in. intros j Hj. apply filter_In in Hj as [Hj _]. apply in_seq in Hj.
    replace (j - start)%nat with (S (j - S start)) by lia. reflexivity.
Qed.

Lemma others_filter {K : fieldOps} (xs : list K) i :
  others i xs = map (fun j => nth j xs f0) (filter (fun j => negb (Nat.eqb i j)) (seq 0 (length xs))).
Proof.
  rewrite (others_filter_gen xs 0 i). cbn [Nat.add]. apply map_ext. intros j. now rewrite Nat.sub_0_r.
Qed.

Section Elements.
  Variable p : Z.
  Hypothesis Hp2 : 2 <= p.
  Notation E v := (mkElement p v).
  Notation F := (FpOps p).

  Lemma el_add a b : element_add (E a) (E b) = Ok (E ((a + b) mod p)).
  Proof.
    unfold element_add, element_validate. cbn [el_modulus el_value]. rewrite Z.eqb_refl. cbn [rbind].
    rewrite bn_modulus_pos by lia. reflexivity.
  Qed.
  Lemma el_sub a b : element_sub (E a) (E b) = Ok (E ((a - b) mod p)).
  Proof.
    unfold element_sub, element_validate. cbn [el_modulus el_value]. rewrite Z.eqb_refl. cbn [rbind].
    rewrite bn_mod_sub_pos by lia. reflexivity.
  Qed.
  Lemma el_mul a b : element_mul (E a) (E b) = Ok (E ((a * b) mod p)).
  Proof.
    unfold element_mul, element_validate. cbn [el_modulus el_value]. rewrite Z.eqb_refl. cbn [rbind].
    rewrite bn_mod_mul_pos by lia. reflexivity.
  Qed.
  Lemma el_neg a : element_neg (E a) = Ok (E ((- a) mod p)).
  Proof.
    unfold element_neg. cbn [el_modulus el_value].
    rewrite bn_mod_sub_pos by lia. cbn [rbind]. do 3 f_equal.
  Qed.
  Lemma el_new v : element_new p v = Ok (E (v mod p)).
  Proof. unfold element_new. now rewrite bn_modulus_pos by lia. Qed.

End Elements.

Section Prime.
  Variable p : Z.
  Hypothesis Hp : prime p.
  Let Hp2 : 2 <= p := prime_ge_2 p Hp.
  Notation E v := (mkElement p v).
  Notation F := (FpOps p).
  Let HF : field_laws F := FpOps_laws p Hp.
  Add Field Ff : (proj1 HF).

  Lemma horner_fold (x : Z) cs : forall out,
    exists v, rfold (fun out c => let! m := element_mul out (E x) in element_add m c) (map (fun c => E c) cs) (E out)
              = Ok (E v)
      /\ fp p v = @peval F (rev (map (fp p) cs) ++ [fp p out]) (fp p x)
      /\ (0 <= out < p -> 0 <= v < p).
  Proof.
    induction cs as [|c cs IH]; intros out.
    - exists out. cbn [rfold map rev app peval]. split; [reflexivity|]. split; [|auto].
      set (o := fp p out : F). set (xx := fp p x : F). change (o = fadd o (fmul xx f0)). ring.
    - cbn [map rfold]. rewrite el_mul by assumption. cbn [rbind]. rewrite el_add by assumption. cbn [rbind].
      destruct (IH (((out * x) mod p + c) mod p)) as (v & Ev & Hv & Hr).
      exists v. split; [exact Ev|]. split.
      + rewrite Hv. cbn [rev]. rewrite <- app_assoc. cbn [app].
        rewrite !(peval_app F HF). f_equal. f_equal. cbn [peval].
        rewrite fp_mod, fp_add, fp_mod, fp_mul.
        set (o := fp p out : F). set (xx := fp p x : F). set (cc := fp p c : F). ring.
      + intros _. apply Hr. apply Z.mod_pos_bound. lia.
  Qed.

  Lemma evaluate_spec c0 cs x : exists v,
    polynomial_evaluate (map (fun c => E c) (c0 :: cs)) (E x) = Ok (E v)
    /\ fp p v = @peval F (map (fp p) (c0 :: cs)) (fp p x)
    /\ (Forall (fun c => 0 <= c < p) (c0 :: cs) -> 0 <= v < p).
  Proof.
    unfold polynomial_evaluate. rewrite <- map_rev.
    destruct (rev (c0 :: cs)) as [|top rest] eqn:R.
    { apply (f_equal (@length Z)) in R. rewrite rev_length in R. discriminate. }
    cbn [map]. destruct (horner_fold x rest top) as (v & Ev & Hv & Hr).
    exists v. split; [exact Ev|].
    assert (Erev : c0 :: cs = rev rest ++ [top]).
    { rewrite <- (rev_involutive (c0 :: cs)), R. reflexivity. }
    split.
    - change (fp p c0 :: map (fp p) cs) with (map (fp p) (c0 :: cs)).
      rewrite Hv, Erev, map_app, map_rev. reflexivity.
    - intros H. apply Hr. rewrite Erev in H. apply Forall_app in H as [_ H]. now inversion H.
  Qed.

  (** division of elements *)
  Lemma el_div a b : 0 <= b < p -> b <> 0 -> exists v,
    element_div (E a) (E b) = Ok (E v) /\ fp p v = @fdiv F (fp p a) (fp p b).
  Proof.
    intros Hb Hb0. unfold element_div, element_validate. cbn [el_modulus el_value].
    rewrite Z.eqb_refl. cbn [rbind]. unfold bn_mod_div.
    destruct (bn_inverse_ok b p) as (y & Ey & Hy & Hby); [lia|lia|apply prime_gcd; [assumption|lia]|].
    rewrite Ey. cbn [rbind]. rewrite bn_modulus_pos by lia. cbn [rbind].
    exists ((a * y) mod p). split; [reflexivity|].
    rewrite fp_mod. cbn [fdiv FpOps]. apply fp_eq. rewrite !fpv_fp.
    rewrite (Z.mod_small b p) by lia. unfold zinv. rewrite Ey.
    unfold bn_mul. now rewrite Zmult_mod_idemp_l.
  Qed.

  Lemma fp_nonzero v : 0 <= v < p -> v <> 0 -> fp p v <> (f0 : F).
  Proof. intros Hv H0 E. apply (fp_0_iff p v) in E. rewrite Z.mod_small in E; lia. Qed.

  (** the inner loop computes a Lagrange basis value at 0 *)
  Lemma basis_spec (xs : list Z) i :
    Forall (fun x => 0 <= x < p) xs -> NoDup xs -> (i < length xs)%nat -> forall js b,
    (forall j, In j js -> (j < length xs)%nat) ->
    exists v,
    rfold (interpolate_step (map (fun x => E x) xs) i) js (E b) = Ok (E v)
    /\ fp p v = @fmul F (fp p b)
         (fprod (map (fun r => @fdiv F (@fsub F f0 r) (@fsub F (nth i (map (fp p) xs) f0) r))
            (map (fun j => nth j (map (fp p) xs) (f0 : F)) (filter (fun j => negb (Nat.eqb i j)) js)))).
  Proof.
    intros Hxs Hnd Hi. induction js as [|j js IH]; intros b Hjs.
    - exists b. split; [reflexivity|]. cbn [filter map fprod].
      set (o := fp p b : F). change (o = fmul o f1). ring.
    - cbn [rfold filter]. unfold interpolate_step at 1. destruct (Nat.eqb_spec i j) as [->|Hne].
      + cbn [negb rbind]. apply IH. intros k Hk. apply Hjs. now right.
      + cbn [negb map fprod].
        assert (Hj : (j < length xs)%nat) by (apply Hjs; now left).
        rewrite !(idx_nth _ _ (E 0)) by (now rewrite map_length).
        rewrite (map_nth (fun x => E x) xs 0 j), (map_nth (fun x => E x) xs 0 i). cbn [rbind].
        rewrite el_neg by assumption. cbn [rbind]. rewrite el_sub by assumption. cbn [rbind].
        set (xi := nth i xs 0) in *. set (xj := nth j xs 0) in *.
        assert (Hxi : 0 <= xi < p) by (apply Forall_forall with (x := xi) in Hxs; [exact Hxs|now apply nth_In]).
        assert (Hxj : 0 <= xj < p) by (apply Forall_forall with (x := xj) in Hxs; [exact Hxs|now apply nth_In]).
        assert (Hd : xi <> xj).
        { intros Q. apply Hne. apply (proj1 (NoDup_nth xs 0) Hnd); assumption. }
        destruct (el_div ((- xj) mod p) ((xi - xj) mod p)) as (q & Eq & Hq).
        { apply Z.mod_pos_bound; lia. }
        { intros Z0. apply Hd. apply Z.mod_divide in Z0; [|lia]. destruct Z0 as [k Hk].
          assert (k = 0) by nia. nia. }
        rewrite Eq. cbn [rbind]. rewrite el_mul by assumption. cbn [rbind].
        destruct (IH ((b * q) mod p)) as (v & Ev & Hv); [intros k Hk; apply Hjs; now right|].
        exists v. split; [exact Ev|]. rewrite Hv, fp_mod, fp_mul, Hq, !fp_mod, fp_sub, fp_opp.
        assert (Nj : nth j (map (fp p) xs) (f0 : F) = fp p xj).
        { rewrite (nth_indep _ f0 (fp p 0)) by (now rewrite map_length). apply map_nth. }
        assert (Ni : nth i (map (fp p) xs) (f0 : F) = fp p xi).
        { rewrite (nth_indep _ f0 (fp p 0)) by (now rewrite map_length). apply map_nth. }
        rewrite Nj, Ni.
        set (FP := fprod _). set (o := fp p b : F). set (fi := fp p xi : F). set (fj := fp p xj : F).
        assert (Hz : fsub fi fj <> (f0 : F)).
        { unfold fi, fj. rewrite <- fp_sub. intros Q. apply fp_0_iff in Q.
          apply Hd. apply Z.mod_divide in Q; [|lia]. destruct Q as [k Hk].
          assert (k = 0) by nia. nia. }
        change (fmul (fmul o (fdiv (fopp fj) (fsub fi fj))) FP = fmul o (fmul (fdiv (fsub f0 fj) (fsub fi fj)) FP)).
        field. exact Hz.
  Qed.

  Lemma interpolate_spec (xs ys : list Z) :
    Forall (fun x => 0 <= x < p) xs -> NoDup xs -> xs <> [] -> length ys = length xs ->
    exists v,
      polynomial_interpolate (map (fun x => E x) xs) (map (fun y => E y) ys) = Ok (E v)
      /\ 0 <= v < p
      /\ fp p v = @interp F (map (fp p) xs) (map (fp p) ys) f0.
  Proof.
    intros Hxs Hnd Hne Hl. unfold polynomial_interpolate.
    assert (Hlen : (0 < length xs)%nat) by (destruct xs; [contradiction|cbn; lia]).
    rewrite (idx_nth _ _ (E 0)) by (now rewrite map_length). rewrite (map_nth (fun x => E x)). cbn [rbind el_modulus].
    rewrite map_length.
    assert (G : forall is r, (forall i, In i is -> (i < length xs)%nat) -> 0 <= r < p -> exists v,
       rfold (fun result i =>
           let! basis := interpolate_basis (map (fun x => E x) xs) (E (nth 0 xs 0)) i in
           let! yi := idx (map (fun y => E y) ys) i in
           let! group := element_mul yi basis in
           element_add result group) is (E r) = Ok (E v)
       /\ 0 <= v < p
       /\ fp p v = @fadd F (fp p r) (fsum (map (fun i => @fmul F (nth i (map (fp p) ys) f0) (lag (map (fp p) xs : list F) i f0)) is))).
    { induction is as [|i is IH]; intros r Hi Hr.
      - exists r. split; [reflexivity|]. split; [assumption|]. cbn [map fsum].
        set (o := fp p r : F). change (o = fadd o f0). ring.
      - cbn [rfold]. unfold interpolate_basis at 1. rewrite map_length. cbn [el_modulus].
        assert (Hii : (i < length xs)%nat) by (apply Hi; now left).
        destruct (basis_spec xs i Hxs Hnd Hii (seq 0 (length xs)) 1) as (b & Eb & Hb).
        { intros j Hj. apply in_seq in Hj. lia. }
        rewrite Eb. cbn [rbind].
        rewrite (idx_nth _ _ (E 0)) by (rewrite map_length; lia). rewrite (map_nth (fun x => E x)). cbn [rbind].
        rewrite el_mul by assumption. cbn [rbind]. rewrite el_add by assumption. cbn [rbind].
        destruct (IH ((r + (nth i ys 0 * b) mod p) mod p)) as (v & Ev & Hv & Hf).
        { intros j Hj. apply Hi. now right. }
        { apply Z.mod_pos_bound. lia. }
        exists v. split; [exact Ev|]. split; [exact Hv|].
        rewrite Hf, fp_mod, fp_add, fp_mod, fp_mul, Hb. cbn [map fsum]. unfold lag at 2.
        rewrite (others_filter (K := F)). rewrite map_length.
        assert (Ni : nth i (map (fp p) ys) (f0 : F) = fp p (nth i ys 0)).
        { rewrite (nth_indep _ f0 (fp p 0)) by (rewrite map_length; lia). apply map_nth. }
        rewrite Ni.
        set (FP := fprod _). set (S := fsum _). set (rr := fp p r : F). set (y := fp p (nth i ys 0) : F).
        change (fadd (fadd rr (fmul y (fmul f1 FP))) S = fadd rr (fadd (fmul y FP) S)). ring. }
    destruct (G (seq 0 (length xs)) 0) as (v & Ev & Hv & Hf).
    { intros i Hi. apply in_seq in Hi. lia. }
    { lia. }
    exists v. split; [exact Ev|]. split; [exact Hv|].
    rewrite Hf. unfold interp. rewrite map_length.
    set (S := fsum _). change (fadd f0 S = S). ring.
  Qed.

End Prime.

(** ** splitting *)
Lemma horner_range p x cs : 2 <= p -> forall out, exists v,
  rfold (fun out c => let! m := element_mul out (mkElement p x) in element_add m c)
        (map (fun c => mkElement p c) cs) (mkElement p out) = Ok (mkElement p v)
  /\ (0 <= out < p -> 0 <= v < p).
Proof.
  intros Hp. induction cs as [|c cs IH]; intros out.
  - exists out. split; [reflexivity|auto].
  - cbn [map rfold]. rewrite el_mul by assumption. cbn [rbind]. rewrite el_add by assumption. cbn [rbind].
    destruct (IH (((out * x) mod p + c) mod p)) as (v & Ev & Hv).
    exists v. split; [exact Ev|]. intros _. apply Hv. apply Z.mod_pos_bound. lia.
Qed.

Lemma evaluate_range p c0 cs x : 2 <= p -> Forall (fun c => 0 <= c < p) (c0 :: cs) -> exists v,
  polynomial_evaluate (map (fun c => mkElement p c) (c0 :: cs)) (mkElement p x) = Ok (mkElement p v)
  /\ 0 <= v < p.
Proof.
  intros Hp Hc. unfold polynomial_evaluate. rewrite <- map_rev.
  destruct (rev (c0 :: cs)) as [|top rest] eqn:R.
  { apply (f_equal (@length Z)) in R. rewrite rev_length in R. discriminate. }
  cbn [map]. destruct (horner_range p x rest Hp top) as (v & Ev & Hr).
  exists v. split; [exact Ev|]. apply Hr.
  assert (In top (c0 :: cs)).
  { apply in_rev. rewrite R. now left. }
  rewrite Forall_forall in Hc. now apply Hc.
Qed.

Definition coeffs (draws : nat -> Z) (secret : list Z) (threshold : Z) : list Z :=
  bn_from_bytes secret :: map draws (seq 0 (Z.to_nat (threshold - 1))).

Lemma polynomial_new_coeffs draws secret t field :
  polynomial_new (mkElement field (bn_from_bytes secret)) (Z.to_nat (t - 1)) draws
  = map (fun c => mkElement field c) (coeffs draws secret t).
Proof. unfold polynomial_new, coeffs. cbn [map el_modulus]. now rewrite map_map. Qed.

Lemma bn_from_bytes_one b : bn_from_bytes [b] = b.
Proof. reflexivity. Qed.

Lemma element_from_id field id : 2 <= field ->
  element_from_bytes field [id] = Ok (mkElement field (id mod field)).
Proof. intros H. unfold element_from_bytes. rewrite bn_from_bytes_one. now apply el_new. Qed.

(** the argument checks, as one boolean *)
Definition split_args_ok (secret : list Z) (threshold total field : Z) : bool :=
  (threshold <=? total) && (2 <=? threshold) && negb (Nat.eqb (length secret) 0)
  && (2 <=? field) && (0 <=? bn_from_bytes secret) && (bn_from_bytes secret <? field).

Lemma split_unfold draws secret t n field :
  split_secret draws secret t n field =
  if split_args_ok secret t n field then
    rmap (fun i => let! y := polynomial_evaluate (map (fun c => mkElement field c) (coeffs draws secret t))
                                (mkElement field ((Z.of_nat i + 1) mod field)) in
                   Ok (mkShare (Z.of_nat i + 1) (el_value y))) (seq 0 (Z.to_nat n))
  else Err GeneralError.
Proof.
  unfold split_secret, split_args_ok, element_is_valid, bn_is_negative. cbn [el_value el_modulus].
  destruct (Z.ltb_spec n t), (Z.leb_spec t n); try lia; cbn [andb]; [reflexivity|].
  destruct (Z.ltb_spec t 2), (Z.leb_spec 2 t); try lia; cbn [andb]; [reflexivity|].
  destruct (Nat.eqb_spec (length secret) 0); cbn [andb negb]; [reflexivity|].
  destruct (Z.ltb_spec field 2), (Z.leb_spec 2 field); try lia; cbn [andb]; [reflexivity|].
  destruct (Z.ltb_spec (bn_from_bytes secret) 0), (Z.leb_spec 0 (bn_from_bytes secret)); try lia; cbn [andb negb]; [reflexivity|].
  destruct (bn_from_bytes secret <? field); cbn [negb]; [|reflexivity].
  rewrite polynomial_new_coeffs. cbv zeta.
  assert (G : forall l : list nat, forall f g : nat -> res share, (forall i, f i = g i) -> rmap f l = rmap g l).
  { induction l as [|i l IH]; intros f g H'; cbn; [reflexivity|]. now rewrite H', (IH f g H'). }
  apply G. intros i. rewrite element_from_id by lia. reflexivity.
Qed.

Lemma coeffs_range draws secret t n field : split_args_ok secret t n field = true ->
  (forall k, 0 <= draws k < field) -> Forall (fun c => 0 <= c < field) (coeffs draws secret t).
Proof.
  unfold split_args_ok. intros H Hd. repeat (apply andb_prop in H as [H ?]).
  constructor; [lia|]. apply Forall_forall. intros c Hc. apply in_map_iff in Hc as (k & <- & _). auto.
Qed.

Lemma split_inv draws secret t n field shares :
  split_secret draws secret t n field = Ok shares ->
  split_args_ok secret t n field = true /\ length shares = Z.to_nat n /\
  (forall s, In s shares <-> exists i, (i < Z.to_nat n)%nat /\
      sh_id s = Z.of_nat i + 1 /\
      exists y, polynomial_evaluate (map (fun c => mkElement field c) (coeffs draws secret t))
         (mkElement field ((Z.of_nat i + 1) mod field)) = Ok y /\ sh_value s = el_value y).
Proof.
  rewrite split_unfold. destruct (split_args_ok secret t n field); [|discriminate].
  intros H. split; [reflexivity|]. split.
  { rewrite (rmap_length _ _ _ H). apply seq_length. }
  assert (G : forall f (l : list nat) ys, rmap f l = Ok ys -> forall s : share, In s ys <-> exists i, In i l /\ f i = Ok s).
  { clear. intros f l. induction l as [|i l IH]; cbn; intros ys H s.
    - inversion H; subst. split; [contradiction|]. intros (i & [] & _).
    - apply rbind_ok in H as (y & Ey & H). apply rbind_ok in H as (zs & Ez & H). inversion H; subst.
      cbn. rewrite (IH _ Ez). split.
      + intros [->|(j & Hj & Ej)]; eauto.
      + intros (j & [->|Hj] & Ej); [left; congruence|right; eauto]. }
  intros s. rewrite (G _ _ _ H). split.
  - intros (i & Hi & E). apply in_seq in Hi. exists i. split; [lia|].
    apply rbind_ok in E as (y & Ey & E). inversion E; subst. cbn. split; [reflexivity|]. eauto.
  - intros (i & Hi & Eid & y & Ey & Ev). exists i. split; [apply in_seq; lia|].
    rewrite Ey. cbn. destruct s; cbn in *; subst. reflexivity.
Qed.

Lemma split_ids draws secret t n field shares :
  split_secret draws secret t n field = Ok shares ->
  map sh_id shares = map (fun i => Z.of_nat i + 1) (seq 0 (Z.to_nat n)).
Proof.
  rewrite split_unfold. destruct (split_args_ok secret t n field); [|discriminate].
  revert shares. induction (seq 0 (Z.to_nat n)) as [|i l IH]; cbn; intros shares H.
  - now inversion H.
  - apply rbind_ok in H as (y & Ey & H). apply rbind_ok in H as (zs & Ez & H). inversion H; subst.
    apply rbind_ok in Ey as (e & Ee & Ey). inversion Ey; subst. cbn. f_equal. auto.
Qed.

Lemma split_succeeds draws secret t n field : split_args_ok secret t n field = true ->
  (forall k, 0 <= draws k < field) ->
  exists shares, split_secret draws secret t n field = Ok shares
    /\ Forall (fun s => 0 <= sh_value s < field) shares.
Proof.
  intros H Hd. rewrite split_unfold, H.
  pose proof (coeffs_range _ _ _ _ _ H Hd) as Hc.
  assert (Hf : 2 <= field).
  { unfold split_args_ok in H. repeat (apply andb_prop in H as [H ?]). lia. }
  induction (seq 0 (Z.to_nat n)) as [|i l (ys & E & Hr)].
  - exists []. split; [reflexivity|constructor].
  - unfold coeffs in *.
    destruct (evaluate_range field _ _ ((Z.of_nat i + 1) mod field) Hf Hc) as (v & Ev & Hv).
    eexists. cbn [rmap]. rewrite Ev. cbn [rbind]. rewrite E. cbn [rbind]. split; [reflexivity|].
    constructor; [exact Hv|assumption].
Qed.

(** ** combining *)
Definition share_ok (s : share) : bool := negb (sh_value s =? 0) && negb (sh_id s =? 0).

Lemma combine_loop field shares : 2 <= field -> forall dups xs ys,
  rfold (combine_step field) shares (dups, (xs, ys)) =
  if forallb share_ok shares
     && (fix go dups l := match l with [] => true | s :: l' =>
           negb (existsb (Z.eqb (sh_id s)) dups) && go (sh_id s :: dups) l' end) dups shares
  then Ok (rev (map sh_id shares) ++ dups,
           (xs ++ map (fun s => mkElement field (sh_id s mod field)) shares,
            ys ++ map (fun s => mkElement field (sh_value s)) shares))
  else Err GeneralError.
Proof.
  intros Hf. induction shares as [|s shares IH]; intros dups xs ys.
  - cbn. now rewrite !app_nil_r.
  - cbn [rfold combine_step forallb]. unfold share_ok at 1.
    destruct (sh_value s =? 0); cbn [negb andb]; [reflexivity|].
    destruct (sh_id s =? 0); cbn [negb andb]; [reflexivity|].
    destruct (existsb (Z.eqb (sh_id s)) dups) eqn:Ed; cbn [negb andb].
    + now rewrite andb_false_r.
    + rewrite element_from_id by assumption. cbn [rbind]. rewrite IH.
      match goal with |- (if ?b then _ else _) = (if ?c then _ else _) => change c with b end.
      destruct (forallb share_ok shares && _); [|reflexivity].
      cbn [map rev]. rewrite <- !app_assoc. reflexivity.
Qed.

Lemma existsb_Zeqb_In x l : existsb (Z.eqb x) l = true <-> In x l.
Proof.
  rewrite existsb_exists. split.
  - intros (y & Hy & E). apply Z.eqb_eq in E. now subst.
  - intros H. exists x. split; [assumption|apply Z.eqb_refl].
Qed.

Lemma dup_loop shares : forall dups,
  (fix go dups l := match l with [] => true | s :: l' =>
           negb (existsb (Z.eqb (sh_id s)) dups) && go (sh_id s :: dups) l' end) dups shares = true
  <-> NoDup (map sh_id shares) /\ (forall s, In s shares -> ~ In (sh_id s) dups).
Proof.
  induction shares as [|s shares IH]; intros dups.
  - split; [|reflexivity]. intros _. split; [constructor|intros s []].
  - rewrite andb_true_iff, negb_true_iff, (IH (sh_id s :: dups)). cbn [map].
    rewrite <- not_true_iff_false, existsb_Zeqb_In. split.
    + intros (H1 & H2 & H3). split.
      * constructor; [|assumption]. intros Hin. apply in_map_iff in Hin as (s' & E & Hin).
        apply (H3 s' Hin). left. auto.
      * intros s' [<-|Hs']; [assumption|]. intros Hin. apply (H3 s' Hs'). now right.
    + intros (H1 & H2). inversion H1; subst. split; [apply H2; now left|]. split; [assumption|].
      intros s' Hs' [E|Hin].
      * apply H3. rewrite E. now apply in_map.
      * apply (H2 s'); [now right|assumption].
Qed.

Lemma combine_valid shares field : 2 <= field -> (2 <= length shares)%nat ->
  (forall s, In s shares -> sh_value s <> 0 /\ sh_id s <> 0) -> NoDup (map sh_id shares) ->
  combine_shares shares field =
   rbind (polynomial_interpolate (map (fun s => mkElement field (sh_id s mod field)) shares)
            (map (fun s => mkElement field (sh_value s)) shares))
         (fun e => Ok (element_to_bytes e)).
Proof.
  intros Hf Hl Hv Hnd. unfold combine_shares.
  destruct (Nat.ltb_spec (length shares) 2); [lia|]. destruct (Z.ltb_spec field 2); [lia|].
  rewrite combine_loop by assumption.
  replace (forallb share_ok shares) with true.
  2:{ symmetry. apply forallb_forall. intros s Hs. destruct (Hv s Hs). unfold share_ok.
      destruct (Z.eqb_spec (sh_value s) 0); [contradiction|].
      destruct (Z.eqb_spec (sh_id s) 0); [contradiction|]. reflexivity. }
  match goal with |- context [if true && ?g then _ else _] => replace g with true end.
  2:{ symmetry. apply dup_loop. split; [assumption|]. intros s _ []. }
  reflexivity.
Qed.

Lemma combine_invalid shares field :
  field < 2 \/ (length shares < 2)%nat \/ (exists s, In s shares /\ (sh_value s = 0 \/ sh_id s = 0))
  \/ ~ NoDup (map sh_id shares) ->
  combine_shares shares field = Err GeneralError.
Proof.
  intros H. unfold combine_shares.
  destruct (Nat.ltb_spec (length shares) 2); [reflexivity|]. destruct (Z.ltb_spec field 2); [reflexivity|].
  destruct H as [H|[H|H]]; [lia|lia|].
  rewrite combine_loop by assumption.
  match goal with |- context [if ?g then _ else _] => assert (Hg : g = false) end.
  { apply not_true_iff_false. rewrite andb_true_iff. intros (A & B).
    apply dup_loop in B as [B _]. destruct H as [(s & Hs & H)|H]; [|contradiction].
    rewrite forallb_forall in A. specialize (A s Hs). unfold share_ok in A.
    apply andb_prop in A as [A1 A2]. apply negb_true_iff in A1, A2.
    apply Z.eqb_neq in A1, A2. tauto. }
  rewrite Hg. reflexivity.
Qed.

(** ** reconstruction *)
Lemma NoDup_map_mod p (l : list Z) : Forall (fun x => 0 <= x < p) l -> NoDup l -> NoDup (map (fun x => x mod p) l).
Proof.
  intros Hr. induction 1 as [|x l Hni Hnd IH]; [constructor|].
  inversion Hr as [|? ? Hx Hl]; subst. cbn. constructor; [|auto].
  intros Hin. apply in_map_iff in Hin as (y & E & Hy).
  rewrite Forall_forall in Hl. specialize (Hl y Hy).
  rewrite !Z.mod_small in E by assumption. subst. contradiction.
Qed.
Lemma NoDup_map_fp p (l : list Z) : Forall (fun x => 0 <= x < p) l -> NoDup l -> NoDup (map (fp p) l).
Proof.
  intros Hr. induction 1 as [|x l Hni Hnd IH]; [constructor|].
  inversion Hr as [|? ? Hx Hl]; subst. cbn. constructor; [|auto].
  intros Hin. apply in_map_iff in Hin as (y & E & Hy). apply fp_eq in E.
  rewrite Forall_forall in Hl. specialize (Hl y Hy).
  rewrite !Z.mod_small in E by assumption. subst. contradiction.
Qed.

Lemma split_value p draws secret t n shares s : prime p ->
  split_secret draws secret t n p = Ok shares -> In s shares ->
  1 <= sh_id s <= n /\
  fp p (sh_value s) = @peval (FpOps p) (map (fp p) (coeffs draws secret t)) (fp p (sh_id s)).
Proof.
  intros Hp H Hs. apply split_inv in H as (Hok & Hl & H). apply H in Hs as (i & Hi & Eid & y & Ey & Ev).
  rewrite Eid. split; [lia|].
  destruct (evaluate_spec p Hp (bn_from_bytes secret) (map draws (seq 0 (Z.to_nat (t - 1))))
    ((Z.of_nat i + 1) mod p)) as (v & E & Hv & _).
  unfold coeffs in *. rewrite E in Ey. inversion Ey; subst y. cbn in Ev. rewrite Ev, Hv, fp_mod. reflexivity.
Qed.

Theorem reconstruct p draws secret t n shares sub :
  prime p -> n < p ->
  split_secret draws secret t n p = Ok shares ->
  NoDup (map sh_id sub) -> incl sub shares -> t <= Z.of_nat (length sub) ->
  (forall s, In s sub -> sh_value s <> 0) ->
  combine_shares sub p = Ok (bn_to_bytes (bn_from_bytes secret)).
Proof.
  intros Hp Hn Hsplit Hnd Hincl Hlen Hnz.
  pose proof (prime_ge_2 p Hp) as Hp2.
  pose proof (split_inv _ _ _ _ _ _ Hsplit) as (Hok & _ & _).
  unfold split_args_ok in Hok. repeat (apply andb_prop in Hok as [Hok ?]).
  assert (Hids : Forall (fun x => 0 <= x < p) (map sh_id sub)).
  { apply Forall_forall. intros x Hx. apply in_map_iff in Hx as (s & <- & Hs).
    destruct (split_value _ _ _ _ _ _ s Hp Hsplit (Hincl s Hs)). lia. }
  rewrite combine_valid; [|assumption|lia| |assumption].
  2:{ intros s Hs. split; [now apply Hnz|].
      destruct (split_value _ _ _ _ _ _ s Hp Hsplit (Hincl s Hs)). lia. }
  destruct (interpolate_spec p Hp (map (fun x => x mod p) (map sh_id sub)) (map sh_value sub))
    as (v & Ev & Hv & Hf).
  - apply Forall_forall. intros x Hx. apply in_map_iff in Hx as (y & <- & _). apply Z.mod_pos_bound. lia.
  - now apply NoDup_map_mod.
  - destruct sub; [cbn in Hlen; lia|discriminate].
  - now rewrite !map_length.
  - rewrite !map_map in Ev. rewrite Ev. cbn [rbind]. f_equal. unfold element_to_bytes. cbn [el_value].
    f_equal. rewrite !map_map in Hf.
    assert (E1 : map (fun x => fp p (sh_id x mod p)) sub = map (fp p) (map sh_id sub)).
    { rewrite map_map. apply map_ext. intros s. apply fp_mod. }
    assert (E2 : map (fun x => fp p (sh_value x)) sub
                 = map (@peval (FpOps p) (map (fp p) (coeffs draws secret t))) (map (fp p) (map sh_id sub))).
    { rewrite !map_map. apply map_ext_in. intros s Hs.
      destruct (split_value _ _ _ _ _ _ s Hp Hsplit (Hincl s Hs)) as [_ E]. exact E. }
    rewrite E1, E2 in Hf.
    rewrite (interp_unique (FpOps p) (FpOps_laws p Hp)) in Hf.
    + unfold coeffs in Hf. cbn [map] in Hf. rewrite (peval_0 _ (FpOps_laws p Hp)) in Hf.
      rename Hf into G.
      apply fp_eq in G. rewrite !Z.mod_small in G; lia.
    + now apply NoDup_map_fp.
    + rewrite !map_length. unfold coeffs. cbn [length]. rewrite map_length, seq_length. lia.
    + destruct sub; [cbn in Hlen; lia|discriminate].
Qed.

(** ** perfect secrecy *)
Lemma fp_small_inj p x y : 0 <= x < p -> 0 <= y < p -> fp p x = fp p y -> x = y.
Proof. intros Hx Hy E. apply fp_eq in E. now rewrite !Z.mod_small in E by assumption. Qed.

Lemma split_args_intro p t n secret : prime p -> 2 <= t <= n -> secret <> [] ->
  0 <= bn_from_bytes secret < p -> split_args_ok secret t n p = true.
Proof.
  intros Hp Ht Hne Hsec. unfold split_args_ok. pose proof (prime_ge_2 p Hp).
  repeat (apply andb_true_intro; split); try (apply Z.leb_le; lia); try (apply Z.ltb_lt; lia).
  destruct secret; [contradiction|reflexivity].
Qed.

Section Secrecy.
  Variables (p t n : Z) (obs : list share).
  Hypothesis Hp : prime p.
  Hypothesis Ht : 2 <= t <= n.
  Hypothesis Hnp : n < p.
  Hypothesis Hnd : NoDup (map sh_id obs).
  Hypothesis Hids : forall s, In s obs -> 1 <= sh_id s <= n /\ 0 <= sh_value s < p.
  Hypothesis Hlen : Z.of_nat (length obs) = t - 1.
  Variable secret : list Z.
  Hypothesis Hne : secret <> [].
  Hypothesis Hsec : 0 <= bn_from_bytes secret < p.

  Notation F := (FpOps p).
  Let HF : field_laws F := FpOps_laws p Hp.
  Definition pts : list F := f0 :: map (fp p) (map sh_id obs).
  Definition vals : list F := fp p (bn_from_bytes secret) :: map (fp p) (map sh_value obs).

  Lemma pts_nodup : NoDup pts.
  Proof.
    constructor.
    - intros Hin. apply in_map_iff in Hin as (x & E & Hx). apply in_map_iff in Hx as (s & <- & Hs).
      destruct (Hids s Hs) as [A B]. apply (fp_0_iff p (sh_id s)) in E. rewrite Z.mod_small in E; lia.
    - apply NoDup_map_fp; [|assumption]. apply Forall_forall. intros x Hx.
      apply in_map_iff in Hx as (s & <- & Hs). destruct (Hids s Hs). lia.
  Qed.

  Lemma obs_in_shares draws shares : (forall k, 0 <= draws k < p) ->
    split_secret draws secret t n p = Ok shares ->
    (incl obs shares <-> map (@peval F (map (fp p) (coeffs draws secret t))) pts = vals).
  Proof.
    intros Hd Hs. pose proof (prime_ge_2 p Hp) as Hp2. split.
    - intros Hincl. unfold pts, vals. cbn [map]. f_equal.
      + unfold coeffs. cbn [map]. apply (peval_0 _ HF).
      + rewrite !map_map. apply map_ext_in. intros s Hin.
        destruct (split_value _ _ _ _ _ _ s Hp Hs (Hincl s Hin)) as [_ E]. now rewrite E.
    - intros E. apply (f_equal (@tl _)) in E. unfold pts, vals in E. cbn [map tl] in E.
      intros s Hin. apply split_inv in Hs as (_ & _ & H). apply H.
      destruct (Hids s Hin) as [A B].
      exists (Z.to_nat (sh_id s - 1)). split; [lia|]. split; [lia|].
      rewrite Z2Nat.id by lia. replace (sh_id s - 1 + 1) with (sh_id s) by lia.
      destruct (evaluate_spec p Hp (bn_from_bytes secret) (map draws (seq 0 (Z.to_nat (t - 1))))
        (sh_id s mod p)) as (v & Ev & Hv & Hr).
      exists (mkElement p v). split; [exact Ev|]. cbn.
      assert (Hvr : 0 <= v < p).
      { apply Hr. constructor; [lia|]. apply Forall_forall. intros c Hc.
        apply in_map_iff in Hc as (k & <- & _). auto. }
      apply (fp_small_inj p); [lia|assumption|]. rewrite Hv, fp_mod.
      rewrite (map_map sh_id (fp p)), (map_map sh_value (fp p)), map_map in E.
      assert (G : forall l (f g : share -> F), map f l = map g l -> In s l -> f s = g s).
      { clear. induction l as [|a l IH]; cbn; intros f g E [].
        - subst. now injection E.
        - injection E as _ E. auto. }
      symmetry. exact (G _ _ _ E Hin).
  Qed.

  Lemma secrecy_main : exists draws, (forall k, 0 <= draws k < p) /\
    (exists shares, split_secret draws secret t n p = Ok shares /\ incl obs shares) /\
    (forall draws' shares', (forall k, 0 <= draws' k < p) ->
        split_secret draws' secret t n p = Ok shares' -> incl obs shares' ->
        forall k, (Z.of_nat k < t - 1) -> draws' k = draws k).
  Proof.
    pose proof (prime_ge_2 p Hp) as Hp2.
    assert (Hlp : length pts = Z.to_nat t).
    { unfold pts. cbn [length]. rewrite !map_length. lia. }
    destruct (interp_exists F HF pts vals pts_nodup) as (cs & Hcl & Hc).
    { discriminate. }
    { unfold pts, vals. cbn [length]. now rewrite !map_length. }
    exists (fun k => fpv (nth (S k) cs (f0 : F))).
    assert (Hd : forall k, 0 <= fpv (nth (S k) cs (f0 : F)) < p) by (intros k; apply fpv_range; lia).
    assert (Ecs : map (fp p) (coeffs (fun k => fpv (nth (S k) cs (f0 : F))) secret t) = cs).
    { destruct cs as [|c0 cs]; [cbn in Hcl; lia|].
      unfold coeffs. cbn [map]. f_equal.
      - assert (E0 : peval (c0 :: cs) (f0 : F) = fp p (bn_from_bytes secret)).
        { pose proof (f_equal (hd (f0 : F)) Hc) as Hc0. unfold pts, vals in Hc0. cbn [map hd] in Hc0. exact Hc0. }
        rewrite (peval_0 _ HF) in E0. congruence.
      - rewrite map_map. replace (Z.to_nat (t - 1)) with (length cs) by (rewrite Hlp in Hcl; cbn [length] in Hcl; lia).
        rewrite <- (map_nth_seq cs (f0 : F) 0) at 2. apply map_ext. intros k.
        rewrite fp_fpv. cbn [nth]. now rewrite Nat.sub_0_r. }
    split; [exact Hd|]. split.
    - destruct (split_succeeds _ secret t n p (split_args_intro p t n secret Hp Ht Hne Hsec) Hd) as (shares & Es & _).
      exists shares. split; [exact Es|]. apply (obs_in_shares _ _ Hd Es). rewrite Ecs. exact Hc.
    - intros draws' shares' Hd' Es' Hincl k Hk.
      apply (obs_in_shares _ _ Hd' Es') in Hincl. rewrite <- Hc in Hincl.
      apply (interp_coeffs_unique F HF) in Hincl; [| exact pts_nodup | | exact Hcl].
      + apply (fp_small_inj p); [apply Hd'|apply Hd|]. rewrite fp_fpv, <- Hincl.
        unfold coeffs. cbn [map nth]. rewrite map_map.
        rewrite (nth_indep _ _ (fp p (draws' 0%nat))) by (rewrite map_length, seq_length; lia).
        change (fp p (draws' 0%nat)) with ((fun x => fp p (draws' x)) 0%nat).
        rewrite map_nth, seq_nth by lia. reflexivity.
      + rewrite map_length. unfold coeffs. cbn [length]. rewrite map_length, seq_length. lia.
  Qed.
End Secrecy.

(** ** a share that equals the secret, when the field is not larger than [total] *)
Lemma small_field_leak p draws secret t n shares : prime p -> (forall k, 0 <= draws k < p) -> p <= n ->
  split_secret draws secret t n p = Ok shares -> In (mkShare p (bn_from_bytes secret)) shares.
Proof.
  intros Hp Hd Hpn Hs. pose proof (prime_ge_2 p Hp).
  pose proof (split_inv _ _ _ _ _ _ Hs) as (Hok & _ & H').
  pose proof (coeffs_range _ _ _ _ _ Hok Hd) as Hc.
  apply H'. exists (Z.to_nat (p - 1)). cbn [sh_id sh_value]. split; [lia|]. split; [lia|].
  rewrite Z2Nat.id by lia. replace (p - 1 + 1) with p by lia. rewrite Z_mod_same_full.
  destruct (evaluate_spec p Hp (bn_from_bytes secret) (map draws (seq 0 (Z.to_nat (t - 1)))) 0) as (v & Ev & Hv & Hr).
  exists (mkElement p v). split; [exact Ev|]. cbn.
  unfold split_args_ok in Hok. repeat (apply andb_prop in Hok as [Hok ?]).
  apply (fp_small_inj p); [lia|now apply Hr|]. rewrite Hv. cbn [map].
  symmetry. apply (peval_0 _ (FpOps_laws p Hp)).
Qed.

(** ** an honest run with a zero share, for every threshold *)
Lemma zero_share_run p secret t n : prime p -> 2 <= t <= n -> secret <> [] -> 0 < bn_from_bytes secret < p ->
  exists draws shares, (forall k, 0 <= draws k < p) /\
    split_secret draws secret t n p = Ok shares /\ In (mkShare 1 0) shares.
Proof.
  intros Hp Ht Hne Hsec. pose proof (prime_ge_2 p Hp).
  exists (fun k => if Nat.eqb k 0 then p - bn_from_bytes secret else 0).
  assert (Hd : forall k, 0 <= (if Nat.eqb k 0 then p - bn_from_bytes secret else 0) < p).
  { intros k. destruct (Nat.eqb k 0); lia. }
  destruct (split_succeeds _ secret t n p (split_args_intro p t n secret Hp Ht Hne ltac:(lia)) Hd) as (shares & Es & _).
  exists shares. split; [exact Hd|]. split; [exact Es|].
  pose proof (split_inv _ _ _ _ _ _ Es) as (Hok & _ & H').
  pose proof (coeffs_range _ _ _ _ _ Hok Hd) as Hc.
  apply H'. exists 0%nat. cbn [sh_id sh_value Z.of_nat]. split; [lia|]. split; [reflexivity|].
  destruct (evaluate_spec p Hp (bn_from_bytes secret)
    (map (fun k => if Nat.eqb k 0 then p - bn_from_bytes secret else 0) (seq 0 (Z.to_nat (t - 1)))) ((0 + 1) mod p)) as (v & Ev & Hv & Hr).
  exists (mkElement p v). split; [exact Ev|]. cbn.
  specialize (Hr Hc). apply (fp_small_inj p); [lia|assumption|]. rewrite Hv.
  destruct (Z.to_nat (t - 1)) as [|m] eqn:Em; [lia|].
  cbn [seq map Nat.eqb]. cbn [peval].
  assert (Z0 : @peval (FpOps p) (map (fp p) (map (fun k => if Nat.eqb k 0 then p - bn_from_bytes secret else 0) (seq 1 m)))
                 (fp p ((0 + 1) mod p)) = f0).
  { apply (Forall_zero_eval _ (FpOps_laws p Hp)). apply Forall_forall. intros c Hin.
    apply in_map_iff in Hin as (z & <- & Hin). apply in_map_iff in Hin as (k & <- & Hin).
    apply in_seq in Hin. destruct (Nat.eqb_spec k 0); [lia|reflexivity]. }
  rewrite Z0. rewrite fp_mod. change (0 + 1) with 1.
  change (@f0 (FpOps p)) with (fp p 0). rewrite <- !fp_mul, <- !fp_add, <- fp_mul, <- fp_add.
  apply fp_eq. replace (bn_from_bytes secret + 1 * (p - bn_from_bytes secret + 1 * 0)) with p by ring.
  now rewrite Z_mod_same_full, Zmod_0_l.
Qed.

(** ** share codec *)
Lemma share_codec s p : 0 < p -> 0 <= sh_value s ->
  share_from_bytes (share_to_bytes s) p = Ok (mkShare (sh_id s) (sh_value s mod p)).
Proof.
  intros Hp Hv. unfold share_from_bytes, share_to_bytes. rewrite rev_app_distr. cbn [rev app].
  rewrite rev_involutive, bn_bytes_roundtrip, bn_modulus_pos by assumption. reflexivity.
Qed.

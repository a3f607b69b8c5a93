(** Polynomials over a field: evaluation, root counting, Lagrange interpolation
    at 0 (pure mathematics, used by the secret sharing proofs). *)
From Verif Require Import Base Alg.

Section Poly.
  Variable K : fieldOps.
  Hypothesis HK : field_laws K.
  Add Field Kf : (proj1 HK).
  Notation "x + y" := (fadd x y). Notation "x * y" := (fmul x y). Notation "x - y" := (fsub x y).
  Notation "0" := f0. Notation "1" := f1.

  (** sum of c_k x^k *)
  Fixpoint peval (p : list K) (x : K) : K :=
    match p with [] => 0 | c :: p' => c + x * peval p' x end.

  Lemma peval_app (l1 l2 : list K) x :
    peval (l1 ++ l2) x = peval l1 x + fpow x (length l1) * peval l2 x.
  Proof.
    induction l1 as [|a l1 IH]; cbn [app peval length fpow]; [ring|]. rewrite IH. ring.
  Qed.

  Lemma peval_0 c (l : list K) : peval (c :: l) 0 = c.
  Proof. cbn. ring. Qed.

  Fixpoint padd (p q : list K) : list K :=
    match p, q with
    | [], _ => q
    | _, [] => p
    | a :: p', b :: q' => (a + b) :: padd p' q'
    end.
  Lemma padd_eval p : forall q x, peval (padd p q) x = peval p x + peval q x.
  Proof.
    induction p as [|a p IH]; intros [|b q] x; cbn; try ring. rewrite IH. ring.
  Qed.
  Lemma padd_length p : forall q, length (padd p q) = Nat.max (length p) (length q).
  Proof. induction p as [|a p IH]; intros [|b q]; cbn; auto. Qed.

  Definition pscale (k : K) (p : list K) : list K := map (fmul k) p.
  Lemma pscale_eval k p x : peval (pscale k p) x = k * peval p x.
  Proof. unfold pscale. induction p as [|a p IH]; cbn; [ring|]. rewrite IH. ring. Qed.

  (** (X - r) * p *)
  Definition pmul_lin (r : K) (p : list K) : list K := padd (0 :: p) (pscale (fopp r) p).
  Lemma pmul_lin_eval r p x : peval (pmul_lin r p) x = (x - r) * peval p x.
  Proof. unfold pmul_lin. rewrite padd_eval, pscale_eval. cbn. ring. Qed.
  Lemma pmul_lin_length r p : length (pmul_lin r p) = S (length p).
  Proof. unfold pmul_lin. rewrite padd_length. unfold pscale. rewrite map_length. cbn [length]. lia. Qed.

  (** synthetic division: p = p(r) + (X - r) * quot *)
  Fixpoint pdiv (r : K) (p : list K) : list K :=
    match p with
    | [] => []
    | c :: p' => match p' with [] => [] | _ => peval p' r :: pdiv r p' end
    end.
  Lemma pdiv_eval r p x : peval p x = peval p r + (x - r) * peval (pdiv r p) x.
  Proof.
    induction p as [|c p IH]; [cbn; ring|].
    cbn [peval pdiv]. destruct p as [|d p].
    - cbn. ring.
    - cbn [peval] in *. rewrite IH. cbn [peval]. ring.
  Qed.
  Lemma pdiv_length r p : length (pdiv r p) = pred (length p).
  Proof.
    induction p as [|c p IH]; [reflexivity|]. cbn [pdiv].
    destruct p as [|d p]; [reflexivity|]. cbn [length pred] in *. now rewrite IH.
  Qed.

  (** a polynomial with at least as many distinct roots as coefficients
      vanishes, and all its coefficients are zero *)
  Lemma roots_zero : forall xs p, NoDup xs -> (length p <= length xs)%nat ->
    (forall x, In x xs -> peval p x = 0) -> Forall (fun c => c = 0) p.
  Proof.
    induction xs as [|r xs IH]; intros p Hnd Hl Hr.
    - destruct p; [constructor|cbn in Hl; lia].
    - inversion Hnd as [|? ? Hni Hnd']; subst.
      assert (Hq : Forall (fun c => c = 0) (pdiv r p)).
      { apply IH; [assumption| |].
        - rewrite pdiv_length. cbn in Hl. lia.
        - intros x Hx. pose proof (pdiv_eval r p x) as E.
          rewrite (Hr r), (Hr x) in E by (cbn; auto).
          assert (E2 : (x - r) * peval (pdiv r p) x = 0) by (rewrite E; ring).
          apply (fmul_integral K HK) in E2 as [E2|E2]; [|assumption].
          apply (fsub_eq0 K HK) in E2. subst. contradiction. }
      (* all evaluations of suffixes at r vanish, so coefficients vanish *)
      assert (Hp : peval p r = 0) by (apply Hr; now left).
      clear - Hq Hp HK. revert Hq Hp. induction p as [|c p IHp]; intros Hq Hp; [constructor|].
      cbn [pdiv] in Hq. destruct p as [|d p].
      + cbn in Hp. constructor; [|constructor]. rewrite <- Hp. ring.
      + inversion Hq as [|? ? Hd Hq']; subst.
        constructor; [|now apply IHp].
        transitivity (peval (c :: d :: p) r); [|assumption].
        cbn [peval] in *. rewrite Hd. ring.
  Qed.

  Lemma Forall_zero_eval p x : Forall (fun c => c = 0) p -> peval p x = 0.
  Proof. induction 1 as [|c p Hc _ IH]; cbn; [reflexivity|]. rewrite Hc, IH. ring. Qed.

  (** functions that are polynomials with at most n coefficients *)
  Definition polyfun (n : nat) (f : K -> K) : Prop :=
    exists p, (length p <= n)%nat /\ forall x, f x = peval p x.
  Lemma polyfun_const n c : (1 <= n)%nat -> polyfun n (fun _ => c).
  Proof. intros Hn. exists [c]. split; [exact Hn|]. intros x. cbn. ring. Qed.
  Lemma polyfun_add n f g : polyfun n f -> polyfun n g -> polyfun n (fun x => f x + g x).
  Proof.
    intros (p & Hp & Ef) (q & Hq & Eg). exists (padd p q). split.
    - rewrite padd_length. lia.
    - intros x. now rewrite padd_eval, Ef, Eg.
  Qed.
  Lemma polyfun_scale n k f : polyfun n f -> polyfun n (fun x => k * f x).
  Proof.
    intros (p & Hp & Ef). exists (pscale k p). split.
    - unfold pscale. now rewrite map_length.
    - intros x. now rewrite pscale_eval, Ef.
  Qed.
  Lemma polyfun_lin n r f : polyfun n f -> polyfun (S n) (fun x => (x - r) * f x).
  Proof.
    intros (p & Hp & Ef). exists (pmul_lin r p). split.
    - rewrite pmul_lin_length. lia.
    - intros x. now rewrite pmul_lin_eval, Ef.
  Qed.
  Lemma polyfun_ext n f g : (forall x, f x = g x) -> polyfun n f -> polyfun n g.
  Proof. intros H (p & Hp & Ef). exists p. split; [assumption|]. intros x. now rewrite <- H. Qed.
  Lemma polyfun_le n m f : (n <= m)%nat -> polyfun n f -> polyfun m f.
  Proof. intros H (p & Hp & Ef). exists p. split; [lia|assumption]. Qed.
  Lemma polyfun_prod rs : polyfun (S (length rs)) (fun x => fprod (map (fun r => x - r) rs)).
  Proof.
    induction rs as [|r rs IH]; cbn [map fprod length].
    - apply polyfun_const. lia.
    - now apply (polyfun_lin _ r _ IH).
  Qed.
  Lemma polyfun_roots n f xs : polyfun n f -> NoDup xs -> (n <= length xs)%nat ->
    (forall x, In x xs -> f x = 0) -> forall x, f x = 0.
  Proof.
    intros (p & Hp & Ef) Hnd Hl Hr x. rewrite Ef. apply Forall_zero_eval.
    apply (roots_zero xs); [assumption|lia|]. intros y Hy. rewrite <- Ef. auto.
  Qed.

  (** Lagrange basis.  [others i xs] is [xs] without its i-th entry. *)
  Fixpoint others (i : nat) (xs : list K) : list K :=
    match xs, i with
    | [], _ => []
    | _ :: tl, O => tl
    | x :: tl, S k => x :: others k tl
    end.
  Lemma others_length i : forall xs, (i < length xs)%nat -> length (others i xs) = pred (length xs).
  Proof.
    induction i as [|i IH]; intros [|x xs] H; cbn in *; try lia.
    rewrite IH by lia. lia.
  Qed.
  Lemma others_in i : forall xs y, In y (others i xs) -> In y xs.
  Proof.
    induction i as [|i IH]; intros [|x xs] y H; cbn in *; auto.
    destruct H as [->|H]; [now left|right; now apply IH].
  Qed.
  Lemma others_nth i : forall xs, NoDup xs -> (i < length xs)%nat -> ~ In (nth i xs 0) (others i xs).
  Proof.
    induction i as [|i IH]; intros [|x xs] Hnd Hl; cbn in *; try lia; inversion Hnd; subst; [assumption|].
    intros [E|E].
    - apply H1. rewrite E. apply nth_In. lia.
    - revert E. apply IH; [assumption|lia].
  Qed.
  Lemma others_other i : forall j xs, (j < length xs)%nat -> i <> j -> In (nth j xs 0) (others i xs).
  Proof.
    induction i as [|i IH]; intros [|j] [|x xs] Hl Hne; cbn in *; try lia.
    - apply nth_In. lia.
    - now left.
    - right. apply IH; lia.
  Qed.

  (** basis polynomial i evaluated at x *)
  Definition lag (xs : list K) (i : nat) (x : K) : K :=
    fprod (map (fun r => fdiv (x - r) (nth i xs 0 - r)) (others i xs)).

  Lemma fprod_div (f c : K) rs : (forall r, In r rs -> c - r <> 0) ->
    fprod (map (fun r => fdiv (f - r) (c - r)) rs) =
      finv (fprod (map (fun r => c - r) rs)) * fprod (map (fun r => f - r) rs).
  Proof.
    induction rs as [|r rs IH]; cbn; intros H; [field; apply (f1_neq_0 K HK)|].
    rewrite IH by auto.
    assert (H1 : c - r <> 0) by auto.
    assert (H2 : fprod (map (fun r => c - r) rs) <> 0).
    { apply (fprod_nonzero K HK). intros y Hy. apply in_map_iff in Hy as (z & <- & Hz). auto. }
    field. split; assumption.
  Qed.

  Lemma lag_polyfun xs i : NoDup xs -> (i < length xs)%nat -> polyfun (length xs) (lag xs i).
  Proof.
    intros Hnd Hi.
    apply (polyfun_ext _ (fun x => finv (fprod (map (fun r => nth i xs 0 - r) (others i xs)))
                                   * fprod (map (fun r => x - r) (others i xs)))).
    - intros x. symmetry. apply fprod_div. intros r Hr. apply (fsub_neq0 K HK). intros E.
      apply (others_nth i xs Hnd Hi). rewrite E. exact Hr.
    - apply polyfun_scale. replace (length xs) with (S (length (others i xs))).
      + apply polyfun_prod.
      + rewrite others_length by assumption. lia.
  Qed.

  Lemma lag_self xs i : NoDup xs -> (i < length xs)%nat -> lag xs i (nth i xs 0) = 1.
  Proof.
    intros Hnd Hi. unfold lag.
    assert (H : forall rs, (forall r, In r rs -> nth i xs 0 - r <> 0) ->
       fprod (map (fun r => fdiv (nth i xs 0 - r) (nth i xs 0 - r)) rs) = 1).
    { induction rs as [|r rs IH]; cbn; intros H; [reflexivity|].
      rewrite IH by auto. field. auto. }
    apply H. intros r Hr. apply (fsub_neq0 K HK). intros E.
    apply (others_nth i xs Hnd Hi). rewrite E. exact Hr.
  Qed.

  Lemma fprod_zero (l : list K) : In 0 l -> fprod l = 0.
  Proof. induction l as [|a l IH]; cbn; [contradiction|]. intros [->|H]; [ring|]. rewrite IH by assumption. ring. Qed.

  Lemma lag_other xs i j : NoDup xs -> (i < length xs)%nat -> (j < length xs)%nat -> i <> j ->
    lag xs i (nth j xs 0) = 0.
  Proof.
    intros Hnd Hi Hj Hne. unfold lag. apply fprod_zero.
    apply in_map_iff. exists (nth j xs 0). split; [|now apply others_other].
    assert (nth i xs 0 - nth j xs 0 <> 0).
    { apply (fsub_neq0 K HK). intros E. apply Hne.
      apply (NoDup_nth xs 0) in E; assumption. }
    field. assumption.
  Qed.

  (** the interpolating function *)
  Definition interp (xs ys : list K) (x : K) : K :=
    fsum (map (fun i => nth i ys 0 * lag xs i x) (seq 0 (length xs))).

  Lemma polyfun_sum n (fs : list (K -> K)) : (1 <= n)%nat -> (forall f, In f fs -> polyfun n f) ->
    polyfun n (fun x => fsum (map (fun f => f x) fs)).
  Proof.
    intros Hn. induction fs as [|f fs IH]; cbn; intros H; [now apply polyfun_const|].
    apply (polyfun_add n f (fun x => fsum (map (fun f => f x) fs))); auto.
  Qed.

  Lemma interp_polyfun xs ys : NoDup xs -> xs <> [] -> polyfun (length xs) (interp xs ys).
  Proof.
    intros Hnd Hne. unfold interp.
    apply (polyfun_ext _ (fun x => fsum (map (fun f => f x)
        (map (fun i x => nth i ys 0 * lag xs i x) (seq 0 (length xs)))))).
    - intros x. now rewrite map_map.
    - apply polyfun_sum; [destruct xs; [contradiction|cbn; lia]|].
      intros f Hf. apply in_map_iff in Hf as (i & <- & Hi). apply in_seq in Hi.
      apply polyfun_scale. apply lag_polyfun; [assumption|lia].
  Qed.

  Lemma fsum_single (f : nat -> K) : forall len start k,
    (start <= k < start + len)%nat -> (forall i, i <> k -> f i = 0) ->
    fsum (map f (seq start len)) = f k.
  Proof.
    induction len as [|len IH]; intros start k Hk Hz; [lia|]. cbn [seq map fsum].
    destruct (Nat.eq_dec start k) as [->|Hne].
    - assert (E : fsum (map f (seq (S k) len)) = 0).
      { assert (G : forall l, (forall i, In i l -> i <> k) -> fsum (map f l) = 0).
        { induction l as [|i l IHl]; cbn; intros H; [reflexivity|].
          rewrite (Hz i), IHl by auto. ring. }
        apply G. intros i Hi. apply in_seq in Hi. lia. }
      rewrite E. ring.
    - rewrite (IH (S start) k) by (lia || assumption). rewrite (Hz start) by assumption. ring.
  Qed.

  Lemma interp_at xs ys j : NoDup xs -> (j < length xs)%nat ->
    interp xs ys (nth j xs 0) = nth j ys 0.
  Proof.
    intros Hnd Hj. unfold interp.
    assert (G : forall l, (forall i, In i l -> (i < length xs)%nat) ->
       fsum (map (fun i => nth i ys 0 * lag xs i (nth j xs 0)) l) =
       fsum (map (fun i => if Nat.eqb i j then nth j ys 0 else 0) l)).
    { induction l as [|i l IH]; cbn; intros H; [reflexivity|]. rewrite IH by auto. f_equal.
      destruct (Nat.eqb_spec i j) as [->|Hne].
      - rewrite lag_self by assumption. ring.
      - rewrite lag_other by auto. ring. }
    rewrite G by (intros i Hi; apply in_seq in Hi; lia).
    rewrite (fsum_single _ _ _ j); [now rewrite Nat.eqb_refl|lia|].
    intros i Hi. destruct (Nat.eqb_spec i j); [contradiction|reflexivity].
  Qed.

  (** any polynomial with at most |xs| coefficients is recovered *)
  Theorem interp_unique p xs x : NoDup xs -> (length p <= length xs)%nat -> xs <> [] ->
    interp xs (map (peval p) xs) x = peval p x.
  Proof.
    intros Hnd Hl Hne. apply (fsub_eq0 K HK).
    revert x. apply (polyfun_roots (length xs) (fun x => interp xs (map (peval p) xs) x - peval p x) xs); auto.
    - apply (polyfun_ext _ (fun x => interp xs (map (peval p) xs) x + fopp 1 * peval p x)).
      + intros y. ring.
      + apply polyfun_add; [now apply interp_polyfun|]. apply polyfun_scale. exists p. auto.
    - intros y Hy. destruct (In_nth xs y 0 Hy) as (j & Hj & <-).
      rewrite interp_at by assumption.
      rewrite (nth_indep _ 0 (peval p 0)) by (now rewrite map_length).
      rewrite map_nth. ring.
  Qed.

  (** existence and uniqueness of a coefficient vector of length |xs| with given values *)
  Lemma pad_eval p k x : peval (p ++ repeat 0 k) x = peval p x.
  Proof.
    induction p as [|a p IH]; cbn; [|now rewrite IH].
    induction k as [|k IH]; cbn; [reflexivity|]. rewrite IH. ring.
  Qed.
  Theorem interp_exists xs ys : NoDup xs -> xs <> [] -> length ys = length xs ->
    exists p, length p = length xs /\ map (peval p) xs = ys.
  Proof.
    intros Hnd Hne Hl. destruct (interp_polyfun xs ys Hnd Hne) as (p & Hp & E).
    exists (p ++ repeat 0 (length xs - length p)). split.
    - rewrite app_length, repeat_length. lia.
    - apply nth_ext with (d := peval (p ++ repeat 0 (length xs - length p)) 0) (d' := 0).
      + now rewrite map_length.
      + intros j Hj. rewrite map_length in Hj. rewrite map_nth, pad_eval, <- E.
        now apply interp_at.
  Qed.
  Lemma psub_inj p q : length p = length q ->
    Forall (fun c => c = 0) (padd p (pscale (fopp 1) q)) -> p = q.
  Proof.
    revert q. induction p as [|a p IH]; intros [|b q] Hl H; try discriminate Hl; [reflexivity|].
    cbn in H. inversion H as [|? ? H1 H2]; subst. f_equal.
    - apply (fsub_eq0 K HK). rewrite <- H1. ring.
    - apply IH; [now injection Hl|assumption].
  Qed.
  Theorem interp_coeffs_unique xs p q : NoDup xs -> length p = length xs -> length q = length xs ->
    map (peval p) xs = map (peval q) xs -> p = q.
  Proof.
    intros Hnd Hp Hq E. apply psub_inj; [congruence|].
    apply (roots_zero xs); [assumption| |].
    - rewrite padd_length. unfold pscale. rewrite map_length. lia.
    - intros x Hx. rewrite padd_eval, pscale_eval.
      assert (E2 : peval p x = peval q x).
      { clear - E Hx. induction xs as [|y xs IH]; [contradiction|].
        injection E as E1 E2. destruct Hx as [->|Hx]; auto. }
      rewrite E2. ring.
  Qed.
End Poly.
Arguments peval {K}. Arguments lag {K}. Arguments interp {K}. Arguments others {K}.

(** C130: from a tree of accepted inner-product proofs one computes the vectors they speak
    about, or a relation between the generators. *)
From Verif Require Import Base Alg Lin TranscriptModel IppModel IppLib IppSpec IppSoundSpec IppForkSpec IppProps IppSoundLib.
From Coq Require Import String.
Import List ListNotations.
Open Scope list_scope.

Section IppFork.
Context {K : fieldOps} (HK : field_laws K) {M : modOps K} (HM : mod_laws M).
Add Field Kf5 : (proj1 HK).

Lemma verify_path (T : tcode M) lg k n tr gf hf (P u : M) G H a b L R xs : (k < 32)%nat -> n = (2 ^ k)%nat -> length L = k -> length R = k -> log_exact lg n ->
  length gf = n -> length hf = n -> length G = n -> length H = n ->
  fst (replay T (combine L R) (innerproduct_domain_sep tr n)) = xs -> (forall x, In x xs -> x <> f0) ->
  verify_ipp T lg n tr gf hf P u G H a b L R = Ok tt -> path_eq (zip_with smul gf G) (zip_with smul hf H) u P L R xs a b.
Proof.
  intros Hk En EL ER Hlg Egf Ehf EG EH Ex Nx V. rewrite (verify_ipp_path HK HM T lg k n) in V by (try rewrite Ex; assumption). rewrite Ex in V.
  match type of V with (if meqb ?A P then _ else _) = _ => destruct (meqb A P) eqn:E; [|discriminate] end. apply (meqb_eq _ _ HM) in E. unfold path_eq. rewrite <- E. module_coefs HK HM; ring.
Qed.

(** the remaining rounds of a path *)
Lemma leaves_acc (leaf : tcode M -> K -> K -> list M -> list M -> list K -> Prop) kk (Gb Hb : list M) (P u : M) :
  (forall T a b Ls Rs xs, leaf T a b Ls Rs xs -> length Ls = kk -> length Rs = kk -> length xs = kk -> (forall x, In x xs -> x <> f0) -> path_eq Gb Hb u P Ls Rs xs a b) ->
  forall t k Ls Rs xs, shape k (scalars t) -> length Ls = length xs -> length Rs = length xs -> (length xs + k)%nat = kk -> (forall x, In x xs -> x <> f0) ->
  every_leaf leaf t Ls Rs xs ->
  spread (scalars t) /\
  forall G' H' P', length G' = (2 ^ k)%nat -> length H' = (2 ^ k)%nat ->
   (forall Ls' Rs' xs' a b, length Ls' = k -> length Rs' = k -> length xs' = k -> path_eq Gb Hb u P (Ls ++ Ls') (Rs ++ Rs') (xs ++ xs') a b -> path_eq G' H' u P' Ls' Rs' xs' a b) ->
   acc k (scalars t) G' H' u P'.
Proof.
  intros Leaf. induction t as [T a b|L R x1 t1 IH1 x2 t2 IH2 x3 t3 IH3 x4 t4 IH4]; intros k Ls Rs xs Sh EL ER Ek Nx A.
  - destruct k as [|k]; [|contradiction]. cbn [every_leaf] in A. split; [exact I|]. intros G' H' P' LG LH F. cbn [acc scalars]. apply (path_end HK HM); [assumption..|].
    apply F; try reflexivity. rewrite !app_nil_r. apply (Leaf T); auto; lia.
  - destruct k as [|k]; [contradiction|]. destruct Sh as (S1 & S2 & S3 & S4). destruct A as (Sep & A1 & A2 & A3 & A4). pose proof Sep as (N1 & N2 & N3 & N4 & _).
    assert (forall x, x <> f0 -> forall y, In y (xs ++ [x]) -> y <> f0) as Nxs by (intros x N y Iy; apply in_app_iff in Iy as [Iy|[<-|[]]]; auto).
    assert (forall x, length (Ls ++ [L]) = length (xs ++ [x]) /\ length (Rs ++ [R]) = length (xs ++ [x]) /\ (length (xs ++ [x]) + k)%nat = kk) as Le by (intros x; rewrite !app_length; cbn [length]; lia).
    destruct (IH1 k (Ls ++ [L]) (Rs ++ [R]) (xs ++ [x1])) as [Sp1 F1]; try apply Le; try (apply Nxs; assumption); auto.
    destruct (IH2 k (Ls ++ [L]) (Rs ++ [R]) (xs ++ [x2])) as [Sp2 F2]; try apply Le; try (apply Nxs; assumption); auto.
    destruct (IH3 k (Ls ++ [L]) (Rs ++ [R]) (xs ++ [x3])) as [Sp3 F3]; try apply Le; try (apply Nxs; assumption); auto.
    destruct (IH4 k (Ls ++ [L]) (Rs ++ [R]) (xs ++ [x4])) as [Sp4 F4]; try apply Le; try (apply Nxs; assumption); auto.
    split; [cbn [scalars spread]; auto|]. intros G' H' P' LG LH F. cbn [acc scalars]. exists L, R. cbv zeta.
    assert (forall x Ls' Rs' xs' a b, length Ls' = k -> length Rs' = k -> length xs' = k -> path_eq Gb Hb u P ((Ls ++ [L]) ++ Ls') ((Rs ++ [R]) ++ Rs') ((xs ++ [x]) ++ xs') a b ->
       path_eq (foldG x (2 ^ k) G') (foldH x (2 ^ k) H') u (madd P' (madd (smul (fmul x x) L) (smul (fmul (finv x) (finv x)) R))) Ls' Rs' xs' a b) as St.
    { intros x Ls' Rs' xs' a b E1 E2 E3 E. rewrite <- !app_assoc in E. apply (path_step HK HM); try assumption. apply F; cbn [length]; try congruence. exact E. }
    split; [|split; [|split]]; [apply F1|apply F2|apply F3|apply F4]; auto using foldG_length, foldH_length.
Qed.

Lemma leaves_sound (leaf : tcode M -> K -> K -> list M -> list M -> list K -> Prop) k (G H : list M) (P u : M) (t : ftree M) :
  length G = (2 ^ k)%nat -> length H = (2 ^ k)%nat -> shape k (scalars t) -> every_leaf leaf t [] [] [] ->
  (forall T a b Ls Rs xs, leaf T a b Ls Rs xs -> length Ls = k -> length Rs = k -> length xs = k -> (forall x, In x xs -> x <> f0) -> path_eq G H u P Ls Rs xs a b) ->
  represents G H u P (extract k (scalars t)) \/ exists r, In r (relations k (scalars t)) /\ related k G H u r.
Proof.
  intros L1 L2 Sh A Leaf. destruct (leaves_acc leaf k G H P u Leaf t k [] [] [] Sh) as [Sp F]; try reflexivity; [intros x []|exact A|].
  apply (acc_sound HK HM k (scalars t) Sh Sp _ _ u P L1 L2). apply F; auto.
Qed.

(** ** C130 *)
Theorem C130_extract : forall lg k n tr gf hf (P u : M) G H (t : ftree M),
  (k < 32)%nat -> n = (2 ^ k)%nat -> log_exact lg n ->
  length gf = n -> length hf = n -> length G = n -> length H = n ->
  (forall f, In f (gf ++ hf) -> f <> f0) ->
  shape k (scalars t) -> accepted lg n tr gf hf P u G H t ->
  (let (a, b) := extract k (scalars t) in
   length a = n /\ length b = n /\ P = madd (madd (lin G (hadamard a gf)) (lin H (hadamard b hf))) (smul (inner a b) u))
  \/ exists r, In r (relations k (scalars t)) /\
       let r' := hadamard r (gf ++ hf ++ [f1]) in
       length r' = (2 * n + 1)%nat /\ (exists c, In c r' /\ c <> f0) /\ lin (G ++ H ++ [u]) r' = m0.
Proof.
  intros lg k n tr gf hf P u G H t Hk En Hlg Egf Ehf EG EH Nf Sh A.
  assert (length (zip_with smul gf G) = (2 ^ k)%nat) as L1 by (rewrite zip_with_length; congruence). assert (length (zip_with smul hf H) = (2 ^ k)%nat) as L2 by (rewrite zip_with_length; congruence).
  destruct (extract_length k (scalars t) Sh) as [La Lb].
  destruct (leaves_sound _ k _ _ P u t L1 L2 Sh A) as [E|(r & I & Lr & (c & Ic & Nc) & Er)].
  { intros T a b Ls Rs xs [Ex V] E1 E2 E3 Nx. now apply (verify_path T lg k n tr). }
  - left. unfold represents in E. destruct (extract k (scalars t)) as [a b]. cbn [fst snd] in *. split; [congruence|]. split; [congruence|].
    rewrite E. rewrite !(lin_app HM) by congruence. rewrite !(lin_hadamard HK HM) by congruence. rewrite lin_cons, lin_nil_l. module_coefs HK HM; ring.
  - right. exists r. split; [exact I|]. destruct (rep_split _ _ Lr) as (g & h & d & -> & Lg & Lh). cbv zeta.
    assert (hadamard (g ++ h ++ [d]) (gf ++ hf ++ [f1]) = hadamard g gf ++ hadamard h hf ++ [fmul d f1]) as ->.
    { unfold hadamard. rewrite !zip_with_app by congruence. reflexivity. }
    assert (length (hadamard g gf) = n) as Lg' by (unfold hadamard; rewrite zip_with_length; congruence). assert (length (hadamard h hf) = n) as Lh' by (unfold hadamard; rewrite zip_with_length; congruence).
    split; [rewrite !app_length, Lg', Lh'; cbn [length]; lia|]. split.
    + assert (forall (v f : list K), length v = length f -> (forall x, In x f -> x <> f0) -> In c v -> exists c', In c' (hadamard v f) /\ c' <> f0) as Hd.
      { induction v as [|x v IH]; intros [|y f] E Ny Iv; try discriminate; [destruct Iv|]. unfold hadamard. rewrite zip_with_cons. destruct Iv as [->|Iv].
        - exists (fmul c y). split; [now left|]. intros Z. apply (fmul_integral _ HK) in Z as [Z|Z]; [contradiction|]. apply (Ny y); [now left|exact Z].
        - destruct (IH f) as (c' & I' & N'); auto; [intros; apply Ny; now right|]. exists c'. split; [now right|exact N']. }
      apply in_app_iff in Ic as [Ic|Ic]; [|apply in_app_iff in Ic as [Ic|[->|[]]]].
      * destruct (Hd g gf) as (c' & I' & N'); auto; [congruence|intros; apply Nf, in_app_iff; now left|]. exists c'. split; [apply in_app_iff; now left|exact N'].
      * destruct (Hd h hf) as (c' & I' & N'); auto; [congruence|intros; apply Nf, in_app_iff; now right|]. exists c'. split; [apply in_app_iff; right; apply in_app_iff; now left|exact N'].
      * exists (fmul c f1). split; [do 2 (apply in_app_iff; right); now left|]. intros Z. apply Nc. rewrite <- Z. ring.
    + rewrite <- Er. rewrite !(lin_app HM) by congruence. rewrite !(lin_hadamard HK HM) by congruence. rewrite !lin_cons, !lin_nil_l. module_coefs HK HM; ring.
Qed.
End IppFork.

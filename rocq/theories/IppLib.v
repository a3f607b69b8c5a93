(** The algebra of the inner-product argument. *)
From Verif Require Import Base Alg Lin TranscriptModel IppModel.
From Coq Require Import String.
Import List ListNotations.
Open Scope list_scope.

Lemma zip_with_length {A B D} (f : A -> B -> D) l m : length l = length m -> length (zip_with f l m) = length l.
Proof. intros E. unfold zip_with. rewrite map_length, combine_length. lia. Qed.
Lemma zip_with_cons {A B D} (f : A -> B -> D) x l y m : zip_with f (x :: l) (y :: m) = f x y :: zip_with f l m.
Proof. reflexivity. Qed.
Lemma zip_with_app {A B D} (f : A -> B -> D) l1 m1 l2 m2 : length l1 = length m1 -> zip_with f (l1 ++ l2) (m1 ++ m2) = zip_with f l1 m1 ++ zip_with f l2 m2.
Proof.
  revert m1. induction l1 as [|x l1 IH]; intros [|y m1] E; try discriminate; [reflexivity|]. cbn [app]. rewrite !zip_with_cons. cbn [app]. f_equal. apply IH. cbn in E. congruence.
Qed.
Lemma zip_with_firstn {A B D} (f : A -> B -> D) n l m : firstn n (zip_with f l m) = zip_with f (firstn n l) (firstn n m).
Proof. revert l m. induction n as [|n IH]; intros l m; [reflexivity|]. destruct l as [|x l]; [reflexivity|]. destruct m as [|y m]; [reflexivity|]. cbn [firstn]. rewrite !zip_with_cons. cbn [firstn]. now rewrite IH. Qed.
Lemma zip_with_skipn {A B D} (f : A -> B -> D) n l m : skipn n (zip_with f l m) = zip_with f (skipn n l) (skipn n m).
Proof.
  revert l m. induction n as [|n IH]; intros l m; [reflexivity|]. destruct l as [|x l]; [reflexivity|]. destruct m as [|y m].
  - cbn [skipn]. unfold zip_with. rewrite !combine_nil. reflexivity.
  - cbn [skipn]. rewrite zip_with_cons. cbn [skipn]. apply IH.
Qed.
Lemma zip_with_combine {A B D E} (f : A -> B -> E) (g : E -> D) l m : map g (zip_with f l m) = zip_with (fun x y => g (f x y)) l m.
Proof. unfold zip_with. now rewrite map_map. Qed.
Lemma zip_with_ext {A B D} (f g : A -> B -> D) l m : (forall x y, f x y = g x y) -> zip_with f l m = zip_with g l m.
Proof. intros H. apply map_ext. intros [x y]. apply H. Qed.
Lemma half_length {A} (l : list A) k : length l = (2 ^ S k)%nat -> length (firstn (2 ^ k) l) = (2 ^ k)%nat /\ length (skipn (2 ^ k) l) = (2 ^ k)%nat.
Proof. intros E. rewrite firstn_length, skipn_length, E. cbn [Nat.pow]. lia. Qed.

Lemma nth_firstn_lt {A} (l : list A) n i d : (i < n)%nat -> nth i (firstn n l) d = nth i l d.
Proof. revert n i. induction l as [|x l IH]; intros [|n] [|i] H; cbn [firstn nth]; try lia; try reflexivity. apply IH. lia. Qed.

Section IppLib.
Context {K : fieldOps} (HK : field_laws K) {M : modOps K} (HM : mod_laws M).
Add Field Kf : (proj1 HK).

Lemma points_sum_lin (bs : list M) ss : points_sum bs ss = lin bs ss.
Proof. apply (lin_fold HM). Qed.
Lemma inner_nil : inner ([] : list K) [] = f0.
Proof. reflexivity. Qed.
Lemma inner_acc (l : list (K * K)) acc : fold_left (fun acc p => fadd acc (fmul (fst p) (snd p))) l acc = fadd acc (fold_left (fun acc p => fadd acc (fmul (fst p) (snd p))) l f0).
Proof. revert acc. induction l as [|[x y] l IH]; intros acc; cbn [fold_left fst snd]; [ring|]. rewrite IH, (IH (fadd f0 (fmul x y))). ring. Qed.
Lemma inner_cons (x : K) a y b : inner (x :: a) (y :: b) = fadd (fmul x y) (inner a b).
Proof. unfold inner. cbn [combine fold_left fst snd]. rewrite inner_acc. ring. Qed.
Lemma inner_app (a b c d : list K) : length a = length c -> inner (a ++ b) (c ++ d) = fadd (inner a c) (inner b d).
Proof.
  revert c. induction a as [|x a IH]; intros [|y c] E; try discriminate; cbn [app]; [rewrite inner_nil; ring|]. rewrite !inner_cons, IH by (cbn in E; congruence). ring.
Qed.
Lemma inner_comm (a b : list K) : inner a b = inner b a.
Proof. revert b. induction a as [|x a IH]; intros [|y b]; try reflexivity. rewrite !inner_cons, IH. ring. Qed.
Lemma lin_scale (c : K) (bs : list M) ss : lin bs (map (fmul c) ss) = smul c (lin bs ss).
Proof.
  revert ss. induction bs as [|b bs IH]; intros [|s ss]; cbn [map]; rewrite ?lin_nil_l, ?lin_nil_r, ?(smul_0_r _ _ HM); try reflexivity.
  rewrite !lin_cons, IH. module_coefs HK HM; ring.
Qed.
(** factors moved from the scalars to the bases *)
Lemma lin_hadamard : forall (G : list M) gf a, length G = length gf -> length a = length gf -> lin G (hadamard a gf) = lin (zip_with smul gf G) a.
Proof.
  induction G as [|g G IH]; intros [|f gf] [|x a] E1 E2; try discriminate; [reflexivity|].
  unfold hadamard. rewrite !zip_with_cons. fold (hadamard a gf). rewrite !lin_cons, IH by (cbn in *; congruence). module_coefs HK HM; ring.
Qed.
(** folded bases against folded scalars *)
Lemma lin_folded (p q s t : K) : forall (GL GR : list M) aL aR n, length GL = n -> length GR = n -> length aL = n -> length aR = n ->
  lin (zip_with (fun l r => binary_scalar_mul l r p q) GL GR) (zip_with (fun l r => fadd (fmul l s) (fmul t r)) aL aR)
  = madd (madd (smul (fmul p s) (lin GL aL)) (smul (fmul p t) (lin GL aR))) (madd (smul (fmul q s) (lin GR aL)) (smul (fmul q t) (lin GR aR))).
Proof.
  induction GL as [|g GL IH]; intros GR aL aR n E1 E2 E3 E4; subst n; destruct GR as [|g' GR]; try discriminate; destruct aL as [|x aL]; try discriminate; destruct aR as [|y aR]; try discriminate.
  - unfold zip_with; cbn [combine map]; rewrite !lin_nil_l. module_coefs HK HM; ring.
  - rewrite !zip_with_cons, !lin_cons, (IH GR aL aR (length GL)) by (cbn in *; congruence). unfold binary_scalar_mul. module_coefs HK HM; ring.
Qed.
Lemma inner_folded (p q s t : K) : forall (bL bR aL aR : list K) n, length bL = n -> length bR = n -> length aL = n -> length aR = n ->
  inner (zip_with (fun l r => fadd (fmul l s) (fmul t r)) aL aR) (zip_with (fun l r => fadd (fmul l p) (fmul q r)) bL bR)
  = fadd (fadd (fmul (fmul p s) (inner aL bL)) (fmul (fmul p t) (inner aR bL))) (fadd (fmul (fmul q s) (inner aL bR)) (fmul (fmul q t) (inner aR bR))).
Proof.
  induction bL as [|g bL IH]; intros bR aL aR n E1 E2 E3 E4; subst n; destruct bR as [|g' bR]; try discriminate; destruct aL as [|x aL]; try discriminate; destruct aR as [|y aR]; try discriminate.
  - unfold inner; cbn [combine zip_with map fold_left]. ring.
  - rewrite !zip_with_cons, !inner_cons, (IH bR aL aR (length bL)) by (cbn in *; congruence). ring.
Qed.
(** folded bases against any scalars *)
Lemma lin_folded_bases (p q : K) : forall (GL GR : list M) s n, length GL = n -> length GR = n -> length s = n ->
  lin (zip_with (fun l r => binary_scalar_mul l r p q) GL GR) s = lin (GL ++ GR) (map (fmul p) s ++ map (fmul q) s).
Proof.
  intros GL GR s n E1 E2 E3. rewrite (lin_app HM) by (rewrite map_length; congruence). rewrite !lin_scale. revert GR s n E1 E2 E3.
  induction GL as [|g GL IH]; intros GR s n E1 E2 E3; subst n; destruct GR as [|g' GR]; try discriminate; destruct s as [|x s]; try discriminate.
  - unfold zip_with; cbn [combine map]; rewrite !lin_nil_l. module_coefs HK HM; ring.
  - rewrite zip_with_cons, !lin_cons, (IH GR s (length GL)) by (cbn in *; congruence). unfold binary_scalar_mul. module_coefs HK HM; ring.
Qed.

(** the scalars of the folded generators: one factor per challenge and bit of the position *)
Fixpoint sv (xs : list K) : list K :=
  match xs with [] => [f1] | x :: xs' => map (fmul (finv x)) (sv xs') ++ map (fmul x) (sv xs') end.
Lemma sv_length xs : length (sv xs) = (2 ^ length xs)%nat.
Proof. induction xs as [|x xs IH]; [reflexivity|]. cbn [sv length Nat.pow]. rewrite app_length, !map_length, IH. lia. Qed.
Lemma sv_rev x xs : rev (sv (x :: xs)) = map (fmul x) (rev (sv xs)) ++ map (fmul (finv x)) (rev (sv xs)).
Proof. cbn [sv]. now rewrite rev_app_distr, !map_rev. Qed.

Context (T : tcode M).
Definition challenges_nonzero : Prop := forall tr l, chal T tr l <> f0.
Hypothesis HT : challenges_nonzero.

(** the loop with factors is the loop without them on the multiplied generators *)
Lemma loop_factors k u (G H : list M) gf hf a b tr : length G = (2 ^ k)%nat -> length H = (2 ^ k)%nat -> length gf = (2 ^ k)%nat -> length hf = (2 ^ k)%nat ->
  length a = (2 ^ k)%nat -> length b = (2 ^ k)%nat ->
  ipp_loop T k (Some (gf, hf)) u G H a b tr = ipp_loop T k None u (zip_with smul gf G) (zip_with smul hf H) a b tr.
Proof.
  destruct k as [|k]; [reflexivity|]. intros LG LH Lgf Lhf La Lb. cbn [ipp_loop]. unfold challenge_scalar.
  apply half_length in LG as [LG1 LG2], LH as [LH1 LH2], Lgf as [Lg1 Lg2], Lhf as [Lh1 Lh2], La as [La1 La2], Lb as [Lb1 Lb2].
  assert (forall p q (G : list M) gf, length (firstn (2 ^ k) G) = (2 ^ k)%nat -> length (skipn (2 ^ k) G) = (2 ^ k)%nat -> length (firstn (2 ^ k) gf) = (2 ^ k)%nat -> length (skipn (2 ^ k) gf) = (2 ^ k)%nat ->
    zip_with (fun ls rs : M * K => binary_scalar_mul (fst ls) (fst rs) (fmul p (snd ls)) (fmul q (snd rs))) (combine (firstn (2 ^ k) G) (firstn (2 ^ k) gf)) (combine (skipn (2 ^ k) G) (skipn (2 ^ k) gf))
    = zip_with (fun l r => binary_scalar_mul l r p q) (firstn (2 ^ k) (zip_with smul gf G)) (skipn (2 ^ k) (zip_with smul gf G))) as F.
  { intros p q G0 gf0 E1 E2 E3 E4. rewrite zip_with_firstn, zip_with_skipn. revert E1 E2 E3 E4.
    generalize (firstn (2 ^ k) G0) (skipn (2 ^ k) G0) (firstn (2 ^ k) gf0) (skipn (2 ^ k) gf0). intros l1 l2 l3 l4. generalize (2 ^ k)%nat. clear - HK HM. intros n. revert l1 l2 l3 l4.
    induction n as [|n IH]; intros l1 l2 l3 l4 E1 E2 E3 E4; destruct l1, l2, l3, l4; try discriminate; [reflexivity|].
    cbn [combine]. rewrite !zip_with_cons, (IH l1 l2 l3 l4) by (cbn in *; congruence). f_equal. unfold binary_scalar_mul. cbn [fst snd]. module_coefs HK HM; ring. }
  rewrite !F by assumption. clear F.
  assert (forall (G H : list M) gf hf a b c, length G = length gf -> length H = length hf -> length a = length gf -> length b = length hf ->
    points_sum (G ++ H ++ [u]) (hadamard a gf ++ hadamard b hf ++ [c]) = points_sum (zip_with smul gf G ++ zip_with smul hf H ++ [u]) (a ++ b ++ [c])) as F.
  { intros G0 H0 gf0 hf0 a0 b0 c E1 E2 E3 E4. rewrite !points_sum_lin, !(lin_app HM); rewrite ?zip_with_length by congruence; try congruence.
    - now rewrite !lin_hadamard by congruence.
    - unfold hadamard. rewrite zip_with_length by congruence. congruence.
    - unfold hadamard. rewrite zip_with_length by congruence. congruence. }
  rewrite !F by congruence. rewrite !zip_with_firstn, !zip_with_skipn. reflexivity.
Qed.

Lemma replay_length LR : forall tr, length (fst (replay T LR tr)) = length LR.
Proof. induction LR as [|[L R] LR IH]; intros tr; [reflexivity|]. cbn [replay]. unfold challenge_scalar. specialize (IH ((commit_point T (commit_point T tr "L" L) "R" R) ++ [Chal "x"])). destruct (replay _ LR _). cbn [fst length] in *. now rewrite IH. Qed.
Lemma replay_nonzero LR : forall tr x, In x (fst (replay T LR tr)) -> x <> f0.
Proof.
  induction LR as [|[L R] LR IH]; intros tr x; [intros []|]. cbn [replay]. unfold challenge_scalar. specialize (IH ((commit_point T (commit_point T tr "L" L) "R" R) ++ [Chal "x"]) x).
  destruct (replay _ LR _) as [xs t]. cbn [fst] in *. intros [<-|I]; [apply HT|auto].
Qed.
(** what the prover's loop returns, given the challenges the verifier recomputes *)
Lemma loop_spec : forall k u (G H : list M) a b tr, length G = (2 ^ k)%nat -> length H = (2 ^ k)%nat -> length a = (2 ^ k)%nat -> length b = (2 ^ k)%nat ->
  let '(p, tr') := ipp_loop T k None u G H a b tr in
  length (ip_L p) = k /\ length (ip_R p) = k /\ snd (replay T (combine (ip_L p) (ip_R p)) tr) = tr' /\
  let xs := fst (replay T (combine (ip_L p) (ip_R p)) tr) in
  madd (madd (madd (lin G a) (lin H b)) (smul (inner a b) u)) (madd (lin (ip_L p) (map (fun x => fmul x x) xs)) (lin (ip_R p) (map (fun x => fmul (finv x) (finv x)) xs)))
  = madd (madd (smul (ip_a p) (lin G (sv xs))) (smul (ip_b p) (lin H (rev (sv xs))))) (smul (fmul (ip_a p) (ip_b p)) u).
Proof.
  induction k as [|k IH]; intros u G H a b tr LG LH La Lb.
  - cbn [ipp_loop]. do 3 (split; [reflexivity|]). cbn [ip_L ip_R ip_a ip_b combine replay fst].
    destruct G as [|g [|]], H as [|h [|]], a as [|x [|]], b as [|y [|]]; try discriminate. cbn [hd sv rev app map].
    rewrite !lin_cons, !lin_nil_l, inner_cons, inner_nil. module_coefs HK HM; ring.
  - cbn [ipp_loop]. unfold challenge_scalar.
    apply half_length in LG as [LG1 LG2], LH as [LH1 LH2], La as [La1 La2], Lb as [Lb1 Lb2].
    set (aL := firstn (2 ^ k) a) in *. set (aR := skipn (2 ^ k) a) in *. set (bL := firstn (2 ^ k) b) in *. set (bR := skipn (2 ^ k) b) in *.
    set (GL := firstn (2 ^ k) G) in *. set (GR := skipn (2 ^ k) G) in *. set (HL := firstn (2 ^ k) H) in *. set (HR := skipn (2 ^ k) H) in *.
    set (L := points_sum (GR ++ HL ++ [u]) _). set (R := points_sum (GL ++ HR ++ [u]) _).
    set (x := chal T _ "x"). set (tr1 := _ ++ [Chal "x"]).
    assert (x <> f0) as Nx by apply HT.
    set (a' := zip_with (fun l r => fadd (fmul l x) (fmul (finv x) r)) aL aR). set (b' := zip_with (fun l r => fadd (fmul l (finv x)) (fmul x r)) bL bR).
    set (G' := zip_with (fun l r => binary_scalar_mul l r (finv x) x) GL GR). set (H' := zip_with (fun l r => binary_scalar_mul l r x (finv x)) HL HR).
    specialize (IH u G' H' a' b' tr1). destruct (ipp_loop T k None u G' H' a' b' tr1) as [p tr'].
    destruct IH as (E1 & E2 & E3 & E4); try (unfold G', H', a', b'; rewrite zip_with_length; congruence).
    cbn [ip_L ip_R ip_a ip_b combine replay length]. unfold challenge_scalar. fold x tr1.
    destruct (replay T (combine (ip_L p) (ip_R p)) tr1) as [xs tr2] eqn:Er. cbn [fst snd] in E3, E4 |- *.
    split; [congruence|]. split; [congruence|]. split; [congruence|].
    assert (length xs = k) as Lx by (transitivity (length (fst (replay T (combine (ip_L p) (ip_R p)) tr1))); [now rewrite Er|rewrite replay_length, combine_length; lia]).
    assert (length (sv xs) = (2 ^ k)%nat) as Ls by (rewrite sv_length; congruence).
    unfold G' in E4 at 2. rewrite (lin_folded_bases _ _ GL GR (sv xs) (2 ^ k)) in E4 by assumption.
    unfold H' in E4 at 2. rewrite (lin_folded_bases _ _ HL HR (rev (sv xs)) (2 ^ k)) in E4 by (rewrite ?rev_length; assumption).
    rewrite <- sv_rev in E4. change (map (fmul (finv x)) (sv xs) ++ map (fmul x) (sv xs)) with (sv (x :: xs)) in E4.
    assert (GL ++ GR = G) as EG by apply firstn_skipn. assert (HL ++ HR = H) as EH by apply firstn_skipn. rewrite EG, EH in E4.
    cbn [map]. rewrite !lin_cons.
    refine (eq_trans _ (eq_trans E4 _)); [|].
    2:{ reflexivity. }
    unfold G', H', a', b'. rewrite (lin_folded _ _ _ _ GL GR aL aR (2 ^ k)), (lin_folded _ _ _ _ HL HR bL bR (2 ^ k)), (inner_folded _ _ _ _ bL bR aL aR (2 ^ k)) by assumption.
    replace (lin G a) with (madd (lin GL aL) (lin GR aR)) by (rewrite <- (lin_app HM) by congruence; unfold GL, GR, aL, aR; now rewrite !firstn_skipn).
    replace (lin H b) with (madd (lin HL bL) (lin HR bR)) by (rewrite <- (lin_app HM) by congruence; unfold HL, HR, bL, bR; now rewrite !firstn_skipn).
    replace (inner a b) with (fadd (inner aL bL) (inner aR bR)) by (rewrite <- inner_app by congruence; unfold aL, aR, bL, bR; now rewrite !firstn_skipn).
    unfold L, R. rewrite !points_sum_lin, !(lin_app HM), !lin_cons, !lin_nil_l by congruence.
    module_coefs HK HM; field; exact Nx.
Qed.

(** ** the verifier's scalars *)
Lemma product_acc (l : list K) acc : fold_left fmul l acc = fmul acc (fprod l).
Proof. revert acc. induction l as [|x l IH]; intros acc; cbn [fold_left fprod]; [ring|]. rewrite IH. ring. Qed.
Lemma product_fprod (l : list K) : product l = fprod l.
Proof. unfold product. rewrite product_acc. ring. Qed.
Lemma fprod_app (l m : list K) : fprod (l ++ m) = fmul (fprod l) (fprod m).
Proof. induction l as [|x l IH]; cbn [app fprod]; [ring|]. rewrite IH. ring. Qed.
Lemma batch_invert_spec (l : list K) : l <> [] -> (forall x, In x l -> x <> f0) -> batch_invert l = Ok (map finv l, finv (fprod l)).
Proof.
  intros N Z. unfold batch_invert. destruct l as [|y l']; [congruence|]. set (l := y :: l') in *. clearbody l. rewrite !product_fprod. f_equal. f_equal.
  apply nth_ext with (d := f0) (d' := finv f0); [now rewrite !map_length, seq_length|]. intros i Hi. rewrite map_length, seq_length in Hi.
  rewrite (map_nth finv). erewrite nth_indep by (rewrite map_length, seq_length; exact Hi). rewrite (map_nth (fun i => fmul (finv (fprod l)) (fmul (product (firstn i l)) (product (skipn (S i) l)))) _ 0%nat), seq_nth by exact Hi. cbn [Nat.add].
  rewrite !product_fprod. assert (fprod l = fmul (fprod (firstn i l)) (fmul (nth i l f0) (fprod (skipn (S i) l)))) as E.
  { rewrite <- (firstn_skipn i l) at 1. rewrite fprod_app. f_equal. 
    clear - Hi. revert i Hi. induction l as [|x l IH]; intros [|i] Hi; cbn in Hi; try lia; [reflexivity|]. cbn [skipn nth]. apply IH. lia. }
  assert (fprod l <> f0) as Nl by (apply (fprod_nonzero _ HK); exact Z). assert (nth i l f0 <> f0) as Ni by (apply Z, nth_In; exact Hi).
  set (c := fprod l) in *. set (d := nth i l f0) in *. transitivity (fmul (finv c) (fmul c (finv d))).
  - f_equal. rewrite E. field. exact Ni.
  - field. auto.
Qed.
(** one more element *)
Lemma sv_app_nth xs i : (i < 2 ^ length xs)%nat -> forall x, nth i (sv (x :: xs)) f0 = fmul (finv x) (nth i (sv xs) f0).
Proof. intros Hi x. cbn [sv]. rewrite app_nth1 by (rewrite map_length, sv_length; exact Hi). erewrite nth_indep by (rewrite map_length, sv_length; exact Hi). apply (map_nth (fmul (finv x))). Qed.
Lemma sv_app_nth2 xs i : (i < 2 ^ length xs)%nat -> forall x, nth (2 ^ length xs + i) (sv (x :: xs)) f0 = fmul x (nth i (sv xs) f0).
Proof.
  intros Hi x. cbn [sv]. rewrite app_nth2 by (rewrite map_length, sv_length; lia). rewrite map_length, sv_length.
  replace (2 ^ length xs + i - 2 ^ length xs)%nat with i by lia. erewrite nth_indep by (rewrite map_length, sv_length; exact Hi). apply (map_nth (fmul x)).
Qed.
Lemma sv_step : forall xs i, (forall x, In x xs -> x <> f0) -> (1 <= i < 2 ^ length xs)%nat ->
  nth i (sv xs) f0 = fmul (nth (i - 2 ^ Nat.log2 i) (sv xs) f0) (fmul (nth (length xs - 1 - Nat.log2 i) xs f0) (nth (length xs - 1 - Nat.log2 i) xs f0)).
Proof.
  induction xs as [|x xs IH]; intros i Z Hi; [cbn in Hi; lia|]. cbn [length] in Hi |- *. cbn [Nat.pow] in Hi.
  assert (x <> f0) as Nx by (apply Z; now left). pose proof (Nat.log2_spec i ltac:(lia)) as [S1 S2].
  destruct (Nat.lt_ge_cases i (2 ^ length xs)) as [C|C].
  - assert (Nat.log2 i < length xs)%nat as Hl by (apply Nat.log2_lt_pow2; lia).
    rewrite !sv_app_nth by lia. rewrite (IH i) at 1 by (try lia; intros; apply Z; now right).
    replace (S (length xs) - 1 - Nat.log2 i)%nat with (S (length xs - 1 - Nat.log2 i)) by lia. cbn [nth]. ring.
  - assert (Nat.log2 i = length xs) as El by (apply Nat.log2_unique; cbn [Nat.pow]; lia).
    rewrite El. replace (S (length xs) - 1 - length xs)%nat with 0%nat by lia. cbn [nth].
    replace i with (2 ^ length xs + (i - 2 ^ length xs))%nat at 1 by lia. rewrite sv_app_nth2, sv_app_nth by lia. field. exact Nx.
Qed.
Lemma sv_head xs : (forall x, In x xs -> x <> f0) -> nth 0 (sv xs) f0 = finv (fprod xs).
Proof.
  induction xs as [|x xs IH]; intros Z; [cbn; field; apply (f1_neq_0 _ HK)|]. rewrite sv_app_nth by (apply Nat.neq_0_lt_0, Nat.pow_nonzero; lia).
  rewrite IH by (intros; apply Z; now right). cbn [fprod]. field. split; [apply (fprod_nonzero _ HK); intros; apply Z; now right|apply Z; now left].
Qed.
Lemma s_steps lg xs : (forall x, In x xs -> x <> f0) -> (forall i, (1 <= i < 2 ^ length xs)%nat -> lg i = Nat.log2 i) ->
  forall m, (m < 2 ^ length xs)%nat -> rfold (s_step lg (length xs) (map (fun x => fmul x x) xs)) (seq 1 m) [finv (fprod xs)] = Ok (firstn (S m) (sv xs)).
Proof.
  intros Z Hlg. induction m as [|m IH]; intros Hm.
  - cbn [seq rfold]. f_equal. pose proof (sv_length xs) as Ls. pose proof (sv_head xs Z) as Hh. destruct (sv xs) as [|y l]; [cbn in Ls; lia|]. cbn [nth firstn] in *. congruence.
  - rewrite seq_S, rfold_app, IH by lia. cbn [rbind rfold]. unfold s_step. set (i := (1 + m)%nat). assert (i = S m) as Ei by reflexivity. clearbody i. rewrite Hlg by lia.
    pose proof (Nat.log2_spec i ltac:(lia)) as [S1 S2]. assert (Nat.log2 i < length xs)%nat as Hl by (apply Nat.log2_lt_pow2; lia).
    destruct (Nat.ltb_spec (length xs - 1) (Nat.log2 i)); [lia|]. unfold at_ at 1. rewrite nth_error_map.
    rewrite (nth_error_nth' xs f0) by lia. cbn [option_map rbind]. destruct (Nat.ltb_spec i (2 ^ Nat.log2 i)); [lia|]. unfold at_.
    assert (0 < 2 ^ Nat.log2 i)%nat by (apply Nat.neq_0_lt_0, Nat.pow_nonzero; lia).
    rewrite (nth_error_nth' (firstn (S m) (sv xs)) f0) by (rewrite firstn_length, sv_length; lia). cbn [rbind]. f_equal.
    rewrite (nth_firstn_lt (sv xs) (S m) (i - 2 ^ Nat.log2 i)) by lia.
    rewrite <- (sv_step xs i Z) by lia. symmetry.
    assert (S m < length (sv xs))%nat as Hlen by (rewrite sv_length; lia). revert Hlen. rewrite Ei. generalize (S m) (sv xs). clear.
    intros n l. revert n. induction l as [|x l IH]; intros [|n] H; cbn in H; try lia; [reflexivity|]. cbn [nth]. rewrite !firstn_cons, IH by lia. reflexivity.
Qed.
End IppLib.

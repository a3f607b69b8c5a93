(** The algebra of knowledge extraction for the inner-product argument. *)
From Verif Require Import Base Alg Lin TranscriptModel IppModel IppLib IppSoundSpec.
Import List ListNotations.
Open Scope list_scope.

Section L.
Context {K : fieldOps} (HK : field_laws K).
Add Field Kf3 : (proj1 HK).

Lemma add_lists_length (a b : list K) : length a = length b -> length (add_lists a b) = length a.
Proof. intros E. unfold add_lists. rewrite map_length, combine_length. lia. Qed.
Lemma add_lists_cons (x : K) a y b : add_lists (x :: a) (y :: b) = fadd x y :: add_lists a b.
Proof. reflexivity. Qed.
Lemma add_lists_app (a b c d : list K) : length a = length c -> add_lists (a ++ b) (c ++ d) = add_lists a c ++ add_lists b d.
Proof. revert c. induction a as [|x a IH]; intros [|y c] E; try discriminate; [reflexivity|]. cbn [app]. rewrite !add_lists_cons. cbn [app]. f_equal. apply IH. cbn in E. congruence. Qed.
Lemma comb3_length c1 c2 c3 (a b c : list K) : length a = length b -> length a = length c -> length (comb3 c1 c2 c3 a b c) = length a.
Proof. intros E F. unfold comb3. rewrite (add_lists_length (map _ a)), map_length; [reflexivity|]. rewrite add_lists_length; rewrite !map_length; congruence. Qed.
Lemma comb3_cons c1 c2 c3 (x : K) a y b z c : comb3 c1 c2 c3 (x :: a) (y :: b) (z :: c) = fadd (fmul c1 x) (fadd (fmul c2 y) (fmul c3 z)) :: comb3 c1 c2 c3 a b c.
Proof. reflexivity. Qed.
Lemma comb3_app c1 c2 c3 (a a' b b' c c' : list K) : length a = length b -> length a = length c -> comb3 c1 c2 c3 (a ++ a') (b ++ b') (c ++ c') = comb3 c1 c2 c3 a b c ++ comb3 c1 c2 c3 a' b' c'.
Proof. intros E F. unfold comb3. rewrite !map_app. rewrite (add_lists_app (map _ b)) by (rewrite !map_length; congruence). apply add_lists_app. rewrite add_lists_length; rewrite !map_length; congruence. Qed.

Lemma unfold_app n x (g h c : list K) : length g = n -> length h = n ->
  unfold n x (g ++ h ++ c) = map (fmul (finv x)) g ++ map (fmul x) g ++ map (fmul x) h ++ map (fmul (finv x)) h ++ c.
Proof.
  intros Eg Eh. subst n. unfold unfold. rewrite firstn_app, Nat.sub_diag, firstn_all, firstn_O, app_nil_r.
  rewrite skipn_app, Nat.sub_diag, skipn_all, skipn_O. cbn [app]. rewrite firstn_app, Eh, Nat.sub_diag, <- Eh, firstn_all, firstn_O, app_nil_r.
  rewrite Eh. replace (skipn (length g + length g) (g ++ h ++ c)) with c; [reflexivity|].
  rewrite app_assoc, skipn_app, app_length, Eh, Nat.sub_diag, skipn_O, skipn_all2; [reflexivity|rewrite app_length; lia].
Qed.
Lemma rep_split n (r : list K) : length r = (n + n + 1)%nat -> exists g h c, r = g ++ h ++ [c] /\ length g = n /\ length h = n.
Proof.
  intros E. exists (firstn n r), (firstn n (skipn n r)). destruct (skipn n (skipn n r)) as [|c [|]] eqn:Ec; apply (f_equal (@length K)) in Ec as Lc; rewrite !skipn_length, E in Lc; cbn in Lc; try lia.
  exists c. split; [|rewrite !firstn_length, skipn_length; lia]. now rewrite <- Ec, !firstn_skipn.
Qed.

(** one coordinate of a round *)
Lemma coordinate (x1 x2 x3 x4 a1 a2 a3 a4 : K) : separated x1 x2 x3 x4 ->
  let y1 := fmul x1 x1 in let y2 := fmul x2 x2 in let y3 := fmul x3 x3 in let y4 := fmul x4 x4 in
  fadd (fmul y4 (fmul (finv x4) a4)) (fopp (fadd (fmul (ell1 y1 y2 y3 y4) (fmul y1 (fmul (finv x1) a1))) (fadd (fmul (ell1 y2 y1 y3 y4) (fmul y2 (fmul (finv x2) a2))) (fmul (ell1 y3 y1 y2 y4) (fmul y3 (fmul (finv x3) a3)))))) = f0 ->
  fadd (fmul y4 (fmul x4 a4)) (fopp (fadd (fmul (ell1 y1 y2 y3 y4) (fmul y1 (fmul x1 a1))) (fadd (fmul (ell1 y2 y1 y3 y4) (fmul y2 (fmul x2 a2))) (fmul (ell1 y3 y1 y2 y4) (fmul y3 (fmul x3 a3)))))) = f0 ->
  let pL := fadd (fmul (mid1 y1 y2 y3) (fmul y1 (fmul (finv x1) a1))) (fadd (fmul (mid1 y2 y1 y3) (fmul y2 (fmul (finv x2) a2))) (fmul (mid1 y3 y1 y2) (fmul y3 (fmul (finv x3) a3)))) in
  let pR := fadd (fmul (mid1 y1 y2 y3) (fmul y1 (fmul x1 a1))) (fadd (fmul (mid1 y2 y1 y3) (fmul y2 (fmul x2 a2))) (fmul (mid1 y3 y1 y2) (fmul y3 (fmul x3 a3)))) in
  a1 = fadd (fmul pL x1) (fmul (finv x1) pR) /\ a2 = fadd (fmul pL x2) (fmul (finv x2) pR) /\ a3 = fadd (fmul pL x3) (fmul (finv x3) pR).
Proof.
  intros (N1 & N2 & N3 & N4 & D12 & D13 & D14 & D23 & D24 & D34). cbv zeta. intros EL ER.
  assert (forall x a : K, x <> f0 -> fmul (fmul x x) (fmul (finv x) a) = fmul x a) as Q by (intros x a Nx; field; exact Nx).
  rewrite (Q x1 a1 N1), (Q x2 a2 N2), (Q x3 a3 N3), (Q x4 a4 N4) in EL. rewrite (Q x1 a1 N1), (Q x2 a2 N2), (Q x3 a3 N3). clear Q.
  apply (fsub_neq0 _ HK) in D12, D13, D14, D23, D24, D34. 
  set (Y1 := fmul x1 x1) in *. set (Y2 := fmul x2 x2) in *. set (Y3 := fmul x3 x3) in *. set (Y4 := fmul x4 x4) in *.
  remember (fmul x1 a1) as w1. remember (fmul x2 a2) as w2. remember (fmul x3 a3) as w3. remember (fmul x4 a4) as w4.
  assert (a1 = fmul (finv x1) w1) as -> by (subst w1; field; exact N1). assert (a2 = fmul (finv x2) w2) as -> by (subst w2; field; exact N2). assert (a3 = fmul (finv x3) w3) as -> by (subst w3; field; exact N3).
  clear Heqw1 Heqw2 Heqw3 Heqw4.
  assert (forall a b : K, fsub a b <> f0 -> fsub b a <> f0) as Sy by (intros a b H E; apply H; transitivity (fopp (fsub b a)); [ring|rewrite E; ring]).
  assert (fadd (fmul w1 (fsub Y2 Y3)) (fadd (fmul w2 (fsub Y3 Y1)) (fmul w3 (fsub Y1 Y2))) = f0) as D.
  { assert (fmul (fmul (fmul (fsub Y1 Y4) (fsub Y2 Y4)) (fsub Y3 Y4)) (fadd (fmul w1 (fsub Y2 Y3)) (fadd (fmul w2 (fsub Y3 Y1)) (fmul w3 (fsub Y1 Y2)))) = f0) as Z.
    { transitivity (fmul (fmul (fmul (fsub Y1 Y2) (fsub Y1 Y3)) (fsub Y2 Y3)) (fsub (fmul Y4 f0) f0)); [|ring].
      rewrite <- EL at 1. rewrite <- ER. unfold ell1. field. repeat split; auto. }
    apply (fmul_integral _ HK) in Z as [Z|Z]; [|exact Z]. exfalso. apply (fmul_integral _ HK) in Z as [Z|Z]; [|contradiction]. apply (fmul_integral _ HK) in Z as [Z|Z]; contradiction. }
  assert (w3 = fdiv (fadd (fmul w1 (fsub Y3 Y2)) (fmul w2 (fsub Y1 Y3))) (fsub Y1 Y2)) as ->.
  { transitivity (fdiv (fadd (fadd (fmul w1 (fsub Y2 Y3)) (fadd (fmul w2 (fsub Y3 Y1)) (fmul w3 (fsub Y1 Y2)))) (fadd (fmul w1 (fsub Y3 Y2)) (fmul w2 (fsub Y1 Y3)))) (fsub Y1 Y2)); [field; exact D12|]. rewrite D. field. exact D12. }
  clear D EL ER.
  assert (forall x w pl pr : K, x <> f0 -> w = fadd (fmul pl (fmul x x)) pr -> fmul (finv x) w = fadd (fmul pl x) (fmul (finv x) pr)) as R by (intros x w pl pr Nx ->; field; exact Nx).
  split; [|split]; apply R; try assumption; fold Y1 Y2 Y3; unfold mid1; field; repeat split; auto.
Qed.

Definition all0 (l : list K) : Prop := Forall (eq f0) l.
Lemma all0_dec (l : list K) : all0 l \/ exists c, In c l /\ c <> f0.
Proof.
  induction l as [|x l IH]; [left; constructor|]. destruct (feq_dec _ HK x f0) as [->|N]; [|right; exists x; split; [now left|exact N]].
  destruct IH as [IH|(c & I & N)]; [left; now constructor|right; exists c; split; [now right|exact N]].
Qed.
Definition gap (x1 x2 x3 x4 : K) (f : K -> K) (a1 a2 a3 a4 : list K) : list K :=
  let v x a := map (fmul (fmul x x)) (map (fmul (f x)) a) in
  add_lists (v x4 a4) (map fopp (predicted (fmul x1 x1) (fmul x2 x2) (fmul x3 x3) (fmul x4 x4) (v x1 a1) (v x2 a2) (v x3 a3))).
Definition part (x1 x2 x3 : K) (f : K -> K) (a1 a2 a3 : list K) : list K :=
  let v x a := map (fmul (fmul x x)) (map (fmul (f x)) a) in
  middle (fmul x1 x1) (fmul x2 x2) (fmul x3 x3) (v x1 a1) (v x2 a2) (v x3 a3).
Lemma part_length x1 x2 x3 f (a1 a2 a3 : list K) n : length a1 = n -> length a2 = n -> length a3 = n -> length (part x1 x2 x3 f a1 a2 a3) = n.
Proof. intros E1 E2 E3. unfold part, middle. rewrite comb3_length; rewrite !map_length; congruence. Qed.
Lemma coordinates (x1 x2 x3 x4 : K) : separated x1 x2 x3 x4 -> forall n a1 a2 a3 a4, length a1 = n -> length a2 = n -> length a3 = n -> length a4 = n ->
  all0 (gap x1 x2 x3 x4 finv a1 a2 a3 a4) -> all0 (gap x1 x2 x3 x4 (fun x => x) a1 a2 a3 a4) ->
  let pL := part x1 x2 x3 finv a1 a2 a3 in let pR := part x1 x2 x3 (fun x => x) a1 a2 a3 in
  let fold x := zip_with (fun l r => fadd (fmul l x) (fmul (finv x) r)) pL pR in
  a1 = fold x1 /\ a2 = fold x2 /\ a3 = fold x3.
Proof.
  intros Sp. induction n as [|n IH]; intros a1 a2 a3 a4 E1 E2 E3 E4 ZL ZR; destruct a1 as [|h1 a1], a2 as [|h2 a2], a3 as [|h3 a3], a4 as [|h4 a4]; try discriminate; [now repeat split|].
  unfold gap, predicted, part, middle in *. cbv zeta in *. cbn [map] in ZL, ZR |- *. rewrite !comb3_cons in ZL. rewrite !comb3_cons in ZR. repeat rewrite comb3_cons. cbn [map] in ZL, ZR. rewrite add_lists_cons in ZL, ZR. rewrite !zip_with_cons.
  apply Forall_cons_iff in ZL as [ZL ZL'], ZR as [ZR ZR']. symmetry in ZL, ZR.
  destruct (coordinate _ _ _ _ _ _ _ _ Sp ZL ZR) as (C1 & C2 & C3).
  destruct (IH a1 a2 a3 a4) as (F1 & F2 & F3); try assumption; try (cbn in E1, E2, E3, E4; congruence).
  repeat split; f_equal; assumption.
Qed.
Lemma zip_with_flip {A B D} (f : A -> B -> D) l m : zip_with f l m = zip_with (fun y x => f x y) m l.
Proof. revert m. induction l as [|x l IH]; intros [|y m]; try reflexivity. rewrite !zip_with_cons. now rewrite IH. Qed.

Lemma all0_app (l m : list K) : all0 (l ++ m) <-> all0 l /\ all0 m.
Proof. apply Forall_app. Qed.

Definition vec (x : K) (a b : list K) : list K :=
  map (fmul (fmul x x)) (map (fmul (finv x)) a) ++ map (fmul (fmul x x)) (map (fmul x) a) ++ map (fmul (fmul x x)) (map (fmul x) b) ++ map (fmul (fmul x x)) (map (fmul (finv x)) b) ++ [fmul (fmul x x) (inner a b)].
Lemma at_challenge_vec n x (a b : list K) : length a = n -> length b = n -> at_challenge n x (a, b) = vec x a b.
Proof. intros Ea Eb. unfold at_challenge. cbn [fst snd]. rewrite unfold_app by assumption. now rewrite !map_app. Qed.
Lemma vec_length n x (a b : list K) : length a = n -> length b = n -> length (vec x a b) = (n + n + (n + n) + 1)%nat.
Proof. intros Ea Eb. unfold vec. rewrite !app_length, !map_length, Ea, Eb. cbn [length]. lia. Qed.

(** scalars of a round: without a gap at the fourth challenge, the middle coefficient is a
    witness with its inner product *)
Lemma round_scalars (x1 x2 x3 x4 : K) n a1 a2 a3 a4 b1 b2 b3 b4 : separated x1 x2 x3 x4 ->
  length a1 = n -> length a2 = n -> length a3 = n -> length a4 = n -> length b1 = n -> length b2 = n -> length b3 = n -> length b4 = n ->
  all0 (add_lists (vec x4 a4 b4) (map fopp (predicted (fmul x1 x1) (fmul x2 x2) (fmul x3 x3) (fmul x4 x4) (vec x1 a1 b1) (vec x2 a2 b2) (vec x3 a3 b3)))) ->
  let p := middle (fmul x1 x1) (fmul x2 x2) (fmul x3 x3) (vec x1 a1 b1) (vec x2 a2 b2) (vec x3 a3 b3) in
  let a := firstn (n + n) p in let b := firstn (n + n) (skipn (n + n) p) in
  p = a ++ b ++ [inner a b].
Proof.
  intros Sp A1 A2 A3 A4 B1 B2 B3 B4 Z p. subst p. unfold vec, predicted, middle in *.
  rewrite !comb3_app in Z by (rewrite !map_length; congruence). rewrite !comb3_app by (rewrite !map_length; congruence). rewrite !map_app in Z.
  rewrite !add_lists_app in Z by (rewrite ?map_length, comb3_length; rewrite ?map_length; congruence).
  apply all0_app in Z as [ZGL Z]. apply all0_app in Z as [ZGR Z]. apply all0_app in Z as [ZHL Z]. apply all0_app in Z as [ZHR Zu].
  destruct (coordinates _ _ _ _ Sp n a1 a2 a3 a4 A1 A2 A3 A4 ZGL ZGR) as (FA1 & FA2 & FA3).
  destruct (coordinates _ _ _ _ Sp n b1 b2 b3 b4 B1 B2 B3 B4 ZHR ZHL) as (FB1 & FB2 & FB3).
  clear ZGL ZGR ZHL ZHR Zu.
  set (pGL := part x1 x2 x3 finv a1 a2 a3) in *. set (pGR := part x1 x2 x3 (fun x => x) a1 a2 a3) in *.
  set (pHR := part x1 x2 x3 finv b1 b2 b3) in *. set (pHL := part x1 x2 x3 (fun x => x) b1 b2 b3) in *.
  assert (length pGL = n) as LGL by (apply part_length; assumption). assert (length pGR = n) as LGR by (apply part_length; assumption).
  assert (length pHL = n) as LHL by (apply part_length; assumption). assert (length pHR = n) as LHR by (apply part_length; assumption).
  match goal with |- context [comb3 ?c1 ?c2 ?c3 (map _ (map (fmul (finv x1)) a1)) ?q ?r] => change (comb3 c1 c2 c3 (map (fmul (fmul x1 x1)) (map (fmul (finv x1)) a1)) q r) with pGL end.
  match goal with |- context [comb3 ?c1 ?c2 ?c3 (map _ (map (fmul x1) a1)) ?q ?r] => change (comb3 c1 c2 c3 (map (fmul (fmul x1 x1)) (map (fmul x1) a1)) q r) with pGR end.
  match goal with |- context [comb3 ?c1 ?c2 ?c3 (map _ (map (fmul x1) b1)) ?q ?r] => change (comb3 c1 c2 c3 (map (fmul (fmul x1 x1)) (map (fmul x1) b1)) q r) with pHL end.
  match goal with |- context [comb3 ?c1 ?c2 ?c3 (map _ (map (fmul (finv x1)) b1)) ?q ?r] => change (comb3 c1 c2 c3 (map (fmul (fmul x1 x1)) (map (fmul (finv x1)) b1)) q r) with pHR end.
  match goal with |- context [comb3 ?c1 ?c2 ?c3 [?q] [?r] [?s]] => set (pu := comb3 c1 c2 c3 [q] [r] [s]) end.
  assert (firstn (n + n) (pGL ++ pGR ++ pHL ++ pHR ++ pu) = pGL ++ pGR) as ->.
  { rewrite app_assoc, firstn_app, app_length, LGL, LGR, Nat.sub_diag, firstn_O, app_nil_r. apply firstn_all2. rewrite app_length. lia. }
  assert (skipn (n + n) (pGL ++ pGR ++ pHL ++ pHR ++ pu) = pHL ++ pHR ++ pu) as ->.
  { rewrite app_assoc, skipn_app, app_length, LGL, LGR, Nat.sub_diag, skipn_O, skipn_all2; [reflexivity|]. rewrite app_length. lia. }
  assert (firstn (n + n) (pHL ++ pHR ++ pu) = pHL ++ pHR) as ->.
  { rewrite app_assoc, firstn_app, app_length, LHL, LHR, Nat.sub_diag, firstn_O, app_nil_r. apply firstn_all2. rewrite app_length. lia. }
  rewrite <- !app_assoc. do 4 f_equal. rewrite (inner_app HK) by congruence. unfold pu. rewrite comb3_cons. f_equal.
  rewrite (zip_with_flip _ pHR pHL) in FB1. rewrite (zip_with_flip _ pHR pHL) in FB2. rewrite (zip_with_flip _ pHR pHL) in FB3.
  assert (forall x ai bi, x <> f0 -> ai = zip_with (fun l r => fadd (fmul l x) (fmul (finv x) r)) pGL pGR -> bi = zip_with (fun r l => fadd (fmul l x) (fmul (finv x) r)) pHL pHR ->
     fmul (fmul x x) (inner ai bi) = fadd (fmul (fmul x x) (fadd (inner pGL pHL) (inner pGR pHR))) (fadd (fmul (fmul (fmul x x) (fmul x x)) (inner pGL pHR)) (inner pGR pHL))) as I.
  { intros x ai bi Nx -> ->. rewrite (zip_with_ext (fun r l => fadd (fmul l x) (fmul (finv x) r)) (fun l r => fadd (fmul l (finv x)) (fmul x r))) by (intros; ring).
    rewrite (inner_folded HK _ _ _ _ pHL pHR pGL pGR n) by assumption. field. exact Nx. }
  destruct Sp as (N1 & N2 & N3 & N4 & D12 & D13 & D14 & D23 & D24 & D34).
  rewrite (I x1 a1 b1), (I x2 a2 b2), (I x3 a3 b3) by assumption. 
  generalize (inner pGL pHL) (inner pGR pHR) (inner pGL pHR) (inner pGR pHL). intros i1 i2 i3 i4. clear - D12 D13 D23 HK.
  apply (fsub_neq0 _ HK) in D12, D13, D23. revert D12 D13 D23. generalize (fmul x1 x1) (fmul x2 x2) (fmul x3 x3). intros y1 y2 y3 D12 D13 D23.
  assert (forall a b : K, fsub a b <> f0 -> fsub b a <> f0) as Sy by (intros a b H E; apply H; transitivity (fopp (fsub b a)); [ring|rewrite E; ring]).
  unfold mid1. field. repeat split; auto.
Qed.
End L.

Section Tree.
Context {K : fieldOps} (HK : field_laws K) {M : modOps K} (HM : mod_laws M).
Add Field Kf4 : (proj1 HK).

(** the distinctness conditions on all rounds of a tree *)
Fixpoint spread (t : stree K) : Prop :=
  match t with
  | SLeaf _ _ => True
  | SNode x1 t1 x2 t2 x3 t3 x4 t4 => separated x1 x2 x3 x4 /\ spread t1 /\ spread t2 /\ spread t3 /\ spread t4
  end.
Lemma extract_length : forall k (t : stree K), shape k t -> length (fst (extract k t)) = (2 ^ k)%nat /\ length (snd (extract k t)) = (2 ^ k)%nat.
Proof.
  induction k as [|k IH]; intros t Sh; destruct t as [a b|x1 t1 x2 t2 x3 t3 x4 t4]; try contradiction; [now split|].
  destruct Sh as (S1 & S2 & S3 & S4). destruct (IH t1 S1) as [A1 B1], (IH t2 S2) as [A2 B2], (IH t3 S3) as [A3 B3].
  cbn [extract fst snd]. destruct (extract k t1) as [a1 b1], (extract k t2) as [a2 b2], (extract k t3) as [a3 b3]. cbn [fst snd] in *.
  rewrite !at_challenge_vec by assumption.
  assert (length (middle (fmul x1 x1) (fmul x2 x2) (fmul x3 x3) (vec x1 a1 b1) (vec x2 a2 b2) (vec x3 a3 b3)) = (2 ^ k + 2 ^ k + (2 ^ k + 2 ^ k) + 1)%nat) as Lp
    by (unfold middle; rewrite comb3_length, ?(vec_length (2 ^ k)); rewrite ?(vec_length (2 ^ k)); auto).
  rewrite !firstn_length, skipn_length, Lp. cbn [Nat.pow]. lia.
Qed.

Definition foldG (x : K) (n : nat) (G : list M) : list M := zip_with (fun l r => binary_scalar_mul l r (finv x) x) (firstn n G) (skipn n G).
Definition foldH (x : K) (n : nat) (H : list M) : list M := zip_with (fun l r => binary_scalar_mul l r x (finv x)) (firstn n H) (skipn n H).
Lemma foldG_length x k G : length G = (2 ^ S k)%nat -> length (foldG x (2 ^ k) G) = (2 ^ k)%nat.
Proof. intros E. apply half_length in E as [E1 E2]. unfold foldG. rewrite zip_with_length; congruence. Qed.
Lemma foldH_length x k G : length G = (2 ^ S k)%nat -> length (foldH x (2 ^ k) G) = (2 ^ k)%nat.
Proof. intros E. apply half_length in E as [E1 E2]. unfold foldH. rewrite zip_with_length; congruence. Qed.

(** coefficients for the folded generators, unfolded *)
Lemma lin_unfold x k (G H : list M) u r : length G = (2 ^ S k)%nat -> length H = (2 ^ S k)%nat -> length r = (2 ^ k + 2 ^ k + 1)%nat ->
  lin (G ++ H ++ [u]) (unfold (2 ^ k) x r) = lin (foldG x (2 ^ k) G ++ foldH x (2 ^ k) H ++ [u]) r.
Proof.
  intros EG EH Er. destruct (rep_split _ _ Er) as (g & h & c & -> & Lg & Lh). rewrite unfold_app by assumption.
  pose proof (foldG_length x _ _ EG) as FG. pose proof (foldH_length x _ _ EH) as FH. apply half_length in EG as [EG1 EG2]. apply half_length in EH as [EH1 EH2].
  rewrite (lin_app HM (foldG x (2 ^ k) G)), (lin_app HM (foldH x (2 ^ k) H)) by congruence. unfold foldG, foldH.
  rewrite (lin_folded_bases HK HM _ _ _ _ g (2 ^ k)), (lin_folded_bases HK HM _ _ _ _ h (2 ^ k)) by assumption. rewrite !firstn_skipn.
  rewrite (app_assoc (map _ g)), (lin_app HM G); [|rewrite app_length, !map_length, <- (firstn_skipn (2 ^ k) G), app_length; congruence].
  f_equal. rewrite (app_assoc (map _ h)), (lin_app HM H); [reflexivity|rewrite app_length, !map_length, <- (firstn_skipn (2 ^ k) H), app_length; congruence].
Qed.
Lemma unfold_length k x (r : list K) : length r = (2 ^ k + 2 ^ k + 1)%nat -> length (unfold (2 ^ k) x r) = (2 ^ S k + 2 ^ S k + 1)%nat.
Proof. intros Er. destruct (rep_split _ _ Er) as (g & h & c & -> & Lg & Lh). rewrite unfold_app by assumption. rewrite !app_length, !map_length, Lg, Lh. cbn [length Nat.pow]. lia. Qed.
Lemma unfold_nontrivial k x (r : list K) : x <> f0 -> length r = (2 ^ k + 2 ^ k + 1)%nat -> (exists c, In c r /\ c <> f0) -> exists c, In c (unfold (2 ^ k) x r) /\ c <> f0.
Proof.
  intros Nx Er (c & I & N). destruct (rep_split _ _ Er) as (g & h & d & -> & Lg & Lh). rewrite unfold_app by assumption.
  assert (forall v, v <> f0 -> fmul x v <> f0) as Nm by (intros v Nv E; apply (fmul_integral _ HK) in E as [E|E]; contradiction).
  apply in_app_iff in I as [I|I]; [|apply in_app_iff in I as [I|I]].
  - exists (fmul x c). split; [|auto]. apply in_app_iff; right. apply in_app_iff; left. apply in_map_iff; eauto.
  - exists (fmul x c). split; [|auto]. apply in_app_iff; right. apply in_app_iff; right. apply in_app_iff; left. apply in_map_iff; eauto.
  - exists c. split; [|exact N]. do 4 (apply in_app_iff; right). exact I.
Qed.

(** acceptance of all paths of a tree, without the transcript *)
Fixpoint acc (k : nat) (t : stree K) (G H : list M) (u P : M) : Prop :=
  match k, t with
  | S k', SNode x1 t1 x2 t2 x3 t3 x4 t4 =>
      exists L R : M,
      let sub x t := acc k' t (foldG x (2 ^ k') G) (foldH x (2 ^ k') H) u (madd P (madd (smul (fmul x x) L) (smul (fmul (finv x) (finv x)) R))) in
      sub x1 t1 /\ sub x2 t2 /\ sub x3 t3 /\ sub x4 t4
  | O, SLeaf a b => P = lin (G ++ H ++ [u]) [a; b; fmul a b]
  | _, _ => False
  end.

Lemma lin_comb3 c1 c2 c3 (B : list M) r1 r2 r3 n : length B = n -> length r1 = n -> length r2 = n -> length r3 = n ->
  lin B (comb3 c1 c2 c3 r1 r2 r3) = madd (smul c1 (lin B r1)) (madd (smul c2 (lin B r2)) (smul c3 (lin B r3))).
Proof.
  intros LB L1 L2 L3. unfold comb3. rewrite (lin_add HK HM); rewrite ?add_lists_length; rewrite ?map_length; try congruence.
  rewrite (lin_add HK HM); rewrite ?map_length; try congruence. now rewrite !(lin_scale HK HM).
Qed.
Lemma lin_map_opp (B : list M) r : lin B (map fopp r) = mopp (lin B r).
Proof.
  revert B. induction r as [|x r IH]; intros [|b B]; cbn [map]; rewrite ?lin_nil_l, ?lin_nil_r; try (module_coefs HK HM; ring).
  rewrite !lin_cons, IH. module_coefs HK HM; ring.
Qed.

Definition represents (G H : list M) (u P : M) (ab : list K * list K) : Prop :=
  P = lin (G ++ H ++ [u]) (fst ab ++ snd ab ++ [inner (fst ab) (snd ab)]).
Definition related (k : nat) (G H : list M) (u : M) (r : list K) : Prop :=
  length r = (2 ^ k + 2 ^ k + 1)%nat /\ (exists c, In c r /\ c <> f0) /\ lin (G ++ H ++ [u]) r = m0.

Lemma acc_sound : forall k t, shape k t -> spread t -> forall (G H : list M) u P, length G = (2 ^ k)%nat -> length H = (2 ^ k)%nat -> acc k t G H u P ->
  represents G H u P (extract k t) \/ exists r, In r (relations k t) /\ related k G H u r.
Proof.
  induction k as [|k IH]; intros t Sh Sp G H u P LG LH A; destruct t as [a b|x1 t1 x2 t2 x3 t3 x4 t4]; try contradiction.
  - left. cbn [acc] in A. unfold represents. cbn [extract fst snd app]. rewrite A. f_equal. rewrite (inner_cons HK), inner_nil. f_equal. f_equal. f_equal. ring.
  - destruct Sh as (S1 & S2 & S3 & S4). destruct Sp as (Sep & P1 & P2 & P3 & P4). destruct A as (L & R & A1 & A2 & A3 & A4).
    assert (forall x t, x <> f0 -> shape k t -> spread t -> acc k t (foldG x (2 ^ k) G) (foldH x (2 ^ k) H) u (madd P (madd (smul (fmul x x) L) (smul (fmul (finv x) (finv x)) R))) ->
      (exists a b, extract k t = (a, b) /\ length a = (2 ^ k)%nat /\ length b = (2 ^ k)%nat /\ lin (G ++ H ++ [u]) (vec x a b) = madd R (madd (smul (fmul x x) P) (smul (fmul (fmul x x) (fmul x x)) L))) \/
      exists r, In r (map (unfold (2 ^ k) x) (relations k t)) /\ related (S k) G H u r) as Q.
    { intros x t Nx Sh Sp A. destruct (IH t Sh Sp _ _ u _ (foldG_length x k G LG) (foldH_length x k H LH) A) as [E|(r & I & Lr & Nr & Er)].
      - left. destruct (extract_length k t Sh) as [La Lb]. unfold represents in E. destruct (extract k t) as [a b]. cbn [fst snd] in *. exists a, b. do 3 (split; [auto|]).
        rewrite <- (at_challenge_vec (2 ^ k)) by assumption. unfold at_challenge. rewrite (lin_scale HK HM). cbn [fst snd].
        rewrite lin_unfold; [|assumption..|rewrite !app_length, La, Lb; cbn [length]; lia]. rewrite <- E. module_coefs HK HM; field; exact Nx.
      - right. exists (unfold (2 ^ k) x r). split; [now apply in_map|]. split; [now apply unfold_length|]. split; [now apply unfold_nontrivial|]. now rewrite lin_unfold. }
    pose proof Sep as (N1 & N2 & N3 & N4 & D12 & D13 & D14 & D23 & D24 & D34).
    cbn [relations].
    destruct (Q x1 t1 N1 S1 P1 A1) as [(a1 & b1 & X1 & La1 & Lb1 & E1)|(r & I & Hr)]; [|right; exists r; split; [right; apply in_app_iff; left; exact I|exact Hr]].
    destruct (Q x2 t2 N2 S2 P2 A2) as [(a2 & b2 & X2 & La2 & Lb2 & E2)|(r & I & Hr)]; [|right; exists r; split; [right; apply in_app_iff; right; apply in_app_iff; left; exact I|exact Hr]].
    destruct (Q x3 t3 N3 S3 P3 A3) as [(a3 & b3 & X3 & La3 & Lb3 & E3)|(r & I & Hr)]; [|right; exists r; split; [right; do 2 (apply in_app_iff; right); apply in_app_iff; left; exact I|exact Hr]].
    destruct (Q x4 t4 N4 S4 P4 A4) as [(a4 & b4 & X4 & La4 & Lb4 & E4)|(r & I & Hr)]; [|right; exists r; split; [right; do 3 (apply in_app_iff; right); exact I|exact Hr]].
    clear Q A1 A2 A3 A4 IH. rewrite X1, X2, X3, X4. rewrite !at_challenge_vec by assumption.
    assert (length (G ++ H ++ [u]) = (2 ^ k + 2 ^ k + (2 ^ k + 2 ^ k) + 1)%nat) as LB by (rewrite !app_length, LG, LH; cbn [length Nat.pow]; lia).
    pose proof (vec_length _ x1 a1 b1 La1 Lb1) as V1. pose proof (vec_length _ x2 a2 b2 La2 Lb2) as V2. pose proof (vec_length _ x3 a3 b3 La3 Lb3) as V3. pose proof (vec_length _ x4 a4 b4 La4 Lb4) as V4.
    assert (length (predicted (fmul x1 x1) (fmul x2 x2) (fmul x3 x3) (fmul x4 x4) (vec x1 a1 b1) (vec x2 a2 b2) (vec x3 a3 b3)) = (2 ^ k + 2 ^ k + (2 ^ k + 2 ^ k) + 1)%nat) as Lp by (unfold predicted; rewrite comb3_length; congruence).
    assert (forall a b : K, fsub a b <> f0 -> fsub b a <> f0) as Sy by (intros a b H0 E; apply H0; transitivity (fopp (fsub b a)); [ring|rewrite E; ring]).
    apply (fsub_neq0 _ HK) in D12, D13, D14, D23, D24, D34.
    destruct (all0_dec HK (add_lists (vec x4 a4 b4) (map fopp (predicted (fmul x1 x1) (fmul x2 x2) (fmul x3 x3) (fmul x4 x4) (vec x1 a1 b1) (vec x2 a2 b2) (vec x3 a3 b3))))) as [Z|Z].
    + left. unfold represents. cbn [extract fst snd]. rewrite X1, X2, X3, !at_challenge_vec by assumption.
      pose proof (round_scalars HK x1 x2 x3 x4 (2 ^ k) a1 a2 a3 a4 b1 b2 b3 b4 Sep La1 La2 La3 La4 Lb1 Lb2 Lb3 Lb4 Z) as Rs. cbv zeta in Rs. rewrite <- Rs.
      unfold middle. rewrite (lin_comb3 _ _ _ _ _ _ _ _ LB V1 V2 V3), E1, E2, E3. unfold mid1.
      revert D12 D13 D23. generalize (fmul x1 x1) (fmul x2 x2) (fmul x3 x3). intros y1 y2 y3 D12 D13 D23. clear - HK HM D12 D13 D23 Sy.
      module_coefs HK HM; field; repeat split; auto.
    + right. eexists. split; [left; reflexivity|]. split; [|split; [exact Z|]].
      * rewrite add_lists_length; rewrite ?map_length, ?V4, ?Lp; cbn [Nat.pow]; lia.
      * rewrite (lin_add HK HM) by (rewrite ?map_length; congruence). rewrite lin_map_opp. unfold predicted. rewrite (lin_comb3 _ _ _ _ _ _ _ _ LB V1 V2 V3), E1, E2, E3, E4. unfold ell1.
        revert D12 D13 D14 D23 D24 D34. generalize (fmul x1 x1) (fmul x2 x2) (fmul x3 x3) (fmul x4 x4). intros y1 y2 y3 y4 D12 D13 D14 D23 D24 D34. clear - HK HM D12 D13 D14 D23 D24 D34 Sy.
        module_coefs HK HM; field; repeat split; auto.
Qed.

(** one path: the verifier's equation is the leaf equation after the folds *)
Definition path_eq (G H : list M) (u P : M) (L R : list M) (xs : list K) (a b : K) : Prop :=
  madd P (madd (lin L (map (fun x => fmul x x) xs)) (lin R (map (fun x => fmul (finv x) (finv x)) xs)))
  = madd (madd (smul a (lin G (sv xs))) (smul b (lin H (rev (sv xs))))) (smul (fmul a b) u).
Lemma path_step k (G H : list M) u P L R x Ls Rs xs a b : length G = (2 ^ S k)%nat -> length H = (2 ^ S k)%nat -> length xs = k ->
  path_eq G H u P (L :: Ls) (R :: Rs) (x :: xs) a b ->
  path_eq (foldG x (2 ^ k) G) (foldH x (2 ^ k) H) u (madd P (madd (smul (fmul x x) L) (smul (fmul (finv x) (finv x)) R))) Ls Rs xs a b.
Proof.
  intros LG LH Lx E. unfold path_eq in *. assert (length (sv xs) = (2 ^ k)%nat) as Ls' by (rewrite sv_length; congruence).
  pose proof (half_length _ _ LG) as [G1 G2]. pose proof (half_length _ _ LH) as [H1 H2].
  unfold foldG, foldH. rewrite (lin_folded_bases HK HM _ _ _ _ (sv xs) (2 ^ k)), (lin_folded_bases HK HM _ _ _ _ (rev (sv xs)) (2 ^ k)) by (rewrite ?rev_length; assumption).
  rewrite !firstn_skipn. rewrite <- (sv_rev x xs). change (map (fmul (finv x)) (sv xs) ++ map (fmul x) (sv xs)) with (sv (x :: xs)). rewrite <- E.
  cbn [map]. rewrite !lin_cons. module_coefs HK HM; ring.
Qed.
Lemma path_end (G H : list M) u P a b : length G = 1%nat -> length H = 1%nat -> path_eq G H u P [] [] [] a b -> P = lin (G ++ H ++ [u]) [a; b; fmul a b].
Proof.
  intros LG LH E. destruct G as [|g [|]], H as [|h [|]]; try discriminate. unfold path_eq in E. cbn [map sv rev app] in E. rewrite !lin_cons, !lin_nil_l in E. cbn [app]. rewrite !lin_cons, lin_nil_l.
  transitivity (madd P (madd m0 m0)); [module_coefs HK HM; ring|]. rewrite E. module_coefs HK HM; ring.
Qed.
End Tree.

(** The algebraic identity behind completeness of the R1CS proof. *)
From Verif Require Import Base Alg Lin IppSpec R1csProofModel R1csProofLib.
Import List ListNotations.
Section Master.
Context {K : fieldOps} (HK : field_laws K) {M : modOps K} (HM : mod_laws M).
Add Field KfM : (proj1 HK).
Definition lo (n1 : nat) (f : nat -> K) (i : nat) : K := if (i <? n1)%nat then f i else f0.
Definition hi (n1 : nat) (f : nat -> K) (i : nat) : K := if (i <? n1)%nat then f0 else f i.
Lemma master (G H : list M) (g h : M) N n1 (aL aR aO sL sR wL wR wO yi yy s s' gf hf lv rv gs hs : nat -> K)
  (x u w' r a b i1 o1 s1 i2 o2 s2 t1 t2 t3 t4 t5 t6 b1 b3 b4 b5 b6 vv vb wc delta : K) (LR AI1 AO1 SS1 AI2 AO2 SS2 VV : M) :
  (forall i, (i < N)%nat -> gf i = if (i <? n1)%nat then f1 else u) ->
  (forall i, (i < N)%nat -> hf i = fmul (yi i) (gf i)) ->
  (forall i, (i < N)%nat -> fmul (yi i) (yy i) = f1) ->
  (forall i, (i < N)%nat -> lv i = fadd f0 (fmul x (fadd (fadd (aL i) (fmul (yi i) (wR i))) (fmul x (fadd (aO i) (fmul x (sL i))))))) ->
  (forall i, (i < N)%nat -> rv i = fadd (fsub (wO i) (yy i)) (fmul x (fadd (fadd (fmul (yy i) (aR i)) (wL i)) (fmul x (fadd f0 (fmul x (fmul (yy i) (sR i)))))))) ->
  (forall i, (i < N)%nat -> gs i = fmul (gf i) (fsub (fmul x (fmul (wR i) (yi i))) (fmul a (s i)))) ->
  (forall i, (i < N)%nat -> hs i = fmul (gf i) (fsub (fmul (yi i) (fsub (fadd (fmul x (wL i)) (wO i)) (fmul b (s' i)))) f1)) ->
  t2 = fadd vv (fadd wc delta) ->
  let tx := poly6_eval (mkP6 t1 t2 t3 t4 t5 t6) x in
  let txb := poly6_eval (mkP6 b1 vb b3 b4 b5 b6) x in
  let eb := fmul x (fadd (fadd i1 (fmul u i2)) (fmul x (fadd (fadd o1 (fmul u o2)) (fmul x (fadd s1 (fmul u s2)))))) in
  AI1 = madd (madd (gl G N (lo n1 aL)) (gl H N (lo n1 aR))) (smul i1 h) ->
  AO1 = madd (gl G N (lo n1 aO)) (smul o1 h) ->
  SS1 = madd (madd (gl G N (lo n1 sL)) (gl H N (lo n1 sR))) (smul s1 h) ->
  AI2 = madd (madd (gl G N (hi n1 aL)) (gl H N (hi n1 aR))) (smul i2 h) ->
  AO2 = madd (gl G N (hi n1 aO)) (smul o2 h) ->
  SS2 = madd (madd (gl G N (hi n1 sL)) (gl H N (hi n1 sR))) (smul s2 h) ->
  VV = madd (smul vv g) (smul vb h) ->
  madd (madd (madd (gl G N (fun i => fmul (lv i) (gf i))) (gl H N (fun i => fmul (rv i) (hf i)))) (smul tx (smul w' g))) LR
  = madd (madd (smul a (gl G N (fun i => fmul (s i) (gf i)))) (smul b (gl H N (fun i => fmul (s' i) (hf i))))) (smul (fmul a b) (smul w' g)) ->
  let x2 := fmul x x in let x3 := fmul x x2 in
  madd (madd (madd (smul x AI1) (madd (smul x2 AO1) (smul x3 SS1))) (madd (smul (fmul u x) AI2) (madd (smul (fmul u x2) AO2) (smul (fmul u x3) SS2))))
  (madd (smul (fmul r x2) VV)
  (madd (madd (smul (fmul r x) (commit_elem g h t1 b1)) (madd (smul (fmul r x3) (commit_elem g h t3 b3)) (madd (smul (fmul (fmul r x3) x) (commit_elem g h t4 b4)) (madd (smul (fmul (fmul (fmul r x3) x) x) (commit_elem g h t5 b5)) (smul (fmul (fmul (fmul (fmul r x3) x) x) x) (commit_elem g h t6 b6))))))
  (madd (madd (smul (fadd (fmul w' (fsub tx (fmul a b))) (fmul r (fsub (fmul x2 (fadd wc delta)) tx))) g) (smul (fopp (fadd eb (fmul r txb))) h))
  (madd (madd (gl G N gs) (gl H N hs)) LR)))) = m0.
Proof.
  intros Hgf Hhf Hy Hlv Hrv Hgs Hhs Ht2 tx txb eb EI1 EO1 ES1 EI2 EO2 ES2 EV EIP x2 x3.
  assert (madd (madd (madd (smul x (gl G N (lo n1 aL))) (madd (smul x2 (gl G N (lo n1 aO))) (smul x3 (gl G N (lo n1 sL))))) (madd (smul (fmul u x) (gl G N (hi n1 aL))) (madd (smul (fmul u x2) (gl G N (hi n1 aO))) (smul (fmul u x3) (gl G N (hi n1 sL))))))
     (madd (gl G N gs) (madd (smul a (gl G N (fun i => fmul (s i) (gf i)))) (smul (fopp f1) (gl G N (fun i => fmul (lv i) (gf i)))))) = m0) as SG.
  { rewrite !gl_smul, !gl_add by assumption. apply gl_zero; [assumption|assumption|]. intros i Hi. rewrite Hgs, Hlv, Hgf by assumption. unfold lo, hi, x3, x2. destruct (i <? n1)%nat; ring. }
  assert (madd (madd (madd (smul x (gl H N (lo n1 aR))) (smul x3 (gl H N (lo n1 sR)))) (madd (smul (fmul u x) (gl H N (hi n1 aR))) (smul (fmul u x3) (gl H N (hi n1 sR)))))
     (madd (gl H N hs) (madd (smul b (gl H N (fun i => fmul (s' i) (hf i)))) (smul (fopp f1) (gl H N (fun i => fmul (rv i) (hf i)))))) = m0) as SH.
  { rewrite !gl_smul, !gl_add by assumption. apply gl_zero; [assumption|assumption|]. intros i Hi. rewrite Hhs, Hrv, Hhf, Hgf by assumption. unfold lo, hi, x3, x2. specialize (Hy i Hi).
    generalize dependent (yy i). intros yyi Hy1.
    assert (forall c, fmul (fmul (yi i) yyi) c = c) as Z by (intros; rewrite Hy1; ring).
    destruct (i <? n1)%nat.
    - transitivity (fadd (fmul x (fsub (aR i) (fmul (fmul (yi i) yyi) (aR i)))) (fadd (fmul (fmul x (fmul x x)) (fsub (sR i) (fmul (fmul (yi i) yyi) (sR i)))) (fsub (fmul (fmul (yi i) yyi) f1) f1))); [ring|rewrite !Z; ring].
    - transitivity (fmul u (fadd (fmul x (fsub (aR i) (fmul (fmul (yi i) yyi) (aR i)))) (fadd (fmul (fmul x (fmul x x)) (fsub (sR i) (fmul (fmul (yi i) yyi) (sR i)))) (fsub (fmul (fmul (yi i) yyi) f1) f1)))); [ring|rewrite !Z; ring]. }
  match type of EIP with ?X = ?Y => match X with madd ?X0 LR => assert (LR = madd Y (smul (fopp f1) X0)) as -> by (rewrite <- EIP; module_coefs HK HM; ring) end end.
  rewrite EI1, EO1, ES1, EI2, EO2, ES2, EV. unfold commit_elem.
  match type of SG with ?L = m0 => match type of SH with ?L2 = m0 => transitivity (madd L L2); [|rewrite SG, SH; module_coefs HK HM; ring] end end.
  subst t2. unfold tx, txb, eb, x3, x2, poly6_eval. cbn [p6_1 p6_2 p6_3 p6_4 p6_5 p6_6].
  module_coefs HK HM; ring.
Qed.
End Master.

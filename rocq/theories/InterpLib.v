(** Interpolation with coefficients, for scalars and for points. *)
From Coq Require Import String.
From Verif Require Import Base Alg Lin Poly IppModel IppLib IppSpec R1csProofLib R1csSoundSpec.
Import List ListNotations.
Open Scope list_scope.

Section Scalars.
Context {K : fieldOps} (HK : field_laws K).
Add Field Kfi : (proj1 HK).
Lemma ksum_add n (f g : nat -> K) : fadd (ksum n f) (ksum n g) = ksum n (fun i => fadd (f i) (g i)).
Proof. induction n as [|n IH]; cbn [ksum]; [ring|]. rewrite <- IH. ring. Qed.
Lemma ksum_scale c n (f : nat -> K) : fmul c (ksum n f) = ksum n (fun i => fmul c (f i)).
Proof. induction n as [|n IH]; cbn [ksum]; [ring|]. rewrite <- IH. ring. Qed.
Lemma ksum_0 n : ksum n (fun _ => f0 : K) = f0.
Proof. induction n as [|n IH]; cbn [ksum]; [reflexivity|]. rewrite IH. ring. Qed.
Lemma ksum_swap n m (f : nat -> nat -> K) : ksum n (fun i => ksum m (f i)) = ksum m (fun j => ksum n (fun i => f i j)).
Proof. induction n as [|n IH]; cbn [ksum]; [now rewrite ksum_0|]. rewrite IH. apply ksum_add. Qed.
Lemma ksum_pick n k (f : nat -> K) : (k < n)%nat -> ksum n (fun i => if (i =? k)%nat then f i else f0) = f k.
Proof.
  induction n as [|n IH]; intros H; [lia|]. cbn [ksum]. destruct (Nat.eqb_spec n k) as [->|N].
  - rewrite (ksum_ext k _ (fun _ => f0)) by (intros i Hi; destruct (Nat.eqb_spec i k); [lia|reflexivity]). rewrite ksum_0. ring.
  - rewrite IH by lia. ring.
Qed.
Lemma peval_ksum (p : list K) x : peval p x = ksum (length p) (fun i => fmul (nth i p f0) (fpow x i)).
Proof. induction p as [|c p IH]; [reflexivity|]. cbn [peval length]. rewrite (ksum_shift HK), IH, ksum_scale. cbn [nth fpow]. f_equal; [ring|]. apply ksum_ext. intros i _. ring. Qed.

Lemma lin_prod_eval (rs : list K) x : peval (fold_right (fun r p => pmul_lin K r p) [f1] rs) x = fprod (map (fun r => fsub x r) rs).
Proof. induction rs as [|r rs IH]; cbn [fold_right map fprod]; [cbn; ring|]. rewrite (pmul_lin_eval K HK), IH. reflexivity. Qed.
Lemma lin_prod_length (rs : list K) : length (fold_right (fun r p => pmul_lin K r p) [f1] rs) = S (length rs).
Proof. induction rs as [|r rs IH]; [reflexivity|]. cbn [fold_right length]. now rewrite pmul_lin_length, IH. Qed.
Lemma lagc_length (xs : list K) i : (i < length xs)%nat -> length (lagc xs i) = length xs.
Proof. intros H. unfold lagc. rewrite map_length, lin_prod_length, (others_length K) by exact H. lia. Qed.
Lemma lagc_eval (xs : list K) i j : NoDup xs -> (i < length xs)%nat -> (j < length xs)%nat -> peval (lagc xs i) (nth j xs f0) = if (i =? j)%nat then f1 else f0.
Proof.
  intros ND Hi Hj. unfold lagc. change (map (fmul ?c) ?p) with (pscale K c p). rewrite (pscale_eval K HK), lin_prod_eval.
  destruct (Nat.eqb_spec i j) as [<-|N].
  - assert (fprod (map (fun r => fsub (nth i xs f0) r) (others i xs)) <> f0) as Nz; [|field; exact Nz].
    apply (fprod_nonzero _ HK). intros x Hx. apply in_map_iff in Hx as (r & <- & Hr). apply (fsub_neq0 _ HK). intros E. apply (others_nth K i xs ND Hi). now rewrite E.
  - assert (fprod (map (fun r => fsub (nth j xs f0) r) (others i xs)) = f0) as ->; [|ring]. apply (fprod_zero K HK). apply in_map_iff. exists (nth j xs f0). split; [ring|]. now apply (others_other K).
Qed.
(** interpolating the values of a polynomial gives its coefficients *)
Lemma coefficient_poly (xs p : list K) k v : NoDup xs -> length p = length xs -> (forall i, (i < length xs)%nat -> v i = peval p (nth i xs f0)) -> (k < length xs)%nat ->
  coefficient xs k v = nth k p f0.
Proof.
  intros ND Lp Hv Hk. set (q := map (fun k => coefficient xs k v) (seq 0 (length xs))).
  assert (q = p) as <-.
  { apply (interp_coeffs_unique K HK xs); [exact ND|unfold q; now rewrite map_length, seq_length|exact Lp|].
    apply nth_ext with (d := peval q f0) (d' := peval p f0); [now rewrite !map_length|]. intros j Hj. rewrite map_length in Hj. rewrite !map_nth, <- Hv by exact Hj.
    rewrite peval_ksum. unfold q at 1. rewrite map_length, seq_length.
    rewrite (ksum_ext _ _ (fun k => ksum (length xs) (fun i => fmul (v i) (fmul (nth k (lagc xs i) f0) (fpow (nth j xs f0) k))))).
    2:{ intros i Hi. unfold q. rewrite nth_map_seq by exact Hi. unfold coefficient. transitivity (fmul (fpow (nth j xs f0) i) (ksum (length xs) (fun i0 => fmul (nth i (lagc xs i0) f0) (v i0)))); [ring|].
        rewrite ksum_scale. apply ksum_ext. intros; ring. }
    rewrite ksum_swap. rewrite (ksum_ext _ _ (fun i => if (i =? j)%nat then v i else f0)).
    - now apply ksum_pick.
    - intros i Hi. rewrite <- ksum_scale. rewrite <- (lagc_length xs i Hi) at 1. rewrite <- peval_ksum, lagc_eval by assumption. destruct (i =? j)%nat; ring. }
  unfold q. now rewrite nth_map_seq.
Qed.
Lemma coefficient_ext (xs : list K) k v v' : (forall i, (i < length xs)%nat -> v i = v' i) -> coefficient xs k v = coefficient xs k v'.
Proof. intros E. unfold coefficient. apply ksum_ext. intros i Hi. now rewrite E. Qed.
Lemma coefficient_pow (xs : list K) k l : NoDup xs -> (k < length xs)%nat -> (l < length xs)%nat -> coefficient xs k (fun i => fpow (nth i xs f0) l) = if (l =? k)%nat then f1 else f0.
Proof.
  intros ND Hk Hl. rewrite (coefficient_poly xs (map (fun i => if (l =? i)%nat then f1 else f0) (seq 0 (length xs)))); [now rewrite nth_map_seq|exact ND|now rewrite map_length, seq_length| |exact Hk].
  intros i Hi. rewrite peval_ksum, map_length, seq_length. rewrite (ksum_ext _ _ (fun j => if (j =? l)%nat then fpow (nth i xs f0) j else f0)); [symmetry; now apply (ksum_pick (length xs) l (fun j => fpow (nth i xs f0) j))|].
  intros j Hj. rewrite nth_map_seq, (Nat.eqb_sym l j) by exact Hj. destruct (j =? l)%nat; ring.
Qed.
End Scalars.

Section Points.
Context {K : fieldOps} (HK : field_laws K) {M : modOps K} (HM : mod_laws M).
Add Field Kfj : (proj1 HK).
Lemma gl_ksum (B : list M) D n (c : nat -> K) (r : nat -> nat -> K) : gl B D (fun j => ksum n (fun i => fmul (c i) (r i j))) = gl (map (fun i => gl B D (r i)) (seq 0 n)) n c.
Proof.
  induction n as [|n IH]; [cbn [ksum gl]; apply (gl_zero HK HM); reflexivity|]. cbn [ksum]. rewrite <- (gl_add HK HM), IH, seq_S, map_app. cbn [gl Nat.add map]. f_equal.
  - rewrite <- (gl_firstn (map (fun i => gl B D (r i)) (seq 0 n) ++ [gl B D (r n)]) n n c) by lia. rewrite firstn_app, map_length, seq_length, Nat.sub_diag, firstn_O, app_nil_r.
    rewrite firstn_all2 by (rewrite map_length, seq_length; lia). reflexivity.
  - rewrite app_nth2 by (rewrite map_length, seq_length; lia). rewrite map_length, seq_length, Nat.sub_diag. cbn [nth]. symmetry. apply (gl_smul HK HM).
Qed.
(** interpolating points *)
Lemma coefficient_points (B : list M) D (xs : list K) (Ps : list M) (r : nat -> nat -> K) k : NoDup xs -> length Ps = length xs -> (k < length xs)%nat ->
  (forall i, (i < length xs)%nat -> gl B D (r i) = gl Ps (length xs) (fpow (nth i xs f0))) ->
  gl B D (fun j => coefficient xs k (fun i => r i j)) = nth k Ps m0.
Proof.
  intros ND LP Hk E. unfold coefficient. rewrite gl_ksum.
  transitivity (gl (map (fun i => gl Ps (length xs) (fpow (nth i xs f0))) (seq 0 (length xs))) (length xs) (fun i => nth k (lagc xs i) f0)).
  { f_equal. apply map_ext_in. intros i Hi. apply in_seq in Hi. apply E. lia. }
  rewrite <- gl_ksum. rewrite (gl_ext _ _ _ (fun l => if (l =? k)%nat then f1 else f0)).
  - rewrite <- LP in Hk |- *. clear - HK HM Hk. revert k Hk. generalize (length Ps). intros n. induction n as [|n IH]; intros k Hk; [lia|]. cbn [gl]. destruct (Nat.eqb_spec n k) as [->|N].
    + rewrite (gl_zero HK HM) by (intros i Hi; destruct (Nat.eqb_spec i k); [lia|reflexivity]). module_coefs HK HM; ring.
    + rewrite IH by lia. module_coefs HK HM; ring.
  - intros l Hl. now apply (coefficient_pow HK).
Qed.

(** ** a representation is unique unless there is a relation *)
Definition holds (B : list M) (D : nat) (r : nat -> K) : Prop := (exists j, (j < D)%nat /\ r j <> f0) /\ gl B D r = m0.
Definition Rel (B : list M) (D : nat) (rels : list (nat -> K)) : Prop := exists r, In r rels /\ holds B D r.
Lemma search (r : nat -> K) D : (exists j, (j < D)%nat /\ r j <> f0) \/ (forall j, (j < D)%nat -> r j = f0).
Proof.
  induction D as [|D IH]; [right; intros; lia|]. destruct IH as [(j & Hj & N)|Z]; [left; exists j; split; [lia|exact N]|].
  destruct (feq_dec _ HK (r D) f0) as [E|N]; [right; intros j Hj; destruct (Nat.eq_dec j D) as [->|]; [exact E|apply Z; lia]|left; exists D; split; [lia|exact N]].
Qed.
Lemma zero_or_rel B D rels (r : nat -> K) : In r rels -> gl B D r = m0 -> Rel B D rels \/ forall j, (j < D)%nat -> r j = f0.
Proof. intros I E. destruct (search r D) as [S|Z]; [left; exists r; split; [exact I|split; assumption]|now right]. Qed.
Lemma same_or_rel B D rels (r r' : nat -> K) : In (fun j => fsub (r j) (r' j)) rels -> gl B D r = gl B D r' -> Rel B D rels \/ forall j, (j < D)%nat -> r j = r' j.
Proof.
  intros I E. destruct (zero_or_rel B D rels _ I) as [R|Z]; [|now left|right; intros j Hj; apply (fsub_eq0 _ HK); now apply Z].
  rewrite (gl_ext _ _ _ (fun j => fadd (r j) (fmul (fopp f1) (r' j)))) by (intros; ring). rewrite <- (gl_add HK HM), <- (gl_smul HK HM), E. module_coefs HK HM; ring.
Qed.
Lemma Rel_incl B D rels rels' : (forall r, In r rels -> In r rels') -> Rel B D rels -> Rel B D rels'.
Proof. intros I (r & Ir & H). exists r. split; [now apply I|exact H]. Qed.
Lemma or_all {A} (R : Prop) (P : A -> Prop) l : (forall a, In a l -> R \/ P a) -> R \/ forall a, In a l -> P a.
Proof.
  induction l as [|a l IH]; intros H; [right; intros a []|]. destruct (H a) as [r|p]; [now left|now left|]. destruct IH as [r|q]; [intros; apply H; now right|now left|].
  right. intros b [<-|I]; auto.
Qed.
End Points.

(** The multiplicative group of integers modulo n, integer exponents, the link
    to the BigNumber functions of the model, and a decision tactic for equations
    between products of powers. *)
From Verif Require Import Base BnModel BnProofs.
From Coq Require Import Znumtheory ZArith.Zpow_facts Eqdep_dec.

Section UMod.
Variable n : Z.
Hypothesis Hn : 2 <= n.

(** units: canonical representatives prime to n *)
Definition is_unit (x : Z) : bool := (0 <=? x) && (x <? n) && (Z.gcd x n =? 1).
Lemma is_unit_iff x : is_unit x = true <-> 0 <= x < n /\ Z.gcd x n = 1.
Proof. unfold is_unit. rewrite !andb_true_iff, Z.leb_le, Z.ltb_lt, Z.eqb_eq. lia. Qed.

Record U := mkU { uv : Z; uok : is_unit uv = true }.
Lemma uv_inj a b : uv a = uv b -> a = b.
Proof.
  destruct a as [x Hx], b as [y Hy]. cbn [uv]. intros ->. f_equal. apply UIP_dec, bool_dec.
Qed.
Lemma uv_range a : 0 <= uv a < n.
Proof. destruct a as [x Hx]. cbn [uv]. apply is_unit_iff in Hx. tauto. Qed.
Lemma uv_gcd a : Z.gcd (uv a) n = 1.
Proof. destruct a as [x Hx]. cbn [uv]. apply is_unit_iff in Hx. tauto. Qed.
Lemma uv_mod a : uv a mod n = uv a.
Proof. apply Z.mod_small, uv_range. Qed.

Lemma gcd_mod_n x : Z.gcd (x mod n) n = Z.gcd x n.
Proof. rewrite Z.gcd_mod by lia. apply Z.gcd_comm. Qed.
Lemma gcd_mul_1 x y : Z.gcd x n = 1 -> Z.gcd y n = 1 -> Z.gcd (x * y) n = 1.
Proof.
  intros Hx Hy. apply Zgcd_1_rel_prime. apply rel_prime_sym, rel_prime_mult; apply rel_prime_sym;
    now apply Zgcd_1_rel_prime.
Qed.
Lemma unit_mod x : Z.gcd x n = 1 -> is_unit (x mod n) = true.
Proof. intros H. apply is_unit_iff. rewrite gcd_mod_n. split; [apply Z.mod_pos_bound; lia|assumption]. Qed.

Definition uof (x : Z) (H : Z.gcd x n = 1) : U := mkU (x mod n) (unit_mod x H).
Definition umul (a b : U) : U := uof (uv a * uv b) (gcd_mul_1 _ _ (uv_gcd a) (uv_gcd b)).
Definition u1 : U := uof 1 (Z.gcd_1_l n).
Definition inv_val (x : Z) : Z := match bn_inverse x n with Ok y => y | Err _ => 1 end.
Lemma inv_val_spec a : bn_inverse (uv a) n = Ok (inv_val (uv a)) /\ 0 <= inv_val (uv a) < n /\ (uv a * inv_val (uv a)) mod n = 1.
Proof.
  destruct (bn_inverse_ok (uv a) n) as (x & E & R & M); [apply uv_range|assumption|apply uv_gcd|].
  unfold inv_val. rewrite E. auto.
Qed.
Lemma inv_val_gcd a : Z.gcd (inv_val (uv a)) n = 1.
Proof.
  destruct (inv_val_spec a) as (_ & _ & M). apply Zgcd_1_rel_prime.
  apply bezout_rel_prime. apply Bezout_intro with (u := uv a) (v := - (uv a * inv_val (uv a) / n)).
  pose proof (Z.div_mod (uv a * inv_val (uv a)) n). lia.
Qed.
Definition uinv (a : U) : U := uof (inv_val (uv a)) (inv_val_gcd a).

Lemma uv_mul a b : uv (umul a b) = (uv a * uv b) mod n. Proof. reflexivity. Qed.
Lemma uv_1 : uv u1 = 1. Proof. cbn [uv u1 uof]. apply Z.mod_small. lia. Qed.
Lemma uv_inv a : uv (uinv a) = inv_val (uv a).
Proof. cbn [uv uinv uof]. apply Z.mod_small, inv_val_spec. Qed.

Lemma umul_comm a b : umul a b = umul b a.
Proof. apply uv_inj. rewrite !uv_mul. f_equal. ring. Qed.
Lemma umul_assoc a b c : umul a (umul b c) = umul (umul a b) c.
Proof. apply uv_inj. rewrite !uv_mul. rewrite Zmult_mod_idemp_l, Zmult_mod_idemp_r. f_equal. ring. Qed.
Lemma umul_1_l a : umul u1 a = a.
Proof. apply uv_inj. rewrite uv_mul, uv_1, Z.mul_1_l. apply uv_mod. Qed.
Lemma umul_1_r a : umul a u1 = a.
Proof. rewrite umul_comm. apply umul_1_l. Qed.
Lemma umul_inv_r a : umul a (uinv a) = u1.
Proof. apply uv_inj. rewrite uv_mul, uv_inv, uv_1. apply inv_val_spec. Qed.
Lemma umul_inv_l a : umul (uinv a) a = u1.
Proof. rewrite umul_comm. apply umul_inv_r. Qed.
Lemma umul_cancel_l a b c : umul a b = umul a c -> b = c.
Proof.
  intros E. rewrite <- (umul_1_l b), <- (umul_1_l c), <- (umul_inv_l a), <- !umul_assoc. now rewrite E.
Qed.
Lemma uinv_mul a b : uinv (umul a b) = umul (uinv a) (uinv b).
Proof.
  apply (umul_cancel_l (umul a b)). rewrite umul_inv_r.
  rewrite (umul_comm (uinv a)), <- umul_assoc, (umul_assoc b), umul_inv_r, umul_1_l. symmetry. apply umul_inv_r.
Qed.
Lemma uinv_1 : uinv u1 = u1.
Proof. apply (umul_cancel_l u1). now rewrite umul_inv_r, umul_1_l. Qed.
Lemma uinv_inv a : uinv (uinv a) = a.
Proof. apply (umul_cancel_l (uinv a)). now rewrite umul_inv_r, umul_inv_l. Qed.

(** natural and integer powers *)
Fixpoint upow (a : U) (k : nat) : U := match k with O => u1 | S k' => umul a (upow a k') end.
Definition zpow (a : U) (k : Z) : U := if 0 <=? k then upow a (Z.to_nat k) else uinv (upow a (Z.to_nat (- k))).

Lemma upow_add a j k : upow a (j + k) = umul (upow a j) (upow a k).
Proof. induction j as [|j IH]; cbn [upow Nat.add]; [now rewrite umul_1_l|]. now rewrite IH, umul_assoc. Qed.
Lemma upow_mul_base a b k : upow (umul a b) k = umul (upow a k) (upow b k).
Proof.
  induction k as [|k IH]; cbn [upow]; [now rewrite umul_1_l|].
  rewrite IH, <- !umul_assoc. f_equal. rewrite !umul_assoc. f_equal. apply umul_comm.
Qed.
Lemma upow_1 k : upow u1 k = u1.
Proof. induction k as [|k IH]; cbn [upow]; [reflexivity|]. now rewrite IH, umul_1_l. Qed.
Lemma upow_inv a k : upow (uinv a) k = uinv (upow a k).
Proof.
  induction k as [|k IH]; cbn [upow]; [symmetry; apply uinv_1|]. now rewrite IH, uinv_mul.
Qed.
Lemma upow_mul a j k : upow (upow a j) k = upow a (j * k).
Proof.
  induction k as [|k IH]; cbn [upow]; [now rewrite Nat.mul_0_r|]. rewrite IH, <- upow_add. f_equal. lia.
Qed.
Lemma uv_upow a k : uv (upow a k) = uv a ^ Z.of_nat k mod n.
Proof.
  induction k as [|k IH]; cbn [upow]; [apply uv_1 || (rewrite uv_1; symmetry; apply Z.mod_small; cbn; lia)|].
  rewrite uv_mul, IH, Zmult_mod_idemp_r. f_equal. rewrite Nat2Z.inj_succ, Z.pow_succ_r by lia. reflexivity.
Qed.

Lemma zpow_nat a k : zpow a (Z.of_nat k) = upow a k.
Proof. unfold zpow. destruct (Z.leb_spec 0 (Z.of_nat k)); [|lia]. now rewrite Nat2Z.id. Qed.
Lemma zpow_opp a k : zpow a (- k) = uinv (zpow a k).
Proof.
  unfold zpow. destruct (Z.leb_spec 0 k), (Z.leb_spec 0 (- k)).
  - assert (k = 0) as -> by lia. cbn. now rewrite uinv_1.
  - now rewrite Z.opp_involutive.
  - now rewrite uinv_inv.
  - lia.
Qed.
Lemma zpow_0 a : zpow a 0 = u1. Proof. reflexivity. Qed.
Lemma zpow_1 a : zpow a 1 = a.
Proof. unfold zpow. cbn [Z.leb Z.compare]. change (Z.to_nat 1) with 1%nat. cbn [upow]. apply umul_1_r. Qed.
Lemma zpow_succ a k : zpow a (Z.succ k) = umul a (zpow a k).
Proof.
  destruct (Z.le_gt_cases 0 k) as [H|H].
  - rewrite <- (Z2Nat.id k) by assumption. rewrite <- Nat2Z.inj_succ, !zpow_nat. reflexivity.
  - replace (Z.succ k) with (- Z.of_nat (Z.to_nat (- k - 1))) by lia.
    replace k with (- Z.of_nat (S (Z.to_nat (- k - 1)))) at 2 by lia.
    rewrite !zpow_opp, !zpow_nat. cbn [upow]. rewrite uinv_mul, umul_assoc, umul_inv_r. symmetry. apply umul_1_l.
Qed.
Lemma zpow_pred a k : zpow a (Z.pred k) = umul (uinv a) (zpow a k).
Proof.
  apply (umul_cancel_l a). rewrite <- zpow_succ, Z.succ_pred, umul_assoc, umul_inv_r. symmetry. apply umul_1_l.
Qed.
Lemma zpow_add a j k : zpow a (j + k) = umul (zpow a j) (zpow a k).
Proof.
  revert j. apply Z.bi_induction.
  - intros ? ? ->. reflexivity.
  - rewrite Z.add_0_l, zpow_0. symmetry. apply umul_1_l.
  - intros j. rewrite Z.add_succ_l, !zpow_succ, <- umul_assoc. split; [now intros ->|apply umul_cancel_l].
Qed.
Lemma zpow_mul_base a b k : zpow (umul a b) k = umul (zpow a k) (zpow b k).
Proof.
  unfold zpow. destruct (0 <=? k); rewrite upow_mul_base; [reflexivity|]. apply uinv_mul.
Qed.
Lemma zpow_one k : zpow u1 k = u1.
Proof. unfold zpow. destruct (0 <=? k); rewrite upow_1; [reflexivity|apply uinv_1]. Qed.
Lemma zpow_inv a k : zpow (uinv a) k = uinv (zpow a k).
Proof. unfold zpow. destruct (0 <=? k); now rewrite upow_inv. Qed.
Lemma zpow_mul a j k : zpow (zpow a j) k = zpow a (j * k).
Proof.
  revert k. apply Z.bi_induction.
  - intros ? ? ->. reflexivity.
  - now rewrite Z.mul_0_r.
  - intros k. rewrite Z.mul_succ_r, zpow_succ, zpow_add, umul_comm.
    split; [now intros ->|]. rewrite !(umul_comm _ (zpow a j)). apply umul_cancel_l.
Qed.

(** ** Link to the BigNumber functions *)
Lemma mod_mul_u a b : bn_mod_mul (uv a) (uv b) n = Ok (uv (umul a b)).
Proof. now rewrite bn_mod_mul_pos by lia. Qed.
Lemma inverse_u a : bn_inverse (uv a) n = Ok (uv (uinv a)).
Proof. rewrite uv_inv. apply inv_val_spec. Qed.
Lemma mod_exp_u a k : bn_mod_exp (uv a) k n = Ok (uv (zpow a k)).
Proof.
  unfold zpow. destruct (Z.leb_spec 0 k).
  - rewrite bn_mod_exp_nonneg by lia. rewrite uv_upow, Z2Nat.id by lia. now rewrite Z.abs_eq by lia.
  - rewrite bn_mod_exp_neg by lia. rewrite inverse_u. cbn [rbind].
    rewrite <- upow_inv, uv_upow, Z2Nat.id by lia. now rewrite Z.abs_eq by lia.
Qed.
Lemma mod_div_u a b : bn_mod_div (uv a) (uv b) n = Ok (uv (umul a (uinv b))).
Proof.
  unfold bn_mod_div. rewrite inverse_u. cbn [rbind]. change (bn_modulus (bn_mul (uv a) (uv (uinv b))) n) with (bn_mod_mul (uv a) (uv (uinv b)) n).
  apply mod_mul_u.
Qed.
(** unreduced products (used by calc_tne and _verify_ne_predicate) *)
Lemma mod_mul_unred a x b : x mod n = uv b -> bn_mod_mul (uv a) x n = Ok (uv (umul a b)).
Proof.
  intros E. rewrite bn_mod_mul_pos by lia. rewrite uv_mul, <- E. now rewrite Zmult_mod_idemp_r.
Qed.
Lemma mod_exp_unred x a k : 0 <= k -> x mod n = uv a -> bn_mod_exp x k n = Ok (uv (zpow a k)).
Proof.
  intros Hk E. rewrite bn_mod_exp_nonneg by lia. unfold zpow. destruct (Z.leb_spec 0 k); [|lia].
  rewrite uv_upow, Z2Nat.id, <- E, Z.abs_eq by lia. f_equal. apply Zpower_mod. lia.
Qed.

(** ** Reflexive normalisation of products of powers *)
Inductive gexp := GVar (i : nat) | GOne | GMul (x y : gexp) | GInv (x : gexp) | GPow (x : gexp) (k : Z).
Fixpoint gden (env : list U) (x : gexp) : U :=
  match x with
  | GVar i => nth i env u1
  | GOne => u1
  | GMul x y => umul (gden env x) (gden env y)
  | GInv x => uinv (gden env x)
  | GPow x k => zpow (gden env x) k
  end.
Fixpoint gcoef (x : gexp) (i : nat) : Z :=
  match x with
  | GVar j => if Nat.eqb i j then 1 else 0
  | GOne => 0
  | GMul x y => gcoef x i + gcoef y i
  | GInv x => - gcoef x i
  | GPow x k => gcoef x i * k
  end.
Fixpoint gprod (env : list U) (c : nat -> Z) (i : nat) : U :=
  match env with [] => u1 | a :: env' => umul (zpow a (c i)) (gprod env' c (S i)) end.
Lemma gprod_ext env c d : forall i, (forall j, (i <= j)%nat -> c j = d j) -> gprod env c i = gprod env d i.
Proof.
  induction env as [|a env IH]; intros i H; cbn [gprod]; [reflexivity|]. rewrite (H i) by lia. f_equal.
  apply IH. intros j Hj. apply H. lia.
Qed.
Lemma gprod_zero env c : forall i, (forall j, (i <= j)%nat -> c j = 0) -> gprod env c i = u1.
Proof.
  induction env as [|a env IH]; intros i H; cbn [gprod]; [reflexivity|]. rewrite (H i) by lia.
  rewrite zpow_0, umul_1_l. apply IH. intros j Hj. apply H. lia.
Qed.
Lemma gprod_add env c d : forall i, gprod env (fun j => c j + d j) i = umul (gprod env c i) (gprod env d i).
Proof.
  induction env as [|a env IH]; intros i; cbn [gprod]; [now rewrite umul_1_l|]. rewrite IH, zpow_add.
  rewrite <- !umul_assoc. f_equal. rewrite !umul_assoc. f_equal. apply umul_comm.
Qed.
Lemma gprod_scale env c k : forall i, gprod env (fun j => c j * k) i = zpow (gprod env c i) k.
Proof.
  induction env as [|a env IH]; intros i; cbn [gprod]; [now rewrite zpow_one|]. rewrite IH, zpow_mul_base.
  f_equal. symmetry. apply zpow_mul.
Qed.
Lemma gprod_opp env c : forall i, gprod env (fun j => - c j) i = uinv (gprod env c i).
Proof.
  intros i. rewrite <- (zpow_1 (gprod env c i)), <- zpow_opp, <- gprod_scale. apply gprod_ext. intros; ring.
Qed.
Lemma gprod_var env i : forall s, (s <= i)%nat ->
  gprod env (fun j => if Nat.eqb j i then 1 else 0) s = nth (i - s) env u1.
Proof.
  induction env as [|a env IH]; intros s Hs; cbn [gprod].
  - now destruct (i - s)%nat.
  - destruct (Nat.eqb_spec s i) as [->|N].
    + rewrite Nat.sub_diag, zpow_1, gprod_zero; [apply umul_1_r|].
      intros j Hj. destruct (Nat.eqb_spec j i); [lia|reflexivity].
    + rewrite zpow_0, umul_1_l, IH by lia. replace (i - s)%nat with (S (i - S s)) by lia. reflexivity.
Qed.
Lemma gden_gprod env x : gden env x = gprod env (gcoef x) 0.
Proof.
  induction x as [i| |x IHx y IHy|x IHx|x IHx k]; cbn [gden gcoef].
  - etransitivity; [|apply gprod_ext; intros j _; reflexivity]. rewrite gprod_var by lia. now rewrite Nat.sub_0_r.
  - symmetry. now apply gprod_zero.
  - rewrite IHx, IHy, <- gprod_add. reflexivity.
  - rewrite IHx, <- gprod_opp. reflexivity.
  - rewrite IHx, <- gprod_scale. reflexivity.
Qed.
Fixpoint coefs_eq (x y : gexp) (i N : nat) : Prop :=
  match N with O => True | S N' => gcoef x i = gcoef y i /\ coefs_eq x y (S i) N' end.
Lemma coefs_eq_gprod env x y : forall i, coefs_eq x y i (length env) -> gprod env (gcoef x) i = gprod env (gcoef y) i.
Proof.
  induction env as [|a env IH]; intros i H; cbn [gprod]; [reflexivity|]. destruct H as [H1 H2].
  rewrite H1. f_equal. now apply IH.
Qed.
Lemma gsolve env x y : coefs_eq x y 0 (length env) -> gden env x = gden env y.
Proof. intros H. rewrite !gden_gprod. now apply coefs_eq_gprod. Qed.
End UMod.

Arguments uv {n} _.

(** [umod_ring Hn]: prove an equation in the units modulo n by comparing, for every
    atom, the integer exponents with [ring]. *)
Ltac u_mem a l := lazymatch l with
  | nil => constr:(false) | a :: _ => constr:(true) | _ :: ?l' => u_mem a l' end.
Ltac u_idx a l := lazymatch l with
  | a :: _ => constr:(O) | _ :: ?l' => let i := u_idx a l' in constr:(S i) end.
Ltac u_atoms n Hn t env := lazymatch t with
  | umul n Hn ?x ?y => let e := u_atoms n Hn x env in u_atoms n Hn y e
  | uinv n Hn ?x => u_atoms n Hn x env
  | zpow n Hn ?x _ => u_atoms n Hn x env
  | u1 n Hn => env
  | ?a => lazymatch u_mem a env with true => env | false => constr:(a :: env) end
  end.
Ltac u_reify n Hn t env := lazymatch t with
  | umul n Hn ?x ?y => let a := u_reify n Hn x env in let b := u_reify n Hn y env in constr:(GMul a b)
  | uinv n Hn ?x => let a := u_reify n Hn x env in constr:(GInv a)
  | zpow n Hn ?x ?k => let a := u_reify n Hn x env in constr:(GPow a k)
  | u1 n Hn => constr:(GOne)
  | ?a => let i := u_idx a env in constr:(GVar i)
  end.
Ltac umod_coefs :=
  lazymatch goal with
  | |- @eq (U ?n) ?l ?r =>
      match l with context [umul n ?Hn _ _] => idtac | context [zpow n ?Hn _ _] => idtac | context [uinv n ?Hn _] => idtac | _ => idtac end;
      let Hn := match goal with |- context [umul n ?H _ _] => H | |- context [zpow n ?H _ _] => H | |- context [uinv n ?H _] => H end in
      let e0 := constr:(@nil (U n)) in
      let e1 := u_atoms n Hn l e0 in let e2 := u_atoms n Hn r e1 in
      let x := u_reify n Hn l e2 in let y := u_reify n Hn r e2 in
      change (gden n Hn e2 x = gden n Hn e2 y);
      apply gsolve; cbn [coefs_eq length gcoef Nat.eqb]; repeat split
  end.
Ltac umod_ring := umod_coefs; ring.

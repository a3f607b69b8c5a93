(** The prime field Z/p with canonical representatives, as an instance of [Alg]. *)
From Verif Require Import Base BnModel BnProofs Alg.
From Coq Require Import ZArith.Znumtheory Eqdep_dec.

Definition canon (p x : Z) : bool := (x mod p =? x).
Definition Fp (p : Z) : Type := { x : Z | canon p x = true }.
Definition fpv {p} (x : Fp p) : Z := proj1_sig x.

Lemma canon_mod p x : canon p (x mod p) = true.
Proof. unfold canon. apply Z.eqb_eq. destruct (Z.eq_dec p 0) as [->|H]; [now rewrite !Zmod_0_r|]. now apply Z.mod_mod. Qed.
Definition fp (p x : Z) : Fp p := exist _ (x mod p) (canon_mod p x).

Lemma fpv_inj p (x y : Fp p) : fpv x = fpv y -> x = y.
Proof.
  destruct x as [x Hx], y as [y Hy]. cbn. intros ->. f_equal.
  apply UIP_dec. apply bool_dec.
Qed.
Lemma fpv_fp p x : fpv (fp p x) = x mod p.
Proof. reflexivity. Qed.
Lemma fpv_canon p (x : Fp p) : fpv x mod p = fpv x.
Proof. destruct x as [x Hx]. cbn. now apply Z.eqb_eq. Qed.
Lemma fp_fpv p (x : Fp p) : fp p (fpv x) = x.
Proof. apply fpv_inj. rewrite fpv_fp. apply fpv_canon. Qed.
Lemma fpv_range p (x : Fp p) : 0 < p -> 0 <= fpv x < p.
Proof. intros Hp. rewrite <- fpv_canon. now apply Z.mod_pos_bound. Qed.
Lemma fp_eq p x y : fp p x = fp p y <-> x mod p = y mod p.
Proof.
  split; intros H; [now apply (f_equal fpv) in H|]. apply fpv_inj. exact H.
Qed.

Definition zinv (p x : Z) : Z := match bn_inverse x p with Ok y => y | Err _ => 0 end.

Definition FpOps (p : Z) : fieldOps := {|
  fcar := Fp p;
  f0 := fp p 0; f1 := fp p 1;
  fadd := fun x y => fp p (fpv x + fpv y);
  fmul := fun x y => fp p (fpv x * fpv y);
  fsub := fun x y => fp p (fpv x - fpv y);
  fopp := fun x => fp p (- fpv x);
  fdiv := fun x y => fp p (fpv x * zinv p (fpv y));
  finv := fun x => fp p (zinv p (fpv x));
  feqb := fun x y => fpv x =? fpv y
|}.

Canonical Structure FpOps.

Lemma prime_gcd p x : prime p -> 0 < x < p -> Z.gcd x p = 1.
Proof.
  intros Hp Hx. apply Zgcd_1_rel_prime. apply rel_prime_le_prime; [assumption|lia].
Qed.

Lemma zinv_spec p x : prime p -> x mod p = x -> x <> 0 -> (x * zinv p x) mod p = 1.
Proof.
  intros Hp Hc Hx. pose proof (prime_ge_2 p Hp).
  assert (0 <= x < p) by (rewrite <- Hc; apply Z.mod_pos_bound; lia).
  unfold zinv. destruct (bn_inverse_ok x p) as (y & -> & Hy & Hxy); try lia.
  - apply prime_gcd; [assumption|lia].
Qed.

Ltac fpz := intros; apply fpv_inj; cbn [fpv proj1_sig fp f0 f1 fadd fmul fsub fopp fdiv finv FpOps fcar];
  rewrite ?fpv_fp.

Lemma FpOps_laws p : prime p -> field_laws (FpOps p).
Proof.
  intros Hp. pose proof (prime_ge_2 p Hp) as H2. split.
  - constructor.
    + constructor; cbn [fcar f0 f1 fadd fmul fsub fopp fdiv finv feqb FpOps]; intros; apply fpv_inj; rewrite ?fpv_fp.
      * rewrite Zmod_0_l, Z.add_0_l. apply fpv_canon.
      * f_equal; lia.
      * rewrite Zplus_mod_idemp_r, Zplus_mod_idemp_l. f_equal; lia.
      * rewrite Z.mod_1_l, Z.mul_1_l by lia. apply fpv_canon.
      * f_equal; lia.
      * rewrite Zmult_mod_idemp_r, Zmult_mod_idemp_l. f_equal; lia.
      * rewrite Zmult_mod_idemp_l, <- Zplus_mod. f_equal; lia.
      * rewrite Zplus_mod_idemp_r. f_equal; lia.
      * rewrite Zplus_mod_idemp_r. f_equal; lia.
    + cbn [fcar f0 f1 fadd fmul fsub fopp fdiv finv feqb FpOps]. intros H. apply fp_eq in H. rewrite Z.mod_1_l, Z.mod_0_l in H; lia.
    + cbn [fcar f0 f1 fadd fmul fsub fopp fdiv finv feqb FpOps]. intros x y. apply fp_eq. now rewrite fpv_fp, Zmult_mod_idemp_r.
    + cbn [fcar f0 f1 fadd fmul fsub fopp fdiv finv feqb FpOps]. intros x Hx. apply fp_eq. rewrite fpv_fp, Zmult_mod_idemp_l, Z.mul_comm.
      rewrite zinv_spec; [now rewrite Z.mod_1_l by lia|assumption|apply fpv_canon|].
      intros E. apply Hx. apply fpv_inj. rewrite E, fpv_fp. now rewrite Z.mod_0_l by lia.
  - cbn. intros x y. rewrite Z.eqb_eq. split; [apply fpv_inj|now intros ->].
Qed.

(** [fp] is a ring homomorphism *)
Lemma fp_add p x y : fp p (x + y) = @fadd (FpOps p) (fp p x) (fp p y).
Proof. cbn [fcar f0 f1 fadd fmul fsub fopp fdiv finv feqb FpOps]. apply fp_eq. rewrite !fpv_fp. apply Zplus_mod. Qed.
Lemma fp_mul p x y : fp p (x * y) = @fmul (FpOps p) (fp p x) (fp p y).
Proof. cbn [fcar f0 f1 fadd fmul fsub fopp fdiv finv feqb FpOps]. apply fp_eq. rewrite !fpv_fp. apply Zmult_mod. Qed.
Lemma fp_sub p x y : fp p (x - y) = @fsub (FpOps p) (fp p x) (fp p y).
Proof. cbn [fcar f0 f1 fadd fmul fsub fopp fdiv finv feqb FpOps]. apply fp_eq. rewrite !fpv_fp. apply Zminus_mod. Qed.
Lemma fp_opp p x : fp p (- x) = @fopp (FpOps p) (fp p x).
Proof.
  cbn [fcar f0 f1 fadd fmul fsub fopp fdiv finv feqb FpOps]. apply fp_eq. rewrite !fpv_fp.
  replace (- (x mod p)) with (0 - x mod p) by lia. rewrite Zminus_mod_idemp_r. f_equal; lia.
Qed.
Lemma fp_mod p x : fp p (x mod p) = fp p x.
Proof. apply fp_eq. destruct (Z.eq_dec p 0) as [->|H]; [now rewrite !Zmod_0_r|]. now apply Z.mod_mod. Qed.
Lemma fp_0_iff p x : fp p x = @f0 (FpOps p) <-> x mod p = 0.
Proof. cbn. rewrite fp_eq. destruct (Z.eq_dec p 0) as [->|]; [now rewrite !Zmod_0_r|]. now rewrite Z.mod_0_l. Qed.

(** A concrete pairing curve for the examples: the field of [p] elements with
    multiplication as pairing. *)
From Verif Require Import Base BnModel BnProofs NumTheory Alg Fp ClRevModel ClRevSpec.
From Coq Require Import ZArith.Znumtheory.
Open Scope Z_scope.

Definition toy_curve (p : Z) : curve :=
  mkCurve (FpOps p) (self_mod (FpOps p)) (self_mod (FpOps p)) (self_mod (FpOps p)) fmul
    (fun x => [@fpv p x]) (fun x => [@fpv p x]) (fun x => [@fpv p x]) (fun z => fp p z) (fun x => @fpv p x).

Lemma toy_laws p : prime p -> p <= 2 ^ 256 -> curve_laws (toy_curve p).
Proof.
  intros Hp Hb. pose proof (FpOps_laws p Hp) as HK. pose proof (prime_ge_2 p Hp). constructor.
  - exact HK.
  - apply (self_mod_laws _ HK).
  - apply (self_mod_laws _ HK).
  - apply (self_mod_laws _ HK).
  - cbn [cG1 cG2 cGT toy_curve pair cK]. pose proof (proj1 HK) as [R _ _ _]. destruct R.
    split; [|split; [|split]]; intros a b c; cbn [madd smul self_mod mcar].
    + apply Rdistr_l.
    + rewrite (Rmul_comm a), (Rmul_comm a b), (Rmul_comm a c). apply Rdistr_l.
    + symmetry. apply Rmul_assoc.
    + rewrite (Rmul_comm b), (Rmul_comm b c). symmetry. apply Rmul_assoc.
  - intros x. cbn [toZ toy_curve]. pose proof (fpv_range p x ltac:(lia)). lia.
  - intros x. cbn [toZ ofZ toy_curve]. apply fp_fpv.
Qed.
Definition T257 := toy_curve 257.
Lemma T257_laws : curve_laws T257.
Proof. apply toy_laws; [apply prime_257|]. vm_compute. discriminate. Qed.

(** The functions of the CL protocol give the same results over both big-number
    backends: a relational argument.  [agree P a b] says that two computations are
    equal and that a value they return satisfies [P]. *)
From Coq Require Import String Znumtheory.
From Verif Require Import Base BnModel BnProofs BnOsslModel BnOsslLib HelpersModel StrMap ClModel ClSpec ClLib Alg ClRevModel ClProofModel ClOsslModel.
Local Open Scope string_scope.
Local Open Scope list_scope.
Local Open Scope Z_scope.

Definition agree {A} (P : A -> Prop) (a b : res A) : Prop := a = b /\ forall x, b = Ok x -> P x.

Lemma agree_ok {A} (P : A -> Prop) x : P x -> agree P (Ok x) (Ok x).
Proof. intros H. split; [reflexivity|]. now intros ? [= <-]. Qed.
Lemma agree_err {A} (P : A -> Prop) e : agree P (Err e) (Err e).
Proof. split; [reflexivity|discriminate]. Qed.
Lemma agree_refl {A} (a : res A) : agree (fun _ => True) a a.
Proof. split; auto. Qed.
Lemma agree_weaken {A} (P Q : A -> Prop) a b : (forall x, P x -> Q x) -> agree P a b -> agree Q a b.
Proof. intros H [E F]. split; auto. Qed.
Lemma agree_bind {A B} (P : A -> Prop) (Q : B -> Prop) a b f g :
  agree P a b -> (forall x, P x -> agree Q (f x) (g x)) -> agree Q (rbind a f) (rbind b g).
Proof.
  intros [-> F] H. destruct b as [x|e]; cbn [rbind]; [|apply agree_err]. apply H, F. reflexivity.
Qed.
Lemma agree_rfold {A S} (I : S -> Prop) (f g : S -> A -> res S) l : forall s, I s ->
  (forall s x, I s -> In x l -> agree I (f s x) (g s x)) -> agree I (rfold f l s) (rfold g l s).
Proof.
  induction l as [|x l IH]; intros s Hs H; cbn [rfold]; [now apply agree_ok|].
  eapply agree_bind; [apply H; [exact Hs|now left]|]. intros s' Hs'. apply IH; [exact Hs'|]. intros; apply H; [assumption|now right].
Qed.
Lemma agree_rmap {A B} (P : A -> B -> Prop) (f g : A -> res B) l :
  (forall x, In x l -> agree (P x) (f x) (g x)) -> agree (fun ys => Forall2 P l ys) (rmap f l) (rmap g l).
Proof.
  induction l as [|x l IH]; intros H; cbn [rmap]; [apply agree_ok; constructor|].
  eapply agree_bind; [apply H; now left|]. intros y Hy.
  eapply agree_bind; [apply IH; intros; apply H; now right|]. intros ys Hys. apply agree_ok. now constructor.
Qed.
Lemma agree_get {V} (P : V -> Prop) e k m : (forall v, sm_get k m = Some v -> P v) ->
  agree P (sm_get_or e k m) (sm_get_or e k m).
Proof. intros H. unfold sm_get_or. destruct (sm_get k m) eqn:E; [apply agree_ok; auto|apply agree_err]. Qed.
Lemma agree_index {V} (P : V -> Prop) k m : (forall v, sm_get k m = Some v -> P v) ->
  agree P (sm_index k m) (sm_index k m).
Proof. apply agree_get. Qed.

Lemma Forall2_right {A B} (P : A -> B -> Prop) (Q : B -> Prop) l l' :
  (forall x y, P x y -> Q y) -> Forall2 P l l' -> Forall Q l'.
Proof. intros H. induction 1; constructor; eauto. Qed.

(** an invertible non-negative number *)
Definition ui (n x : Z) : Prop := 0 <= x /\ Z.gcd x n = 1.
Lemma unit_ui n x : unit_mod n x -> ui n x.
Proof. intros [H G]. split; [lia|exact G]. Qed.
Lemma ui_nonneg n x : ui n x -> 0 <= x.
Proof. now intros []. Qed.
Lemma ui_nonzero n x : 2 <= n -> ui n x -> x <> 0.
Proof. intros Hn [_ G] ->. rewrite Z.gcd_0_l in G. lia. Qed.

Lemma gcd_mul_1 a b n : Z.gcd a n = 1 -> Z.gcd b n = 1 -> Z.gcd (a * b) n = 1.
Proof.
  intros Ha Hb. apply Zgcd_1_rel_prime. apply Zgcd_1_rel_prime in Ha, Hb.
  apply rel_prime_sym. apply rel_prime_mult; now apply rel_prime_sym.
Qed.
Lemma gcd_mod_n a n : 0 < n -> Z.gcd (a mod n) n = Z.gcd a n.
Proof. intros Hn. rewrite Z.gcd_mod by lia. apply Z.gcd_comm. Qed.
Lemma gcd_pow_1 a e n : Z.gcd a n = 1 -> 0 <= e -> Z.gcd (a ^ e) n = 1.
Proof.
  intros Ha He. pattern e. apply natlike_ind; [apply Z.gcd_1_l| |exact He].
  intros k Hk IH. rewrite Z.pow_succ_r by lia. now apply gcd_mul_1.
Qed.
Lemma ui_mod n x : 0 < n -> Z.gcd x n = 1 -> ui n (x mod n).
Proof. intros Hn G. split; [apply Z.mod_pos_bound; lia|]. now rewrite gcd_mod_n. Qed.

Section Ops.
Variable inv : Z -> Z -> res Z.
Hypothesis Hinv : mod_inverse_ok inv.
Variable n : Z.
Hypothesis Hn : 2 <= n.

Lemma inverse_unit a : agree (ui n) (ob_inverse inv a n) (ob_inverse inv a n).
Proof.
  split; [reflexivity|]. intros x E.
  destruct (ob_inverse_cases inv Hinv a n ltac:(lia)) as [(G & y & E' & Hy & M)|(G & E')]; rewrite E in E'; [|discriminate].
  injection E' as <-. rewrite Z.abs_eq in * by lia. split; [lia|].
  apply Zgcd_1_rel_prime. apply bezout_rel_prime.
  apply (Bezout_intro x n 1 a (- (a * x / n))). pose proof (Z.div_mod (a * x) n ltac:(lia)). lia.
Qed.
Lemma A_inv a : 0 <= a -> agree (ui n) (ob_inverse inv a n) (bn_inverse a n).
Proof.
  intros Ha. rewrite <- (ob_inverse_eq inv Hinv a n Ha ltac:(lia)). apply inverse_unit.
Qed.
Lemma A_mulN x y : agree (fun z => 0 <= z) (ob_mod_mul x y n) (bn_mod_mul x y n).
Proof.
  unfold ob_mod_mul. rewrite bn_nnmod_pos, bn_mod_mul_pos by lia. apply agree_ok. apply Z.mod_pos_bound; lia.
Qed.
Lemma A_mulU x y : Z.gcd x n = 1 -> Z.gcd y n = 1 -> agree (ui n) (ob_mod_mul x y n) (bn_mod_mul x y n).
Proof.
  intros Hx Hy. unfold ob_mod_mul. rewrite bn_nnmod_pos, bn_mod_mul_pos by lia. apply agree_ok. apply ui_mod; [lia|]. now apply gcd_mul_1.
Qed.
Lemma A_mulUU x y : ui n x -> ui n y -> agree (ui n) (ob_mod_mul x y n) (bn_mod_mul x y n).
Proof. intros [_ ?] [_ ?]. now apply A_mulU. Qed.
Lemma A_subN x y m : 0 < m -> agree (fun _ => True) (ob_mod_sub x y m) (bn_mod_sub x y m).
Proof. intros. unfold ob_mod_sub. rewrite bn_nnmod_pos, bn_mod_sub_pos by lia. apply agree_refl. Qed.
Lemma A_expN x e : 0 <= x -> agree (fun z => 0 <= z) (ob_mod_exp inv x e n) (bn_mod_exp x e n).
Proof.
  intros Hx. split; [apply ob_mod_exp_eq; auto; lia|]. intros y E.
  destruct (Z.lt_ge_cases e 0).
  - rewrite bn_mod_exp_neg in E by lia. apply rbind_ok in E as (i & _ & E). injection E as <-. apply Z.mod_pos_bound; lia.
  - rewrite bn_mod_exp_nonneg in E by lia. injection E as <-. apply Z.mod_pos_bound; lia.
Qed.
Lemma A_expU x e : ui n x -> agree (ui n) (ob_mod_exp inv x e n) (bn_mod_exp x e n).
Proof.
  intros [Hx G]. split; [apply ob_mod_exp_eq; auto; lia|]. intros y E.
  destruct (Z.lt_ge_cases e 0).
  - rewrite bn_mod_exp_neg in E by lia. apply rbind_ok in E as (i & Ei & E). injection E as <-.
    rewrite <- (ob_inverse_eq inv Hinv x n Hx ltac:(lia)) in Ei. destruct (inverse_unit x) as [_ U]. apply U in Ei as [_ Gi].
    rewrite Z.abs_eq by lia. apply ui_mod; [lia|]. apply gcd_pow_1; [exact Gi|lia].
  - rewrite bn_mod_exp_nonneg in E by lia. injection E as <-. rewrite Z.abs_eq by lia. apply ui_mod; [lia|]. now apply gcd_pow_1.
Qed.
Lemma A_divU z b : ui n z -> 0 <= b -> agree (ui n) (ob_mod_div inv z b n) (bn_mod_div z b n).
Proof.
  intros Hz Hb. unfold ob_mod_div, bn_mod_div. eapply agree_bind; [apply A_inv; exact Hb|]. intros i Hi. apply A_mulUU; assumption.
Qed.
Lemma A_bytes x : ui n x -> ob_to_bytes x = bn_to_bytes x.
Proof. intros H. apply ob_to_bytes_eq. now apply (ui_nonzero n). Qed.

Lemma A_pedU a x b y : ui n a -> ui n b ->
  agree (ui n) (o_get_pedersen_commitment inv a x b y n) (get_pedersen_commitment a x b y n).
Proof.
  intros Ha Hb. unfold o_get_pedersen_commitment, get_pedersen_commitment.
  eapply agree_bind; [apply A_expU; exact Ha|]. intros u Hu.
  eapply agree_bind; [apply A_expU; exact Hb|]. intros v Hv. now apply A_mulUU.
Qed.
End Ops.

(** failure of an inverse tells the number is not invertible *)
Lemma bn_inverse_ok_unit a n x : 0 <= a -> 2 <= n -> bn_inverse a n = Ok x -> Z.gcd a n = 1.
Proof.
  intros Ha Hn E. destruct (bn_inverse_cases a n Ha ltac:(lia)) as [(G & _)|(_ & E')]; [exact G|congruence].
Qed.

(** equality of big numbers *)
Lemma ob_eqb_spec_eq x y : ob_eqb x y = (x =? y).
Proof. apply ob_eqb_eq. Qed.

Lemma o_hash_eq H nums : o_get_hash_as_int H nums = get_hash_as_int H nums.
Proof. reflexivity. Qed.

(** the two top-level number helpers *)
Lemma o_bitwise_or_eq a b : 0 <= a -> 0 <= b -> o_bitwise_or_big_int a b = Ok (bitwise_or_big_int a b).
Proof.
  intros Ha Hb. unfold o_bitwise_or_big_int, bitwise_or_big_int. cbv zeta.
  change (ob_num_bits a) with (bn_num_bits a). change (ob_num_bits b) with (bn_num_bits b).
  generalize (seq 0 (Z.to_nat (Z.max (bn_num_bits a) (bn_num_bits b)))) as l.
  assert (G : forall l r, 0 <= r ->
    rfold (fun result i => if ob_is_bit_set a (Z.of_nat i) || ob_is_bit_set b (Z.of_nat i) then ob_set_bit result (Z.of_nat i) else Ok result) l r
    = Ok (fold_left (fun result i => if bn_is_bit_set a (Z.of_nat i) || bn_is_bit_set b (Z.of_nat i) then bn_set_bit result (Z.of_nat i) else result) l r)).
  { induction l as [|i l IH]; intros r Hr; cbn [rfold fold_left]; [reflexivity|].
    assert (B : forall x, 0 <= x -> ob_is_bit_set x (Z.of_nat i) = bn_is_bit_set x (Z.of_nat i)).
    { intros x Hx. rewrite bn_is_bit_set_spec by lia. unfold ob_is_bit_set. destruct (Z.ltb_spec (Z.of_nat i) 0); [lia|]. now rewrite Z.abs_eq by lia. }
    rewrite !B by assumption. destruct (bn_is_bit_set a (Z.of_nat i) || bn_is_bit_set b (Z.of_nat i)).
    - assert (S1 : ob_set_bit r (Z.of_nat i) = Ok (bn_set_bit r (Z.of_nat i))).
      { unfold ob_set_bit, bn_set_bit. destruct (Z.ltb_spec (Z.of_nat i) 0); [lia|]. destruct (Z.ltb_spec r 0); [lia|]. cbv zeta. now rewrite Z.abs_eq by lia. }
      rewrite S1. cbn [rbind]. apply IH. unfold bn_set_bit. apply Z.lor_nonneg. split; [exact Hr|].
      apply Z.shiftl_nonneg. lia.
    - cbn [rbind]. now apply IH. }
  intros l. apply G. lia.
Qed.

(** Agreement of the CL functions over the two backends, function by function. *)
From Coq Require Import String Znumtheory.
From Verif Require Import Base BnModel BnProofs BnOsslModel BnOsslLib HelpersModel StrMap ClModel ClSpec ClLib Alg ClRevModel ClProofModel ClOsslModel ClOsslLib.
Local Open Scope string_scope.
Local Open Scope list_scope.
Local Open Scope Z_scope.

Lemma F2_len {A B} (P : A -> B -> Prop) l l' : Forall2 P l l' -> length l = length l'.
Proof. induction 1; cbn [length]; congruence. Qed.

Lemma agree_bind2 {A B C A'} (P : B -> Prop) (Q : C -> Prop) (a : res A) (a' : res A') f f' g g' :
  agree P (rbind a f) (rbind a' f') -> (forall y, P y -> agree Q (g y) (g' y)) ->
  agree Q (rbind a (fun x => rbind (f x) g)) (rbind a' (fun x => rbind (f' x) g')).
Proof.
  intros Ha Hg.
  assert (E : forall X Y Z (r : res X) (h : X -> res Y) (k : Y -> res Z), rbind r (fun x => rbind (h x) k) = rbind (rbind r h) k) by (intros ? ? ? [] ? ?; reflexivity).
  rewrite !E. eapply agree_bind; eassumption.
Qed.
Lemma nth_app4 (a b : list Z) k d : length a = 4%nat -> (4 <= k)%nat -> nth k (a ++ b) d = nth (k - 4) b d.
Proof. intros L Hk. rewrite app_nth2 by lia. now rewrite L. Qed.

Section Key.
Variable inv : Z -> Z -> res Z.
Hypothesis Hinv : mod_inverse_ok inv.
Variable H : list Z -> list Z.
Variable isp : Z -> bool.
Variable pk : ppk.
Hypothesis Hpk : valid_pk pk.
Notation n := (pk_n pk).

Lemma Kn : 2 <= n. Proof. exact (vk_n _ Hpk). Qed.
Lemma Ks : ui n (pk_s pk). Proof. apply unit_ui, (vk_s _ Hpk). Qed.
Lemma Kz : ui n (pk_z pk). Proof. apply unit_ui, (vk_z _ Hpk). Qed.
Lemma Kc : ui n (pk_rctxt pk). Proof. apply unit_ui, (vk_rctxt _ Hpk). Qed.
Lemma Kr k r : sm_get k (pk_r pk) = Some r -> ui n r. Proof. intros E. eapply unit_ui, (vk_r _ Hpk), E. Qed.
Lemma K0 x : ui n x -> 0 <= x. Proof. apply ui_nonneg. Qed.
Hint Resolve Kn Ks Kz Kc Kr K0 : cl.
Hint Extern 1 (0 <= ?x) => (match goal with h : ui _ x |- _ => exact (proj1 h) end) : cl.

Ltac op :=
  first [ eapply A_expU; solve [eauto with cl]
        | eapply A_pedU; solve [eauto with cl]
        | eapply A_mulUU; solve [eauto with cl]
        | eapply A_divU; solve [eauto with cl]
        | eapply A_inv; solve [eauto with cl]
        | eapply A_expN; solve [eauto with cl]
        | eapply A_mulN; solve [eauto with cl]
        | apply (agree_index (ui n)); solve [eauto with cl]
        | apply (agree_get (ui n)); solve [eauto with cl] ].
Ltac step := eapply agree_bind; [op|]; intros ? ?; cbv beta.

Lemma bytes_map {A} (f : A -> Z) l : Forall (fun x => ui n (f x)) l -> map (fun x => ob_to_bytes (f x)) l = map (fun x => bn_to_bytes (f x)) l.
Proof. induction 1 as [|x l Hx _ IH]; cbn [map]; [reflexivity|]. rewrite IH, (A_bytes n Kn) by exact Hx. reflexivity. Qed.

(** key correctness *)
Lemma agree_check_key pr : agree (fun _ => True) (o_check_key_correctness_proof inv H pk pr) (check_key_correctness_proof H pk pr).
Proof.
  unfold o_check_key_correctness_proof, check_key_correctness_proof. cbv zeta.
  destruct (existsb _ _); [apply agree_err|]. destruct (existsb _ _); [apply agree_err|].
  step. step.
  eapply agree_bind.
  - apply (agree_rmap (fun _ rv => ui n (fst rv) /\ ui n (snd rv))). intros [k x1] _.
    step. step. step. apply agree_ok. cbn [fst snd]. split; assumption.
  - intros rs Hrs. cbv beta in Hrs.
    assert (F1 : Forall (fun rv : Z * Z => ui n (fst rv)) rs) by (eapply Forall2_right; [|exact Hrs]; cbv beta; tauto).
    assert (F2 : Forall (fun rv : Z * Z => ui n (snd rv)) rs) by (eapply Forall2_right; [|exact Hrs]; cbv beta; tauto).
    rewrite (bytes_map (fun rv : Z * Z => fst rv) rs F1), (bytes_map (fun rv : Z * Z => snd rv) rs F2).
    rewrite (A_bytes n Kn (pk_z pk) Kz). rewrite (A_bytes n Kn x0) by assumption.
    rewrite ob_eqb_eq, o_hash_eq. apply agree_refl.
Qed.

(** blinding *)
Definition committed_units (bl : blinded) : Prop := forall k v, In (k, v) (bl_committed bl) -> ui n v.

Lemma bt_insert_in {V} k (v : V) m k' v' : In (k', v') (bt_insert k v m) -> (k', v') = (k, v) \/ In (k', v') m.
Proof.
  induction m as [|[k0 v0] m IH]; cbn [bt_insert]; [intros [E|[]]; left; congruence|].
  destruct (String.compare k k0); cbn [In]; intros [E|E]; auto; try (left; congruence).
  destruct (IH E); auto.
Qed.

Lemma agree_blind vals v_prime :
  agree (fun bl => ui n (bl_u bl) /\ committed_units bl)
    (o_generate_blinded_primary_factors inv pk vals v_prime) (generate_blinded_primary_factors pk vals v_prime).
Proof.
  unfold o_generate_blinded_primary_factors, generate_blinded_primary_factors. cbv zeta.
  step.
  eapply agree_bind; [apply (agree_rfold (ui n)); [assumption|]|].
  - intros acc attr Hacc _. step. eapply agree_bind; [apply agree_refl|]. intros cv _. step. op.
  - intros u Hu. eapply agree_bind.
    + apply (agree_rfold (fun m => forall k v, In (k, v) m -> ui n v)); [intros ? ? []|].
      intros m [attr cv] Hm _. destruct cv; try (apply agree_ok; exact Hm).
      step. apply agree_ok. intros k v Hin. apply bt_insert_in in Hin as [E|E]; [|eauto].
      injection E as -> ->. assumption.
    + intros m Hm. apply agree_ok. split; [exact Hu|exact Hm].
Qed.

Lemma sm_get_in {V} k (m : smap V) v : sm_get k m = Some v -> In (k, v) m.
Proof.
  induction m as [|[k0 v0] m IH]; cbn [sm_get]; [discriminate|].
  destruct (String.eqb_spec k k0) as [->|]; [intros [= ->]; now left|right; auto].
Qed.

Lemma agree_blind_proof bl v_prime nonce vals v_dash_tilde m_t r_t :
  bl_u bl <> 0 -> nonce <> 0 -> (forall k v, In (k, v) (bl_committed bl) -> v <> 0) ->
  agree (fun _ => True) (o_new_blinded_correctness_proof inv H pk bl v_prime nonce vals v_dash_tilde m_t r_t)
    (new_blinded_correctness_proof H pk bl v_prime nonce vals v_dash_tilde m_t r_t).
Proof.
  intros Hu Hnon Hcom. unfold o_new_blinded_correctness_proof, new_blinded_correctness_proof. cbv zeta.
  step.
  eapply agree_bind; [apply (agree_rfold (fun st => ui n (fst (fst (fst st))))); [assumption|]|].
  - intros [[[u_tilde values] m_tildes] r_tildes] [attr cv] Hst _. cbn [fst] in Hst.
    step. destruct cv.
    + apply agree_ok. exact Hst.
    + step. step. apply agree_ok. cbn [fst]. assumption.
    + step. eapply agree_bind; [apply (agree_get (fun v => v <> 0)); intros v E; apply (Hcom attr v); now apply sm_get_in|].
      intros ca Hca. rewrite (ob_to_bytes_eq ca Hca). rewrite (A_bytes n Kn x1) by assumption. apply agree_ok. exact Hst.
  - intros [[[u_tilde values] m_tildes] r_tildes] Hst. cbn [fst] in Hst.
    rewrite (A_bytes n Kn u_tilde) by assumption. rewrite (ob_to_bytes_eq (bl_u bl) Hu), (ob_to_bytes_eq nonce Hnon).
    rewrite o_hash_eq. apply agree_refl.
Qed.

Lemma agree_check_blind bl pr nonce :
  0 <= bl_u bl -> nonce <> 0 -> (forall k v, In (k, v) (bl_committed bl) -> 0 <= v) ->
  agree (fun _ => True) (o_check_blinded_correctness_proof inv H bl pr nonce pk) (check_blinded_correctness_proof H bl pr nonce pk).
Proof.
  intros Hu Hnon Hcom.
  destruct (Z.eq_dec (Z.gcd (bl_u bl) n) 1) as [Gu|Gu].
  2:{ unfold o_check_blinded_correctness_proof, check_blinded_correctness_proof.
      rewrite (ob_inverse_eq inv Hinv) by (try assumption; pose proof Kn; lia).
      rewrite bn_inverse_err by (try assumption; pose proof Kn; lia). apply agree_err. }
  assert (Uu : ui n (bl_u bl)) by (split; assumption).
  unfold o_check_blinded_correctness_proof, check_blinded_correctness_proof. cbv zeta.
  step. step. step. step.
  eapply agree_bind; [apply (agree_rfold (ui n)); [assumption|]|].
  - intros acc attr Hacc _. step. eapply agree_bind; [apply agree_refl|]. intros cv _. step. op.
  - intros u_cap Hucap. eapply agree_bind.
    + apply (agree_rfold (fun _ => True)); [exact I|]. intros vals [key value] _ Hin.
      eapply agree_bind; [apply agree_refl|]. intros m_cap _.
      pose proof (Hcom key value Hin) as Hv.
      destruct (Z.eq_dec (Z.gcd value n) 1) as [Gv|Gv].
      2:{ rewrite (ob_inverse_eq inv Hinv) by (try assumption; pose proof Kn; lia).
          rewrite bn_inverse_err by (try assumption; pose proof Kn; lia). apply agree_err. }
      assert (Uv : ui n value) by (split; assumption).
      step. step. eapply agree_bind; [apply agree_refl|]. intros r_cap _. step. step.
      rewrite (A_bytes n Kn value Uv), (A_bytes n Kn x6) by assumption. apply agree_refl.
    + intros values _. rewrite (A_bytes n Kn u_cap), (A_bytes n Kn (bl_u bl)), (ob_to_bytes_eq nonce) by assumption.
      rewrite ob_eqb_eq, o_hash_eq. apply agree_refl.
Qed.

(** signing *)
Lemma agree_sign_primary sk ctx vals v bl e : 0 <= bl_u bl -> 0 <= e -> 2 <= sk_p sk * sk_q sk ->
  agree (fun aq => ui n (fst aq) /\ ui n (snd aq)) (o_sign_primary_credential inv pk sk ctx vals v bl e) (sign_primary_credential pk sk ctx vals v bl e).
Proof.
  intros Hu He Hpq. unfold o_sign_primary_credential, sign_primary_credential. cbv zeta.
  step.
  eapply agree_bind with (P := fun x => 0 <= x).
  { rewrite ob_eqb_eq. destruct (bl_u bl =? 0); [apply agree_ok; eauto with cl|op]. }
  intros rx1 Hrx1. cbv beta in Hrx1. step. step.
  eapply agree_bind; [apply (agree_rfold (fun x => 0 <= x)); [assumption|]|].
  - intros rx [key attr] Hrx _. step. step. op.
  - intros rx2 Hrx2. cbv beta in Hrx2. step.
    unfold ob_mul, bn_mul.
    eapply agree_bind; [apply (A_inv inv Hinv _ Hpq e He)|]. intros ei Hei.
    eapply agree_bind; [apply (A_expU inv Hinv n Kn); eassumption|]. intros a Ha. apply agree_ok. cbn [fst snd]. split; eauto with cl.
Qed.

Lemma agree_new_scp sk sg q nonce r : ui n q -> ui n (sg_a sg) -> nonce <> 0 -> 0 <= sg_e sg -> 2 <= sk_p sk * sk_q sk ->
  agree (fun _ => True) (o_new_signature_correctness_proof inv H pk sk sg q nonce r) (new_signature_correctness_proof H pk sk sg q nonce r).
Proof.
  intros Hq Ha Hnon He Hpq. unfold o_new_signature_correctness_proof, new_signature_correctness_proof. cbv zeta.
  step. rewrite (A_bytes n Kn q), (A_bytes n Kn (sg_a sg)), (A_bytes n Kn x), (ob_to_bytes_eq nonce) by assumption. rewrite o_hash_eq.
  unfold ob_mul, bn_mul.
  eapply agree_bind; [apply (A_inv inv Hinv _ Hpq _ He)|]. intros ei Hei.
  eapply agree_bind; [apply (A_mulN _ Hpq)|]. intros ce _.
  eapply agree_bind; [apply (A_subN r ce (sk_p sk * sk_q sk)); lia|]. intros se _. apply agree_refl.
Qed.

Lemma gcd_dvd_1 d n x : Z.gcd x n = 1 -> (d | x) -> (d | n) -> (d | 1).
Proof. intros G. rewrite <- G. apply Z.gcd_greatest. Qed.
(** a power with an invertible value has an invertible base *)
Lemma exp_unit_base m x e y : 2 <= m -> 0 <= x -> e <> 0 -> bn_mod_exp x e m = Ok y -> Z.gcd y m = 1 -> Z.gcd x m = 1.
Proof.
  intros Hm Hx He E G. destruct (Z.lt_ge_cases e 0).
  - rewrite bn_mod_exp_neg in E by lia. apply rbind_ok in E as (i & Ei & E). apply (bn_inverse_ok_unit x m i Hx Hm Ei).
  - rewrite bn_mod_exp_nonneg in E by lia. injection E as <-. rewrite Z.abs_eq in G by lia. rewrite gcd_mod_n in G by lia.
    assert (D : (Z.gcd x m | 1)).
    { apply (gcd_dvd_1 _ m (x ^ e) G); [|apply Z.gcd_divide_r].
      replace e with (Z.succ (e - 1)) by lia. rewrite Z.pow_succ_r by lia. apply Z.divide_mul_l, Z.gcd_divide_l. }
    apply Z.divide_1_r_nonneg in D; [exact D|apply Z.gcd_nonneg].
Qed.
Lemma mul_unit_r m x y : 2 <= m -> Z.gcd ((x * y) mod m) m = 1 -> Z.gcd y m = 1.
Proof.
  intros Hm G. rewrite gcd_mod_n in G by lia.
  assert (D : (Z.gcd y m | 1)).
  { apply (gcd_dvd_1 _ m (x * y) G); [|apply Z.gcd_divide_r]. apply Z.divide_mul_r, Z.gcd_divide_l. }
  apply Z.divide_1_r_nonneg in D; [exact D|apply Z.gcd_nonneg].
Qed.

Lemma agree_check_scp sg vals sp nonce : 0 <= sg_a sg -> nonce <> 0 -> isp 0 = false ->
  agree (fun _ => True) (o_check_signature_correctness_proof inv H isp sg vals sp pk nonce) (check_signature_correctness_proof H isp sg vals sp pk nonce).
Proof.
  intros Ha Hnon H0. unfold o_check_signature_correctness_proof, check_signature_correctness_proof. cbv zeta.
  destruct (isp (sg_e sg)) eqn:He; cbn [negb]; [|apply agree_err]. destruct (existsb _ _); [apply agree_err|].
  assert (Ne : sg_e sg <> 0) by congruence.
  step.
  eapply agree_bind; [apply (agree_rfold (ui n)); [assumption|]|].
  - intros acc [attr value] Hacc _. step. step. op.
  - intros rx Hrx. eapply agree_bind; [op|]. intros q Hq.
    destruct (A_expN inv Hinv n Kn (sg_a sg) (sg_e sg) Ha) as [E1 _]. rewrite E1. clear E1.
    destruct (bn_mod_exp (sg_a sg) (sg_e sg) n) as [eq|e] eqn:E; cbn [rbind]; [|apply agree_err].
    rewrite ob_eqb_eq. destruct (Z.eqb_spec q eq) as [<-|]; cbn [negb]; [|apply agree_err].
    assert (Ua : ui n (sg_a sg)) by (split; [exact Ha|]; apply (exp_unit_base n _ _ q Kn Ha Ne E); apply Hq).
    step. rewrite (A_bytes n Kn q), (A_bytes n Kn (sg_a sg)), (A_bytes n Kn x0), (ob_to_bytes_eq nonce) by assumption.
    rewrite ob_eqb_eq, o_hash_eq. apply agree_refl.
Qed.

(** ** presentation *)
Definition up (x y : Z) : Prop := 0 <= y /\ (Z.gcd x n = 1 -> Z.gcd y n = 1).
Lemma agree_calc_teq a_prime e v m_tilde m2 un : 0 <= a_prime ->
  agree (up a_prime) (o_calc_teq inv pk a_prime e v m_tilde m2 un) (calc_teq pk a_prime e v m_tilde m2 un).
Proof.
  intros Ha.
  assert (M : forall y r, ui n y -> up a_prime r -> agree (up a_prime) (ob_mod_mul y r n) (bn_mod_mul y r n)).
  { intros y r Hy [Hr1 Hr2]. destruct (A_mulN n Kn y r) as [E P]. split; [exact E|]. intros x Ex. split; [now apply P|].
    intros G. destruct (A_mulUU n Kn y r Hy (conj Hr1 (Hr2 G))) as [_ Q]. now apply Q. }
  unfold o_calc_teq, calc_teq.
  eapply agree_bind with (P := up a_prime).
  { destruct (A_expN inv Hinv n Kn a_prime e Ha) as [E P]. split; [exact E|]. intros x Ex. split; [now apply P|].
    intros G. destruct (A_expU inv Hinv n Kn a_prime e (conj Ha G)) as [_ Q]. now apply Q. }
  intros r0 Hr0. eapply agree_bind; [apply (agree_rfold (up a_prime)); [assumption|]|].
  - intros acc k Hacc _. step. eapply agree_bind; [apply agree_refl|]. intros m _. step. now apply M.
  - intros r Hr. step. eapply agree_bind; [apply M; [assumption|exact Hr]|]. intros r2 Hr2. step. now apply M.
Qed.

Lemma set_negative_eq x : ob_set_negative x true = bn_set_negative x true.
Proof. apply ob_set_negative_eq. Qed.

Definition t_nonneg (t : smap Z) : Prop := forall k v, sm_get k t = Some v -> 0 <= v.
Definition tne_ok (t : smap Z) (l : list Z) : Prop := exists taus tt q, l = taus ++ [tt; q] /\ length taus = 4%nat /\ Forall (ui n) taus /\ ui n tt
  /\ 0 <= q /\ ((forall k, In k iter_keys -> exists v, sm_get k t = Some v /\ Z.gcd v n = 1) -> Z.gcd q n = 1).

Lemma agree_calc_tne u r mj alpha t less : t_nonneg t ->
  agree (tne_ok t) (o_calc_tne inv pk u r mj alpha t less) (calc_tne pk u r mj alpha t less).
Proof.
  intros Ht. unfold o_calc_tne, calc_tne. cbv zeta.
  eapply agree_bind; [apply (agree_rmap (fun _ y => ui n y))|].
  { intros i _. eapply agree_bind; [apply agree_refl|]. intros cu _. eapply agree_bind; [apply agree_refl|]. intros cr _. step. step. op. }
  intros taus Htaus. eapply agree_bind; [apply agree_refl|]. intros delta _.
  rewrite set_negative_eq. step. step. step.
  pose (Q := fun q => 0 <= q /\ ((forall k, In k iter_keys -> exists v, sm_get k t = Some v /\ Z.gcd v n = 1) -> Z.gcd q n = 1)).
  eapply agree_bind; [apply (agree_rfold Q)|].
  - split; [lia|]. intros _. apply Z.gcd_1_l.
  - intros q i [Hq1 Hq2] Hi. eapply agree_bind; [apply (agree_get (fun v => sm_get i t = Some v)); auto|]. intros ct Hct.
    eapply agree_bind; [apply agree_refl|]. intros cu _.
    eapply agree_bind with (P := fun y => 0 <= y /\ (Z.gcd ct n = 1 -> Z.gcd y n = 1)).
    { pose proof (Ht _ _ Hct) as H0'. destruct (A_expN inv Hinv n Kn ct cu H0') as [E P]. split; [exact E|]. intros y Ey. split; [now apply P|].
      intros G. destruct (A_expU inv Hinv n Kn ct cu (conj H0' G)) as [_ P']. now apply P'. }
    intros y [Hy1 Hy2]. apply agree_ok. unfold bn_mul. split; [lia|]. intros A. apply gcd_mul_1; [|now apply Hq2].
    apply Hy2. destruct (A i Hi) as (v & Ev & Gv). congruence.
  - intros q [Hq1 Hq2]. step.
    eapply agree_bind with (P := Q).
    { destruct (A_mulN n Kn x2 q) as [E P]. split; [exact E|]. intros y Ey. split; [now apply P|]. intros G.
      destruct (A_mulU n Kn x2 q (proj2 H3) (Hq2 G)) as [_ P']. now apply P'. }
    intros q' [Hq1' Hq2']. apply agree_ok. exists taus, x1, q'. split; [reflexivity|]. split.
    { exact (eq_sym (F2_len _ _ _ Htaus)). }
    split; [eapply Forall2_right; [|exact Htaus]; cbv beta; auto|]. auto.
Qed.

Lemma agree_init_eq common c1 schema non_schema req m2_t rnd : ui n (sg_a c1) ->
  agree (fun i => ui n (ei_a_prime i) /\ ui n (ei_t i)) (o_init_eq_proof inv common pk c1 schema non_schema req m2_t rnd)
    (init_eq_proof common pk c1 schema non_schema req m2_t rnd).
Proof.
  intros Ha. unfold o_init_eq_proof, init_eq_proof. cbv zeta. step. step.
  eapply agree_bind; [apply agree_calc_teq; eauto with cl|]. intros t [Ht1 Ht2]. apply agree_ok. cbn [ei_a_prime ei_t].
  split; [assumption|]. split; [exact Ht1|]. apply Ht2. now destruct H1.
Qed.

Lemma hm_insert_get {V} k (v : V) m k' : sm_get k' (hm_insert k v m) = if String.eqb k' k then Some v else sm_get k' m.
Proof. apply sm_get_hm_insert. Qed.

Lemma agree_init_ne m_tilde vals p rnd :
  agree (fun i => Forall (ui n) (ni_c_list i) /\ Forall (ui n) (ni_tau_list i) /\ forall k v, sm_get k (ni_t i) = Some v -> ui n v)
    (o_init_ne_proof inv pk m_tilde vals p rnd) (init_ne_proof pk m_tilde vals p rnd).
Proof.
  unfold o_init_ne_proof, init_ne_proof. cbv zeta.
  eapply agree_bind; [apply agree_refl|]. intros cv _. eapply agree_bind; [apply agree_refl|]. intros av _.
  destruct (_ <? 0); [apply agree_err|]. eapply agree_bind; [apply agree_refl|]. intros [[[u0 u1] u2] u3] _.
  pose (I := fun st : smap Z * smap Z * list Z => Forall (ui n) (snd st) /\ forall k v, sm_get k (snd (fst st)) = Some v -> ui n v).
  pose (J := fun st : smap Z * smap Z * list Z => I st /\ forall k, In k iter_keys -> exists v, sm_get k (snd (fst st)) = Some v).
  eapply agree_bind with (P := J).
  - assert (S : forall l st, I st -> (forall k, In k iter_keys -> In k l \/ exists v, sm_get k (snd (fst st)) = Some v) ->
      agree J (rfold (fun '(r, t, c_list) i =>
        let! cur_u := sm_get_or InvalidStructure i [("0", u0); ("1", u1); ("2", u2); ("3", u3)] in
        let cur_r := nr_r rnd i in
        let! cut_t := o_get_pedersen_commitment inv (pk_z pk) cur_u (pk_s pk) cur_r (pk_n pk) in
        Ok (hm_insert i cur_r r, hm_insert i cut_t t, c_list ++ [cut_t])) l st)
       (rfold (fun '(r, t, c_list) i =>
        let! cur_u := sm_get_or InvalidStructure i [("0", u0); ("1", u1); ("2", u2); ("3", u3)] in
        let cur_r := nr_r rnd i in
        let! cut_t := get_pedersen_commitment (pk_z pk) cur_u (pk_s pk) cur_r (pk_n pk) in
        Ok (hm_insert i cur_r r, hm_insert i cut_t t, c_list ++ [cut_t])) l st)).
    { induction l as [|i l IH]; intros st Hst Hk; cbn [rfold].
      - apply agree_ok. split; [exact Hst|]. intros k Hi. destruct (Hk k Hi) as [[]|E]. exact E.
      - destruct st as [[r t] cl]. destruct Hst as [H1 H2]. cbn [fst snd] in H1, H2.
        eapply agree_bind with (P := fun st : smap Z * smap Z * list Z => I st /\ forall k, In k iter_keys -> In k l \/ exists v, sm_get k (snd (fst st)) = Some v).
        + eapply agree_bind; [apply agree_refl|]. intros cu _. cbv zeta. step. apply agree_ok. split.
          * split; cbn [fst snd]; [apply Forall_app; split; auto|]. intros k v. rewrite hm_insert_get. destruct (String.eqb k i); [intros [= <-]; assumption|apply H2].
          * intros k Hi. cbn [fst snd]. rewrite hm_insert_get. destruct (String.eqb_spec k i) as [->|N]; [right; eauto|].
            destruct (Hk k Hi) as [[E|E]|E]; [congruence|left; exact E|right; exact E].
        + intros st' [A B]. now apply IH. }
    apply S; [split; cbn [fst snd]; [constructor|discriminate]|]. intros k Hi. now left.
  - intros [[r t] cl] [[H1 H2] H3]. cbn [fst snd] in *. eapply agree_bind; [op|]. intros td Htd.
    eapply agree_bind; [apply agree_refl|]. intros mj _.
    assert (T : forall k v, sm_get k (hm_insert "DELTA" td t) = Some v -> ui n v).
    { intros k v. rewrite hm_insert_get. destruct (String.eqb k "DELTA"); [intros [= <-]; assumption|apply H2]. }
    eapply agree_bind; [apply agree_calc_tne; intros k v E; apply (proj1 (T k v E))|].
    intros tau (taus & tt & q & -> & L & F & Htt & Hq & G). apply agree_ok. cbn [ni_c_list ni_tau_list ni_t].
    split; [apply Forall_app; split; auto|]. split; [|exact T].
    apply Forall_app; split; [exact F|]. constructor; [exact Htt|]. constructor; [|constructor]. split; [exact Hq|]. apply G.
    intros k Hk. destruct (H3 k Hk) as [v Ev]. rewrite hm_insert_get.
    destruct (String.eqb k "DELTA"); [exists td; split; [reflexivity|apply Htd]|]. exists v. split; [exact Ev|apply (H2 k v Ev)].
Qed.

Definition pinit_units (i : pinit) : Prop := ui n (ei_a_prime (pi_eq i)) /\ ui n (ei_t (pi_eq i)) /\
  Forall (fun ne => Forall (ui n) (ni_c_list ne) /\ Forall (ui n) (ni_tau_list ne) /\ t_nonneg (ni_t ne)) (pi_ne i).
Lemma agree_init_primary common c1 vals schema non_schema req m2_t rnd nrnd : ui n (sg_a c1) ->
  agree pinit_units (o_init_primary_proof inv common pk c1 vals schema non_schema req m2_t rnd nrnd)
    (init_primary_proof common pk c1 vals schema non_schema req m2_t rnd nrnd).
Proof.
  intros Ha. unfold o_init_primary_proof, init_primary_proof.
  eapply agree_bind; [now apply agree_init_eq|]. intros ie [H1 H2].
  eapply agree_bind; [apply (agree_rmap (fun _ i => Forall (ui n) (ni_c_list i) /\ Forall (ui n) (ni_tau_list i) /\ t_nonneg (ni_t i)))|].
  { intros p _. eapply agree_weaken; [|apply agree_init_ne]. cbv beta. intros i (A & B & D). repeat split; auto. intros k v E. exact (proj1 (D k v E)). }
  intros ns Hns. apply agree_ok. split; [exact H1|]. split; [exact H2|]. eapply Forall2_right; [|exact Hns]. cbv beta. tauto.
Qed.
Lemma bytes_map' l : Forall (ui n) l -> map ob_to_bytes l = map bn_to_bytes l.
Proof. intros F. exact (bytes_map (fun x => x) l F). Qed.
Lemma pinit_lists_eq i : pinit_units i -> o_pinit_c_list i = pinit_c_list i /\ o_pinit_tau_list i = pinit_tau_list i.
Proof.
  intros (H1 & H2 & H3). unfold o_pinit_c_list, pinit_c_list, o_pinit_tau_list, pinit_tau_list.
  rewrite (A_bytes n Kn (ei_a_prime (pi_eq i)) H1), (A_bytes n Kn (ei_t (pi_eq i)) H2). split; do 2 f_equal; apply map_ext_in; intros ne Hin; apply bytes_map';
    rewrite Forall_forall in H3; now apply H3.
Qed.

(** verifier *)
Lemma agree_verify_equality proof c_hash schema non_schema req : 0 <= ep_a_prime proof ->
  agree (Forall (ui n)) (o_verify_equality inv pk proof c_hash schema non_schema req) (verify_equality pk proof c_hash schema non_schema req).
Proof.
  intros Ha. unfold o_verify_equality, verify_equality. cbv zeta.
  eapply agree_bind; [now apply agree_calc_teq|]. intros t1 [Ht1 Ut1].
  pose (D := fun y => 0 <= y /\ (Z.gcd y n = 1 -> Z.gcd (ep_a_prime proof) n = 1)).
  eapply agree_bind with (P := D).
  { destruct (A_expN inv Hinv n Kn (ep_a_prime proof) LARGE_E_START_VALUE Ha) as [E P]. split; [exact E|]. intros y Ey. split; [now apply P|].
    apply (exp_unit_base n (ep_a_prime proof) LARGE_E_START_VALUE y Kn Ha); [discriminate|exact Ey]. }
  intros r0 Hr0. eapply agree_bind; [apply (agree_rfold D); [exact Hr0|]|].
  - intros acc [attr ev] [Hacc Gacc] _. step. step. destruct (A_mulN n Kn x0 acc) as [E P]. split; [exact E|]. intros y Ey. split; [now apply P|].
    intros G. apply Gacc. rewrite bn_mod_mul_pos in Ey by (pose proof Kn; lia). injection Ey as <-. apply (mul_unit_r n x0 acc Kn G).
  - intros rar [Hrar Grar].
    eapply agree_bind with (P := fun x => ui n x /\ Z.gcd (ep_a_prime proof) n = 1).
    { destruct (A_divU inv Hinv n Kn (pk_z pk) rar Kz Hrar) as [E P]. split; [exact E|]. intros x Ex. split; [now apply P|].
      unfold bn_mod_div in Ex. apply rbind_ok in Ex as (i & Ei & _). apply Grar. apply (bn_inverse_ok_unit rar n i Hrar Kn Ei). }
    intros x [Hx Gx]. eapply agree_bind; [apply (A_inv inv Hinv n Kn); apply Hx|]. intros x' Hx'. step.
    eapply agree_bind; [apply (A_mulUU n Kn t1 x0); [split; auto|assumption]|]. intros t Ht. apply agree_ok. auto.
Qed.

Lemma agree_verify_ne proof c_hash : t_nonneg (np_t proof) -> c_hash <> 0 ->
  agree (Forall (ui n)) (o_verify_ne_predicate inv pk proof c_hash) (verify_ne_predicate pk proof c_hash).
Proof.
  intros Ht Hc. unfold o_verify_ne_predicate, verify_ne_predicate. cbv zeta.
  eapply agree_bind; [now apply agree_calc_tne|]. intros tau (taus & tt & q & -> & L & F & Htt & Hq & G).
  assert (Tu : forall t y i, 0 <= t -> bn_mod_exp t c_hash n = Ok y -> bn_inverse y n = Ok i -> Z.gcd t n = 1).
  { intros t y i H0' E1 E2. apply (exp_unit_base n t c_hash y Kn H0' Hc E1).
    apply (bn_inverse_ok_unit y n i); [|exact Kn|exact E2]. destruct (A_expN inv Hinv n Kn t c_hash H0') as [_ P]. now apply P. }
  assert (TI : forall t, 0 <= t -> agree (fun i => ui n i /\ Z.gcd t n = 1)
      (let! x := ob_mod_exp inv t c_hash n in ob_inverse inv x n) (let! x := bn_mod_exp t c_hash n in bn_inverse x n)).
  { intros t H0'. destruct (A_expN inv Hinv n Kn t c_hash H0') as [E P]. rewrite E. destruct (bn_mod_exp t c_hash n) as [y|] eqn:Ey; cbn [rbind]; [|apply agree_err].
    destruct (A_inv inv Hinv n Kn y (P y eq_refl)) as [E2 P2]. split; [exact E2|]. intros i Ei. split; [now apply P2|]. now apply (Tu t y i). }
  eapply agree_bind with (P := fun ys => Forall (ui n) ys /\ forall k, In k iter_keys -> exists v, sm_get k (np_t proof) = Some v /\ Z.gcd v n = 1).
  - assert (L4 : firstn ITERATION (taus ++ [tt; q]) = taus).
    { change ITERATION with 4%nat. rewrite <- L. rewrite firstn_app, Nat.sub_diag, firstn_all. cbn [firstn]. apply app_nil_r. }
    rewrite L4.
    pose proof (agree_rmap (fun (it : string * Z) y => ui n y /\ exists v, sm_get (fst it) (np_t proof) = Some v /\ Z.gcd v n = 1)
       (fun '(i, tau) => let! cur_t := sm_get_or ProofRejected i (np_t proof) in
          let! x := ob_mod_exp inv cur_t c_hash n in let! y := ob_inverse inv x n in ob_mod_mul y tau n)
       (fun '(i, tau) => let! cur_t := sm_get_or ProofRejected i (np_t proof) in
          let! x := bn_mod_exp cur_t c_hash n in let! y := bn_inverse x n in bn_mod_mul y tau n)
       (combine iter_keys taus)) as R.
    eapply agree_weaken; [|apply R].
    + intros ys F2. cbv beta in F2. split; [eapply Forall2_right; [|exact F2]; cbv beta; tauto|].
      intros k Hk. destruct taus as [|a0 [|a1 [|a2 [|a3 [|? ?]]]]]; try discriminate L.
      cbn [iter_keys combine] in F2.
      inversion F2 as [|? ? ? ? [_ E0] F3]; subst. inversion F3 as [|? ? ? ? [_ E1] F4]; subst.
      inversion F4 as [|? ? ? ? [_ E2] F5]; subst. inversion F5 as [|? ? ? ? [_ E3] F6]; subst. cbn [fst] in *.
      cbn [iter_keys In] in Hk. destruct Hk as [<-|[<-|[<-|[<-|[]]]]]; assumption.
    + intros [i tau] Hin. pose proof (in_combine_r _ _ _ _ Hin) as Htau. rewrite Forall_forall in F. specialize (F tau Htau).
      eapply agree_bind; [apply (agree_get (fun v => sm_get i (np_t proof) = Some v)); auto|]. intros ct Hct.
      eapply agree_bind2; [apply TI, (Ht i ct Hct)|]. intros y [Hy Gt].
      eapply agree_weaken; [|apply (A_mulUU n Kn y tau Hy F)]. intros z Hz. split; [exact Hz|]. exists ct. cbn [fst]. auto.
  - intros firsts [Hf Hall].
    eapply agree_bind; [apply (agree_get (fun v => sm_get "DELTA" (np_t proof) = Some v)); auto|]. intros delta Hd.
    pose proof (Ht _ _ Hd) as Hd0.
    eapply agree_bind with (P := fun d => 0 <= d).
    { destruct (is_less _); [|now apply agree_ok]. eapply agree_weaken; [|now apply (A_inv inv Hinv n Kn)]. apply ui_nonneg. }
    intros dp Hdp. cbv beta in Hdp. step.
    unfold ob_mul, bn_mul.
    eapply agree_bind2; [apply TI; destruct H0; nia|]. intros x' [Hx' _].
    rewrite !(nth_app4 taus [tt; q]) by (try exact L; unfold ITERATION; lia). change (ITERATION - 4)%nat with 0%nat. change (ITERATION + 1 - 4)%nat with 1%nat. cbn [nth].
    eapply agree_bind; [apply (A_mulUU n Kn x' tt Hx' Htt)|]. intros t4 Ht4.
    eapply agree_bind2; [apply TI; exact Hd0|]. intros y [Hy _].
    eapply agree_bind; [apply (A_mulUU n Kn y q Hy); split; [exact Hq|now apply G]|]. intros t5 Ht5.
    apply agree_ok. apply Forall_app. auto.
Qed.

Lemma agree_verify_primary c_hash proof schema non_schema req :
  0 <= ep_a_prime (pp_eq proof) -> Forall (fun ne => t_nonneg (np_t ne)) (pp_ne proof) -> c_hash <> 0 ->
  agree (Forall (ui n)) (o_verify_primary_proof inv pk c_hash proof schema non_schema req) (verify_primary_proof pk c_hash proof schema non_schema req).
Proof.
  intros Ha Ht Hc. unfold o_verify_primary_proof, verify_primary_proof.
  eapply agree_bind; [now apply agree_verify_equality|]. intros th Hth.
  eapply agree_bind; [apply (agree_rmap (fun _ l => Forall (ui n) l))|].
  { intros ne Hne. rewrite Forall_forall in Ht. apply agree_verify_ne; auto. }
  intros rest Hr. apply agree_ok. apply Forall_app. split; [exact Hth|]. apply Forall_concat. eapply Forall2_right; [|exact Hr]. auto.
Qed.

(** the key correctness proof *)
Lemma agree_new_kcp sk meta xzd xrd : NoDup (sm_keys (pk_r pk)) ->
  agree (fun _ => True) (o_new_key_correctness_proof inv H pk sk meta xzd xrd) (new_key_correctness_proof H pk sk meta xzd xrd).
Proof.
  intros ND. unfold o_new_key_correctness_proof, new_key_correctness_proof. cbv zeta.
  change (o_gen_x (sk_p sk) (sk_q sk)) with (gen_x (sk_p sk) (sk_q sk)). step.
  eapply agree_bind; [apply (agree_rfold (fun m => forall k v, sm_get k m = Some v -> ui n v)); [discriminate|]|].
  - intros m [k x0] Hm _. step. apply agree_ok. intros k' v. rewrite hm_insert_get. destruct (String.eqb k' k); [intros [= <-]; assumption|apply Hm].
  - intros rt Hrt. eapply agree_bind; [apply (agree_rmap (fun _ _ => True))|].
    + intros a _. eapply agree_bind; [apply (agree_index (ui n)); intros v E; exact (Hrt a v E)|]. intros v Hv. rewrite (A_bytes n Kn v Hv). now apply agree_ok.
    + intros tail _. rewrite (A_bytes n Kn (pk_z pk) Kz), (A_bytes n Kn x) by assumption.
      assert (F : Forall (fun kv : string * Z => ui n (snd kv)) (pk_r pk)).
      { apply Forall_forall. intros [k v] Hin. cbn [snd]. apply (Kr k v). now apply sm_in_get. }
      rewrite (bytes_map (fun kv : string * Z => snd kv) (pk_r pk) F). rewrite o_hash_eq. apply agree_refl.
Qed.
End Key.

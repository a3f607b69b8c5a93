(** Properties C63-C64: byte formats of the BBS+ crate. *)
From Verif Require Import Base BnModel NumTheory Alg Lin Fp ClRevModel ClRevSpec CurveInst BbsModel BbsLib BbsProps BbsCodecModel.
Import List ListNotations.
From Coq Require Import Sorted.
Open Scope list_scope.
Open Scope Z_scope.

(** the encodings of points and scalars: fixed sizes (those of BLS12-381: 48/96 and 32
    bytes, or 96/192 and 32) and decoding inverts encoding *)
Record codec_ok {C : curve} (cd : codec C) : Prop := {
  ok_sz1 : (4 < sz1 _ cd)%nat; ok_sz2 : sz2 _ cd = (2 * sz1 _ cd)%nat;
  ok_l1 : forall x, length (e1 _ cd x) = sz1 _ cd; ok_d1 : forall x, d1 _ cd (e1 _ cd x) = Some x;
  ok_l2 : forall x, length (e2 _ cd x) = sz2 _ cd; ok_d2 : forall x, d2 _ cd (e2 _ cd x) = Some x;
  ok_lF : forall x, length (eF _ cd x) = szF _ cd; ok_dF : forall x, dF _ cd (eF _ cd x) = Some x }.
(** fits in the u32 length prefix *)
Definition fits32 (n : nat) : Prop := Z.of_nat n < 2 ^ 32.

Lemma length_be32 n : length (be32 n) = 4%nat.
Proof. reflexivity. Qed.
Lemma u32_be32 n : fits32 n -> u32_from_be (be32 n) = n.
Proof.
  intros L. unfold fits32 in L. unfold u32_from_be, be32. cbv zeta. rewrite Z.mod_small by lia. cbn [nth]. set (z := Z.of_nat n) in *. assert (0 <= z) by (unfold z; lia).
  rewrite <- (Nat2Z.id n). fold z. f_equal. change (2 ^ 24) with (256 * (256 * 256)). change (2 ^ 16) with (256 * 256). change (2 ^ 8) with 256.
  rewrite <- !Z.div_div by lia. pose proof (Z.div_mod z 256) as E1. pose proof (Z.div_mod (z / 256) 256) as E2. pose proof (Z.div_mod (z / 256 / 256) 256) as E3. lia.
Qed.
Lemma firstn_app_exact {A} (l l' : list A) n : length l = n -> firstn n (l ++ l') = l.
Proof. intros <-. rewrite firstn_app, Nat.sub_diag, firstn_all. cbn. apply app_nil_r. Qed.
Lemma skipn_app_exact {A} (l l' : list A) n : length l = n -> skipn n (l ++ l') = l'.
Proof. intros <-. rewrite skipn_app, Nat.sub_diag, skipn_all. reflexivity. Qed.
Lemma rd_app {A} n (dec : list Z -> option A) b x rest : length b = n -> dec b = Some x -> rd n dec (b ++ rest) = Ok (x, rest).
Proof.
  intros L D. unfold rd. rewrite (proj2 (Nat.ltb_ge _ _)) by (rewrite app_length; lia). now rewrite firstn_app_exact, skipn_app_exact, D.
Qed.
Lemma rd_u32_app n rest : fits32 n -> rd_u32 (be32 n ++ rest) = Ok (n, rest).
Proof.
  intros F. unfold rd_u32. rewrite (proj2 (Nat.ltb_ge _ _)) by (rewrite app_length, length_be32; lia).
  now rewrite (firstn_app_exact (be32 n)), (skipn_app_exact (be32 n)), u32_be32 by (try apply length_be32; exact F).
Qed.
Lemma rd_many_app {A} size (dec : list Z -> option A) (enc : A -> list Z) : (forall x, length (enc x) = size) -> (forall x, dec (enc x) = Some x) ->
  forall xs rest, rd_many size dec (length xs) (concat (map enc xs) ++ rest) = Ok (xs, rest).
Proof.
  intros Hl Hd. induction xs as [|x xs IH]; intros rest; [reflexivity|]. cbn [length rd_many map concat]. rewrite <- app_assoc, (rd_app size dec (enc x) x) by auto. cbn [rbind]. now rewrite IH.
Qed.
Lemma range_mid (a b c : list Z) i j : length a = i -> length b = (j - i)%nat -> (i <= j)%nat -> range (a ++ b ++ c) i j = Ok b.
Proof.
  intros La Lb Lj. unfold range. rewrite (proj2 (Nat.ltb_ge j i)) by lia. rewrite (proj2 (Nat.ltb_ge (length (a ++ b ++ c)) j)) by (rewrite !app_length; lia). cbn [orb].
  now rewrite skipn_app_exact, firstn_app_exact.
Qed.
Lemma length_concat_map {A} (enc : A -> list Z) n (xs : list A) : (forall x, length (enc x) = n) -> length (concat (map enc xs)) = (length xs * n)%nat.
Proof. intros H. induction xs as [|x xs IH]; [reflexivity|]. cbn [map concat length]. rewrite app_length, H, IH. lia. Qed.

(** ** C63: round trips *)
Section Trips.
Variable C : curve.
Variable cd : codec C.
Hypothesis CO : codec_ok cd.
Hypothesis LW : curve_laws C.
Lemma vcp_length p : length (vcp_to_bytes C cd p) = (sz1 _ cd + 4 + length (vp_responses _ p) * szF _ cd)%nat.
Proof. unfold vcp_to_bytes. rewrite !app_length, (ok_l1 cd CO), length_be32, (length_concat_map (eF C cd) (szF C cd)) by apply (ok_lF cd CO). lia. Qed.
Lemma vcp_trip p junk : fits32 (length (vp_responses _ p)) -> vcp_from_bytes C cd (vcp_to_bytes C cd p ++ junk) = Ok p.
Proof.
  intros F. unfold vcp_from_bytes. rewrite (proj2 (Nat.ltb_ge _ _)) by (rewrite app_length, vcp_length; lia).
  unfold vcp_to_bytes at 1. rewrite <- !app_assoc. rewrite (rd_app _ _ _ (vp_commitment C p)) by (try apply (ok_l1 cd CO); apply (ok_d1 cd CO)). cbn [rbind].
  rewrite rd_u32_app by exact F. cbn [rbind]. rewrite (proj2 (Nat.ltb_ge _ _)) by (rewrite app_length, vcp_length; lia).
  rewrite (rd_many_app _ _ (eF C cd) (ok_lF cd CO) (ok_dF cd CO)). cbn [rbind]. now destruct p.
Qed.
Lemma pokp_trip p junk : fits32 (length (vp_responses _ (pp_vc1 _ p))) -> fits32 (length (vp_responses _ (pp_vc2 _ p))) -> fits32 (length (vcp_to_bytes C cd (pp_vc1 _ p))) ->
  pokp_from_bytes C cd (pokp_to_bytes C cd p ++ junk) = Ok p.
Proof.
  intros F1 F2 F3. unfold pokp_from_bytes. set (data := pokp_to_bytes C cd p ++ junk).
  set (A := e1 C cd (pp_a_prime C p)). set (B := e1 C cd (pp_a_bar C p)). set (D := e1 C cd (pp_d C p)). set (V1 := vcp_to_bytes C cd (pp_vc1 C p)) in *. set (V2 := vcp_to_bytes C cd (pp_vc2 C p)).
  assert (length A = sz1 C cd) as LA by apply (ok_l1 cd CO). assert (length B = sz1 C cd) as LB by apply (ok_l1 cd CO). assert (length D = sz1 C cd) as LD by apply (ok_l1 cd CO).
  assert (data = A ++ B ++ D ++ be32 (length V1) ++ V1 ++ V2 ++ junk) as Ed by (unfold data, pokp_to_bytes; fold A B D V1 V2; now rewrite <- !app_assoc).
  assert (length data = 3 * sz1 C cd + 4 + length V1 + length V2 + length junk)%nat as Ll by (rewrite Ed, !app_length, length_be32; lia).
  rewrite (proj2 (Nat.ltb_ge _ _)) by lia.
  rewrite Ed at 1. unfold A at 1. rewrite (rd_app _ _ _ (pp_a_prime C p)) by (try apply (ok_l1 cd CO); apply (ok_d1 cd CO)). cbn [rbind].
  unfold B at 1. rewrite (rd_app _ _ _ (pp_a_bar C p)) by (try apply (ok_l1 cd CO); apply (ok_d1 cd CO)). cbn [rbind].
  unfold D at 1. rewrite (rd_app _ _ _ (pp_d C p)) by (try apply (ok_l1 cd CO); apply (ok_d1 cd CO)). cbn [rbind]. cbv zeta.
  assert (range data (sz1 C cd * 3) (sz1 C cd * 3 + 4) = Ok (be32 (length V1))) as ->.
  { replace data with ((A ++ B ++ D) ++ be32 (length V1) ++ V1 ++ V2 ++ junk) by (rewrite Ed; now rewrite <- !app_assoc). apply range_mid; [rewrite !app_length; lia|rewrite length_be32; lia|lia]. }
  cbn [rbind]. rewrite u32_be32 by exact F3.
  assert (range data (sz1 C cd * 3 + 4) (sz1 C cd * 3 + 4 + length V1) = Ok V1) as ->.
  { replace data with ((A ++ B ++ D ++ be32 (length V1)) ++ V1 ++ V2 ++ junk) by (rewrite Ed; now rewrite <- !app_assoc). apply range_mid; [rewrite !app_length, length_be32; lia|lia|lia]. }
  cbn [rbind]. pose proof (vcp_trip (pp_vc1 C p) [] F1) as T1. rewrite app_nil_r in T1. fold V1 in T1. rewrite T1. cbn [rbind].
  assert (range data (sz1 C cd * 3 + 4 + length V1) (length data) = Ok (V2 ++ junk)) as ->.
  { replace data with ((A ++ B ++ D ++ be32 (length V1) ++ V1) ++ (V2 ++ junk) ++ []) by (rewrite Ed; now rewrite app_nil_r, <- !app_assoc). apply range_mid; rewrite ?app_length, ?length_be32 in *; cbn [length]; lia. }
  cbn [rbind]. unfold V2. rewrite vcp_trip by exact F2. cbn [rbind]. now destruct p.
Qed.
Lemma pk_trip pk : good_key pk -> fits32 (length (bh _ pk)) -> Z.of_nat (length (pk_to_bytes C cd pk)) < 2 ^ 64 -> pk_from_bytes C cd (pk_to_bytes C cd pk) = Ok pk.
Proof.
  intros G F L64. pose proof (ok_sz1 cd CO) as S1. pose proof (ok_sz2 cd CO) as S2.
  assert (length (pk_to_bytes C cd pk) = (3 + length (bh C pk)) * sz1 C cd + 4)%nat as Ll.
  { unfold pk_to_bytes. rewrite !app_length, (ok_l1 cd CO), (ok_l2 cd CO), length_be32, (length_concat_map (e1 C cd) (sz1 C cd)) by apply (ok_l1 cd CO). lia. }
  assert (4 <= length (pk_to_bytes C cd pk))%nat as L4 by (rewrite Ll; apply Nat.le_add_l).
  unfold pk_from_bytes. rewrite (Z.mod_small _ (2 ^ 64)) by lia. rewrite Ll. replace (Z.of_nat ((3 + length (bh C pk)) * sz1 C cd + 4) - 4) with (Z.of_nat (3 + length (bh C pk)) * Z.of_nat (sz1 C cd)) by lia.
  rewrite Z.mod_mul by lia. cbn [negb Z.eqb]. unfold pk_to_bytes.
  rewrite (rd_app _ _ _ (bw C pk)) by (try apply (ok_l2 cd CO); apply (ok_d2 cd CO)). cbn [rbind].
  rewrite (rd_app _ _ _ (bh0 C pk)) by (try apply (ok_l1 cd CO); apply (ok_d1 cd CO)). cbn [rbind].
  rewrite rd_u32_app by exact F. cbn [rbind]. rewrite <- (app_nil_r (concat _)), (rd_many_app _ _ (e1 C cd) (ok_l1 cd CO) (ok_d1 cd CO)). cbn [rbind].
  assert (mkBbsPk C (bh0 C pk) (bh C pk) (bw C pk) = pk) as -> by (now destruct pk). now rewrite (proj2 (pk_validate_iff C LW pk) G).
Qed.
Lemma map_insert_last : forall (l : list (nat * cK C)) i m, Forall (fun im => (fst im < i)%nat) l -> map_insert C i m l = l ++ [(i, m)].
Proof.
  induction l as [|[j v] l IH]; intros i m F; [reflexivity|]. inversion F as [|? ? Lj F']; subst. cbn [fst] in Lj. cbn [map_insert app].
  rewrite (proj2 (Nat.ltb_ge i j)) by lia. rewrite (proj2 (Nat.eqb_neq i j)) by lia. now rewrite IH.
Qed.
Lemma rd_revealed_trip : forall (l : list (nat * cK C)) pre acc junk, StronglySorted lt (map fst l) -> Forall (fun i => fits32 i) (map fst l) ->
  (forall im im', In im acc -> In im' l -> (fst im < fst im')%nat) ->
  rd_revealed C cd (length l) (pre ++ concat (map (fun im => be32 (fst im) ++ eF C cd (snd im)) l) ++ junk) (length pre) acc = Ok (acc ++ l).
Proof.
  induction l as [|[i m] l IH]; intros pre acc junk Sd Fd Ha; [cbn; now rewrite app_nil_r|]. cbn [map fst] in Sd, Fd. inversion Sd as [|? ? Sd' Fi]; subst. inversion Fd as [|? ? Fi32 Fd']; subst.
  cbn [length rd_revealed map concat fst snd]. set (T := concat (map _ l)). rewrite <- !app_assoc.
  rewrite (range_mid pre (be32 i) (eF C cd m ++ T ++ junk)) by (try reflexivity; try rewrite length_be32; lia). cbn [rbind].
  rewrite app_assoc. assert (length (eF C cd m) = szF C cd) as LF by apply (ok_lF cd CO).
  rewrite (range_mid (pre ++ be32 i) (eF C cd m) (T ++ junk)) by (rewrite ?app_length, ?length_be32; lia). cbn [rbind].
  rewrite (ok_dF cd CO), u32_be32 by exact Fi32. rewrite map_insert_last by (apply Forall_forall; intros im I; apply (Ha im (i, m) I); now left).
  rewrite app_assoc. replace (length pre + 4 + szF C cd)%nat with (length ((pre ++ be32 i) ++ eF C cd m)) by (rewrite !app_length, length_be32; lia).
  unfold T. rewrite IH; [now rewrite <- app_assoc|exact Sd'|exact Fd'|].
  intros im im' I I'. apply in_app_or in I. destruct I as [I|[<-|[]]]; [apply Ha; [exact I|now right]|]. cbn [fst]. rewrite Forall_forall in Fi. apply Fi. now apply in_map.
Qed.
Lemma sp_trip p junk : fits32 (length (vp_responses _ (pp_vc1 _ (sp_proof _ p)))) -> fits32 (length (vp_responses _ (pp_vc2 _ (sp_proof _ p)))) ->
  fits32 (length (pokp_to_bytes C cd (sp_proof _ p))) -> fits32 (length (sp_revealed _ p)) -> StronglySorted lt (map fst (sp_revealed _ p)) -> Forall (fun i => fits32 i) (map fst (sp_revealed _ p)) ->
  sp_from_bytes C cd (sp_to_bytes C cd p ++ junk) = Ok p.
Proof.
  intros F1 F2 F3 F4 Sd Fd. unfold sp_from_bytes. set (P := pokp_to_bytes C cd (sp_proof C p)) in *. set (T := concat (map (fun im => be32 (fst im) ++ eF C cd (snd im)) (sp_revealed C p))).
  set (data := sp_to_bytes C cd p ++ junk). assert (data = be32 (length P) ++ P ++ be32 (length (sp_revealed C p)) ++ T ++ junk) as Ed by (unfold data, sp_to_bytes; fold P T; now rewrite <- !app_assoc).
  assert (length data = 8 + length P + length T + length junk)%nat as Ll by (rewrite Ed, !app_length, !length_be32; lia).
  rewrite (proj2 (Nat.ltb_ge _ _)) by lia.
  assert (range data 0 4 = Ok (be32 (length P))) as -> by (rewrite Ed; apply (range_mid []); try reflexivity; lia). cbn [rbind]. rewrite u32_be32 by exact F3.
  assert (range data 4 (length P + 4) = Ok P) as -> by (rewrite Ed; apply range_mid; try reflexivity; lia). cbn [rbind].
  assert (fits32 (length (vcp_to_bytes C cd (pp_vc1 C (sp_proof C p))))) as F5.
  { unfold fits32 in *. unfold P, pokp_to_bytes in F3. rewrite !app_length in F3. lia. }
  pose proof (pokp_trip (sp_proof C p) [] F1 F2 F5) as T1. rewrite app_nil_r in T1. fold P in T1. rewrite T1. cbn [rbind].
  assert (range data (length P + 4) (length P + 4 + 4) = Ok (be32 (length (sp_revealed C p)))) as ->.
  { rewrite Ed, app_assoc. apply range_mid; rewrite ?app_length, ?length_be32; lia. }
  cbn [rbind]. rewrite u32_be32 by exact F4. 
  replace (length P + 4 + 4)%nat with (length (be32 (length P) ++ P ++ be32 (length (sp_revealed C p)))) by (rewrite !app_length, !length_be32; lia).
  assert (data = (be32 (length P) ++ P ++ be32 (length (sp_revealed C p))) ++ T ++ junk) as -> by (rewrite Ed; now rewrite <- !app_assoc).
  unfold T. rewrite rd_revealed_trip; [cbn [rbind app]; now destruct p|exact Sd|exact Fd|]. intros im im' [].
Qed.
End Trips.
Theorem C63_signature : forall (C : curve) (cd : codec C) sig, codec_ok cd -> sig_from_bytes C cd (sig_to_bytes C cd sig) = Ok sig.
Proof.
  intros C cd sig CO. unfold sig_from_bytes, sig_to_bytes. rewrite (rd_app _ _ _ (sa C sig)) by (try apply (ok_l1 cd CO); apply (ok_d1 cd CO)). cbn [rbind].
  rewrite (rd_app _ _ _ (se C sig)) by (try apply (ok_lF cd CO); apply (ok_dF cd CO)). cbn [rbind].
  rewrite <- (app_nil_r (eF C cd (ss C sig))), (rd_app _ _ _ (ss C sig)) by (try apply (ok_lF cd CO); apply (ok_dF cd CO)). cbn [rbind]. now destruct sig.
Qed.
Print Assumptions C63_signature.
Theorem C63_public_key : forall (C : curve) (cd : codec C) pk, curve_laws C -> codec_ok cd -> good_key pk -> fits32 (length (bh _ pk)) -> Z.of_nat (length (pk_to_bytes C cd pk)) < 2 ^ 64 ->
  pk_from_bytes C cd (pk_to_bytes C cd pk) = Ok pk.
Proof. intros C cd pk LW CO. now apply pk_trip. Qed.
Print Assumptions C63_public_key.
(** also with any bytes appended: the encodings of proofs are not unique *)
Theorem C63_proof_of_values : forall (C : curve) (cd : codec C) p junk, codec_ok cd -> fits32 (length (vp_responses _ p)) -> vcp_from_bytes C cd (vcp_to_bytes C cd p ++ junk) = Ok p.
Proof. intros C cd p junk CO. now apply vcp_trip. Qed.
Print Assumptions C63_proof_of_values.
Theorem C63_blind_context : forall (C : curve) (cd : codec C) ctx junk, codec_ok cd -> fits32 (length (vp_responses _ (bc_proof _ ctx))) -> ctx_from_bytes C cd (ctx_to_bytes C cd ctx ++ junk) = Ok ctx.
Proof.
  intros C cd ctx junk CO F. unfold ctx_from_bytes. set (V := vcp_to_bytes C cd (bc_proof C ctx)). set (data := ctx_to_bytes C cd ctx ++ junk).
  set (A := e1 C cd (bc_commitment C ctx)). set (B := eF C cd (bc_challenge C ctx)). assert (length A = sz1 C cd) as LA by apply (ok_l1 cd CO). assert (length B = szF C cd) as LB by apply (ok_lF cd CO).
  assert (data = A ++ B ++ V ++ junk) as Ed by (unfold data, ctx_to_bytes; fold A B V; now rewrite <- !app_assoc).
  assert (length data = sz1 C cd + szF C cd + length V + length junk)%nat as Ll by (rewrite Ed, !app_length; lia). assert (sz1 C cd + 4 <= length V)%nat as LV by (unfold V; rewrite (vcp_length C cd CO); lia).
  rewrite (proj2 (Nat.ltb_ge _ _)) by lia. rewrite Ed at 1. unfold A at 1. rewrite (rd_app _ _ _ (bc_commitment C ctx)) by (try apply (ok_l1 cd CO); apply (ok_d1 cd CO)). cbn [rbind].
  unfold B at 1. rewrite (rd_app _ _ _ (bc_challenge C ctx)) by (try apply (ok_lF cd CO); apply (ok_dF cd CO)). cbn [rbind].
  assert (range data (sz1 C cd + szF C cd) (length data) = Ok (V ++ junk)) as ->.
  { replace data with ((A ++ B) ++ (V ++ junk) ++ []) by (rewrite Ed; now rewrite app_nil_r, <- !app_assoc). apply range_mid; rewrite ?app_length in *; cbn [length]; lia. }
  cbn [rbind]. unfold V. rewrite (vcp_trip C cd CO) by exact F. cbn [rbind]. now destruct ctx.
Qed.
Print Assumptions C63_blind_context.
Theorem C63_signature_proof : forall (C : curve) (cd : codec C) p junk, codec_ok cd ->
  fits32 (length (vp_responses _ (pp_vc1 _ (sp_proof _ p)))) -> fits32 (length (vp_responses _ (pp_vc2 _ (sp_proof _ p)))) ->
  fits32 (length (pokp_to_bytes C cd (sp_proof _ p))) -> fits32 (length (sp_revealed _ p)) -> StronglySorted lt (map fst (sp_revealed _ p)) -> Forall (fun i => fits32 i) (map fst (sp_revealed _ p)) ->
  sp_from_bytes C cd (sp_to_bytes C cd p ++ junk) = Ok p /\ pokp_from_bytes C cd (pokp_to_bytes C cd (sp_proof _ p) ++ junk) = Ok (sp_proof _ p).
Proof.
  intros C cd p junk CO F1 F2 F3 F4 Sd Fd. split; [now apply sp_trip|]. apply pokp_trip; try assumption.
  unfold fits32, pokp_to_bytes in *. rewrite !app_length in F3. lia.
Qed.
Print Assumptions C63_signature_proof.

(** *** the requested indices as a bit vector *)
Lemma byte_bits_spec : forall fuel v k i, 0 <= v < 2 ^ Z.of_nat fuel -> (In i (byte_bits fuel v k) <-> (k <= i)%nat /\ Z.testbit v (Z.of_nat (i - k)) = true).
Proof.
  induction fuel as [|f IH]; intros v k i R.
  - cbn [byte_bits In]. assert (v = 0) as -> by (cbn in R; lia). rewrite Z.bits_0. split; [tauto|]. intros [_ E]. discriminate.
  - cbn [byte_bits]. destruct (Z.leb_spec v 0) as [Le|Gt]; [assert (v = 0) as -> by lia; rewrite Z.bits_0; cbn [In]; split; [tauto|intros [_ E]; discriminate]|].
    assert (0 <= Z.shiftr v 1 < 2 ^ Z.of_nat f) as R'.
    { rewrite Z.shiftr_div_pow2 by lia. change (2 ^ 1) with 2. rewrite Nat2Z.inj_succ, Z.pow_succ_r in R by lia. split; [apply Z.div_pos; lia|]. apply Z.div_lt_upper_bound; lia. }
    rewrite in_app_iff, (IH _ (S k) i R'). assert (Z.land v 1 = if Z.testbit v 0 then 1 else 0) as ->.
    { rewrite Z.bit0_odd. change 1 with (Z.ones 1) at 1. rewrite Z.land_ones by lia. change (2 ^ 1) with 2. rewrite Zmod_odd. reflexivity. }
    destruct (Nat.eq_dec i k) as [->|Ni].
    + rewrite Nat.sub_diag. change (Z.of_nat 0) with 0. destruct (Z.testbit v 0); cbn [Z.eqb Pos.eqb In]; intuition (try lia; try discriminate).
    + destruct (Nat.le_gt_cases k i) as [Le|Lt].
      * rewrite Z.shiftr_spec by lia. replace (Z.of_nat (i - S k) + 1) with (Z.of_nat (i - k)) by lia. destruct (Z.testbit v 0); cbn [Z.eqb Pos.eqb In]; intuition lia.
      * destruct (Z.testbit v 0); cbn [Z.eqb Pos.eqb In]; intuition lia.
Qed.
Lemma byte_bits_sorted : forall fuel v k, StronglySorted lt (byte_bits fuel v k) /\ Forall (fun i => (k <= i < k + fuel)%nat) (byte_bits fuel v k).
Proof.
  induction fuel as [|f IH]; intros v k; [split; constructor|]. cbn [byte_bits]. destruct (v <=? 0); [split; constructor|]. destruct (IH (Z.shiftr v 1) (S k)) as [S1 S2].
  destruct (Z.land v 1 =? 1); cbn [app]; split.
  - constructor; [exact S1|]. eapply Forall_impl; [|exact S2]. cbn. intros; lia.
  - constructor; [lia|]. eapply Forall_impl; [|exact S2]. cbn. intros; lia.
  - exact S1.
  - eapply Forall_impl; [|exact S2]. cbn. intros; lia.
Qed.
Lemma sorted_app (l l' : list nat) : StronglySorted lt l -> StronglySorted lt l' -> (forall a b, In a l -> In b l' -> (a < b)%nat) -> StronglySorted lt (l ++ l').
Proof.
  induction 1 as [|x l Sl IH Fx]; intros Sl' H; [exact Sl'|]. cbn [app]. constructor.
  - apply IH; [exact Sl'|]. intros a b I J. apply H; [now right|exact J].
  - apply Forall_app. split; [exact Fx|]. apply Forall_forall. intros b J. apply H; [now left|exact J].
Qed.
Lemma bits_from_spec : forall bytes k, Forall (fun b => 0 <= b < 256) bytes ->
  StronglySorted lt (bits_from k bytes) /\ Forall (fun i => (k <= i)%nat) (bits_from k bytes) /\
  forall i, In i (bits_from k bytes) <-> (k <= i)%nat /\ exists b, nth_error bytes ((i - k) / 8) = Some b /\ Z.testbit b (Z.of_nat ((i - k) mod 8)) = true.
Proof.
  induction bytes as [|b bytes IH]; intros k F.
  - cbn [bits_from]. split; [constructor|]. split; [constructor|]. intros i. cbn [In]. split; [tauto|]. intros (_ & b & E & _). destruct ((i - k) / 8)%nat; discriminate.
  - inversion F as [|? ? Rb F']; subst. destruct (IH (k + 8)%nat F') as (S1 & S2 & S3). destruct (byte_bits_sorted 8 b k) as [T1 T2]. cbn [bits_from]. split; [|split].
    + apply sorted_app; [exact T1|exact S1|]. intros x y I J. rewrite Forall_forall in T2, S2. specialize (T2 x I). specialize (S2 y J). cbn in T2, S2. lia.
    + apply Forall_app. split; [eapply Forall_impl; [|exact T2]; cbn; intros; lia|eapply Forall_impl; [|exact S2]; cbn; intros; lia].
    + intros i. rewrite in_app_iff, S3, byte_bits_spec by (change (2 ^ Z.of_nat 8) with 256; lia). destruct (Nat.le_gt_cases k i) as [Le|Lt]; [|split; [intros [[? _]|[? _]]; lia|intros [? _]; lia]].
      destruct (Nat.lt_ge_cases i (k + 8)) as [L8|G8].
      * rewrite (Nat.div_small (i - k) 8), (Nat.mod_small (i - k) 8) by lia. cbn [nth_error]. split.
        -- intros [[_ E]|[? _]]; [|lia]. split; [exact Le|]. now exists b.
        -- intros (_ & b' & Eb & E). assert (b' = b) as -> by congruence. left. auto.
      * assert ((i - k) = (i - (k + 8)) + 1 * 8)%nat as Ei by lia.
        assert ((i - k) / 8 = S ((i - (k + 8)) / 8))%nat as -> by (rewrite Ei at 1; rewrite Nat.div_add by lia; lia).
        assert ((i - k) mod 8 = (i - (k + 8)) mod 8)%nat as Em by (rewrite Ei at 1; now rewrite Nat.mod_add by lia). rewrite Em. cbn [nth_error]. split.
        -- intros [[_ E]|[_ Q]]; [|auto]. exfalso. rewrite Z.bits_above_log2 in E; [discriminate|lia|]. destruct (Z.eq_dec b 0) as [->|Nb]; [cbn; lia|].
           apply Z.log2_lt_pow2; [lia|]. apply Z.lt_le_trans with (2 ^ 8); [lia|]. apply Z.pow_le_mono_r; lia.
        -- intros (_ & Q). right. split; [exact G8|exact Q].
Qed.
Lemma set_at_spec : forall (l : list Z) i f, (i < length l)%nat -> exists l', set_at l i f = Ok l' /\ length l' = length l /\
  (forall j, nth_error l' j = if Nat.eqb j i then option_map f (nth_error l j) else nth_error l j).
Proof.
  induction l as [|x l IH]; intros [|i] f L; cbn [length] in L; try lia.
  - exists (f x :: l). split; [reflexivity|]. split; [reflexivity|]. intros [|j]; reflexivity.
  - destruct (IH i f ltac:(lia)) as (l' & E & Ll & Hj). exists (x :: l'). cbn [set_at]. rewrite E. split; [reflexivity|]. split; [cbn; now rewrite Ll|]. intros [|j]; [reflexivity|]. cbn [nth_error Nat.eqb]. apply Hj.
Qed.
Lemma set_at_panic : forall (l : list Z) i f, (length l <= i)%nat -> set_at l i f = Err Panic.
Proof. induction l as [|x l IH]; intros [|i] f L; cbn [length] in L; try reflexivity; try lia. cbn [set_at]. now rewrite IH by lia. Qed.
Lemma lor_byte b j : 0 <= b < 256 -> (j < 8)%nat -> 0 <= Z.lor b (2 ^ Z.of_nat j) < 256.
Proof.
  intros R L. split; [apply Z.lor_nonneg; split; [lia|apply Z.pow_nonneg; lia]|]. change 256 with (2 ^ 8).
  destruct (Z.eq_dec (Z.lor b (2 ^ Z.of_nat j)) 0) as [E|N]; [lia|]. apply Z.log2_lt_pow2; [assert (0 <= Z.lor b (2 ^ Z.of_nat j)) by (apply Z.lor_nonneg; split; [lia|apply Z.pow_nonneg; lia]); lia|].
  rewrite Z.log2_lor by (try apply Z.pow_nonneg; lia). rewrite Z.log2_pow2 by lia. apply Z.max_lub_lt; [|lia]. destruct (Z.eq_dec b 0) as [->|Nb]; [cbn; lia|]. apply Z.log2_lt_pow2; lia.
Qed.
Lemma bits_fold : forall (revealed : list nat) bytes, Forall (fun b => 0 <= b < 256) bytes -> Forall (fun r => (r / 8 < length bytes)%nat) revealed ->
  exists bytes', rfold (fun bytes r => set_at bytes (r / 8) (fun b => Z.lor b (2 ^ Z.of_nat (r mod 8)))) revealed bytes = Ok bytes' /\ length bytes' = length bytes /\
    Forall (fun b => 0 <= b < 256) bytes' /\
    forall i, (exists b, nth_error bytes' (i / 8) = Some b /\ Z.testbit b (Z.of_nat (i mod 8)) = true) <-> In i revealed \/ exists b, nth_error bytes (i / 8) = Some b /\ Z.testbit b (Z.of_nat (i mod 8)) = true.
Proof.
  induction revealed as [|r l IH]; intros bytes F R.
  - exists bytes. split; [reflexivity|]. split; [reflexivity|]. split; [exact F|]. intros i. cbn [In]. tauto.
  - inversion R as [|? ? Lr R']; subst. cbn [rfold]. destruct (set_at_spec bytes (r / 8)%nat (fun b => Z.lor b (2 ^ Z.of_nat (r mod 8))) Lr) as (b1 & E1 & L1 & N1). rewrite E1. cbn [rbind].
    assert (r mod 8 < 8)%nat as Lm by (apply Nat.mod_upper_bound; lia).
    assert (Forall (fun b => 0 <= b < 256) b1) as F1.
    { apply Forall_forall. intros b I. apply In_nth_error in I. destruct I as (j & Ej). rewrite N1 in Ej. rewrite Forall_forall in F. destruct (Nat.eqb j (r / 8)).
      - destruct (nth_error bytes j) as [b0|] eqn:E0; [|discriminate]. assert (b = Z.lor b0 (2 ^ Z.of_nat (r mod 8))) as -> by (cbn [option_map] in Ej; congruence). apply lor_byte; [apply F; now apply nth_error_In in E0|exact Lm].
      - apply F. now apply nth_error_In in Ej. }
    destruct (IH b1 F1) as (b2 & E2 & L2 & F2 & N2); [now rewrite L1|]. exists b2. split; [exact E2|]. split; [congruence|]. split; [exact F2|]. intros i. rewrite N2, N1. cbn [In].
    assert (i mod 8 < 8)%nat as Lmi by (apply Nat.mod_upper_bound; lia).
    destruct (Nat.eqb (i / 8) (r / 8)) eqn:Eq.
    + apply Nat.eqb_eq in Eq. destruct (nth_error bytes (i / 8)) as [b0|] eqn:E0; [|exfalso; apply nth_error_None in E0; lia]. cbn [option_map].
      assert ((exists b, Some (Z.lor b0 (2 ^ Z.of_nat (r mod 8))) = Some b /\ Z.testbit b (Z.of_nat (i mod 8)) = true) <-> r = i \/ Z.testbit b0 (Z.of_nat (i mod 8)) = true) as W.
      { split.
        - intros (b & Eb & Tb). assert (b = Z.lor b0 (2 ^ Z.of_nat (r mod 8))) as -> by congruence. rewrite Z.lor_spec, Z.pow2_bits_eqb in Tb by lia. apply Bool.orb_true_iff in Tb. destruct Tb as [T|T]; [now right|left].
          apply Z.eqb_eq in T. rewrite (Nat.div_mod_eq r 8), (Nat.div_mod_eq i 8). lia.
        - intros Q. eexists. split; [reflexivity|]. rewrite Z.lor_spec, Z.pow2_bits_eqb by lia. apply Bool.orb_true_iff. destruct Q as [->|Q]; [right; apply Z.eqb_refl|now left]. }
      rewrite W. split.
      * intros [I|[E|T]]; [left; now right|left; now left|right; now exists b0].
      * intros [[E|I]|(b & Eb & T)]; [right; now left|now left|right; right; congruence].
    + apply Nat.eqb_neq in Eq. split; [intros [I|Q]; auto|intros [[E|I]|Q]; auto]. subst r. congruence.
Qed.
Lemma sorted_ext (l l' : list nat) : StronglySorted lt l -> StronglySorted lt l' -> (forall i, In i l <-> In i l') -> l = l'.
Proof.
  intros S. revert l'. induction S as [|x l Sl IH Fx]; intros l' S' H.
  - destruct l' as [|y l']; [reflexivity|]. exfalso. apply (proj2 (H y)). now left.
  - destruct S' as [|y l' Sl' Fy]; [exfalso; apply (proj1 (H x)); now left|]. rewrite Forall_forall in Fx, Fy.
    assert (x = y) as ->. { assert (In x (y :: l')) as I by (apply H; now left). assert (In y (x :: l)) as J by (apply H; now left). destruct I as [<-|I]; [reflexivity|]. destruct J as [<-|J]; [reflexivity|]. specialize (Fy x I). specialize (Fx y J). lia. }
    f_equal. apply IH; [exact Sl'|]. intros i. split; intros I.
    + assert (In i (y :: l')) as J by (apply H; now right). destruct J as [<-|J]; [specialize (Fx y I); lia|exact J].
    + assert (In i (y :: l)) as J by (apply H; now right). destruct J as [<-|J]; [specialize (Fy y I); lia|exact J].
Qed.
(** writing a set of indices as a bit vector and reading it back gives the same set; an
    index that does not fit in the vector is a panic *)
Theorem C63_bit_vector : forall total revealed, StronglySorted lt revealed ->
  (Forall (fun i => (i / 8 <= total / 8)%nat) revealed -> exists bv, revealed_to_bitvector total revealed = Ok bv /\ length bv = (total / 8 + 1)%nat /\ Forall (fun b => 0 <= b < 256) bv /\ bitvector_to_revealed bv = revealed) /\
  (Exists (fun i => (total / 8 < i / 8)%nat) revealed -> revealed_to_bitvector total revealed = Err Panic).
Proof.
  intros total revealed Sd. unfold revealed_to_bitvector, bitvector_to_revealed. set (z := repeat 0 (total / 8 + 1)).
  assert (length z = total / 8 + 1)%nat as Lz by (unfold z; apply repeat_length). assert (Forall (fun b => 0 <= b < 256) z) as Fz.
  { unfold z. apply Forall_forall. intros b I. apply repeat_spec in I. subst. lia. }
  split.
  - intros F. destruct (bits_fold revealed z Fz) as (bytes & E & L & Fb & N); [eapply Forall_impl; [|exact F]; cbv beta; intros a La; rewrite Lz; lia|]. rewrite E. cbn [rbind]. eexists. split; [reflexivity|]. rewrite rev_length, rev_involutive. split; [congruence|]. split.
    { apply Forall_forall. intros b I. apply in_rev in I. rewrite Forall_forall in Fb. now apply Fb. }
    destruct (bits_from_spec bytes 0%nat Fb) as (S1 & _ & S3). apply sorted_ext; [exact S1|exact Sd|]. intros i. rewrite S3, Nat.sub_0_r, N. split.
    + intros (_ & [I|(b & Eb & T)]); [exact I|]. exfalso. unfold z in Eb. apply nth_error_In, repeat_spec in Eb. subst b. rewrite Z.bits_0 in T. discriminate.
    + intros I. split; [lia|now left].
  - intros X. assert (rfold (fun bytes r => set_at bytes (r / 8) (fun b => Z.lor b (2 ^ Z.of_nat (r mod 8)))) revealed z = Err Panic) as ->; [|reflexivity].
    clear Fz Sd. revert Lz. generalize z as y. clear z. induction revealed as [|r l IH]; intros y Ly; [inversion X|]. cbn [rfold]. inversion X as [? ? Hr|? ? Hl]; subst.
    + now rewrite set_at_panic by lia.
    + destruct (Nat.lt_ge_cases (r / 8) (length y)) as [Lt|Ge].
      * destruct (set_at_spec y (r / 8)%nat (fun b => Z.lor b (2 ^ Z.of_nat (r mod 8))) Lt) as (b1 & E1 & L1 & _). rewrite E1. cbn [rbind]. apply IH; [exact Hl|congruence].
      * now rewrite set_at_panic by lia.
Qed.
Print Assumptions C63_bit_vector.
Theorem C63_proof_request : forall (C : curve) (cd : codec C) rq, curve_laws C -> codec_ok cd -> good_key (pr_key _ rq) -> fits32 (length (bh _ (pr_key _ rq))) ->
  Z.of_nat (length (pk_to_bytes C cd (pr_key _ rq))) < 2 ^ 64 -> StronglySorted lt (pr_revealed _ rq) -> Forall (fun i => (i <= length (bh _ (pr_key _ rq)))%nat) (pr_revealed _ rq) ->
  exists bytes, rq_to_bytes C cd rq = Ok bytes /\ rq_from_bytes C cd bytes = Ok rq.
Proof.
  intros C cd rq LW CO G F L64 Sd Fr. destruct (C63_bit_vector (length (bh _ (pr_key _ rq))) (pr_revealed _ rq) Sd) as (H & _). destruct H as (bv & E & Lb & Fb & Eb).
  { eapply Forall_impl; [|exact Fr]. cbv beta. intros a L. apply Nat.div_le_mono; [lia|exact L]. }
  unfold rq_to_bytes, message_count. rewrite E. cbn [rbind]. eexists. split; [reflexivity|]. unfold rq_from_bytes. set (P := pk_to_bytes C cd (pr_key C rq)) in *.
  assert (length P = (3 + length (bh C (pr_key C rq))) * sz1 C cd + 4)%nat as LP.
  { unfold P, pk_to_bytes. rewrite !app_length, (ok_l1 cd CO), (ok_l2 cd CO), length_be32, (length_concat_map (e1 C cd) (sz1 C cd)) by apply (ok_l1 cd CO). rewrite (ok_sz2 cd CO). lia. }
  assert (3 * sz1 C cd + 4 <= length P)%nat as LP3 by (rewrite LP; apply Nat.add_le_mono_r, Nat.mul_le_mono_r; lia). pose proof (ok_sz1 cd CO) as S1.
  set (data := be32 (length bv) ++ bv ++ P). assert (length data = 4 + length bv + length P)%nat as Ld by (unfold data; rewrite !app_length, length_be32; lia).
  rewrite (proj2 (Nat.ltb_ge _ _)) by (rewrite (ok_sz2 cd CO); lia).
  assert (fits32 (length bv)) as Fv. { unfold fits32 in *. rewrite Lb. assert (length (bh C (pr_key C rq)) / 8 <= length (bh C (pr_key C rq)))%nat by (apply Nat.div_le_upper_bound; lia).
    destruct (Nat.eq_dec (length (bh C (pr_key C rq)) / 8) (length (bh C (pr_key C rq)))) as [Eq|Nq]; [|lia]. assert (length (bh C (pr_key C rq)) = 0)%nat as ->; [|cbn; lia].
    destruct (length (bh C (pr_key C rq))) as [|n]; [reflexivity|]. exfalso. assert (S n / 8 < S n)%nat by (apply Nat.div_lt; lia). lia. }
  assert (range data 0 4 = Ok (be32 (length bv))) as -> by (apply (range_mid []); try reflexivity; lia). cbn [rbind]. rewrite u32_be32 by exact Fv.
  assert (range data 4 (4 + length bv) = Ok bv) as -> by (apply range_mid; try reflexivity; lia). cbn [rbind].
  assert (range data (4 + length bv) (length data) = Ok P) as ->.
  { replace data with ((be32 (length bv) ++ bv) ++ P ++ []) by (unfold data; now rewrite app_nil_r, <- app_assoc). apply range_mid; rewrite ?app_length, ?length_be32 in *; cbn [length]; lia. }
  cbn [rbind]. unfold P. rewrite (pk_trip C cd CO LW) by assumption. cbn [rbind]. rewrite Eb. now destruct rq.
Qed.
Print Assumptions C63_proof_request.

(** ** C64: malformed bytes *)
Lemma rd_no_panic {A} n (dec : list Z -> option A) data : rd n dec data <> Err Panic.
Proof. unfold rd. destruct (length data <? n)%nat; [discriminate|]. destruct (dec _); discriminate. Qed.
Lemma rd_length {A} n (dec : list Z -> option A) data x rest : rd n dec data = Ok (x, rest) -> (length data = n + length rest)%nat.
Proof.
  unfold rd. destruct (length data <? n)%nat eqn:E; [discriminate|]. apply Nat.ltb_ge in E. destruct (dec _); [|discriminate]. intros Q. assert (rest = skipn n data) as -> by congruence. rewrite skipn_length. lia.
Qed.
Lemma rd_many_no_panic {A} n (dec : list Z -> option A) : forall k data, rd_many n dec k data <> Err Panic.
Proof.
  induction k as [|k IH]; intros data; [discriminate|]. cbn [rd_many]. pose proof (rd_no_panic n dec data) as R. destruct (rd n dec data) as [[x rest]|e]; cbn [rbind]; [|congruence].
  specialize (IH rest). destruct (rd_many n dec k rest) as [[xs r']|e]; cbn [rbind]; [discriminate|congruence].
Qed.
Lemma vcp_no_panic (C : curve) (cd : codec C) data : vcp_from_bytes C cd data <> Err Panic.
Proof.
  unfold vcp_from_bytes. destruct (length data <? sz1 C cd + 4)%nat eqn:E; [discriminate|]. apply Nat.ltb_ge in E. pose proof (rd_no_panic (sz1 C cd) (d1 C cd) data) as R.
  destruct (rd (sz1 C cd) (d1 C cd) data) as [[x rest]|e] eqn:Er; cbn [rbind]; [|congruence]. apply rd_length in Er. unfold rd_u32. rewrite (proj2 (Nat.ltb_ge (length rest) 4)) by lia. cbn [rbind].
  destruct (length data <? _)%nat; [discriminate|]. pose proof (rd_many_no_panic (szF C cd) (dF C cd) (u32_from_be (firstn 4 rest)) (skipn 4 rest)) as M.
  destruct (rd_many _ _ _ _) as [[xs r']|e']; cbn [rbind]; [discriminate|congruence].
Qed.
(** signatures, public keys, proofs of committed values and blind signature contexts: any
    bytes are accepted or refused, never a panic *)
Theorem C64_no_panic : forall (C : curve) (cd : codec C) data, curve_laws C -> codec_ok cd -> Z.of_nat (length data) < 2 ^ 64 ->
  sig_from_bytes C cd data <> Err Panic /\ pk_from_bytes C cd data <> Err Panic /\ vcp_from_bytes C cd data <> Err Panic /\ ctx_from_bytes C cd data <> Err Panic.
Proof.
  intros C cd data LW CO L64. split; [|split; [|split]].
  - unfold sig_from_bytes. pose proof (rd_no_panic (sz1 C cd) (d1 C cd) data) as R. destruct (rd (sz1 C cd) (d1 C cd) data) as [[a rest]|e]; cbn [rbind]; [|congruence].
    pose proof (rd_no_panic (szF C cd) (dF C cd) rest) as R1. destruct (rd (szF C cd) (dF C cd) rest) as [[x rest']|e]; cbn [rbind]; [|congruence].
    pose proof (rd_no_panic (szF C cd) (dF C cd) rest') as R2. destruct (rd (szF C cd) (dF C cd) rest') as [[y rest'']|e]; cbn [rbind]; [discriminate|congruence].
  - unfold pk_from_bytes. destruct (negb _) eqn:Ec; [discriminate|]. apply Bool.negb_false_iff, Z.eqb_eq in Ec.
    pose proof (rd_no_panic (sz2 C cd) (d2 C cd) data) as R. destruct (rd (sz2 C cd) (d2 C cd) data) as [[w rest]|e] eqn:E1; cbn [rbind]; [|congruence]. apply rd_length in E1.
    pose proof (rd_no_panic (sz1 C cd) (d1 C cd) rest) as R1. destruct (rd (sz1 C cd) (d1 C cd) rest) as [[h0 rest']|e] eqn:E2; cbn [rbind]; [|congruence]. apply rd_length in E2.
    pose proof (ok_sz1 cd CO) as S1. pose proof (ok_sz2 cd CO) as S2. rewrite (Z.mod_small _ (2 ^ 64)) in Ec by lia. apply Z.mod_divide in Ec; [|lia]. destruct Ec as (k & Ek).
    assert (4 <= length rest')%nat as L4. { assert (3 <= k) by nia. nia. }
    unfold rd_u32. rewrite (proj2 (Nat.ltb_ge (length rest') 4)) by lia. cbn [rbind]. pose proof (rd_many_no_panic (sz1 C cd) (d1 C cd) (u32_from_be (firstn 4 rest')) (skipn 4 rest')) as M.
    destruct (rd_many _ _ _ _) as [[h r'']|e']; cbn [rbind]; [|congruence]. destruct (pk_validate_cases C LW (mkBbsPk C h0 h w)) as [[_ ->]|[_ ->]]; discriminate.
  - apply vcp_no_panic.
  - unfold ctx_from_bytes. destruct (length data <? _)%nat eqn:E; [discriminate|]. apply Nat.ltb_ge in E. pose proof (rd_no_panic (sz1 C cd) (d1 C cd) data) as R.
    destruct (rd (sz1 C cd) (d1 C cd) data) as [[a rest]|e]; cbn [rbind]; [|congruence]. pose proof (rd_no_panic (szF C cd) (dF C cd) rest) as R1. destruct (rd (szF C cd) (dF C cd) rest) as [[x rest']|e]; cbn [rbind]; [|congruence].
    unfold range. rewrite (proj2 (Nat.ltb_ge (length data) (sz1 C cd + szF C cd))) by lia. rewrite Nat.ltb_irrefl. cbn [orb rbind].
    pose proof (vcp_no_panic C cd (firstn (length data - (sz1 C cd + szF C cd)) (skipn (sz1 C cd + szF C cd) data))) as V. destruct (vcp_from_bytes _ _ _); cbn [rbind]; [discriminate|congruence].
Qed.
Print Assumptions C64_no_panic.
(** proof requests and disclosure proofs: a length prefix larger than the data is a panic *)
Theorem C64_refuted_request_no_panic : forall (C : curve) (cd : codec C) data, 
  (8 + sz1 _ cd + sz2 _ cd <= length data)%nat -> (length data < 4 + u32_from_be (firstn 4 data))%nat -> rq_from_bytes C cd data = Err Panic.
Proof.
  intros C cd data L L'. unfold rq_from_bytes. rewrite (proj2 (Nat.ltb_ge _ _)) by lia. unfold range at 1. rewrite (proj2 (Nat.ltb_ge 4 0)) by lia. rewrite (proj2 (Nat.ltb_ge (length data) 4)) by lia. cbn [orb rbind].
  change (4 - 0)%nat with 4%nat. change (skipn 0 data) with data. unfold range at 1. rewrite (proj2 (Nat.ltb_lt (length data) _)) by lia. rewrite Bool.orb_true_r. reflexivity.
Qed.
Print Assumptions C64_refuted_request_no_panic.
Theorem C64_refuted_signature_proof_no_panic : forall (C : curve) (cd : codec C) data, 
  (8 <= length data)%nat -> (length data < 4 + u32_from_be (firstn 4 data))%nat -> sp_from_bytes C cd data = Err Panic.
Proof.
  intros C cd data L L'. unfold sp_from_bytes. rewrite (proj2 (Nat.ltb_ge _ _)) by lia. unfold range at 1. rewrite (proj2 (Nat.ltb_ge 4 0)) by lia. rewrite (proj2 (Nat.ltb_ge (length data) 4)) by lia. cbn [orb rbind].
  change (4 - 0)%nat with 4%nat. change (skipn 0 data) with data. unfold range at 1. rewrite (proj2 (Nat.ltb_lt (length data) _)) by lia. rewrite Bool.orb_true_r. reflexivity.
Qed.
Print Assumptions C64_refuted_signature_proof_no_panic.
(** a truncated proof of knowledge: three points and fewer than four bytes *)
Theorem C64_refuted_truncated_proof : forall (C : curve) (cd : codec C) (p : pok_proof C) n, codec_ok cd -> (3 * sz1 _ cd <= n < 3 * sz1 _ cd + 4)%nat ->
  pokp_from_bytes C cd (firstn n (pokp_to_bytes C cd p)) = Err Panic.
Proof.
  intros C cd p n CO L. unfold pokp_to_bytes. set (A := e1 C cd (pp_a_prime C p)). set (B := e1 C cd (pp_a_bar C p)). set (D := e1 C cd (pp_d C p)). set (T := be32 _ ++ _).
  assert (length A = sz1 C cd) as LA by apply (ok_l1 cd CO). assert (length B = sz1 C cd) as LB by apply (ok_l1 cd CO). assert (length D = sz1 C cd) as LD by apply (ok_l1 cd CO).
  assert (firstn n (A ++ B ++ D ++ T) = A ++ B ++ D ++ firstn (n - 3 * sz1 C cd) T) as ->.
  { rewrite !firstn_app, LA, LB, LD. rewrite !firstn_all2 by lia. do 3 f_equal. f_equal. lia. }
  set (R := firstn _ T). assert (length R <= n - 3 * sz1 C cd)%nat as LR by (unfold R; rewrite firstn_length; lia).
  unfold pokp_from_bytes. set (data := A ++ B ++ D ++ R). assert (length data = 3 * sz1 C cd + length R)%nat as Ld by (unfold data; rewrite !app_length; lia).
  rewrite (proj2 (Nat.ltb_ge _ _)) by lia. unfold data at 1. unfold A at 1. rewrite (rd_app _ _ _ (pp_a_prime C p)) by (try apply (ok_l1 cd CO); apply (ok_d1 cd CO)). cbn [rbind].
  unfold B at 1. rewrite (rd_app _ _ _ (pp_a_bar C p)) by (try apply (ok_l1 cd CO); apply (ok_d1 cd CO)). cbn [rbind].
  unfold D at 1. rewrite (rd_app _ _ _ (pp_d C p)) by (try apply (ok_l1 cd CO); apply (ok_d1 cd CO)). cbn [rbind]. cbv zeta.
  unfold range at 1. rewrite (proj2 (Nat.ltb_lt (length data) _)) by lia. rewrite Bool.orb_true_r. reflexivity.
Qed.
Print Assumptions C64_refuted_truncated_proof.

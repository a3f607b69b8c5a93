(** Property theorems for the ursa_sharing crate (C16-C20).

    Reading guide: [K] is any implementation of the crate's Field trait, [M] any
    Group over it, [CK]/[CM] their byte codecs; [field_laws], [mod_laws],
    [codec_laws] are the contracts of the traits, [ids_ok f n] says that the
    identifiers 0..n are distinct field elements and fit in u32, [faithful g]
    that [g] has the full group order. *)
From Verif Require Import Base BnModel BnProofs Alg Poly Fp NumTheory SharingModel SharingProofs SharingInst.
From Coq Require Import ZArith.Znumtheory.

(** C16: any [t] or more shares with distinct identifiers, in any order, none of
    them zero, recombine to the secret, ... *)
Theorem C16_reconstruct_field : forall K (HK : field_laws K) CK (HCK : codec_laws f0 CK) from_usize
    t n sc draws secret shares sub,
  ids_ok from_usize n -> scheme_new t n = Ok sc ->
  ss_split_secret K CK from_usize sc draws secret = Ok shares ->
  incl sub shares -> NoDup (map ss_id sub) -> (t <= length sub)%nat ->
  (forall s, In s sub -> c_dec CK (ss_value s) <> Ok f0) ->
  ss_combine_shares K from_usize (self_mod K) CK sc sub = Ok secret.
Proof. exact reconstruct_field. Qed.
Print Assumptions C16_reconstruct_field.

(** ... and so do the group images [y*g] of such shares, to [secret*g]. *)
Theorem C16_reconstruct_group : forall K (HK : field_laws K) CK (HCK : codec_laws f0 CK) from_usize
    M (HM : mod_laws M) CM (HCM : codec_laws m0 CM) t n sc draws secret shares (g : M) sub sub',
  ids_ok from_usize n -> scheme_new t n = Ok sc ->
  ss_split_secret K CK from_usize sc draws secret = Ok shares ->
  incl sub shares -> NoDup (map ss_id sub) -> (t <= length sub)%nat ->
  Forall2 (fun s s' => ss_id s' = ss_id s /\ exists y, c_dec CK (ss_value s) = Ok y /\
             c_dec CM (ss_value s') = Ok (smul y g) /\ smul y g <> m0) sub sub' ->
  ss_combine_shares K from_usize M CM sc sub' = Ok (smul secret g).
Proof. exact reconstruct_group. Qed.
Print Assumptions C16_reconstruct_group.

(** argument checks of the scheme constructor and of recombination *)
Theorem C16_scheme_arguments : forall t n,
  (forall sc, scheme_new t n = Ok sc <-> (2 <= t <= n)%nat /\ sc = mkScheme t n).
Proof. exact scheme_new_iff. Qed.
Print Assumptions C16_scheme_arguments.
Theorem C16_combine_rejects : forall (K : fieldOps) from_usize (M : modOps K) (CM : codec M) (HCM : codec_laws m0 CM) sc shares,
  (length shares < sc_threshold sc)%nat \/ ~ NoDup (map ss_id shares) \/
  (exists s, In s shares /\ (ss_id s = 0 \/ forall y, c_dec CM (ss_value s) = Ok y -> y = m0)) ->
  is_ok (ss_combine_shares K from_usize M CM sc shares) = false.
Proof. exact combine_rejects. Qed.
Print Assumptions C16_combine_rejects.

Example C16_ex : field_laws K257 /\ codec_laws (f0 : K257) C257 /\ ids_ok fu257 5 /\
  scheme_new 3 5 = Ok ex_sc /\
  ss_split_secret K257 C257 fu257 ex_sc ex_sd (k257 9) =
    Ok [mkSShare 1 [0; 24]; mkSShare 2 [0; 59]; mkSShare 3 [0; 114]; mkSShare 4 [0; 189]; mkSShare 5 [0; 27]] /\
  okv (ss_combine_shares K257 fu257 (self_mod K257) C257 ex_sc [mkSShare 5 [0; 27]; mkSShare 2 [0; 59]; mkSShare 4 [0; 189]]) = Some 9.
Proof.
  split; [exact K257_laws|]. split; [exact C257_laws|].
  split; [apply bn_ids_ok; [exact prime_257|cbn; lia|cbn; lia]|].
  split; [reflexivity|]. split; [exact ex_split|vm_compute; reflexivity].
Qed.
(** the modelled big-number implementation satisfies the contract for every prime *)
Theorem C16_instance_contract : forall p sz n, prime p -> p <= 256 ^ Z.of_nat sz ->
  Z.of_nat n < p -> Z.of_nat n < 2 ^ 32 ->
  field_laws (FpOps p) /\ codec_laws (f0 : FpOps p) (bn_codec p sz) /\ ids_ok (bn_from_usize p) n.
Proof. exact (fun p sz n Hp Hs Hn H32 => conj (FpOps_laws p Hp) (conj (bn_codec_laws p sz Hp Hs) (bn_ids_ok p n Hp Hn H32))). Qed.
Print Assumptions C16_instance_contract.

(** C17: every honest non-zero share is accepted, ... *)
Theorem C17_feldman_complete : forall K (HK : field_laws K) CK (HCK : codec_laws f0 CK) from_usize
    M (HM : mod_laws M) t n sc draws secret (g : M) v shares s,
  ids_ok from_usize n -> scheme_new t n = Ok sc ->
  feldman_split K CK from_usize M sc draws secret g = Ok (v, shares) -> In s shares ->
  c_dec CK (ss_value s) <> Ok f0 ->
  feldman_verify K CK from_usize M sc s v = Ok tt.
Proof. exact feldman_complete. Qed.
Print Assumptions C17_feldman_complete.
(** ... a share is accepted iff it is the (non-zero) value of the committed
    polynomial at its identifier (commitments of any length), ... *)
Theorem C17_feldman_sound : forall K (HK : field_laws K) CK (HCK : codec_laws f0 CK) from_usize
    M (HM : mod_laws M) sc (g : M) poly s,
  faithful g -> poly <> [] ->
  feldman_verify K CK from_usize M sc s (mkFV K M g (map (fun c => smul c g) poly)) = Ok tt <->
  (sc_threshold sc <= length poly)%nat /\ peval poly (from_usize (ss_id s)) <> f0 /\
  c_dec CK (ss_value s) = Ok (peval poly (from_usize (ss_id s))).
Proof. exact feldman_sound. Qed.
Print Assumptions C17_feldman_sound.
(** ... and [t] or more accepted shares with distinct identifiers recombine to the
    committed secret, when the dealer published exactly [t] commitments. *)
Theorem C17_feldman_accepted_combine : forall K (HK : field_laws K) CK (HCK : codec_laws f0 CK) from_usize
    M (HM : mod_laws M) t n sc (g : M) poly shares,
  ids_ok from_usize n -> scheme_new t n = Ok sc -> faithful g -> length poly = t ->
  (t <= length shares)%nat -> NoDup (map ss_id shares) ->
  (forall s, In s shares -> 1 <= ss_id s <= Z.of_nat n /\
     feldman_verify K CK from_usize M sc s (mkFV K M g (map (fun c => smul c g) poly)) = Ok tt) ->
  vss_combine K from_usize (self_mod K) CK sc shares = Ok (hd f0 poly).
Proof. exact feldman_combine. Qed.
Print Assumptions C17_feldman_accepted_combine.
(** Without that (the code only checks [len >= threshold]) accepted shares do not
    determine a secret. *)
Theorem C17_extra_commitments_refuted :
  exists v shares, (forall s, In s shares -> feldman_verify K257 C257 fu257 M257 (mkScheme 2 3) s v = Ok tt) /\
  exists s1 s2 s3, shares = [s1; s2; s3] /\ NoDup (map ss_id shares) /\
  exists a b, vss_combine K257 fu257 M257 C257 (mkScheme 2 3) [s1; s2] = Ok a /\
              vss_combine K257 fu257 M257 C257 (mkScheme 2 3) [s1; s3] = Ok b /\ a <> b.
Proof. exact extra_commitments. Qed.
Print Assumptions C17_extra_commitments_refuted.
Example C17_hyp : faithful (f1 : M257) /\ mod_laws M257.
Proof. split; [exact (faithful_one K257 K257_laws)|exact (self_mod_laws K257 K257_laws)]. Qed.

(** C18: honest pairs of non-zero shares are accepted, ... *)
Theorem C18_pedersen_complete : forall K (HK : field_laws K) CK (HCK : codec_laws f0 CK) from_usize
    M (HM : mod_laws M) t n sc blinding sd bd secret (g h : M) r i s b,
  ids_ok from_usize n -> scheme_new t n = Ok sc ->
  pedersen_split K CK from_usize M sc blinding sd bd secret g h = Ok r ->
  nth_error (pr_secret_shares K M r) i = Some s -> nth_error (pr_blinding_shares K M r) i = Some b ->
  c_dec CK (ss_value s) <> Ok f0 -> c_dec CK (ss_value b) <> Ok f0 ->
  pedersen_verify K CK from_usize M sc s b (pr_verifier K M r) = Ok tt.
Proof. exact pedersen_complete. Qed.
Print Assumptions C18_pedersen_complete.
(** ... two accepted pairs with different values at one identifier reveal the
    discrete logarithm of [h] to base [g], ... *)
Theorem C18_pedersen_binding : forall K (HK : field_laws K) CK (HCK : codec_laws f0 CK) from_usize
    M (HM : mod_laws M) sc v s1 b1 s2 b2 y1 y2,
  faithful (pv_g K M v) -> pv_commitments K M v <> [] ->
  ss_id s1 = ss_id s2 ->
  pedersen_verify K CK from_usize M sc s1 b1 v = Ok tt ->
  pedersen_verify K CK from_usize M sc s2 b2 v = Ok tt ->
  c_dec CK (ss_value s1) = Ok y1 -> c_dec CK (ss_value s2) = Ok y2 -> y1 <> y2 ->
  exists z1 z2, c_dec CK (ss_value b1) = Ok z1 /\ c_dec CK (ss_value b2) = Ok z2 /\ z1 <> z2 /\
    pv_h K M v = smul (fdiv (fsub y1 y2) (fsub z2 z1)) (pv_g K M v).
Proof. exact pedersen_binding. Qed.
Print Assumptions C18_pedersen_binding.
(** ... and any t-1 holders, with the public commitments, see the same as in a run
    for any other secret (except the one whose blinding would be zero, which the
    code rejects). *)
Theorem C18_pedersen_hiding : forall K (HK : field_laws K) CK (HCK : codec_laws f0 CK) from_usize
    M (HM : mod_laws M) t n sc blinding sd bd secret (g h : M) (a : K) r ids secret',
  ids_ok from_usize n -> scheme_new t n = Ok sc -> h = smul a g -> a <> f0 ->
  pedersen_split K CK from_usize M sc blinding sd bd secret g h = Ok r ->
  NoDup ids -> (forall i, In i ids -> (i < n)%nat) -> length ids = (t - 1)%nat ->
  secret' <> f0 -> fadd blinding (fdiv (fsub secret secret') a) <> f0 ->
  exists sd' bd' r',
    pedersen_split K CK from_usize M sc (fadd blinding (fdiv (fsub secret secret') a)) sd' bd' secret' g h = Ok r' /\
    pr_verifier K M r' = pr_verifier K M r /\
    forall i, In i ids -> nth_error (pr_secret_shares K M r') i = nth_error (pr_secret_shares K M r) i /\
                          nth_error (pr_blinding_shares K M r') i = nth_error (pr_blinding_shares K M r) i.
Proof. exact pedersen_hiding. Qed.
Print Assumptions C18_pedersen_hiding.
(** The exact acceptance rule: the verifier's [threshold] and the blind share's
    identifier play no role, and the commitments may have any length. *)
Theorem C18_pedersen_accepts_iff : forall K (HK : field_laws K) CK (HCK : codec_laws f0 CK) from_usize
    M (HM : mod_laws M) sc share bshare v, pv_commitments K M v <> [] ->
  pedersen_verify K CK from_usize M sc share bshare v = Ok tt <->
  exists s t, c_dec CK (ss_value share) = Ok s /\ s <> f0 /\
    c_dec CK (ss_value bshare) = Ok t /\ t <> f0 /\
    meval K M (pv_commitments K M v) (from_usize (ss_id share)) =
      madd (smul s (pv_g K M v)) (smul t (pv_h K M v)).
Proof. exact pedersen_verify_iff. Qed.
Print Assumptions C18_pedersen_accepts_iff.
Example C18_ex :
  (let! r := pedersen_split K257 C257 fu257 M257 ex_sc (k257 8) ex_sd ex_bd (k257 9) (k257 3 : M257) (k257 4 : M257) in
   rmap (fun i => pedersen_verify K257 C257 fu257 M257 ex_sc (nth i (pr_secret_shares K257 M257 r) (mkSShare 0 []))
          (nth i (pr_blinding_shares K257 M257 r) (mkSShare 0 [])) (pr_verifier K257 M257 r)) (seq 0 5))
  = Ok [tt; tt; tt; tt; tt].
Proof. vm_compute. reflexivity. Qed.

(** C19: zero shares are refused everywhere, ... *)
Theorem C19_zero_share_refused : forall K (HK : field_laws K) CK (HCK : codec_laws f0 CK) from_usize s,
  c_dec CK (ss_value s) = Ok f0 ->
  (forall sc shares, In s shares -> is_ok (ss_combine_shares K from_usize (self_mod K) CK sc shares) = false) /\
  (forall M sc v, is_ok (feldman_verify K CK from_usize M sc s v) = false) /\
  (forall M sc b v, is_ok (pedersen_verify K CK from_usize M sc s b v) = false) /\
  (forall M sc b v, is_ok (pedersen_verify K CK from_usize M sc b s v) = false).
Proof. exact zero_share_refused. Qed.
Print Assumptions C19_zero_share_refused.
(** ... though for every non-zero secret some honest run hands one out, ... *)
Theorem C19_honest_zero_share_refuted : forall K (HK : field_laws K) CK (HCK : codec_laws f0 CK) from_usize t n sc secret,
  ids_ok from_usize n -> scheme_new t n = Ok sc -> secret <> f0 ->
  exists draws shares, ss_split_secret K CK from_usize sc draws secret = Ok shares /\
    In (mkSShare 1 (c_enc CK f0)) shares.
Proof. exact zero_share_exists. Qed.
Print Assumptions C19_honest_zero_share_refuted.
(** ... and a split succeeds iff the secret is not zero. *)
Theorem C19_split_iff : forall K (HK : field_laws K) CK (HCK : codec_laws f0 CK) from_usize sc draws secret,
  (secret = f0 -> ss_split_secret K CK from_usize sc draws secret = Err (ShareErr ShareInvalidSecret)) /\
  (secret <> f0 -> exists shares, ss_split_secret K CK from_usize sc draws secret = Ok shares /\
     length shares = sc_limit sc).
Proof. exact split_iff. Qed.
Print Assumptions C19_split_iff.

(** C20: what the verifier codecs do: every decoded commitment is the first. *)
Theorem C20_feldman_codec : forall K M CM (HCM : codec_laws m0 CM) g c cs, Z.of_nat (length (c :: cs)) < 2 ^ 32 ->
  fverifier_try_from K M CM (fverifier_to_bytes K M CM (mkFV K M g (c :: cs)))
  = Ok (mkFV K M g (repeat c (length (c :: cs)))).
Proof. exact fverifier_codec. Qed.
Print Assumptions C20_feldman_codec.
Theorem C20_pedersen_codec : forall K M CM (HCM : codec_laws m0 CM) g h c cs, Z.of_nat (length (c :: cs)) < 2 ^ 32 ->
  pverifier_try_from K M CM (pverifier_to_bytes K M CM (mkPV K M g h (c :: cs)))
  = Ok (mkPV K M g h (repeat c (length (c :: cs)))).
Proof. exact pverifier_codec. Qed.
Print Assumptions C20_pedersen_codec.
(** so the round trip loses every verifier that has two different commitments *)
Theorem C20_feldman_roundtrip_refuted : forall K M CM (HCM : codec_laws m0 CM) g c cs,
  Z.of_nat (length (c :: cs)) < 2 ^ 32 -> (exists d, In d cs /\ d <> c) ->
  fverifier_try_from K M CM (fverifier_to_bytes K M CM (mkFV K M g (c :: cs))) <> Ok (mkFV K M g (c :: cs)).
Proof. exact fverifier_roundtrip_refuted. Qed.
Print Assumptions C20_feldman_roundtrip_refuted.
Theorem C20_pedersen_roundtrip_refuted : forall K M CM (HCM : codec_laws m0 CM) g h c cs,
  Z.of_nat (length (c :: cs)) < 2 ^ 32 -> (exists d, In d cs /\ d <> c) ->
  pverifier_try_from K M CM (pverifier_to_bytes K M CM (mkPV K M g h (c :: cs))) <> Ok (mkPV K M g h (c :: cs)).
Proof. exact pverifier_roundtrip_refuted. Qed.
Print Assumptions C20_pedersen_roundtrip_refuted.
(** and then refuses honest shares *)
Theorem C20_recoded_verifier_refuses_refuted :
  (let! (v, shares) := ex_feldman in rmap (fun s => feldman_verify K257 C257 fu257 M257 ex_sc s v) shares)
    = Ok [tt; tt; tt; tt; tt] /\
  (let! (v, shares) := ex_feldman in let! v' := recode v in
     feldman_verify K257 C257 fu257 M257 ex_sc (nth 1 shares (mkSShare 0 [])) v')
    = Err (ShareErr ShareInvalidValue).
Proof. exact recode_rejects. Qed.
Print Assumptions C20_recoded_verifier_refuses_refuted.
Theorem C20_pedersen_short_panics_refuted : forall (K : fieldOps) (M : modOps K) (CM : codec M) (HCM : codec_laws m0 CM) g h n,
  (1 <= c_size CM)%nat -> 1 <= n < 2 ^ 32 ->
  pverifier_try_from K M CM (c_enc CM g ++ c_enc CM h ++ u32_be n) = Err Panic.
Proof. exact pverifier_short_panics. Qed.
Print Assumptions C20_pedersen_short_panics_refuted.
Theorem C20_share_to_bytes_diverges_refuted : forall fuel s, sshare_to_bytes fuel s = Err OutOfFuel.
Proof. exact sshare_to_bytes_diverges. Qed.
Print Assumptions C20_share_to_bytes_diverges_refuted.
Theorem C20_share_try_from : forall bytes,
  ((length bytes < 4)%nat -> sshare_try_from bytes = Err (ShareErr ShareSecretMinSize)) /\
  (forall id v, 0 <= id < 2 ^ 32 -> bytes = u32_be id ++ v -> sshare_try_from bytes = Ok (mkSShare id v)).
Proof. exact sshare_try_from_spec. Qed.
Print Assumptions C20_share_try_from.

(** Property theorems for libursa/src/sharing/shamir.rs (C11-C15). *)
From Verif Require Import Base BnModel BnProofs NumTheory ShamirModel ShamirProofs.
From Coq Require Import ZArith.Znumtheory.

(** C11: any list of at least [t] shares with distinct identifiers (any subset,
    any order), none of which has value 0, recombines to the secret number. *)
Theorem C11_reconstruct : forall p draws secret t n shares sub,
  prime p -> n < p ->
  split_secret draws secret t n p = Ok shares ->
  NoDup (map sh_id sub) -> incl sub shares -> t <= Z.of_nat (length sub) ->
  (forall s, In s sub -> sh_value s <> 0) ->
  combine_shares sub p = Ok (bn_to_bytes (bn_from_bytes secret)).
Proof. exact reconstruct. Qed.
Print Assumptions C11_reconstruct.

Lemma reconstruct_bytes : forall p draws secret t n shares sub,
  prime p -> n < p -> Forall (fun b => 0 <= b < 256) secret -> hd 0 secret <> 0 ->
  split_secret draws secret t n p = Ok shares ->
  NoDup (map sh_id sub) -> incl sub shares -> t <= Z.of_nat (length sub) ->
  (forall s, In s sub -> sh_value s <> 0) ->
  combine_shares sub p = Ok secret.
Proof.
  intros p draws secret t n shares sub Hp Hn Hb Hh Hs Hnd Hi Hl Hz.
  rewrite (reconstruct p draws secret t n shares sub) by assumption. f_equal.
  unfold bn_to_bytes. pose proof (val_be_bound 256 secret ltac:(lia) Hb).
  rewrite bn_from_bytes_val, Z.abs_eq by lia. rewrite digits_be_of_val by (lia || assumption).
  destruct secret as [|b secret]; cbn in Hh; [contradiction|].
  rewrite strip_zeros_cons. destruct (Z.eqb_spec b 0); [contradiction|reflexivity].
Qed.
(** ... and to the very same bytes when the secret has no leading zero byte. *)
Theorem C11_reconstruct_bytes : forall p draws secret t n shares sub,
  prime p -> n < p -> Forall (fun b => 0 <= b < 256) secret -> hd 0 secret <> 0 ->
  split_secret draws secret t n p = Ok shares ->
  NoDup (map sh_id sub) -> incl sub shares -> t <= Z.of_nat (length sub) ->
  (forall s, In s sub -> sh_value s <> 0) ->
  combine_shares sub p = Ok secret.
Proof. exact reconstruct_bytes. Qed.
Print Assumptions C11_reconstruct_bytes.

Definition ex_draws (k : nat) : Z := nth k [5; 10] 0.
Example C11_ex : prime 257 /\
  split_secret ex_draws [9] 3 5 257 = Ok [mkShare 1 24; mkShare 2 59; mkShare 3 114; mkShare 4 189; mkShare 5 27]
  /\ combine_shares [mkShare 5 27; mkShare 2 59; mkShare 4 189] 257 = Ok [9].
Proof. split; [exact prime_257|]. split; vm_compute; reflexivity. Qed.

(** Leading zero bytes of the secret are lost. *)
Theorem C11_leading_zero_refuted : exists p draws secret t n shares,
  prime p /\ n < p /\ split_secret draws secret t n p = Ok shares /\
  (forall s, In s shares -> sh_value s <> 0) /\ Z.of_nat (length shares) = n /\
  is_ok (combine_shares shares p) = true /\ combine_shares shares p <> Ok secret.
Proof.
  exists 257, ex_draws, [0; 9], 3, 5. eexists. split; [exact prime_257|]. split; [lia|].
  split; [vm_compute; reflexivity|]. split.
  { intros s [<-|[<-|[<-|[<-|[<-|[]]]]]]; discriminate. }
  split; [reflexivity|]. split; [vm_compute; reflexivity|]. vm_compute. discriminate.
Qed.
Print Assumptions C11_leading_zero_refuted.

(** C12: one share of value zero makes recombination fail ... *)
Theorem C12_zero_share_rejected : forall shares p s, In s shares -> sh_value s = 0 ->
  combine_shares shares p = Err GeneralError.
Proof.
  exact (fun shares p s Hin Hz =>
    combine_invalid shares p (or_intror (or_intror (or_introl (ex_intro _ s (conj Hin (or_introl Hz))))))).
Qed.
Print Assumptions C12_zero_share_rejected.
(** ... and honest splitting does produce such shares, for every prime field,
    threshold and non-zero secret. *)
Theorem C12_honest_zero_share_refuted : forall p secret t n,
  prime p -> 2 <= t <= n -> secret <> [] -> 0 < bn_from_bytes secret < p ->
  exists draws shares, (forall k, 0 <= draws k < p) /\
    split_secret draws secret t n p = Ok shares /\ In (mkShare 1 0) shares.
Proof. exact zero_share_run. Qed.
Print Assumptions C12_honest_zero_share_refuted.
Example C12_hyp : prime 257 /\ 2 <= 2 <= 3 /\ [9] <> [] /\ 0 < bn_from_bytes [9] < 257.
Proof.
  split; [exact prime_257|]. split; [lia|]. split; [discriminate|]. change (bn_from_bytes [9]) with 9. lia.
Qed.

(** C13: given any t-1 observed shares and any candidate secret there is exactly
    one choice of the t-1 random coefficients explaining the observation. *)
Theorem C13_perfect_secrecy : forall p t n obs,
  prime p -> 2 <= t <= n -> n < p ->
  NoDup (map sh_id obs) ->
  (forall s, In s obs -> 1 <= sh_id s <= n /\ 0 <= sh_value s < p) ->
  Z.of_nat (length obs) = t - 1 ->
  forall secret, secret <> [] -> 0 <= bn_from_bytes secret < p ->
  exists draws, (forall k, 0 <= draws k < p) /\
    (exists shares, split_secret draws secret t n p = Ok shares /\ incl obs shares) /\
    (forall draws' shares', (forall k, 0 <= draws' k < p) ->
        split_secret draws' secret t n p = Ok shares' -> incl obs shares' ->
        forall k, (Z.of_nat k < t - 1) -> draws' k = draws k).
Proof. exact secrecy_main. Qed.
Print Assumptions C13_perfect_secrecy.
Example C13_hyp : prime 257 /\ 2 <= 3 <= 5 /\ 5 < 257 /\ NoDup (map sh_id [mkShare 2 59; mkShare 4 0]) /\
  (forall s, In s [mkShare 2 59; mkShare 4 0] -> 1 <= sh_id s <= 5 /\ 0 <= sh_value s < 257).
Proof.
  split; [exact prime_257|]. split; [lia|]. split; [lia|]. split.
  - repeat constructor; cbn; intuition lia.
  - intros s [<-|[<-|[]]]; cbn; lia.
Qed.

(** C13 fails when the field is not larger than [total], which split_secret does
    not check: share number p then is the secret itself. *)
Theorem C13_small_field_leak_refuted : forall p draws secret t n shares,
  prime p -> (forall k, 0 <= draws k < p) -> p <= n ->
  split_secret draws secret t n p = Ok shares -> In (mkShare p (bn_from_bytes secret)) shares.
Proof. exact small_field_leak. Qed.
Print Assumptions C13_small_field_leak_refuted.
Example C13_leak_ex : prime 5 /\ split_secret ex_draws [3] 2 6 5 =
  Ok [mkShare 1 3; mkShare 2 3; mkShare 3 3; mkShare 4 3; mkShare 5 3; mkShare 6 3] /\
  split_secret (fun _ => 2) [3] 2 6 5 =
  Ok [mkShare 1 0; mkShare 2 2; mkShare 3 4; mkShare 4 1; mkShare 5 3; mkShare 6 0].
Proof. split; [exact prime_5|]. split; vm_compute; reflexivity. Qed.

(** C14: exact success condition of split_secret and shape of the result. *)
Lemma split_validation : forall draws secret t n field, (forall k, 0 <= draws k < field) ->
  ((n < t \/ t < 2 \/ secret = [] \/ field < 2 \/ bn_from_bytes secret < 0 \/ field <= bn_from_bytes secret) ->
      split_secret draws secret t n field = Err GeneralError) /\
  ((t <= n /\ 2 <= t /\ secret <> [] /\ 2 <= field /\ 0 <= bn_from_bytes secret < field) ->
      exists shares, split_secret draws secret t n field = Ok shares /\
        map sh_id shares = map (fun i => Z.of_nat i + 1) (seq 0 (Z.to_nat n)) /\
        Forall (fun s => 0 <= sh_value s < field) shares).
Proof.
  intros draws secret t n field Hd. split.
  - intros H. rewrite split_unfold.
    assert (E : split_args_ok secret t n field = false).
    { apply not_true_iff_false. intros Q. unfold split_args_ok in Q.
      repeat (apply andb_prop in Q as [Q ?]).
      destruct H as [H|[H|[H|[H|[H|H]]]]]; try lia. subst. discriminate. }
    now rewrite E.
  - intros (H1 & H2 & H3 & H4 & H5).
    assert (E : split_args_ok secret t n field = true).
    { unfold split_args_ok.
      repeat (apply andb_true_intro; split); try (apply Z.leb_le; lia); try (apply Z.ltb_lt; lia).
      destruct secret; [contradiction|reflexivity]. }
    destruct (split_succeeds draws secret t n field E Hd) as (shares & Es & Hr).
    exists shares. split; [exact Es|]. split; [exact (split_ids _ _ _ _ _ _ Es)|exact Hr].
Qed.
Theorem C14_split_validation : forall draws secret t n field, (forall k, 0 <= draws k < field) ->
  ((n < t \/ t < 2 \/ secret = [] \/ field < 2 \/ bn_from_bytes secret < 0 \/ field <= bn_from_bytes secret) ->
      split_secret draws secret t n field = Err GeneralError) /\
  ((t <= n /\ 2 <= t /\ secret <> [] /\ 2 <= field /\ 0 <= bn_from_bytes secret < field) ->
      exists shares, split_secret draws secret t n field = Ok shares /\
        map sh_id shares = map (fun i => Z.of_nat i + 1) (seq 0 (Z.to_nat n)) /\
        Forall (fun s => 0 <= sh_value s < field) shares).
Proof. exact split_validation. Qed.
Print Assumptions C14_split_validation.

Theorem C14_combine_validation : forall shares field,
  field < 2 \/ (length shares < 2)%nat \/ (exists s, In s shares /\ (sh_value s = 0 \/ sh_id s = 0))
  \/ ~ NoDup (map sh_id shares) ->
  combine_shares shares field = Err GeneralError.
Proof. exact combine_invalid. Qed.
Print Assumptions C14_combine_validation.

Lemma combine_accepts : forall shares p, prime p -> (2 <= length shares)%nat ->
  (forall s, In s shares -> sh_value s <> 0 /\ 0 < sh_id s < p) -> NoDup (map sh_id shares) ->
  exists bytes, combine_shares shares p = Ok bytes /\ 0 <= bn_from_bytes bytes < p.
Proof.
  intros shares p Hp Hl Hs Hnd. pose proof (prime_ge_2 p Hp).
  rewrite combine_valid; [|lia|assumption| |assumption].
  2:{ intros s Hin. destruct (Hs s Hin). split; [assumption|lia]. }
  assert (Hids : Forall (fun x => 0 <= x < p) (map sh_id shares)).
  { apply Forall_forall. intros x Hx. apply in_map_iff in Hx as (s & <- & Hin). destruct (Hs s Hin). lia. }
  destruct (interpolate_spec p Hp (map (fun x => x mod p) (map sh_id shares)) (map sh_value shares))
    as (v & Ev & Hv & _).
  - apply Forall_forall. intros x Hx. apply in_map_iff in Hx as (y & <- & _). apply Z.mod_pos_bound. lia.
  - now apply NoDup_map_mod.
  - destruct shares; [cbn in Hl; lia|discriminate].
  - now rewrite !map_length.
  - rewrite !map_map in Ev. rewrite Ev. cbn [rbind]. eexists. split; [reflexivity|].
    unfold element_to_bytes. cbn [el_value]. rewrite bn_bytes_roundtrip by lia. assumption.
Qed.
(** over a prime field every other share list is accepted *)
Theorem C14_combine_accepts : forall shares p, prime p -> (2 <= length shares)%nat ->
  (forall s, In s shares -> sh_value s <> 0 /\ 0 < sh_id s < p) -> NoDup (map sh_id shares) ->
  exists bytes, combine_shares shares p = Ok bytes /\ 0 <= bn_from_bytes bytes < p.
Proof. exact combine_accepts. Qed.
Print Assumptions C14_combine_accepts.

(** C15 *)
Lemma codec_roundtrip : forall s p, 0 <= sh_value s < p -> share_from_bytes (share_to_bytes s) p = Ok s.
Proof.
  intros [id v] p H. cbn [sh_value] in H. rewrite share_codec by (cbn; lia). cbn.
  now rewrite Z.mod_small.
Qed.
Theorem C15_share_codec : forall s p, 0 <= sh_value s < p -> share_from_bytes (share_to_bytes s) p = Ok s.
Proof. exact codec_roundtrip. Qed.
Print Assumptions C15_share_codec.
Theorem C15_reduces : forall s p, 0 < p -> 0 <= sh_value s ->
  share_from_bytes (share_to_bytes s) p = Ok (mkShare (sh_id s) (sh_value s mod p)).
Proof. exact share_codec. Qed.
Print Assumptions C15_reduces.
Theorem C15_empty_panics : forall p, share_from_bytes [] p = Err Panic.
Proof. exact (fun p => eq_refl). Qed.
Print Assumptions C15_empty_panics.
Example C15_ex : share_to_bytes (mkShare 7 258) = [1;2;7] /\ share_from_bytes [1;2;7] 65537 = Ok (mkShare 7 258).
Proof. split; reflexivity. Qed.

(** Common vocabulary of the model: Rust [Result]s as data. *)
From Coq Require Export List ZArith Lia Bool.
Export ListNotations.
Open Scope Z_scope.

(** [SharingError] (ursa_sharing/src/error.rs:28-50). *)
Inductive share_err : Type :=
| ShareSecretMinSize | ShareLimitLessThanThreshold | ShareMinThreshold | ShareInvalidSecret
| ShareInvalidIdentifier | ShareDuplicateIdentifier | ShareInvalidValue
| PedersenVerifierMinSize (expected got : nat) | PedersenBlindShareInvalid | InvalidPoint.

(** Error kinds of the libzmix crates (bbs/src/errors.rs:14-60, bbs/src/pok_vc.rs:46-63,
    src/signatures/ps/errors.rs:5-31, src/commitments/pok_vc.rs), by name; message
    strings are dropped. *)
Inductive zmix_err : Type :=
| ZKeyGenError | ZCountMismatch (expected found : nat) | ZMalformedSignature | ZMalformedSecretKey | ZMalformedPublicKey
| ZPoKVCError | ZUnequalNoOfBasesExponents (bases exponents : nat) | ZInvalidNumberOfBytes | ZInvalidProof (status : nat) | ZGeneralError
| ZInvalidVerkey (y y_tilde : nat) | ZUnsupportedNoOfMessages (expected given : nat) | ZDeserialize.

(** Error kinds of the bulletproofs crate (libzmix/bulletproofs_amcl/src/errors.rs:9-66
    [BulletproofErrorKind] and :100-175 [R1CSErrorKind]), by name; message strings and byte
    strings are dropped. *)
Inductive bp_err : Type :=
| BIPPVerificationError | BInvalidGeneratorsLength (length expected : nat) | BHashNotFoundInDB
| BIncorrectWidthForPoseidon | BIncorrectNoOfInputsForMerkleTreeHash
| BMissingAssignment | BVerificationError | BGadgetError | BFormatError.

(** Error kinds of delegatable credentials (libzmix/src/signatures/delg_cred_cdd/errors.rs:5-139
    [DelgCredCDDErrorKind]), by name; message strings and entity names are dropped. *)
Inductive delg_err : Type :=
| DUnsupportedNoOfMessages (expected given : nat) | DExpectedEvenLevel (given : Z) | DExpectedOddLevel (given : Z)
| DUnexpectedLevel (expected given : Z) | DMoreAttributesThanExpected (expected given : nat) | DVerkeyNotFoundInDelegationLink
| DChainEmpty | DNoOddLinksInChain | DNoEvenLinksInChain | DNoOddLinkInChainAtGivenIndex (given_index size : nat)
| DNoEvenLinkInChainAtGivenIndex (given_index size : nat) | DIncorrectNumberOfVerkeys (expected given : nat)
| DIncorrectNumberOfOddLevelVerkeys (expected given : nat) | DIncorrectNumberOfEvenLevelVerkeys (expected given : nat)
| DChainIsShorterThanExpected (actual_size expected_size : nat) | DIncorrectNumberOfSCommitments (expected given : nat)
| DIncorrectNumberOfTCommitments (expected given : nat) | DIncorrectNumberOfBlindedR (expected given : nat)
| DIncorrectNumberOfRevealedAttributeSets (expected given : nat) | DMoreUnrevealedAttributesThanExpected (expected : nat) (given : Z)
| DUnequalNoOfCommitmentAndResponses (count_commitments count_responses : nat) | DIncorrectNumberOfOddValues (expected given : nat)
| DIncorrectNumberOfEvenValues (expected given : nat) | DPoKVCError | DGeneralError.

(** Error kinds.  The first block is [UrsaCryptoErrorKind]
    (libursa/src/errors/mod.rs:36-58); [GeneralError] is the catch-all string
    error of [CryptoError] (libursa/src/lib.rs:225-239), [ParseError], [KeyGenError], [SigningError] its others;
    [ShareErr] wraps the errors of the ursa_sharing crate, [ZmixErr] those of libzmix, [BpErr] those of
    bulletproofs_amcl, [DelgErr] those of delg_cred_cdd.  [Panic] stands for a Rust panic (failed
    [unwrap], out-of-bounds index, arithmetic assertion); [OutOfFuel] is a
    modelling artefact for unbounded loops and is excluded by the theorems. *)
Inductive err : Type :=
| InvalidState | InvalidStructure | InvalidParam (n : Z) | IOError
| ProofRejected | RevocationAccumulatorIsFull | InvalidRevocationAccumulatorIndex
| CredentialRevoked
| GeneralError
| ParseError | KeyGenError | SigningError
| ShareErr (e : share_err)
| ZmixErr (e : zmix_err)
| BpErr (e : bp_err)
| DelgErr (e : delg_err)
| Panic
| OutOfFuel.

Inductive res (A : Type) : Type :=
| Ok (a : A)
| Err (e : err).
Arguments Ok {A} a.
Arguments Err {A} e.

Definition rbind {A B} (x : res A) (f : A -> res B) : res B :=
  match x with Ok a => f a | Err e => Err e end.

Notation "'let!' x ':=' e1 'in' e2" := (rbind e1 (fun x => e2))
  (at level 61, x pattern, e1 at next level, right associativity).

Definition is_ok {A} (x : res A) : bool := match x with Ok _ => true | Err _ => false end.
Definition is_err {A} (x : res A) : bool := negb (is_ok x).

(** Rust's [iter().map(f).collect::<Result<Vec<_>,_>>()] / a loop pushing [f(x)?]. *)
Fixpoint rmap {A B} (f : A -> res B) (l : list A) : res (list B) :=
  match l with
  | [] => Ok []
  | x :: xs => let! y := f x in let! ys := rmap f xs in Ok (y :: ys)
  end.

(** A [for] loop with an accumulator and [?]. *)
Fixpoint rfold {A S} (f : S -> A -> res S) (l : list A) (s : S) : res S :=
  match l with
  | [] => Ok s
  | x :: xs => let! s' := f s x in rfold f xs s'
  end.

Lemma rbind_ok {A B} (x : res A) (f : A -> res B) b :
  rbind x f = Ok b -> exists a, x = Ok a /\ f a = Ok b.
Proof. destruct x as [a|e]; cbn; [eauto|discriminate]. Qed.

Lemma rmap_ok {A B} (f : A -> res B) (g : A -> B) l :
  (forall x, In x l -> f x = Ok (g x)) -> rmap f l = Ok (map g l).
Proof.
  induction l as [|x xs IH]; intros H; cbn; [reflexivity|].
  rewrite (H x) by now left. cbn. rewrite IH; [reflexivity|].
  intros y Hy; apply H; now right.
Qed.

Lemma rmap_length {A B} (f : A -> res B) l ys : rmap f l = Ok ys -> length ys = length l.
Proof.
  revert ys; induction l as [|x xs IH]; cbn; intros ys H.
  - now inversion H.
  - apply rbind_ok in H as (y & Hy & H). apply rbind_ok in H as (zs & Hz & H).
    inversion H; subst; cbn; f_equal; auto.
Qed.

Lemma rfold_ok {A S} (f : S -> A -> res S) (g : S -> A -> S) (I : S -> Prop) l s :
  I s -> (forall s x, I s -> In x l -> f s x = Ok (g s x) /\ I (g s x)) ->
  rfold f l s = Ok (fold_left g l s) /\ I (fold_left g l s).
Proof.
  revert s; induction l as [|x xs IH]; cbn; intros s Hs H; [auto|].
  destruct (H s x Hs (or_introl eq_refl)) as [-> Hg]. cbn.
  apply IH; auto.
Qed.

Lemma rfold_app {A S} (f : S -> A -> res S) l1 l2 s :
  rfold f (l1 ++ l2) s = rbind (rfold f l1 s) (fun s' => rfold f l2 s').
Proof.
  revert s; induction l1 as [|x xs IH]; cbn; intros s; [reflexivity|].
  destruct (f s x); cbn; auto.
Qed.

(** Model of the ursa_sharing crate (ursa_sharing/src/{lib,shamir,feldman,pedersen}.rs).

    The crate is generic in [S: Field] and [R: Group<S>]; so is the model: [K] is
    the scalar field, [M] the group written additively as a [K]-module, and the
    byte codecs / [is_valid] / [from_usize] of the trait implementations are
    parameters, with the trait's documented contract stated as [codec_laws],
    [ids_ok].  [rng] draws are an explicit function [nat -> K]. *)
From Verif Require Import Base BnModel Alg Fp.

(** The per-type part of trait [Group] that is not algebra (lib.rs:56-81):
    associated [Size], [from_bytes], [to_bytes], [is_valid]. *)
Record codec (T : Type) := {
  c_size : nat;
  c_enc : T -> list Z;
  c_dec : list Z -> res T;
  c_valid : T -> bool;
}.
Arguments c_size {T} c. Arguments c_enc {T} c x. Arguments c_dec {T} c b. Arguments c_valid {T} c x.

(** shamir.rs:24-31 *)
Record sshare := mkSShare { ss_id : Z; ss_value : list Z }.
(** feldman.rs:26-29 / pedersen.rs / shamir.rs:88-91: the same two numbers *)
Record scheme := mkScheme { sc_threshold : nat; sc_limit : nat }.

(** u32 truncation [as u32] *)
Definition as_u32 (x : Z) : Z := x mod 2 ^ 32.
(** [u32::to_be_bytes] *)
Definition u32_be (x : Z) : list Z :=
  [x / 2 ^ 24 mod 256; x / 2 ^ 16 mod 256; x / 2 ^ 8 mod 256; x mod 256].
(** [u32::from_be_bytes] on the 4-byte array *)
Definition u32_of_be (b : list Z) : Z :=
  nth 0 b 0 * 2 ^ 24 + nth 1 b 0 * 2 ^ 16 + nth 2 b 0 * 2 ^ 8 + nth 3 b 0.
(** [&value[a..b]]: panics when out of range *)
Definition slice (l : list Z) (a b : nat) : res (list Z) :=
  if Nat.leb a b && Nat.leb b (length l) then Ok (firstn (b - a) (skipn a l)) else Err Panic.

(** shamir.rs:35-40 *)
Definition sshare_new (identifier : Z) (value : list Z) : sshare :=
  mkSShare (as_u32 identifier) value.
(** shamir.rs:44-48: the body calls [self.to_bytes()] on the same object; the
    fuel is the stack depth. *)
Fixpoint sshare_to_bytes (fuel : nat) (s : sshare) : res (list Z) :=
  match fuel with
  | O => Err OutOfFuel
  | S k => let! rest := sshare_to_bytes k s in Ok (u32_be (ss_id s) ++ rest)
  end.
(** shamir.rs:61-75 *)
Definition sshare_try_from (value : list Z) : res sshare :=
  if Nat.ltb (length value) 4 then Err (ShareErr ShareSecretMinSize)
  else Ok (mkSShare (u32_of_be (firstn 4 value)) (skipn 4 value)).

(** shamir.rs:95-103, feldman.rs:33-41, pedersen.rs:33-41 (identical code) *)
Definition scheme_new (threshold limit : nat) : res scheme :=
  if Nat.ltb limit threshold then Err (ShareErr ShareLimitLessThanThreshold)
  else if Nat.ltb threshold 2 then Err (ShareErr ShareMinThreshold)
  else Ok (mkScheme threshold limit).

Section Generic.
  Variable K : fieldOps.
  Variable CK : codec K.
  Variable from_usize : Z -> K.

  (** lib.rs:101-115.  [degree] is called with the threshold. *)
  Definition poly_new (draws : nat -> K) (intercept : K) (degree : nat) : list K :=
    fadd f0 intercept :: map draws (seq 0 (degree - 1)).
  (** lib.rs:118-131: Horner from the last coefficient down.  The empty
      coefficient list (underflow of [len() - 1]) cannot be constructed. *)
  Definition poly_evaluate (coeffs : list K) (x : K) : K :=
    match rev coeffs with
    | [] => f0
    | top :: rest => fold_left (fun out c => fadd (fmul out x) c) rest (fadd f0 top)
    end.

  (** shamir.rs:115-138 *)
  Definition get_shares_and_polynomial (sc : scheme) (draws : nat -> K) (secret : K)
    : res (list sshare * list K) :=
    if negb (c_valid CK secret) then Err (ShareErr ShareInvalidSecret)
    else
      let polynomial := poly_new draws secret (sc_threshold sc) in
      Ok (map (fun i => let identifier := Z.of_nat i + 1 in
                        mkSShare (as_u32 identifier)
                                 (c_enc CK (poly_evaluate polynomial (from_usize identifier))))
              (seq 0 (sc_limit sc)), polynomial).
  (** shamir.rs:106-113 *)
  Definition ss_split_secret (sc : scheme) (draws : nat -> K) (secret : K) : res (list sshare) :=
    let! (shares, _) := get_shares_and_polynomial sc draws secret in Ok shares.

  Section Group.
    Variable M : modOps K.
    Variable CM : codec M.

    (** shamir.rs:175-208 *)
    Definition ss_basis (xs : list K) (i : nat) : K :=
      fold_left (fun basis j =>
        if Nat.eqb i j then basis
        else fmul basis (fdiv (fadd f0 (nth j xs f0))
                              (fsub (fadd f0 (nth j xs f0)) (nth i xs f0))))
        (seq 0 (length xs)) f1.
    Definition ss_interpolate (xs : list K) (ys : list M) : M :=
      fold_left (fun result i => madd result (smul (ss_basis xs i) (madd m0 (nth i ys m0))))
                (seq 0 (length xs)) m0.

    (** shamir.rs:142-173 *)
    Definition combine_step (st : list Z * (list K * list M)) (s : sshare)
      : res (list Z * (list K * list M)) :=
      let '(dups, (xs, ys)) := st in
      if ss_id s =? 0 then Err (ShareErr ShareInvalidIdentifier)
      else if existsb (Z.eqb (ss_id s)) dups then Err (ShareErr ShareDuplicateIdentifier)
      else let! y := c_dec CM (ss_value s) in
      if negb (c_valid CM y) then Err (ShareErr ShareInvalidValue)
      else Ok (ss_id s :: dups, (xs ++ [from_usize (ss_id s)], ys ++ [y])).
    Definition ss_combine_shares (sc : scheme) (shares : list sshare) : res M :=
      if Nat.ltb (length shares) (sc_threshold sc) then Err (ShareErr ShareMinThreshold)
      else let! (_, (xs, ys)) := rfold combine_step shares ([], ([], [])) in
      Ok (ss_interpolate xs ys).

    (** feldman.rs:138-144; [ShareVerifier] (lib.rs:135-139) is its value *)
    Record fverifier := mkFV { fv_g : M; fv_commitments : list M }.

    (** feldman.rs:47-73; [g] is the caller's or the drawn generator *)
    Definition feldman_split (sc : scheme) (draws : nat -> K) (secret : K) (g : M)
      : res (fverifier * list sshare) :=
      let! sc' := scheme_new (sc_threshold sc) (sc_limit sc) in
      let! (shares, polynomial) := get_shares_and_polynomial sc' draws secret in
      Ok (mkFV g (map (fun c => smul c (madd m0 g)) polynomial), shares).

    (** the loop of feldman.rs:97-112 and pedersen.rs:117-131: the pair is
        (running power of x, running sum) *)
    Definition commit_eval (x : K) (commitments : list M) : res M :=
      match commitments with
      | [] => Err Panic
      | c0 :: rest =>
          Ok (snd (fold_left (fun st v => let i := fmul (fst st) x in
                                          (i, madd (snd st) (smul i (madd m0 v))))
                             rest (f1, madd m0 c0)))
      end.

    (** feldman.rs:76-123 *)
    Definition feldman_verify (sc : scheme) (share : sshare) (v : fverifier) : res unit :=
      if Nat.ltb (length (fv_commitments v)) (sc_threshold sc) then Err (ShareErr ShareMinThreshold)
      else let! s := c_dec CK (ss_value share) in
      if negb (c_valid CK s) then Err (ShareErr ShareInvalidValue)
      else let! rhs := commit_eval (from_usize (ss_id share)) (fv_commitments v) in
      let lhs := smul s (mopp (madd m0 (fv_g v))) in
      if meqb (madd rhs lhs) m0 then Ok tt else Err (ShareErr ShareInvalidValue).

    (** feldman.rs:129-134, pedersen.rs:153-158 *)
    Definition vss_combine (sc : scheme) (shares : list sshare) : res M :=
      let! sc' := scheme_new (sc_threshold sc) (sc_limit sc) in ss_combine_shares sc' shares.

    (** feldman.rs:148-155 *)
    Definition fverifier_to_bytes (v : fverifier) : list Z :=
      c_enc CM (fv_g v) ++ u32_be (as_u32 (Z.of_nat (length (fv_commitments v))))
        ++ concat (map (c_enc CM) (fv_commitments v)).
    (** The decoding loop of feldman.rs:181-187 / pedersen.rs:212-218: [offset]
        and [end] are not advanced in the loop body. *)
    Definition read_commitments (value : list Z) (offset end_ cs : nat) : res (list M) :=
      rmap (fun _ => let! b := slice value offset end_ in c_dec CM b) (seq 0 cs).
    (** feldman.rs:161-189 *)
    Definition fverifier_try_from (value : list Z) : res fverifier :=
      let sz := c_size CM in
      if Nat.ltb (length value) (sz * 2 + 4) then
        Err (ShareErr (PedersenVerifierMinSize (sz * 2 + 4) (length value)))
      else
        let! gb := slice value 0 sz in
        let! g := c_dec CM gb in
        let! cb := slice value sz (sz + 4) in
        let cs := Z.to_nat (u32_of_be cb) in
        let! commitments := read_commitments value (sz + 4) (sz + 4 + sz) cs in
        Ok (mkFV g commitments).

    (** pedersen.rs:163-171 *)
    Record pverifier := mkPV { pv_g : M; pv_h : M; pv_commitments : list M }.
    (** pedersen.rs:224-235 *)
    Record pedersen_result := mkPR {
      pr_blinding : K; pr_blinding_shares : list sshare;
      pr_secret_shares : list sshare; pr_verifier : pverifier }.

    (** pedersen.rs:48-89; the two polynomials take their coefficients from the
        successive draws [sd], [bd] of the same rng *)
    Definition pedersen_split (sc : scheme) (blinding : K) (sd bd : nat -> K) (secret : K) (g h : M)
      : res pedersen_result :=
      let! sc' := scheme_new (sc_threshold sc) (sc_limit sc) in
      let! (secret_shares, sp) := get_shares_and_polynomial sc' sd secret in
      let! (blinding_shares, bp) := get_shares_and_polynomial sc' bd blinding in
      let commitments := map (fun i => madd (smul (nth i sp f0) (madd m0 g))
                                            (smul (nth i bp f0) (madd m0 h)))
                             (seq 0 (sc_threshold sc)) in
      Ok (mkPR blinding blinding_shares secret_shares (mkPV g h commitments)).

    (** pedersen.rs:92-147 *)
    Definition pedersen_verify (sc : scheme) (share blind_share : sshare) (v : pverifier) : res unit :=
      let! s := c_dec CK (ss_value share) in
      if negb (c_valid CK s) then Err (ShareErr ShareInvalidValue)
      else let! t := c_dec CK (ss_value blind_share) in
      if negb (c_valid CK t) then Err (ShareErr PedersenBlindShareInvalid)
      else let! rhs := commit_eval (from_usize (ss_id share)) (pv_commitments v) in
      let rhs := madd rhs (smul s (mopp (madd m0 (pv_g v)))) in
      let rhs := madd rhs (smul t (mopp (madd m0 (pv_h v)))) in
      if meqb rhs m0 then Ok tt else Err (ShareErr ShareInvalidValue).

    (** pedersen.rs:174-182 *)
    Definition pverifier_to_bytes (v : pverifier) : list Z :=
      c_enc CM (pv_g v) ++ c_enc CM (pv_h v)
        ++ u32_be (as_u32 (Z.of_nat (length (pv_commitments v))))
        ++ concat (map (c_enc CM) (pv_commitments v)).
    (** pedersen.rs:188-221 *)
    Definition pverifier_try_from (value : list Z) : res pverifier :=
      let sz := c_size CM in
      if Nat.ltb (length value) (sz * 2 + 4) then
        Err (ShareErr (PedersenVerifierMinSize (sz * 2 + 4) (length value)))
      else
        let! gb := slice value 0 sz in
        let! g := c_dec CM gb in
        let! hb := slice value sz (sz + sz) in
        let! h := c_dec CM hb in
        let! cb := slice value (sz + sz) (sz + sz + 4) in
        let cs := Z.to_nat (u32_of_be cb) in
        let! commitments := read_commitments value (sz + sz + 4) (sz + sz + 4 + sz) cs in
        Ok (mkPV g h commitments).
  End Group.
End Generic.

(** ** Contract of the trait implementations (lib.rs:58-91) *)

(** "[is_valid]: true iff this element is not zero and less than the modulus";
    [from_bytes] inverts [to_bytes], whose result has the associated size. *)
Definition codec_laws {T : Type} (zero : T) (C : codec T) : Prop :=
  (forall x, length (c_enc C x) = c_size C) /\
  (forall x, c_dec C (c_enc C x) = Ok x) /\
  (forall x, c_valid C x = false <-> x = zero).

(** the identifiers [0..limit] are distinct in the field *)
Definition ids_ok {K : fieldOps} (from_usize : Z -> K) (limit : nat) : Prop :=
  Z.of_nat limit < 2 ^ 32 /\ from_usize 0 = f0 /\
  forall a b, 0 <= a <= Z.of_nat limit -> 0 <= b <= Z.of_nat limit ->
              from_usize a = from_usize b -> a = b.

(** [impl Field/Group for Bn3072] (ursa_sharing/examples/bn3072.rs:25-110) with
    the modulus [p] and the byte size [sz] as parameters (there a 3072-bit prime
    and 384).  [from_slice] accepts any length; values [>= p] are refused.
    Simplification: [from_usize] is reduced mod [p] here, in the example it is
    not, which only differs for identifiers [>= p]. *)
Fixpoint be_fixed (n : nat) (x : Z) : list Z :=
  match n with O => [] | S k => be_fixed k (x / 256) ++ [x mod 256] end.
Definition bn_codec (p : Z) (sz : nat) : codec (FpOps p) := {|
  c_size := sz;
  c_enc := fun x : Fp p => be_fixed sz (fpv x);
  c_dec := fun b => let v := bn_from_bytes b in
                    if v <? p then Ok (fp p v) else Err (ShareErr ShareInvalidSecret);
  c_valid := fun x : Fp p => negb (fpv x =? 0) && (fpv x <? p);
|}.
Definition bn_from_usize (p v : Z) : FpOps p := fp p v.

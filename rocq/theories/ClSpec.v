(** Specification vocabulary for the CL properties: what the English statements
    mean, in plain integer arithmetic.  Nothing here refers to the protocol code
    except for the record fields of its data types. *)
From Verif Require Import Base StrMap HelpersModel ClModel.
From Coq Require Import Znumtheory.

(** a reduced residue with an inverse *)
Definition unit_mod (n x : Z) : Prop := 0 <= x < n /\ Z.gcd x n = 1.

(** the product of the powers x^k over a list, with the negative powers moved to
    the other side of the congruence, is 1 modulo n *)
Definition pos_part (l : list (Z * Z)) : Z := fold_right (fun xk acc => fst xk ^ Z.max (snd xk) 0 * acc) 1 l.
Definition neg_part (l : list (Z * Z)) : Z := fold_right (fun xk acc => fst xk ^ Z.max (- snd xk) 0 * acc) 1 l.
Definition product_is_one (n : Z) (l : list (Z * Z)) : Prop := pos_part l mod n = neg_part l mod n.

(** a public key whose bases are all invertible modulo n *)
Record valid_pk (pk : ppk) : Prop := {
  vk_n : 2 <= pk_n pk;
  vk_s : unit_mod (pk_n pk) (pk_s pk);
  vk_z : unit_mod (pk_n pk) (pk_z pk);
  vk_rctxt : unit_mod (pk_n pk) (pk_rctxt pk);
  vk_r : forall k r, sm_get k (pk_r pk) = Some r -> unit_mod (pk_n pk) r }.

(** the base of an attribute *)
Definition base_of (pk : ppk) (k : string) : Z := match sm_get k (pk_r pk) with Some r => r | None => 0 end.

(** [sg] is a CL signature on the attribute values: Z = A^e * S^v * Rctxt^m2 * prod R_k^m_k (mod n) *)
Definition cl_signature (pk : ppk) (sg : psig) (vals : list (string * Z)) : Prop :=
  product_is_one (pk_n pk)
    ((pk_z pk, -1) :: (sg_a sg, sg_e sg) :: (pk_s pk, sg_v sg) :: (pk_rctxt pk, sg_m2 sg)
     :: map (fun kv => (base_of pk (fst kv), snd kv)) vals).

(** an issuer key: n is the product of two distinct safe primes 2p+1 and 2q+1 whose
    halves are the private key, S is a square of a unit, and every other base is a
    power of S *)
Record issuer_key (pk : ppk) (sk : psk) : Prop := {
  ik_n : pk_n pk = (2 * sk_p sk + 1) * (2 * sk_q sk + 1);
  ik_p : prime (2 * sk_p sk + 1);
  ik_q : prime (2 * sk_q sk + 1);
  ik_pq : sk_p sk <> sk_q sk;
  ik_s : exists x, Z.gcd x (pk_n pk) = 1 /\ pk_s pk = (x * x) mod pk_n pk;
  ik_z : exists k, 0 <= k /\ pk_z pk = pk_s pk ^ k mod pk_n pk;
  ik_rctxt : exists k, 0 <= k /\ pk_rctxt pk = pk_s pk ^ k mod pk_n pk;
  ik_r : forall a r, sm_get a (pk_r pk) = Some r -> exists k, 0 <= k /\ r = pk_s pk ^ k mod pk_n pk }.

(** the values a signature is made on: known and hidden attributes, not commitments *)
Definition signed_values (vals : cred_values) : list (string * Z) :=
  map (fun kv => (fst kv, cv_value (snd kv))) (filter (fun kv => is_known (snd kv) || is_hidden (snd kv)) vals).
Definition known_values (vals : cred_values) : list (string * Z) :=
  map (fun kv => (fst kv, cv_value (snd kv))) (filter (fun kv => is_known (snd kv)) vals).

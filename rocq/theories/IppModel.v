(** Model of libzmix/bulletproofs_amcl/src/ipp.rs: the inner-product argument.

    Points are elements of the group [M], scalars elements of [K].  [lg i] is what
    [(i as f32).log2() as usize] computes (ipp.rs:330; IppFloatProps.v says what that is).  Vectors
    of amcl_wrapper are lists; [FieldElement::batch_invert] of the challenges is the inverse
    of the product and, for each, that inverse times the other factors. *)
From Verif Require Import Base Alg TranscriptModel.
From Coq Require Import String.
Import List ListNotations.
Open Scope list_scope.

(** [n.is_power_of_two()], [n.next_power_of_two()] (1 for 0) of usize *)
Definition is_pow2 (n : nat) : bool := negb (n =? 0)%nat && (n =? 2 ^ Nat.log2 n)%nat.
Definition next_pow2 (n : nat) : nat := (2 ^ Nat.log2_up n)%nat.

Section Vectors.
Context {K : fieldOps} {M : modOps K}.
Definition zip_with {A B D} (f : A -> B -> D) (l : list A) (m : list B) : list D := map (fun p => f (fst p) (snd p)) (combine l m).
(** amcl_wrapper FieldElementVector::inner_product and hadamard_product, on vectors of equal
    length (unequal lengths are an Err there) *)
Definition inner (a b : list K) : K := fold_left (fun acc p => fadd acc (fmul (fst p) (snd p))) (combine a b) f0.
Definition hadamard (a b : list K) : list K := zip_with fmul a b.
(** multi_scalar_mul_var_time / inner_product_*_time: unequal lengths are an Err, which
    every caller unwraps *)
Definition points_sum (bases : list M) (scalars : list K) : M := fold_left (fun acc p => madd acc (smul (snd p) (fst p))) (combine bases scalars) m0.
Definition multi_scalar_mul (bases : list M) (scalars : list K) : res M :=
  if (length bases =? length scalars)%nat then Ok (points_sum bases scalars) else Err Panic.
(** G1::binary_scalar_mul *)
Definition binary_scalar_mul (p q : M) (x y : K) : M := madd (smul x p) (smul y q).
(** indexing *)
Definition at_ {A} (l : list A) (i : nat) : res A := match nth_error l i with Some x => Ok x | None => Err Panic end.
End Vectors.

Section Ipp.
Context {K : fieldOps} {M : modOps K} (T : tcode M) (lg : nat -> nat).

(** ipp.rs:18-24 *)
Record ipp_proof := mkIpp { ip_L : list M; ip_R : list M; ip_a : K; ip_b : K }.

(** ipp.rs:91-192, the while loop with [k] rounds to go (the vectors have length 2^k); [fac]
    are the factors, present in the first iteration only *)
Fixpoint ipp_loop (k : nat) (fac : option (list K * list K)) (u : M) (G H : list M) (a b : list K) (tr : transcript) : ipp_proof * transcript :=
  match k with
  | O => (mkIpp [] [] (hd f0 a) (hd f0 b), tr)
  | S k' =>
      let n := (2 ^ k')%nat in
      let a_L := firstn n a in let a_R := skipn n a in
      let b_L := firstn n b in let b_R := skipn n b in
      let G_L := firstn n G in let G_R := skipn n G in
      let H_L := firstn n H in let H_R := skipn n H in
      let c_L := inner a_L b_R in
      let c_R := inner a_R b_L in
      let L_0 := match fac with
                 | Some (gf, hf) => hadamard a_L (skipn n gf) ++ hadamard b_R (firstn n hf) ++ [c_L]
                 | None => a_L ++ b_R ++ [c_L] end in
      let L := points_sum (G_R ++ H_L ++ [u]) L_0 in
      let R_0 := match fac with
                 | Some (gf, hf) => hadamard a_R (firstn n gf) ++ hadamard b_L (skipn n hf) ++ [c_R]
                 | None => a_R ++ b_L ++ [c_R] end in
      let R := points_sum (G_L ++ H_R ++ [u]) R_0 in
      let tr := commit_point T tr "L" L in
      let tr := commit_point T tr "R" R in
      let (x, tr) := challenge_scalar T tr "x" in
      let x_inv := finv x in
      let a' := zip_with (fun l r => fadd (fmul l x) (fmul x_inv r)) a_L a_R in
      let b' := zip_with (fun l r => fadd (fmul l x_inv) (fmul x r)) b_L b_R in
      let G' := match fac with
                | Some (gf, hf) => zip_with (fun ls rs => binary_scalar_mul (fst ls) (fst rs) (fmul x_inv (snd ls)) (fmul x (snd rs)))
                                            (combine G_L (firstn n gf)) (combine G_R (skipn n gf))
                | None => zip_with (fun l r => binary_scalar_mul l r x_inv x) G_L G_R end in
      let H' := match fac with
                | Some (gf, hf) => zip_with (fun ls rs => binary_scalar_mul (fst ls) (fst rs) (fmul x (snd ls)) (fmul x_inv (snd rs)))
                                            (combine H_L (firstn n hf)) (combine H_R (skipn n hf))
                | None => zip_with (fun l r => binary_scalar_mul l r x x_inv) H_L H_R end in
      let (p, tr) := ipp_loop k' None u G' H' a' b' tr in
      (mkIpp (L :: ip_L p) (R :: ip_R p) (ip_a p) (ip_b p), tr)
  end.
(** ipp.rs:44-200 [create_ipp]; the assertions panic *)
Definition create_ipp (tr : transcript) (u : M) (G_factors H_factors : list K) (G H : list M) (a b : list K) : res (ipp_proof * transcript) :=
  let n := length G in
  if negb (is_pow2 n) then Err Panic else
  if negb ((length H =? n) && (length a =? n) && (length b =? n) && (length G_factors =? n) && (length H_factors =? n))%nat then Err Panic else
  let tr := innerproduct_domain_sep tr n in
  Ok (ipp_loop (Nat.log2 n) (Some (G_factors, H_factors)) u G H a b tr).

(** ipp.rs:290-296: the challenges recomputed from the proof *)
Fixpoint replay (LR : list (M * M)) (tr : transcript) : list K * transcript :=
  match LR with
  | [] => ([], tr)
  | (L, R) :: rest =>
      let tr := commit_point T tr "L" L in
      let tr := commit_point T tr "R" R in
      let (x, tr) := challenge_scalar T tr "x" in
      let (xs, tr) := replay rest tr in (x :: xs, tr)
  end.
(** [FieldElement::batch_invert]; the empty slice panics *)
Definition product (l : list K) : K := fold_left fmul l f1.
Definition batch_invert (l : list K) : res (list K * K) :=
  match l with
  | [] => Err Panic
  | _ => let all_inv := finv (product l) in
         Ok (map (fun i => fmul all_inv (fmul (product (firstn i l)) (product (skipn (S i) l)))) (seq 0 (length l)), all_inv)
  end.
(** ipp.rs:323-334: one step of the loop over s; the subtractions underflow into an index
    out of range *)
Definition s_step (lg_n : nat) (challenges_sq : list K) (s : list K) (i : nat) : res (list K) :=
  let lg_i := lg i in
  let k := (2 ^ lg_i)%nat in
  if (lg_n - 1 <? lg_i)%nat then Err Panic else
  let! sq := at_ challenges_sq (lg_n - 1 - lg_i) in
  if (i <? k)%nat then Err Panic else
  let! x := at_ s (i - k) in
  Ok (s ++ [fmul x sq]).
(** ipp.rs:265-338 [verification_scalars] *)
Definition verification_scalars (L R : list M) (n : nat) (tr : transcript) : res (list K * list K * list K * transcript) :=
  let lg_n := length L in
  if (32 <=? lg_n)%nat then Err (BpErr BIPPVerificationError) else
  if negb (n =? 2 ^ lg_n)%nat then Err (BpErr BIPPVerificationError) else
  let tr := innerproduct_domain_sep tr n in
  let (challenges, tr) := replay (combine L R) tr in
  let! (challenges_sq, challenges_inv_sq, product_chal_inv) :=
    (if (0 <? lg_n)%nat
     then let! (challenges_inv, p) := batch_invert challenges in
          Ok (map (fun x => fmul x x) challenges, map (fun x => fmul x x) challenges_inv, p)
     else Ok ([], [], f1)) in
  let! s := rfold (s_step lg_n challenges_sq) (seq 1 (n - 1)) [product_chal_inv] in
  Ok (challenges_sq, challenges_inv_sq, s, tr).
(** ipp.rs:202-262 [verify_ipp]; the errors of [verification_scalars] are unwrapped *)
Definition verify_ipp (n : nat) (tr : transcript) (G_factors H_factors : list K) (P u : M) (G H : list M) (a b : K) (L R : list M) : res unit :=
  match verification_scalars L R n tr with
  | Err _ => Err Panic
  | Ok (x_sq, x_inv_sq, s, _) =>
      let g_times_a_times_s := firstn (length G) (zip_with (fun g_i s_i => fmul (fmul a s_i) g_i) G_factors s) in
      let h_times_b_div_s := zip_with (fun h_i s_i_inv => fmul (fmul b s_i_inv) h_i) H_factors (rev s) in
      let exponents := [fmul a b] ++ g_times_a_times_s ++ h_times_b_div_s ++ map fopp x_sq ++ map fopp x_inv_sq in
      let! expected_P := multi_scalar_mul ([u] ++ G ++ H ++ L ++ R) exponents in
      if meqb expected_P P then Ok tt else Err (BpErr BIPPVerificationError)
  end.
End Ipp.
Arguments ipp_proof {K}. Arguments mkIpp {K M}. Arguments ip_L {K M}. Arguments ip_R {K M}. Arguments ip_a {K M}. Arguments ip_b {K M}.

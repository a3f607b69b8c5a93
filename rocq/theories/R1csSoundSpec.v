(** Knowledge extraction from accepted R1CS proofs.  A tree of challenges and of the scalars
    the prover answers with; the assignment of the multiplication gates computed from it; the
    relations between the generators computed from it.  The definitions up to [Fork] are
    functions of scalars alone. *)
From Coq Require Import String.
From Verif Require Import Base Alg Lin Poly TranscriptModel IppModel IppLib IppSpec IppSoundSpec IppForkSpec R1csModel R1csSpec R1csProofModel R1csProofLib R1csProofSpec R1csCheckProps.
Import List ListNotations.
Open Scope list_scope.

Section Extract.
Context {K : fieldOps}.
(** ** interpolation *)
(** the coefficients of the polynomial that is 1 at the i-th point and 0 at the others *)
Definition lagc (xs : list K) (i : nat) : list K :=
  map (fmul (finv (fprod (map (fun r => fsub (nth i xs f0) r) (others i xs))))) (fold_right (fun r p => pmul_lin K r p) [f1] (others i xs)).
(** the coefficient of X^k of the polynomial with the values [v 0], [v 1], ... at the points *)
Definition coefficient (xs : list K) (k : nat) (v : nat -> K) : K := ksum (length xs) (fun i => fmul (nth k (lagc xs i) f0) (v i)).

(** ** the tree *)
(** after x: the scalars t_x, t_x_blinding, e_blinding, and two values of the challenge w with
    a tree of the inner-product argument each *)
Record sx := mkSx { sx_x : K; sx_t : K; sx_tb : K; sx_e : K; sx_w1 : K; sx_t1 : stree K; sx_w2 : K; sx_t2 : stree K }.
Record su := mkSu { su_u : K; su_xs : list sx }.
Record sz := mkSz { sz_z : K; sz_us : list su }.
Record sy := mkSy { sy_y : K; sy_zs : list sz }.
Definition dx : sx := mkSx f0 f0 f0 f0 f0 (SLeaf f0 f0) f0 (SLeaf f0 f0).
Definition du : su := mkSu f0 []. Definition dz : sz := mkSz f0 []. Definition dy : sy := mkSy f0 [].

(** the constraint system: [n1] multipliers in the first phase, [n] in all, [m] commitments;
    [2 ^ k] is n rounded up *)
Context (n1 n m k : nat) (cons : list (lc K)).
Let N := (2 ^ k)%nat.
Let D := (N + N + 2)%nat.
Definition weights_at (z : K) : @weights K := match flatten v_flatten_term z n m cons with Ok w => w | _ => mkW [] [] [] [] f0 end.

(** coefficient vectors for the generators: G (N), H (N), g, h *)
Definition gcoef (j : nat) (a b : K) : K := if (j =? N + N)%nat then a else if (j =? N + N + 1)%nat then b else f0.
(** the coefficients of x A_I + x^2 A_O + x^3 S *)
Definition rep_x (y z u : K) (b : sx) (w' : K) (lr : list K * list K) : nat -> K := fun j =>
  let w := weights_at z in
  if (j <? N)%nat then fsub (fmul (phase_weight n1 u j) (nth j (fst lr) f0)) (fmul (phase_weight n1 u j) (fmul (sx_x b) (fmul (nth j (w_R w) f0) (fpow (finv y) j))))
  else if (j <? N + N)%nat then
    let i := (j - N)%nat in
    fsub (fmul (fmul (fpow (finv y) i) (phase_weight n1 u i)) (nth i (snd lr) f0))
         (fmul (phase_weight n1 u i) (fsub (fmul (fpow (finv y) i) (fadd (fmul (sx_x b) (nth i (w_L w) f0)) (nth i (w_O w) f0))) f1))
  else gcoef j (fmul (fsub (inner (fst lr) (snd lr)) (sx_t b)) w') (sx_e b).
Definition rep1 y z u b := rep_x y z u b (sx_w1 b) (extract k (sx_t1 b)).
Definition rep2 y z u b := rep_x y z u b (sx_w2 b) (extract k (sx_t2 b)).
(** a relation of the inner-product argument, over the generators themselves *)
Definition ipp_rel (y u w' : K) (r : list K) : nat -> K := fun j =>
  if (j <? N)%nat then fmul (phase_weight n1 u j) (nth j r f0)
  else if (j <? N + N)%nat then fmul (fmul (fpow (finv y) (j - N)) (phase_weight n1 u (j - N))) (nth j r f0)
  else gcoef j (fmul w' (nth j r f0)) f0.
Definition rels_x (y z u : K) (b : sx) : list (nat -> K) :=
  (fun j => fsub (rep1 y z u b j) (rep2 y z u b j))
  :: map (ipp_rel y u (sx_w1 b)) (relations k (sx_t1 b)) ++ map (ipp_rel y u (sx_w2 b)) (relations k (sx_t2 b)).

(** the coefficients of A_I, A_O and S (weighted by u), from three values of x *)
Definition rep_u (y z : K) (b : su) (d : nat) : nat -> K := fun j =>
  let xs := firstn 3 (su_xs b) in coefficient (map sx_x xs) d (fun i => let c := nth i xs dx in fmul (finv (sx_x c)) (rep1 y z (su_u b) c j)).
(** the coefficient of x^2 of the polynomials t and t_blinding, from six values of x *)
Definition t2_of (b : su) : K := coefficient (map sx_x (su_xs b)) 1 (fun i => let c := nth i (su_xs b) dx in fmul (finv (sx_x c)) (sx_t c)).
Definition tb2_of (b : su) : K := coefficient (map sx_x (su_xs b)) 1 (fun i => let c := nth i (su_xs b) dx in fmul (finv (sx_x c)) (sx_tb c)).
Definition rels_u (y z : K) (b : su) : list (nat -> K) :=
  map (fun c => fun j => fsub (rep1 y z (su_u b) c j) (fmul (sx_x c) (fadd (rep_u y z b 0 j) (fmul (sx_x c) (fadd (rep_u y z b 1 j) (fmul (sx_x c) (rep_u y z b 2 j))))))) (su_xs b)
  ++ flat_map (rels_x y z (su_u b)) (su_xs b).

(** the coefficients of A_I1, A_I2 (d = 0) and A_O1, A_O2 (d = 1), from two values of u *)
Definition rep_z (y : K) (b : sz) (d e : nat) : nat -> K := fun j =>
  let us := firstn 2 (sz_us b) in coefficient (map su_u us) e (fun i => rep_u y (sz_z b) (nth i us du) d j).
Definition tb_z (b : sz) : K := tb2_of (nth 0 (sz_us b) du).
Definition rels_z (y : K) (b : sz) : list (nat -> K) :=
  map (fun c => fun j => fsub (rep_u y (sz_z b) c 0 j) (fadd (rep_z y b 0 0 j) (fmul (su_u c) (rep_z y b 0 1 j)))) (sz_us b)
  ++ map (fun c => fun j => fsub (rep_u y (sz_z b) c 1 j) (fadd (rep_z y b 1 0 j) (fmul (su_u c) (rep_z y b 1 1 j)))) (sz_us b)
  ++ map (fun c => fun j => gcoef j (fsub (t2_of c) (t2_of (nth 0 (sz_us b) du))) (fsub (tb2_of c) (tb_z b))) (sz_us b)
  ++ flat_map (rels_u y (sz_z b)) (sz_us b).

(** ** the assignment, from the first branch *)
Context (t : list sy).
Definition first_y : sy := nth 0 t dy.
Definition first_z : sz := nth 0 (sy_zs first_y) dz.
Definition rep_ref (d e : nat) : nat -> K := rep_z (sy_y first_y) first_z d e.
Definition ex_aL (i : nat) : K := fadd (rep_ref 0 0 i) (rep_ref 0 1 i).
Definition ex_aR (i : nat) : K := fadd (rep_ref 0 0 (N + i)) (rep_ref 0 1 (N + i)).
Definition ex_aO (i : nat) : K := fadd (rep_ref 1 0 i) (rep_ref 1 1 i).
(** the blinding left over in the q-th constraint *)
Definition ex_blinding (q : nat) : K := fopp (coefficient (map sz_z (sy_zs first_y)) (S q) (fun i => tb_z (nth i (sy_zs first_y) dz))).
Definition gates_at (y : K) : K := ksum N (fun i => fmul (fpow y i) (fsub (fmul (ex_aL i) (ex_aR i)) (ex_aO i))).
Definition rels_y (b : sy) : list (nat -> K) :=
  (fun j => gcoef j (gates_at (sy_y b)) (coefficient (map sz_z (sy_zs b)) 0 (fun i => tb_z (nth i (sy_zs b) dz))))
  :: flat_map (fun c => map (fun de => fun j => fsub (rep_z (sy_y b) c (fst de) (snd de) j) (rep_ref (fst de) (snd de) j)) [(0, 0); (0, 1); (1, 0); (1, 1)]%nat ++ rels_z (sy_y b) c) (sy_zs b).
Definition rels_r1cs : list (nat -> K) := flat_map rels_y t.
(** the assignment, with values for the committed variables *)
Definition ex_assignment (v : list K) : @assignment K := fun x =>
  match x with MulL i => ex_aL i | MulR i => ex_aR i | MulO i => ex_aO i | Committed i => nth i v f0 | VOne => f1 end.
End Extract.

(** ** the tree of accepted proofs *)
Section Fork.
Context {K : fieldOps} {M : modOps K}.
Record fx := mkFx { fx_x : K; fx_t : K; fx_tb : K; fx_e : K; fx_w1 : K; fx_t1 : ftree M; fx_w2 : K; fx_t2 : ftree M }.
Record fu := mkFu { fu_u : K; fu_xs : list fx }.
Record fz := mkFz { fz_z : K; fz_T1 : M; fz_T3 : M; fz_T4 : M; fz_T5 : M; fz_T6 : M; fz_us : list fu }.
Record fy := mkFy { fy_y : K; fy_zs : list fz }.
Definition s_x (b : fx) : sx := mkSx (fx_x b) (fx_t b) (fx_tb b) (fx_e b) (fx_w1 b) (scalars (fx_t1 b)) (fx_w2 b) (scalars (fx_t2 b)).
Definition s_u (b : fu) : su := mkSu (fu_u b) (map s_x (fu_xs b)).
Definition s_z (b : fz) : sz := mkSz (fz_z b) (map s_u (fz_us b)).
Definition s_y (b : fy) : sy := mkSy (fy_y b) (map s_z (fy_zs b)).

(** the verifier: before the second phase it is in state [vs] with the transcript [tr]; the
    deferred constraints are [cbs] and lead to [vs'] in all runs *)
Context (lg : nat -> nat) (cbs : tcode M -> list (vcallback M)) (vs vs' : vstate K M) (tr : transcript) (g h : M) (G H : list M).
Let n := v_num vs'.
Let k := Nat.log2_up n.
(** the points sent before the challenges y and z *)
Context (AI1 AO1 S1' AI2 AO2 S2' : M).
(** a run of the verifier that draws the challenges of its path and accepts, for two values of
    its own random scalar *)
Definition leaf_accepted (y : K) (c : fz) (u : K) (b : fx) (w : K) (T : tcode M) (a0 b0 : K) (Ls Rs : list M) (xs : list K) : Prop :=
  let p := mkR1cs AI1 AO1 S1' AI2 AO2 S2' (fz_T1 c) (fz_T3 c) (fz_T4 c) (fz_T5 c) (fz_T6 c) (fx_t b) (fx_tb b) (fx_e b) (mkIpp Ls Rs a0 b0) in
  challenges_nonzero T /\
  exists t', v_randomize (cbs T) vs (verifier_phase1 T vs p tr) = Ok (vs', t') /\
  verifier_challenges T t' p (next_pow2 n) = mkVchal y (fz_z c) u (fx_x b) w xs /\
  exists r r', r <> r' /\ verify T lg (cbs T) vs tr p g h G H r = Ok tt /\ verify T lg (cbs T) vs tr p g h G H r' = Ok tt.
Definition x_accepted (y : K) (c : fz) (u : K) (b : fx) : Prop :=
  fx_x b <> f0 /\ fx_w1 b <> f0 /\ fx_w2 b <> f0 /\ fx_w1 b <> fx_w2 b /\
  shape k (scalars (fx_t1 b)) /\ shape k (scalars (fx_t2 b)) /\
  every_leaf (leaf_accepted y c u b (fx_w1 b)) (fx_t1 b) [] [] [] /\
  every_leaf (leaf_accepted y c u b (fx_w2 b)) (fx_t2 b) [] [] [].
Definition u_accepted (y : K) (c : fz) (b : fu) : Prop :=
  fu_u b <> f0 /\ length (fu_xs b) = 6%nat /\ NoDup (map fx_x (fu_xs b)) /\ forall b', In b' (fu_xs b) -> x_accepted y c (fu_u b) b'.
Definition z_accepted (y : K) (c : fz) : Prop :=
  length (fz_us c) = 5%nat /\ NoDup (map fu_u (fz_us c)) /\ forall b, In b (fz_us c) -> u_accepted y c b.
Definition y_accepted (b : fy) : Prop :=
  fy_y b <> f0 /\ length (fy_zs b) = S (length (v_cons vs')) /\ NoDup (map fz_z (fy_zs b)) /\ forall c, In c (fy_zs b) -> z_accepted (fy_y b) c.
Definition r1cs_accepted (t : list fy) : Prop :=
  length t = (2 ^ k)%nat /\ NoDup (map fy_y t) /\ forall b, In b t -> y_accepted b.
End Fork.
Arguments fx {K} M. Arguments fu {K} M. Arguments fz {K} M. Arguments fy {K} M.

(** a linear combination of variables as a point: the committed variables stand for their
    commitments, the others for multiples of g *)
Definition point_value {K : fieldOps} {M : modOps K} (g : M) (Vs : list M) (w : @assignment K) (l : lc K) : M :=
  msum (map (fun t => match fst t with Committed i => smul (snd t) (nth i Vs m0) | v => smul (fmul (snd t) (w v)) g end) l).
(** every constraint mentions variables that exist *)
Definition v_scoped {K : fieldOps} {M : modOps K} (s : vstate K M) : Prop := forall l v c, In l (v_cons s) -> In (v, c) l -> in_range (v_num s) (length (v_V s)) v.
(** the blinding of a linear combination of commitments with the blindings [bl] *)
Definition lc_blinding {K : fieldOps} (bl : list K) (l : lc K) : K := fsum (map (fun t => match fst t with Committed i => fmul (snd t) (nth i bl f0) | _ => f0 end) l).

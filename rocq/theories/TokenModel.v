(** Model of libzmix/src/signatures/delg_cred_cdd/attribute_token.rs (proofs of possession of a
    delegated credential chain).

    Loops that push one element per level (or per attribute) onto vectors are written with
    [rmap] over the levels (attributes): the vectors are the results in order, and the first
    error ends the loop.  A HashSet<usize> is the list of its members, a HashMap<usize, _> the
    list of its entries in iteration order.  Powers and products in GT are written additively.
    Window tables and w-NAF only affect speed.  Random scalars are arguments: [d_sig i],
    [d_s i], [d_vk i] for level i, [d_t i j] and [d_a i j] for attribute j of level i. *)
From Verif Require Import Base BnModel Alg ClRevModel BbsModel PsModel GrothModel DelegModel.
Import List ListNotations.
Open Scope list_scope.
Open Scope Z_scope.

Definition mem (j : nat) (s : list nat) : bool := existsb (Nat.eqb j) s.
(** HashMap's index operator: a missing key is a panic *)
Definition lookup {A} (m : list (nat * A)) (j : nat) : res A := match find (fun e => Nat.eqb (fst e) j) m with Some e => Ok (snd e) | None => Err Panic end.
(** contains_key *)
Definition has_key {A} (m : list (nat * A)) (j : nat) : bool := existsb (fun e => Nat.eqb (fst e) j) m.
(** g.binary_scalar_mul(h, r1, r2) and attribute_token.rs:1368-1379 [binary_scalar_mul_g2] *)
Definition bmul {K : fieldOps} {M : modOps K} (g h : M) (r1 r2 : K) : M := madd (smul r1 g) (smul r2 h).
(** number of indices below j outside the set: the value of the counter k in the loops *)
Definition unrev_below (rev : nat -> bool) (j : nat) : nat := length (filter (fun i => negb (rev i)) (seq 0 j)).

Record draws (K : fieldOps) := mkDraws { d_sig : nat -> K; d_s : nat -> K; d_vk : nat -> K; d_t : nat -> nat -> K; d_a : nat -> nat -> K }.
Arguments mkDraws {K}. Arguments d_sig {K}. Arguments d_s {K}. Arguments d_vk {K}. Arguments d_t {K}. Arguments d_a {K}.

Section Token.
Variable C : curve.
Notation K := (cK C). Notation G1 := (cG1 C). Notation G2 := (cG2 C). Notation GT := (cGT C).

(** attribute_token.rs:20-33 [AttributeToken] *)
Record token := mkToken { t_L : nat; t_chain : chain C; t_p1 : params1 C; t_p2 : params2 C;
  t_odd_sigs : list (sig1 C); t_even_sigs : list (sig2 C); t_bsigs : list K; t_bvk : list K; t_bs : list K; t_bt : list (list K); t_ba : list (list K) }.
(** attribute_token.rs:36-43 [AttributeTokenComm] *)
Record comm := mkComm { c_odd_r : list G2; c_even_r : list G1; c_s : list GT; c_t : list (list GT); c_odd_rev : list (list (nat * G1)); c_even_rev : list (list (nat * G2)) }.
(** attribute_token.rs:46-56 [AttributeTokenResp] *)
Record resp := mkResp { r_csk : K; r_odd_vk : list G1; r_even_vk : list G2; r_odd_s : list G1; r_even_s : list G2;
  r_odd_t : list (list G1); r_even_t : list (list G2); r_odd_a : list (list G1); r_even_a : list (list G2) }.
(** attribute_token.rs:59-69 [PrecompOnSetupParams], 92-118 [new] *)
Record precomp_setup := mkPrecompSetup { ps_inv1 : GT; ps_inv2 : GT; ps_negy1 : list GT; ps_negy2 : list GT }.
Definition precomp_setup_new (p1 : params1 C) (p2 : params2 C) : precomp_setup :=
  mkPrecompSetup (pair (mopp (p1_g1 p1)) (p1_g2 p1)) (pair (mopp (p2_g1 p2)) (p2_g2 p2))
    (map (fun y => pair y (mopp (p1_g2 p1))) (p1_y p1)) (map (fun y => pair (mopp (p2_g1 p2)) y) (p2_y p2)).
(** attribute_token.rs:121-141 [PrecompOnCredChain::new] *)
Definition precomp_chain_new (c : chain C) (p1 : params1 C) (p2 : params2 C) : res (list GT) :=
  rmap (fun i => if (i mod 2 =? 1)%nat then let! l := get_odd_link c (i / 2) in Ok (pair (p1_g1 p1) (s1_R (l1_sig l)))
                 else let! l := get_even_link c (i / 2 - 1) in Ok (pair (s2_R (l2_sig l)) (p2_g2 p2))) (seq 1 (chain_size c)).
(** attribute_token.rs:77-89, 144-165 [PrecompForCommitmentReconstitution::new] *)
Record precomp_recon := mkPrecompRecon { pr_inv1 : GT; pr_inv2 : GT; pr_y0_g2 : GT; pr_g1_y0 : GT; pr_g1_ipk : GT; pr_y_ipk : list GT }.
Definition precomp_recon_new (ipk : G2) (p1 : params1 C) (p2 : params2 C) : res precomp_recon :=
  let! y0 := at_ (p1_y p1) 0 in
  let! y0' := at_ (p2_y p2) 0 in
  Ok (mkPrecompRecon (pair (mopp (p1_g1 p1)) (p1_g2 p1)) (pair (mopp (p2_g1 p2)) (p2_g2 p2)) (pair y0 (p1_g2 p1)) (pair (p2_g1 p2) y0')
        (pair (p1_g1 p1) ipk) (map (fun y => pair y ipk) (p1_y p1))).

(** attribute_token.rs:194-213 [AttributeToken::new] *)
Definition token_new (c : chain C) (p1 : params1 C) (p2 : params2 C) : token := mkToken (chain_size c) c p1 p2 [] [] [] [] [] [] [].

(** attribute_token.rs:719-795 (odd) and 797-866 (even), one level of the commitment.  [pgr] is
    e(g1, R) or e(R, g2), [inv] the inverse of e(g1, g2), [negy] the precomputed e(-y_j, g2) or
    e(-g1, y_j), [prev] the blinding of the key one level up (none at level 1).  Revealing more
    indices than there are attributes wraps the capacity of a vector: a panic; a link without
    attributes makes the loop bound wrap: modelled as a panic. *)
Record clevel (G : Type) := mkCLevel { cl_s : GT; cl_t : list GT; cl_rt : list K; cl_ra : list K; cl_rev : list (nat * G) }.
Arguments mkCLevel {G}. Arguments cl_s {G}. Arguments cl_t {G}. Arguments cl_rt {G}. Arguments cl_ra {G}. Arguments cl_rev {G}.
Definition commit_level {G : Type} (pgr inv : GT) (negy : list GT) (ycount : nat) (prev : option K) (attrs : list G) (rev : list nat)
    (rho_sig rho_s rho_vk : K) (rt ra : nat -> K) : res (clevel G) :=
  let com_s := match prev with None => smul (fmul rho_sig rho_s) pgr | Some b => madd (smul (fmul rho_sig rho_s) pgr) (smul b inv) end in
  if (ycount <? length rev)%nat then derr (DMoreAttributesThanExpected ycount (length rev)) else
  if (length attrs <? length rev)%nat then Err Panic else
  if (length attrs =? 0)%nat then Err Panic else
  let last := (length attrs - 1)%nat in
  let! com_t := rmap (fun j =>
      let e := smul (fmul rho_sig (rt j)) pgr in
      let! e := match prev with None => Ok e | Some b => let! y := at_ negy j in Ok (madd e (smul b y)) end in
      Ok (if mem j rev then e else madd e (smul (ra j) inv))) (seq 0 last) in
  let! rev_attrs := rmap (fun j => let! a := at_ attrs j in Ok (j, a)) (filter (fun j => mem j rev) (seq 0 last)) in
  let e := madd (smul (fmul rho_sig (rt last)) pgr) (smul rho_vk inv) in
  let! com_vk := match prev with None => Ok e | Some b => let! y := at_ negy last in Ok (madd e (smul b y)) end in
  Ok (mkCLevel com_s (com_t ++ [com_vk]) (map rt (seq 0 last) ++ [rt last]) (map ra (filter (fun j => negb (mem j rev)) (seq 0 last))) rev_attrs).

(** the results of one level *)
Inductive clev := COdd (s : sig1 C) (l : clevel G1) | CEven (s : sig2 C) (l : clevel G2).
Definition clev_s (x : clev) : GT := match x with COdd _ l => cl_s l | CEven _ l => cl_s l end.
Definition clev_t (x : clev) : list GT := match x with COdd _ l => cl_t l | CEven _ l => cl_t l end.
Definition clev_rt (x : clev) : list K := match x with COdd _ l => cl_rt l | CEven _ l => cl_rt l end.
Definition clev_ra (x : clev) : list K := match x with COdd _ l => cl_ra l | CEven _ l => cl_ra l end.
(** attribute_token.rs:687-897 [commitment_with_precomputation].  blindings_vk is, at level i, the
    old vector followed by the draws of the levels below.  On an error the vectors of the token
    already extended stay so: not modelled (the new token is returned only on success). *)
Definition commitment_with_precomputation (t : token) (revealed : list (list nat)) (ps : precomp_setup) (pc : list GT) (d : draws K) : res (token * comm) :=
  if negb (length revealed =? t_L t)%nat then derr (DIncorrectNumberOfRevealedAttributeSets (t_L t) (length revealed)) else
  let! levels := rmap (fun i =>
    if (i mod 2 =? 1)%nat then
      let! l := get_odd_link (t_chain t) (i / 2) in
      let! pgr := at_ pc (i - 1) in
      let! prev := if (i =? 1)%nat then Ok None else let! b := at_ (t_bvk t ++ map (d_vk d) (seq 1 (i - 1))) (i - 2) in Ok (Some b) in
      let! rev := at_ revealed (i - 1) in
      let! r := commit_level pgr (ps_inv1 ps) (ps_negy1 ps) (length (p1_y (t_p1 t))) prev (l1_attrs l) rev (d_sig d i) (d_s d i) (d_vk d i) (d_t d i) (d_a d i) in
      Ok (COdd (randomize1 (l1_sig l) (d_sig d i)) r)
    else
      let! l := get_even_link (t_chain t) (i / 2 - 1) in
      let! pgr := at_ pc (i - 1) in
      let! b := at_ (t_bvk t ++ map (d_vk d) (seq 1 (i - 1))) (i - 2) in
      let! rev := at_ revealed (i - 1) in
      let! r := commit_level pgr (ps_inv2 ps) (ps_negy2 ps) (length (p2_y (t_p2 t))) (Some b) (l2_attrs l) rev (d_sig d i) (d_s d i) (d_vk d i) (d_t d i) (d_a d i) in
      Ok (CEven (randomize2 (l2_sig l) (d_sig d i)) r)) (seq 1 (t_L t)) in
  let odd_sigs := t_odd_sigs t ++ flat_map (fun x => match x with COdd s _ => [s] | _ => [] end) levels in
  let even_sigs := t_even_sigs t ++ flat_map (fun x => match x with CEven s _ => [s] | _ => [] end) levels in
  let t' := mkToken (t_L t) (t_chain t) (t_p1 t) (t_p2 t) odd_sigs even_sigs
              (t_bsigs t ++ map (d_sig d) (seq 1 (t_L t))) (t_bvk t ++ map (d_vk d) (seq 1 (t_L t))) (t_bs t ++ map (d_s d) (seq 1 (t_L t)))
              (t_bt t ++ map clev_rt levels) (t_ba t ++ map clev_ra levels) in
  Ok (t', mkComm (map s1_R odd_sigs) (map s2_R even_sigs) (map clev_s levels) (map clev_t levels)
            (flat_map (fun x => match x with COdd _ l => [cl_rev l] | _ => [] end) levels) (flat_map (fun x => match x with CEven _ l => [cl_rev l] | _ => [] end) levels)).
(** attribute_token.rs:217-230 [commitment], 676-685 [commitment_with_precomputation_on_setup_params] *)
Definition commitment (t : token) (revealed : list (list nat)) (d : draws K) : res (token * comm) :=
  let ps := precomp_setup_new (t_p1 t) (t_p2 t) in
  let! pc := precomp_chain_new (t_chain t) (t_p1 t) (t_p2 t) in
  commitment_with_precomputation t revealed ps pc d.
Definition commitment_on_setup (t : token) (revealed : list (list nat)) (ps : precomp_setup) (d : draws K) : res (token * comm) :=
  let! pc := precomp_chain_new (t_chain t) (t_p1 t) (t_p2 t) in
  commitment_with_precomputation t revealed ps pc d.

(** attribute_token.rs:1213-1257 [check_odd_collection_length], [check_even_collection_length] *)
Definition check_odd (n L : nat) : res unit :=
  if (L mod 2 =? 1)%nat then if negb (n =? L / 2 + 1)%nat then derr (DIncorrectNumberOfOddValues (L / 2 + 1) n) else Ok tt
  else if negb (n =? L / 2)%nat then derr (DIncorrectNumberOfOddValues (L / 2) n) else Ok tt.
Definition check_even (n L : nat) : res unit := if negb (n =? L / 2)%nat then derr (DIncorrectNumberOfEvenValues (L / 2) n) else Ok tt.
(** attribute_token.rs:1260-1310 [AttributeTokenComm::validate] *)
Definition comm_validate (c : comm) (L : nat) : res unit :=
  if negb (length (c_t c) =? L)%nat then derr (DIncorrectNumberOfTCommitments L (length (c_t c))) else
  if negb (length (c_s c) =? L)%nat then derr (DIncorrectNumberOfSCommitments L (length (c_s c))) else
  if negb (length (c_odd_rev c) + length (c_even_rev c) =? L)%nat then derr (DIncorrectNumberOfRevealedAttributeSets L (length (c_odd_rev c) + length (c_even_rev c))) else
  if negb (length (c_odd_r c) + length (c_even_r c) =? L)%nat then derr (DIncorrectNumberOfBlindedR L (length (c_odd_r c) + length (c_even_r c))) else
  let! _ := check_odd (length (c_odd_rev c)) L in
  let! _ := check_odd (length (c_odd_r c)) L in
  let! _ := check_even (length (c_even_rev c)) L in
  check_even (length (c_even_r c)) L.
(** attribute_token.rs:1345-1366 [AttributeTokenResp::validate] *)
Definition resp_validate (r : resp) (L : nat) : res unit :=
  if negb (length (r_odd_s r) + length (r_even_s r) =? L)%nat then derr (DUnequalNoOfCommitmentAndResponses L (length (r_odd_s r) + length (r_even_s r))) else
  if negb (length (r_odd_t r) + length (r_even_t r) =? L)%nat then derr (DUnequalNoOfCommitmentAndResponses L (length (r_odd_t r) + length (r_even_t r))) else Ok tt.

(** attribute_token.rs:1312-1341 [AttributeTokenComm::to_bytes]; encT, enc1, enc2 are to_bytes of the groups *)
Definition entry_bytes {A} (enc : A -> list Z) (e : nat * A) : list Z := bn_to_dec (Z.of_nat (fst e)) ++ enc (snd e).
Definition comm_bytes (c : comm) : list Z :=
  flat_map encT (c_s c) ++ flat_map enc2 (c_odd_r c) ++ flat_map enc1 (c_even_r c) ++ flat_map (flat_map encT) (c_t c) ++
  flat_map (flat_map (entry_bytes enc1)) (c_odd_rev c) ++ flat_map (flat_map (entry_bytes enc2)) (c_even_rev c).
(** attribute_token.rs:384-394 [gen_challenge]; [hash] is from_msg_hash *)
Definition gen_challenge (hash : list Z -> K) (c : comm) (ipk : G2) (extra : list Z) : K := hash (enc2 ipk ++ comm_bytes c ++ extra).

(** attribute_token.rs:253-310 (odd) and 312-366 (even), one level of the response after the S and
    key parts: the responses for T and the hidden attributes.  The count is computed on usize. *)
Definition resp_level {M : modOps K} (g : M) (attrs T T' : list M) (bt ba : list K) (rev : list (nat * M)) (challenge : K) : res (list M * list M) :=
  let n := length attrs in
  let unrevealed := usize (usize (Z.of_nat n - Z.of_nat (length rev)) - 1) in
  if negb (length bt =? length T)%nat then derr DGeneralError else
  if negb (n =? length T)%nat then derr DGeneralError else
  if negb (Z.of_nat (length ba) =? unrevealed) then derr DGeneralError else
  let! rt := rmap (fun j => let! tj := at_ T' j in let! b := at_ bt j in Ok (bmul g tj b challenge)) (seq 0 n) in
  let! ra := rmap (fun j => let! a := at_ attrs j in let! b := at_ ba (unrev_below (has_key rev) j) in Ok (bmul g a b challenge))
                  (filter (fun j => negb (has_key rev j)) (seq 0 (n - 1))) in
  Ok (rt, ra).
Record rlevel (M : Type) := mkRLevel { rl_s : M; rl_vk : option M; rl_csk : K; rl_t : list M; rl_a : list M }.
Arguments mkRLevel {M}. Arguments rl_s {M}. Arguments rl_vk {M}. Arguments rl_csk {M}. Arguments rl_t {M}. Arguments rl_a {M}.
Inductive rlev := ROdd (l : rlevel G1) | REven (l : rlevel G2).
Definition olist {A} (o : option A) : list A := match o with Some a => [a] | None => [] end.
(** attribute_token.rs:233-381 [response] *)
Definition response (t : token) (c : comm) (sk challenge : K) (ev : list G2) (od : list G1) : res resp :=
  let L := t_L t in
  let! _ := comm_validate c L in
  let! levels := rmap (fun i =>
    if (i mod 2 =? 1)%nat then
      let! l := get_odd_link (t_chain t) (i / 2) in
      let! s' := at_ (t_odd_sigs t) (i / 2) in
      let! bs := at_ (t_bs t) (i - 1) in
      let rs := bmul (p1_g1 (t_p1 t)) (s1_S s') bs challenge in
      let! (vk, csk) := if negb (i =? L)%nat then let! v := at_ od (i / 2) in let! b := at_ (t_bvk t) (i - 1) in Ok (Some (bmul (p1_g1 (t_p1 t)) v b challenge), f0)
                        else let! b := at_ (t_bvk t) (i - 1) in Ok (None, fadd b (fmul challenge sk)) in
      let! rev := at_ (c_odd_rev c) (i / 2) in
      let! bt := at_ (t_bt t) (i - 1) in
      let! ba := at_ (t_ba t) (i - 1) in
      let! (rt, ra) := resp_level (p1_g1 (t_p1 t)) (l1_attrs l) (s1_T (l1_sig l)) (s1_T s') bt ba rev challenge in
      Ok (ROdd (mkRLevel rs vk csk rt ra))
    else
      let! l := get_even_link (t_chain t) (i / 2 - 1) in
      let! s' := at_ (t_even_sigs t) (i / 2 - 1) in
      let! bs := at_ (t_bs t) (i - 1) in
      let rs := bmul (p2_g2 (t_p2 t)) (s2_S s') bs challenge in
      let! (vk, csk) := if negb (i =? L)%nat then let! v := at_ ev (i / 2 - 1) in let! b := at_ (t_bvk t) (i - 1) in Ok (Some (bmul (p2_g2 (t_p2 t)) v b challenge), f0)
                        else let! b := at_ (t_bvk t) (i - 1) in Ok (None, fadd b (fmul challenge sk)) in
      let! rev := at_ (c_even_rev c) (i / 2 - 1) in
      let! bt := at_ (t_bt t) (i - 1) in
      let! ba := at_ (t_ba t) (i - 1) in
      let! (rt, ra) := resp_level (p2_g2 (t_p2 t)) (l2_attrs l) (s2_T (l2_sig l)) (s2_T s') bt ba rev challenge in
      Ok (REven (mkRLevel rs vk csk rt ra))) (seq 1 L) in
  Ok (mkResp (match List.last levels (ROdd (mkRLevel m0 None f0 [] [])) with ROdd l => rl_csk l | REven l => rl_csk l end)
    (flat_map (fun x => match x with ROdd l => olist (rl_vk l) | _ => [] end) levels) (flat_map (fun x => match x with REven l => olist (rl_vk l) | _ => [] end) levels)
    (flat_map (fun x => match x with ROdd l => [rl_s l] | _ => [] end) levels) (flat_map (fun x => match x with REven l => [rl_s l] | _ => [] end) levels)
    (flat_map (fun x => match x with ROdd l => [rl_t l] | _ => [] end) levels) (flat_map (fun x => match x with REven l => [rl_t l] | _ => [] end) levels)
    (flat_map (fun x => match x with ROdd l => [rl_a l] | _ => [] end) levels) (flat_map (fun x => match x with REven l => [rl_a l] | _ => [] end) levels)).

(** attribute_token.rs:437-454, 585-602: the count checks of one level, on usize *)
Definition check_counts (n : nat) (rev : list nat) (ycount nresp : nat) : res unit :=
  let unrevealed := usize (Z.of_nat n - Z.of_nat (length rev)) in
  if (ycount <? n)%nat then derr (DMoreAttributesThanExpected (ycount + 1) n) else
  if Z.of_nat nresp <? usize (unrevealed - 1) then derr (DMoreUnrevealedAttributesThanExpected nresp unrevealed) else Ok tt.
(** attribute_token.rs:484-576 (odd) and 615-661 (even): the values for T of one level.  [e] is the
    pairing with the message group first; [prev_y j] the term of y_j and the key one level up;
    [vk] the term of the key of this level. *)
Definition recon_t {M W : modOps K} (e : M -> W -> GT) (gw gw_c R : W) (prev_y : nat -> res GT) (rt ra : list M) (rev : list nat) (revmap : list (nat * M)) (n : nat) (vk : res GT) : res (list GT) :=
  let! com_t := rmap (fun j =>
      let! tj := at_ rt j in
      let! x := if mem j rev then let! a := lookup revmap j in Ok (e a gw_c) else let! a := at_ ra (unrev_below (fun i => mem i rev) j) in Ok (e a (mopp gw)) in
      let! y := prev_y j in
      Ok (madd (madd (e tj R) x) y)) (seq 0 (n - 1)) in
  let! tn := at_ rt (n - 1) in
  let! x := vk in
  let! y := prev_y (n - 1)%nat in
  Ok (com_t ++ [madd (madd (e tn R) x) y]).
(** attribute_token.rs:397-674 [reconstruct_commitment] *)
Definition reconstruct_commitment (L : nat) (c : comm) (r : resp) (challenge : K) (revealed : list (list nat)) (ipk : G2) (p1 : params1 C) (p2 : params2 C) : res comm :=
  let! _ := comm_validate c L in
  let! _ := resp_validate r L in
  let nc := fopp challenge in
  let g1_c := smul nc (p2_g1 p2) in
  let g2_c := smul nc (p1_g2 p1) in
  let ipk_c := smul nc ipk in
  let! y0 := at_ (p1_y p1) 0 in
  let y0_g2_c := pair y0 g2_c in
  let! y0' := at_ (p2_y p2) 0 in
  let g1_y0_c := pair g1_c y0' in
  let! levels := rmap (fun i =>
    if (i mod 2 =? 1)%nat then
      let k := (i / 2)%nat in
      let! ct := at_ (c_t c) (i - 1) in
      let n := length ct in
      let! rev := at_ revealed (i - 1) in
      let! ra := at_ (r_odd_a r) k in
      let! _ := check_counts n rev (length (p1_y p1)) (length ra) in
      let! rs := at_ (r_odd_s r) k in
      let! R := at_ (c_odd_r c) k in
      let! prev := if (i =? 1)%nat then Ok None else let! v := at_ (r_even_vk r) (k - 1) in Ok (Some v) in
      let com_s := match prev with None => madd (madd (pair rs R) (pair (p1_g1 p1) ipk_c)) y0_g2_c
                                 | Some v => madd (madd (pair rs R) (pair (mopp (p1_g1 p1)) v)) y0_g2_c end in
      let prev_y := fun j => let! y := at_ (p1_y p1) j in Ok (match prev with None => pair y ipk_c | Some v => pair (mopp y) v end) in
      let! rt := at_ (r_odd_t r) k in
      let! revmap := at_ (c_odd_rev c) k in
      let vk := if negb (i =? L)%nat then let! v := at_ (r_odd_vk r) k in Ok (pair v (mopp (p1_g2 p1))) else Ok (pair (smul (r_csk r) (p1_g1 p1)) (mopp (p1_g2 p1))) in
      let! com_t := recon_t pair (p1_g2 p1) g2_c R prev_y rt ra rev revmap n vk in
      Ok (com_s, com_t)
    else
      let k := (i / 2 - 1)%nat in
      let! ct := at_ (c_t c) (i - 1) in
      let n := length ct in
      let! rev := at_ revealed (i - 1) in
      let! ra := at_ (r_even_a r) k in
      let! _ := check_counts n rev (length (p2_y p2)) (length ra) in
      let! R := at_ (c_even_r c) k in
      let! rs := at_ (r_even_s r) k in
      let! v := at_ (r_odd_vk r) k in
      let com_s := madd (madd (pair R rs) (pair v (mopp (p2_g2 p2)))) g1_y0_c in
      let prev_y := fun j => let! y := at_ (p2_y p2) j in Ok (pair v (mopp y)) in
      let! rt := at_ (r_even_t r) k in
      let! revmap := at_ (c_even_rev c) k in
      let vk := if negb (i =? L)%nat then let! w := at_ (r_even_vk r) k in Ok (pair (mopp (p2_g1 p2)) w) else Ok (pair (smul (r_csk r) (mopp (p2_g1 p2))) (p2_g2 p2)) in
      let! com_t := recon_t (fun m w => pair w m) (p2_g1 p2) g1_c R prev_y rt ra rev revmap n vk in
      Ok (com_s, com_t)) (seq 1 L) in
  Ok (mkComm (c_odd_r c) (c_even_r c) (map fst levels) (map snd levels) (c_odd_rev c) (c_even_rev c)).
(** attribute_token.rs:929-1209 [reconstruct_commitment_with_precomputed_vals]: at level 1 the terms of
    the issuer's key and at the last level the terms of the holder's key are powers of precomputed values *)
Definition reconstruct_with_precomputed (L : nat) (c : comm) (r : resp) (challenge : K) (revealed : list (list nat)) (p1 : params1 C) (p2 : params2 C) (pr : precomp_recon) : res comm :=
  let! _ := comm_validate c L in
  let! _ := resp_validate r L in
  let nc := fopp challenge in
  let g1_c := smul nc (p2_g1 p2) in
  let g2_c := smul nc (p1_g2 p1) in
  let y0_g2_c := smul nc (pr_y0_g2 pr) in
  let g1_y0_c := smul nc (pr_g1_y0 pr) in
  let! levels := rmap (fun i =>
    if (i mod 2 =? 1)%nat then
      let k := (i / 2)%nat in
      let! ct := at_ (c_t c) (i - 1) in
      let n := length ct in
      let! rev := at_ revealed (i - 1) in
      let! ra := at_ (r_odd_a r) k in
      let! _ := check_counts n rev (length (p1_y p1)) (length ra) in
      let! rs := at_ (r_odd_s r) k in
      let! R := at_ (c_odd_r c) k in
      let! prev := if (i =? 1)%nat then Ok None else let! v := at_ (r_even_vk r) (k - 1) in Ok (Some v) in
      let com_s := match prev with None => madd (pair rs R) (smul nc (madd (pr_g1_ipk pr) (pr_y0_g2 pr)))
                                 | Some v => madd (madd (pair rs R) (pair (mopp (p1_g1 p1)) v)) y0_g2_c end in
      let prev_y := fun j => match prev with None => let! y := at_ (pr_y_ipk pr) j in Ok (smul nc y) | Some v => let! y := at_ (p1_y p1) j in Ok (pair (mopp y) v) end in
      let! rt := at_ (r_odd_t r) k in
      let! revmap := at_ (c_odd_rev c) k in
      let vk := if negb (i =? L)%nat then let! v := at_ (r_odd_vk r) k in Ok (pair v (mopp (p1_g2 p1))) else Ok (smul (r_csk r) (pr_inv1 pr)) in
      let! com_t := recon_t pair (p1_g2 p1) g2_c R prev_y rt ra rev revmap n vk in
      Ok (com_s, com_t)
    else
      let k := (i / 2 - 1)%nat in
      let! ct := at_ (c_t c) (i - 1) in
      let n := length ct in
      let! rev := at_ revealed (i - 1) in
      let! ra := at_ (r_even_a r) k in
      let! _ := check_counts n rev (length (p2_y p2)) (length ra) in
      let! R := at_ (c_even_r c) k in
      let! rs := at_ (r_even_s r) k in
      let! v := at_ (r_odd_vk r) k in
      let com_s := madd (madd (pair R rs) (pair v (mopp (p2_g2 p2)))) g1_y0_c in
      let prev_y := fun j => let! y := at_ (p2_y p2) j in Ok (pair v (mopp y)) in
      let! rt := at_ (r_even_t r) k in
      let! revmap := at_ (c_even_rev c) k in
      let vk := if negb (i =? L)%nat then let! w := at_ (r_even_vk r) k in Ok (pair (mopp (p2_g1 p2)) w) else Ok (smul (r_csk r) (pr_inv2 pr)) in
      let! com_t := recon_t (fun m w => pair w m) (p2_g1 p2) g1_c R prev_y rt ra rev revmap n vk in
      Ok (com_s, com_t)) (seq 1 L) in
  Ok (mkComm (c_odd_r c) (c_even_r c) (map fst levels) (map snd levels) (c_odd_rev c) (c_even_rev c)).
End Token.

Arguments mkToken {C}. Arguments t_L {C}. Arguments t_chain {C}. Arguments t_p1 {C}. Arguments t_p2 {C}. Arguments t_odd_sigs {C}. Arguments t_even_sigs {C}.
Arguments t_bsigs {C}. Arguments t_bvk {C}. Arguments t_bs {C}. Arguments t_bt {C}. Arguments t_ba {C}.
Arguments mkComm {C}. Arguments c_odd_r {C}. Arguments c_even_r {C}. Arguments c_s {C}. Arguments c_t {C}. Arguments c_odd_rev {C}. Arguments c_even_rev {C}.
Arguments mkResp {C}. Arguments r_csk {C}. Arguments r_odd_vk {C}. Arguments r_even_vk {C}. Arguments r_odd_s {C}. Arguments r_even_s {C}. Arguments r_odd_t {C}. Arguments r_even_t {C}. Arguments r_odd_a {C}. Arguments r_even_a {C}.
Arguments precomp_setup_new {C}. Arguments precomp_chain_new {C}. Arguments precomp_recon_new {C}. Arguments token_new {C}.
Arguments mkCLevel {C G}. Arguments cl_s {C G}. Arguments cl_t {C G}. Arguments cl_rt {C G}. Arguments cl_ra {C G}. Arguments cl_rev {C G}.
Arguments commit_level {C G}. Arguments COdd {C}. Arguments CEven {C}. Arguments clev_s {C}. Arguments clev_t {C}. Arguments clev_rt {C}. Arguments clev_ra {C}.
Arguments commitment_with_precomputation {C}. Arguments commitment {C}. Arguments commitment_on_setup {C}. Arguments comm_validate {C}. Arguments resp_validate {C}.
Arguments comm_bytes {C}. Arguments gen_challenge {C}. Arguments resp_level {C M}. Arguments mkRLevel {C M}. Arguments rl_s {C M}. Arguments rl_vk {C M}. Arguments rl_csk {C M}. Arguments rl_t {C M}. Arguments rl_a {C M}.
Arguments ROdd {C}. Arguments REven {C}. Arguments response {C}. Arguments recon_t {C M W}. Arguments reconstruct_commitment {C}. Arguments reconstruct_with_precomputed {C}.
Arguments ps_inv1 {C}. Arguments ps_inv2 {C}. Arguments ps_negy1 {C}. Arguments ps_negy2 {C}. Arguments pr_inv1 {C}. Arguments pr_inv2 {C}. Arguments pr_y0_g2 {C}. Arguments pr_g1_y0 {C}. Arguments pr_g1_ipk {C}. Arguments pr_y_ipk {C}.

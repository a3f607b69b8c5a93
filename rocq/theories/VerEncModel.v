(** Model of libzmix/src/verifiable_encryption/cs_verifiable_encryption.rs
    (Camenisch-Shoup verifiable encryption; line numbers below refer to it).

    Conventions as in ClModel: a [BigNumber] is an integer with the operations of
    BnModel, [H] is SHA-256 (any function on byte strings), values drawn from the
    random number generator are explicit arguments, contexts and clones are dropped. *)
From Verif Require Import Base BnModel ClModel.
From Coq Require Import List ZArith. Import ListNotations.
Open Scope Z_scope.

(** lines 18-25 *)
Record paillier := { pg_g : Z; pg_h : Z; pg_n_by_4 : Z; pg_modulus : Z }.
(** lines 27-33 *)
Record cs_pri := { sk_x1 : list Z; sk_x2 : Z; sk_x3 : Z }.
(** lines 35-44 *)
Record cs_pub := { pk_n : Z; pk_two_inv2 : Z; pk_group : paillier; pk_y1 : list Z; pk_y2 : Z; pk_y3 : Z }.
(** lines 46-52 *)
Record cs_ct := { ct_u : Z; ct_e : list Z; ct_v : Z }.

(** lines 58-72 [PaillierGroup::new]; [g_prime] is what [rand_range] drew *)
Definition paillier_new (n g_prime : Z) : res paillier :=
  let modulus := bn_sqr n in
  let n_mul_2 := bn_lshift1 n in
  let! g := bn_mod_exp g_prime n_mul_2 modulus in
  Ok {| pg_g := g; pg_h := bn_increment n; pg_n_by_4 := bn_rshift n 2; pg_modulus := modulus |}.

(** lines 92-100 *)
Definition exponentiate (G : paillier) (base exp : Z) : res Z := bn_mod_exp base exp (pg_modulus G).
(** lines 74-81 *)
Definition exponentiate_g (G : paillier) (exp : Z) : res Z := exponentiate G (pg_g G) exp.
(** lines 83-90 *)
Definition exponentiate_h (G : paillier) (exp : Z) : res Z := exponentiate G (pg_h G) exp.
(** lines 102-114 *)
Definition pg_sqr (G : paillier) (base : Z) : res Z := bn_modulus (bn_sqr base) (pg_modulus G).
(** lines 126-140 *)
Definition pg_abs (G : paillier) (a : Z) : res Z :=
  let! a := bn_modulus a (pg_modulus G) in
  let modulus_by_2 := bn_rshift (pg_modulus G) 1 in
  if modulus_by_2 <? a then Ok (bn_sub (pg_modulus G) a) else Ok a.

(** [v[i]]: indexing panics out of range *)
Definition idxz (l : list Z) (i : nat) : res Z := match nth_error l i with Some x => Ok x | None => Err Panic end.

(** lines 145-187 [CSKeypair::new].  [p_safe], [q_safe], [g_prime], [dx i], [dx2], [dx3]
    are the values the generator drew. *)
Definition cs_keypair_new (num_messages : nat) (p_safe q_safe g_prime : Z) (dx : nat -> Z) (dx2 dx3 : Z) : res (cs_pri * cs_pub) :=
  if (num_messages <? 1)%nat then Err InvalidStructure
  else
    let n := bn_mul p_safe q_safe in
    let! i2 := bn_inverse 2 n in
    let two_inv := bn_lshift1 i2 in
    let! G := paillier_new n g_prime in
    let! xy := rmap (fun i => let! y := exponentiate_g G (dx i) in Ok (dx i, y)) (seq 0 num_messages) in
    let! y2 := exponentiate_g G dx2 in
    let! y3 := exponentiate_g G dx3 in
    Ok ({| sk_x1 := map fst xy; sk_x2 := dx2; sk_x3 := dx3 |},
        {| pk_n := n; pk_two_inv2 := two_inv; pk_group := G; pk_y1 := map snd xy; pk_y2 := y2; pk_y3 := y3 |}).

(** lines 481-488 [hash] *)
Definition cs_hash (H : list Z -> list Z) (u : Z) (e : list Z) (label : list Z) : Z :=
  get_hash_as_int H ([bn_to_bytes u] ++ map bn_to_bytes e ++ [label]).

(** lines 190-254 [decrypt]; one iteration of the loop, lines 230-251 *)
Definition decrypt_at (ct : cs_ct) (pk : cs_pub) (sk : cs_pri) (i : nat) : res Z :=
  let G := pk_group pk in
  let! x := idxz (sk_x1 sk) i in
  let! u_x1 := exponentiate G (ct_u ct) x in
  let! u_x1_inv := bn_inverse u_x1 (pg_modulus G) in
  let! ei := idxz (ct_e ct) i in
  let! e_u := bn_mod_mul ei u_x1_inv (pg_modulus G) in
  let! m_hat := exponentiate G e_u (pk_two_inv2 pk) in
  let! r := bn_modulus m_hat (pk_n pk) in
  if r =? 1 then
    let! m := bn_modulus m_hat (pg_modulus G) in
    bn_div (bn_sub_word m 1) (pk_n pk)
  else Err InvalidStructure.
Definition cs_decrypt (H : list Z -> list Z) (label : list Z) (ct : cs_ct) (pk : cs_pub) (sk : cs_pri) : res (list Z) :=
  if (length (sk_x1 sk) <? length (ct_e ct))%nat then Err InvalidStructure
  else
    let G := pk_group pk in
    let! av := pg_abs G (ct_v ct) in
    if negb (ct_v ct =? av) then Err InvalidStructure
    else
      let hs := cs_hash H (ct_u ct) (ct_e ct) label in
      let hs_x3 := bn_mul hs (sk_x3 sk) in
      let hs_x3_x2_times_2 := bn_lshift1 (bn_add hs_x3 (sk_x2 sk)) in
      let! u_sqr := exponentiate G (ct_u ct) hs_x3_x2_times_2 in
      let! v_sqr := pg_sqr G (ct_v ct) in
      if negb (v_sqr =? u_sqr) then Err InvalidStructure
      else rmap (decrypt_at ct pk sk) (seq 0 (length (ct_e ct))).

(** lines 432-440 [compute_u] *)
Definition compute_u (random_value : Z) (pk : cs_pub) : res Z := exponentiate_g (pk_group pk) random_value.
(** lines 442-456 [compute_e] *)
Definition compute_e (messages : list Z) (random_value : Z) (pk : cs_pub) : res (list Z) :=
  let G := pk_group pk in
  rmap (fun i =>
    let! yi := idxz (pk_y1 pk) i in
    let! y := exponentiate G yi random_value in
    let! mi := idxz messages i in
    let! h_m := exponentiate_h G mi in
    bn_mod_mul y h_m (pg_modulus G)) (seq 0 (length messages)).
(** lines 458-479 [compute_v] *)
Definition compute_v (random_value hash : Z) (pk : cs_pub) (take_abs : bool) : res Z :=
  let G := pk_group pk in
  let! y3_hs := exponentiate G (pk_y3 pk) hash in
  let! y2_y3_hs := bn_mod_mul (pk_y2 pk) y3_hs (pg_modulus G) in
  let! y2_y3_hs_r := exponentiate G y2_y3_hs random_value in
  if take_abs then pg_abs G y2_y3_hs_r else Ok y2_y3_hs_r.

(** lines 400-414 [encrypt_using_random_value] *)
Definition encrypt_using_random_value (H : list Z -> list Z) (r : Z) (messages label : list Z) (pk : cs_pub) : res cs_ct :=
  let! u := compute_u r pk in
  let! e := compute_e messages r pk in
  let hash := cs_hash H u e label in
  let! v := compute_v r hash pk true in
  Ok {| ct_u := u; ct_e := e; ct_v := v |}.

(** lines 257-280 [encrypt]; [r] is drawn below [n_by_4] *)
Definition cs_encrypt (H : list Z -> list Z) (r : Z) (messages label : list Z) (pk : cs_pub) : res cs_ct :=
  if (length (pk_y1 pk) <? length messages)%nat then Err InvalidStructure
  else encrypt_using_random_value H r messages label pk.

(** lines 416-430 [ciphertext_t_values] *)
Definition ciphertext_t_values (random_value : Z) (messages : list Z) (hash : Z) (pk : cs_pub) : res cs_ct :=
  let messages := map bn_lshift1 messages in
  let random_value := bn_lshift1 random_value in
  let! u := compute_u random_value pk in
  let! e := compute_e messages random_value pk in
  let! v := compute_v random_value hash pk false in
  Ok {| ct_u := u; ct_e := e; ct_v := v |}.

(** lines 282-322 [encrypt_and_prove_phase_1]; the drawn [r] and [r_tilde] are also
    returned by the Rust function *)
Definition prove_phase_1 (H : list Z -> list Z) (r r_tilde : Z) (messages blindings label : list Z) (pk : cs_pub) : res (cs_ct * cs_ct) :=
  if negb (length messages =? length blindings)%nat then Err InvalidStructure
  else if (length (pk_y1 pk) <? length messages)%nat then Err InvalidStructure
  else
    let! ct := encrypt_using_random_value H r messages label pk in
    let hash := cs_hash H (ct_u ct) (ct_e ct) label in
    let! t := ciphertext_t_values r_tilde blindings hash pk in
    Ok (ct, t).

(** lines 324-334 [encrypt_and_prove_phase_2] *)
Definition prove_phase_2 (r r_tilde challenge : Z) (pk : cs_pub) : res Z :=
  let! rc := bn_mod_mul r challenge (pg_modulus (pk_group pk)) in
  Ok (bn_sub r_tilde rc).

(** lines 336-398 [reconstruct_blindings_ciphertext] *)
Definition reconstruct (H : list Z -> list Z) (ct : cs_ct) (message_s_values : list Z) (r_hat challenge : Z) (label : list Z) (pk : cs_pub) : res cs_ct :=
  if (length (pk_y1 pk) <? length message_s_values)%nat then Err InvalidStructure
  else
    let challenge := bn_lshift1 challenge in
    let r_hat := bn_lshift1 r_hat in
    let G := pk_group pk in
    let! u_c := exponentiate G (ct_u ct) challenge in
    let! g_r_hat := exponentiate_g G r_hat in
    let! u_blinded := bn_mod_mul u_c g_r_hat (pg_modulus G) in
    let! e_blinded := rmap (fun i =>
        let! ei := idxz (ct_e ct) i in
        let! e_c := exponentiate G ei challenge in
        let! yi := idxz (pk_y1 pk) i in
        let! y_r_hat := exponentiate G yi r_hat in
        let! si := idxz message_s_values i in
        let! h_m_hat := exponentiate_h G (bn_lshift1 si) in
        let! a := bn_mod_mul e_c y_r_hat (pg_modulus G) in
        bn_mod_mul a h_m_hat (pg_modulus G)) (seq 0 (length message_s_values)) in
    let! v_c := exponentiate G (ct_v ct) challenge in
    let! y3_hs := exponentiate G (pk_y3 pk) (cs_hash H (ct_u ct) (ct_e ct) label) in
    let! y2_y3_hs := bn_mod_mul (pk_y2 pk) y3_hs (pg_modulus G) in
    let! y2_y3_hs_r_hat := exponentiate G y2_y3_hs r_hat in
    let! v_blinded := bn_mod_mul v_c y2_y3_hs_r_hat (pg_modulus G) in
    Ok {| ct_u := u_blinded; ct_e := e_blinded; ct_v := v_blinded |}.

(** Words.v continued: polynomial commitments and SIPP with word arithmetic. *)
Require Import List Arith Bool NArith ZArith.
Import ListNotations.
Require Import Verif.Outcome Verif.Algebra Verif.Rust Verif.InnerProducts Verif.Commitments Verif.Gipa Verif.Poly Verif.Tipa
  Verif.Ssm Verif.Floats Verif.PolyCommit Verif.Transparent Verif.Rng Verif.Sipp Verif.Words Verif.WordsTop.

Section Pc.
  Variables (m : build) (w v : nat).
  Context {R : Type}.
  Variable P : pairing.
  Notation K := (pK P).
  Variable E : penv.
  Variable D : bytes -> bytes.
  Variable fuel : nat.
  Variable rand_g1 : sampler R (pG1 P).
  Variable rand_g2 : sampler R (pG2 P).
  Notation lmc2 := (afgho_g1 P E rand_g2).
  Notation ipc2 := (identity (R := R) (pG1 P)).
  Notation ip2 := (multiexp_ip (pG1 P)).
  Notation lmc1 := (pedersen (pG1 P) rand_g1).
  Notation ipc1 := (identity (R := R) (fmod (pK P))).
  Notation ip1 := (@scalar_ip (pK P) E).

  (** poly_commit/mod.rs 200-262 *)
  Definition bpc_open_w (s : srs P * list (pG1 P)) (p : bipoly K) (y_polynomial_comms : list (pG1 P)) (point : K * K)
    : res (opening_proof P) :=
    let '(x, y) := point in
    let '(ip_srs, kzg_srs) := s in
    let ck_1 := fst (get_commitment_keys ip_srs) in
    do _ <- rassert (length p <=? length ck_1);
    let powers_of_x := push_powers (length ck_1) f1 x in
    let coeffs := map (resize (length kzg_srs) f0) (chain_cycle_take p [] (length ck_1)) in
    do y_eval_coeffs <- y_eval_coefficients (length kzg_srs) (length ck_1) powers_of_x coeffs;
    do y_eval_comm <- runwrap (msm kzg_srs y_eval_coeffs);
    do ip_proof <- tssm_prove_w m w v D fuel lmc2 ipc2 ip2 ip_srs (y_polynomial_comms, powers_of_x) (ck_1, (tt : unitmod K));
    do kzg_proof <- kzg_open kzg_srs (from_coefficients y_eval_coeffs) y;
    Ok (mk_opening ip_proof y_eval_comm kzg_proof).

  (** poly_commit/mod.rs 264-283 *)
  Definition bpc_verify_w (vs : vsrs P) (com : pGT P) (point : K * K) (eval : K) (proof : opening_proof P) : res bool :=
    let '(x, y) := point in
    do ip_valid <- tssm_verify_w m w D fuel E lmc2 ipc2 ip2 vs (tt : unitmod K)
                     ((com : mod_carrier (pGT P)), ([op_y_eval_comm proof] : identity_output (pG1 P)))
                     x (op_ip proof);
    do kzg_valid <- kzg_verify vs (op_y_eval_comm proof) y eval (op_kzg proof);
    Ok (ip_valid && kzg_valid).

  (** poly_commit/mod.rs 300-304: [len() - 1] *)
  Definition parse_degrees_srs_w (s : srs P * list (pG1 P)) : res (nat * nat) :=
    do x <- wsub m w (length (h_beta_powers (fst s))) 1;
    do y <- wsub m w (length (snd s)) 1;
    Ok (x / 2, y).

  (** poly_commit/mod.rs 336-345 *)
  Definition upc_commit_w (s : srs P * list (pG1 P)) (p : list K) : res (pGT P * list (pG1 P)) :=
    do degrees <- parse_degrees_srs_w s;
    do bp <- bivariate_form_w m w degrees p;
    bpc_commit P E rand_g2 s bp.

  (** poly_commit/mod.rs 347-362 *)
  Definition upc_open_w (s : srs P * list (pG1 P)) (p : list K) (y_polynomial_comms : list (pG1 P)) (point : K)
    : res (opening_proof P) :=
    do (x_degree, y_degree) <- parse_degrees_srs_w s;
    do n <- wadd m w y_degree 1;
    do bp <- bivariate_form_w m w (x_degree, y_degree) p;
    bpc_open_w s bp y_polynomial_comms (fpow point n, point).

  (** poly_commit/mod.rs 364-376 *)
  Definition upc_verify_w (vs : vsrs P) (max_degree : nat) (com : pGT P) (point eval : K) (proof : opening_proof P)
    : res bool :=
    do xy <- upc_point_w m w max_degree point;
    bpc_verify_w vs com xy eval proof.

  (** structured_scalar_message.rs 70-84 *)
  Definition gssm_prove_w {MA MT KA KT : module (pK P)} {OA OT : carrier (pK P)} (LMC : dhc R MA KA OA)
      (IPC : dhc R MT KT OT) (ip : list MA -> list (fmod (pK P)) -> res MT) (values : list MA * list (fmod K))
      (ck : list KA * KT) : res (gssm_proof MA OA OT) :=
    let '(ck_a, ck_t) := ck in
    do (proof, _) <- gipa_prove_with_aux_w m w LMC (ssm_placeholder K) IPC ip D fuel values
                       (ck_a, repeat (tt : unitmod K) (length (snd values)), [ck_t]);
    Ok proof.

  (** transparent.rs 91-99 *)
  Definition tbpc_setup_w (rng : R) (x_degree y_degree : nat) : res (list (pG1 P) * list (pG2 P) * R) :=
    do n <- wadd m w y_degree 1;
    do (ck1, _, rng) <- gssm_setup lmc1 ipc1 rng n;
    do n <- wadd m w x_degree 1;
    do (ck2, _, rng) <- gssm_setup lmc2 ipc2 rng n;
    Ok (ck1, ck2, rng).

  (** transparent.rs 260-263 *)
  Definition tupc_setup_w (rng : R) (degree : nat) : res (list (pG1 P) * list (pG2 P) * R) :=
    do (x_degree, y_degree) <- bivariate_degrees_w m w 8 4 degree;
    tbpc_setup_w rng x_degree y_degree.

  (** transparent.rs 129-186 *)
  Definition tbpc_open_w (ck : list (pG1 P) * list (pG2 P)) (p : bipoly K) (y_polynomial_comms : list (pG1 P))
      (point : K * K) : res (t_opening_proof P) :=
    let '(x, y) := point in
    let '(first_tier_ck, second_tier_ck) := ck in
    do _ <- rassert (length p <=? length second_tier_ck);
    do powers_of_x <- structured_scalar_power (length second_tier_ck) x;
    let coeffs := map (resize (length first_tier_ck) f0) (chain_cycle_take p [] (length second_tier_ck)) in
    do y_eval_coeffs <- y_eval_coefficients (length first_tier_ck) (length second_tier_ck) powers_of_x coeffs;
    do y_eval_comm <- dh_commit lmc1 first_tier_ck y_eval_coeffs;
    do second <- gssm_prove_w lmc2 ipc2 ip2 (y_polynomial_comms, powers_of_x) (second_tier_ck, (tt : unitmod K));
    do powers_of_y <- structured_scalar_power (length first_tier_ck) y;
    do first <- gssm_prove_w lmc1 ipc1 ip1 (y_eval_coeffs, powers_of_y) (first_tier_ck, (tt : unitmod K));
    Ok (mk_t_opening second y_eval_comm first).

  (** transparent.rs 188-212 *)
  Definition tbpc_verify_w (ck : list (pG1 P) * list (pG2 P)) (com : pGT P) (point : K * K) (eval : K)
      (proof : t_opening_proof P) : res bool :=
    let '(first_tier_ck, second_tier_ck) := ck in
    let '(x, y) := point in
    do second_valid <- gssm_verify_w m w v D fuel E lmc2 ipc2 ip2 (second_tier_ck, (tt : unitmod K))
         ((com : mod_carrier (pGT P)), ([to_y_eval_comm proof] : identity_output (pG1 P)))
         x (to_second proof);
    do first_valid <- gssm_verify_w m w v D fuel E lmc1 ipc1 ip1 (first_tier_ck, (tt : unitmod K))
         ((to_y_eval_comm proof : mod_carrier (pG1 P)), ([eval] : identity_output (fmod K)))
         y (to_first proof);
    Ok (second_valid && first_valid).

  (** transparent.rs 229-233: [len() - 1] *)
  Definition parse_degrees_ck_w (ck : list (pG1 P) * list (pG2 P)) : res (nat * nat) :=
    do x <- wsub m w (length (snd ck)) 1;
    do y <- wsub m w (length (fst ck)) 1;
    Ok (x, y).

  (** transparent.rs 265-274 *)
  Definition tupc_commit_w (ck : list (pG1 P) * list (pG2 P)) (p : list K) : res (pGT P * list (pG1 P)) :=
    do degrees <- parse_degrees_ck_w ck;
    do bp <- bivariate_form_w m w degrees p;
    tbpc_commit P E rand_g1 rand_g2 ck bp.

  (** transparent.rs 276-291 *)
  Definition tupc_open_w (ck : list (pG1 P) * list (pG2 P)) (p : list K) (y_polynomial_comms : list (pG1 P)) (point : K)
    : res (t_opening_proof P) :=
    do (x_degree, y_degree) <- parse_degrees_ck_w ck;
    do n <- wadd m w y_degree 1;
    do bp <- bivariate_form_w m w (x_degree, y_degree) p;
    tbpc_open_w ck bp y_polynomial_comms (fpow point n, point).

  (** transparent.rs 293-304 *)
  Definition tupc_verify_w (ck : list (pG1 P) * list (pG2 P)) (com : pGT P) (point eval : K) (proof : t_opening_proof P)
    : res bool :=
    do (_, y_degree) <- parse_degrees_ck_w ck;
    do n <- wadd m w y_degree 1;
    tbpc_verify_w ck com (fpow point n, point) eval proof.

  Variable S : stream.
  (** sipp/src/lib.rs 109-180; the model separates the loop over [s] and [s_invs] into two *)
  Definition sipp_verify_w (a : list (pG1 P)) (b : list (pG2 P)) (r : list K) (claimed_value : pGT P)
      (proof : list (pGT P * pGT P)) : res bool :=
    let len := length a in
    do _ <- rassert (count_ones len =? 1);
    do _ <- rassert (2 <=? len);
    do _ <- rassert (len =? length b);
    let proof_len := length proof in
    do _ <- rassert (f32_eqb (f32_of_Z (Z.of_nat proof_len)) (f32_log2_pow2 (Z.of_nat (Nat.log2 len))));
    let rng := fs_from_seed S D (sipp_seed P a b r claimed_value) in
    let x_s := sipp_challenges P S D rng proof in
    let x_invs := map (batch_inverse P) x_s in
    let z_terms := zipw (fun z (p : K * K) => fst p *m fst z +m snd p *m snd z) proof
                        (combine x_s x_invs) in
    let z_prime := claimed_value +m par_reduce madd m0 (shape E (length z_terms)) z_terms in
    do s <- sipp_s_loop_w m w 0 proof_len x_s (repeat f1 len);
    do s_invs <- sipp_s_loop_w m w 0 proof_len x_invs (repeat f1 len);
    let s := zipw fmul s r in
    do a_prime <- runwrap (msm a s);
    do b_prime <- runwrap (msm b s_invs);
    Ok (meqb (pr_e P a_prime b_prime) z_prime).
End Pc.

(** Words.v continued: the provers and verifiers with word arithmetic.  They are the functions of the model, with the
    challenge loops and exponents of Words.v in place of the unbounded ones. *)
Require Import List Arith Bool NArith ZArith.
Import ListNotations.
Require Import Verif.Outcome Verif.Algebra Verif.Rust Verif.InnerProducts Verif.Commitments Verif.Gipa Verif.Poly Verif.Tipa
  Verif.Ssm Verif.Groth16 Verif.Words.

Section Gipa.
  Variables (m : build) (w v : nat).
  Context {R : Type} {K : field}.
  Context {MA MB MT KA KB KT : module K} {OA OB OT : carrier K}.
  Variable LMC : dhc R MA KA OA.
  Variable RMC : dhc R MB KB OB.
  Variable IPC : dhc R MT KT OT.
  Variable ip : list MA -> list MB -> res MT.
  Variable D : bytes -> bytes.
  Variable fuel : nat.

  (** gipa.rs 196-297 *)
  Fixpoint gipa_prove_loop_w (n : nat) (m_a : list MA) (m_b : list MB) (ck_a : list KA) (ck_b : list KB)
      (ck_t : list KT) (r_commitment_steps : list (com3 OA OB OT * com3 OA OB OT)) (r_transcript : list K)
    : res ((MA * MB) * (KA * KB) * list (com3 OA OB OT * com3 OA OB OT) * list K) :=
    if length m_a =? 1 then
      do a <- index m_a 0;
      do b <- index m_b 0;
      do ka <- index ck_a 0;
      do kb <- index ck_b 0;
      Ok ((a, b), (ka, kb), r_commitment_steps, r_transcript)
    else
    match n with
    | O => Loop
    | S n =>
      let split := length m_a / 2 in
      do m_a_1 <- slice_from m_a split;
      do m_a_2 <- slice_to m_a split;
      do ck_a_1 <- slice_to ck_a split;
      do ck_a_2 <- slice_from ck_a split;
      do m_b_1 <- slice_to m_b split;
      do m_b_2 <- slice_from m_b split;
      do ck_b_1 <- slice_from ck_b split;
      do ck_b_2 <- slice_to ck_b split;
      do com_1 <- gipa_commit3 LMC RMC IPC ip ck_a_1 m_a_1 ck_b_1 m_b_1 ck_t;
      do com_2 <- gipa_commit3 LMC RMC IPC ip ck_a_2 m_a_2 ck_b_2 m_b_2 ck_t;
      do (c, c_inv) <- gipa_challenge_w m w D fuel 0 (gipa_prev r_transcript) com_1 com_2;
      gipa_prove_loop_w n
        (rescale c m_a_1 m_a_2)
        (rescale c_inv m_b_2 m_b_1)
        (rescale c_inv ck_a_2 ck_a_1)
        (rescale c ck_b_1 ck_b_2)
        ck_t
        (r_commitment_steps ++ [(com_1, com_2)])
        (r_transcript ++ [c])
    end.

  (** gipa.rs 162-312 *)
  Definition gipa_prove_with_aux_w (values : list MA * list MB) (ck : list KA * list KB * list KT)
    : res (gipa_proof MA MB OA OB OT * gipa_aux KA KB) :=
    let '(m_a, m_b) := values in
    let '(ck_a, ck_b, ck_t) := ck in
    do _ <- rassert (is_power_of_two (length m_a));
    do (m_base, ck_base, steps, transcript) <-
       gipa_prove_loop_w (length m_a) m_a m_b ck_a ck_b ck_t [] [];
    Ok (mk_gipa_proof (rev steps) m_base, mk_gipa_aux (rev transcript) ck_base).

  (** gipa.rs 315-363 *)
  Definition gipa_recursive_challenges_w (com : com3 OA OB OT) (proof : gipa_proof MA MB OA OB OT)
    : res (com3 OA OB OT * list K) :=
    do (com, transcript) <- gipa_challenges_loop_w m w D fuel com [] (rev (gp_steps proof));
    Ok (com, rev transcript).
End Gipa.

Section Top.
  Variables (m : build) (w v : nat).

  (** tipa/mod.rs 304-337 *)
  Definition prove_ck_kzg_opening_w {K} {G : module K} (srs_powers : list G) (transcript : list K)
      (r_shift kzg_challenge : K) : res G :=
    do coeffs <- poly_coefficients_from_transcript_w m w v transcript r_shift;
    let ck_polynomial := from_coefficients coeffs in
    do _ <- rassert (length srs_powers =? length ck_polynomial);
    let eval := poly_eval_product_form transcript kzg_challenge r_shift in
    do quotient <- poly_div (poly_sub ck_polynomial (from_coefficients [eval]))
                            (from_coefficients [fopp kzg_challenge; f1]);
    multiexp_ip G srs_powers (resize (length srs_powers) f0 quotient).

  Context {R : Type} {P : pairing}.
  Notation K := (pK P).
  Variable D : bytes -> bytes.
  Variable fuel : nat.
  Variable E : penv.

  (** tipa/mod.rs 176-231 *)
  Definition tipa_prove_w {MA MB MT KT : module (pK P)} {OA OB OT : carrier (pK P)} (LMC : dhc R MA (pG2 P) OA)
      (RMC : dhc R MB (pG1 P) OB) (IPC : dhc R MT KT OT) (ip : list MA -> list MB -> res MT) (s : srs P)
      (values : list MA * list MB) (ck : list (pG2 P) * list (pG1 P) * KT) (r_shift : K)
    : res (tipa_proof P MA MB OA OB OT) :=
    let '(ck_a, ck_b, ck_t) := ck in
    do (proof, aux) <- gipa_prove_with_aux_w m w LMC RMC IPC ip D fuel values (ck_a, ck_b, [ck_t]);
    let '(ck_a_final, ck_b_final) := ga_ck_base aux in
    let transcript := ga_transcript aux in
    do transcript_inverse <- invert_all transcript;
    do r_inverse <- runwrap (finverse r_shift);
    do t0 <- runwrap (hd_error transcript);
    do c <- rand_challenge_w m w D fuel 0 (tipa_kzg_payload t0 ck_a_final ck_b_final);
    do ck_a_kzg_opening <- prove_ck_kzg_opening_w (h_beta_powers s) transcript_inverse r_inverse c;
    do ck_b_kzg_opening <- prove_ck_kzg_opening_w (g_alpha_powers s) transcript f1 c;
    Ok (mk_tipa_proof proof (ck_a_final, ck_b_final) (ck_a_kzg_opening, ck_b_kzg_opening)).

  (** tipa/mod.rs 242-301 *)
  Definition tipa_verify_w {MA MB MT KT : module (pK P)} {OA OB OT : carrier (pK P)} (LMC : dhc R MA (pG2 P) OA)
      (RMC : dhc R MB (pG1 P) OB) (IPC : dhc R MT KT OT) (ip : list MA -> list MB -> res MT) (vs : vsrs P) (ck_t : KT)
      (com : com3 OA OB OT) (proof : tipa_proof P MA MB OA OB OT) (r_shift : K) : res bool :=
    do (base_com, transcript) <- gipa_recursive_challenges_w m w D fuel com (tp_gipa proof);
    do transcript_inverse <- invert_all transcript;
    let '(ck_a_final, ck_b_final) := tp_final_ck proof in
    let '(ck_a_proof, ck_b_proof) := tp_final_ck_proof proof in
    do t0 <- runwrap (hd_error transcript);
    do c <- rand_challenge_w m w D fuel 0 (tipa_kzg_payload t0 ck_a_final ck_b_final);
    do r_inverse <- runwrap (finverse r_shift);
    do ck_a_valid <- verify_ck_g2_kzg_opening vs ck_a_final ck_a_proof transcript_inverse r_inverse c;
    do ck_b_valid <- verify_ck_g1_kzg_opening vs ck_b_final ck_b_proof transcript f1 c;
    let '(com_a, com_b, com_t) := base_com in
    let '(a, b) := gp_base (tp_gipa proof) in
    do t <- ip [a] [b];
    do base_valid <- rand_then (dh_verify LMC [ck_a_final] [a] com_a)
                       (rand_then (dh_verify RMC [ck_b_final] [b] com_b)
                                  (dh_verify IPC [ck_t] [t] com_t));
    Ok (ck_a_valid && ck_b_valid && base_valid).

  Section Ssm.
    Context {F : field} {MA MT KA KT : module F} {OA OT : carrier F}.
    Variable LMC : dhc R MA KA OA.
    Variable IPC : dhc R MT KT OT.
    Variable ip : list MA -> list (fmod F) -> res MT.

    (** structured_scalar_message.rs 86-127 *)
    Definition gssm_verify_w (ck : list KA * KT) (com : OA * OT) (scalar_b : F) (proof : gssm_proof MA OA OT)
      : res bool :=
      let '(ck_a, ck_t) := ck in
      do (base_com, transcript) <-
        gipa_recursive_challenges_w m w D fuel (fst com, (f0 : mod_carrier (fmod F)), snd com) proof;
      do (ck_a_base, ck_b_base) <-
        gipa_final_keys_w m w v ck_a (repeat (tt : unitmod F) (length ck_a)) transcript;
      do gipa_valid <- gipa_verify_base LMC (ssm_placeholder F) IPC ip ck_a_base ck_b_base [ck_t] base_com proof;
      do b_base <- final_scalar E transcript scalar_b;
      let '(com_a, _, com_t) := base_com in
      let a := fst (gp_base proof) in
      do t <- ip [a] [b_base : fmod F];
      do base_valid <- rand_then (dh_verify LMC [ck_a_base] [a] com_a)
                                 (dh_verify IPC [ck_t] [t] com_t);
      Ok (gipa_valid && base_valid).
  End Ssm.

  (** structured_scalar_message.rs 211-268 *)
  Definition tssm_prove_w {MA MT KT : module (pK P)} {OA OT : carrier (pK P)} (LMC : dhc R MA (pG2 P) OA)
      (IPC : dhc R MT KT OT) (ip : list MA -> list (fmod (pK P)) -> res MT) (s : srs P)
      (values : list MA * list (fmod K)) (ck : list (pG2 P) * KT) : res (tssm_proof P MA OA OT) :=
    let '(ck_a, ck_t) := ck in
    do (proof, aux) <- gipa_prove_with_aux_w m w LMC (ssm_placeholder K) IPC ip D fuel values
                         (ck_a, repeat (tt : unitmod K) (length (snd values)), [ck_t]);
    let '(ck_a_final, _) := ga_ck_base aux in
    let transcript := ga_transcript aux in
    do transcript_inverse <- invert_all transcript;
    do t0 <- runwrap (hd_error transcript);
    do c <- rand_challenge_w m w D fuel 0 (tssm_kzg_payload t0 ck_a_final);
    do opening <- prove_ck_kzg_opening_w (h_beta_powers s) transcript_inverse f1 c;
    Ok (mk_tssm_proof proof ck_a_final opening).

  (** structured_scalar_message.rs 270-331 *)
  Definition tssm_verify_w {MA MT KT : module (pK P)} {OA OT : carrier (pK P)} (LMC : dhc R MA (pG2 P) OA)
      (IPC : dhc R MT KT OT) (ip : list MA -> list (fmod (pK P)) -> res MT) (vs : vsrs P) (ck_t : KT) (com : OA * OT)
      (scalar_b : K) (proof : tssm_proof P MA OA OT) : res bool :=
    do (base_com, transcript) <-
      gipa_recursive_challenges_w m w D fuel (fst com, (scalar_b : mod_carrier (fmod K)), snd com) (ts_gipa proof);
    do transcript_inverse <- invert_all transcript;
    let ck_a_final := ts_final_ck proof in
    do t0 <- runwrap (hd_error transcript);
    do c <- rand_challenge_w m w D fuel 0 (tssm_kzg_payload t0 ck_a_final);
    do ck_a_valid <- verify_ck_g2_kzg_opening vs ck_a_final (ts_final_ck_proof proof) transcript_inverse f1 c;
    do b_base <- final_scalar E transcript scalar_b;
    let '(com_a, _, com_t) := base_com in
    let a := fst (gp_base (ts_gipa proof)) in
    do t <- ip [a] [b_base : fmod K];
    do base_valid <- rand_then (dh_verify LMC [ck_a_final] [a] com_a)
                               (dh_verify IPC [ck_t] [t] com_t);
    Ok (ck_a_valid && base_valid).

  Variable rand_g1 : sampler R (pG1 P).
  Variable rand_g2 : sampler R (pG2 P).
  Notation c1 := (afgho_g1 P E rand_g2).
  Notation c2 := (afgho_g2 P E rand_g1).
  Notation it := (identity (R := R) (pGT P)).
  Notation ig := (identity (R := R) (pG1 P)).
  Notation pip := (pairing_ip P E).
  Notation mip := (multiexp_ip (pG1 P)).

  (** groth16_aggregation.rs 77-160 *)
  Definition g16_aggregate_w (ip_srs : srs P) (proofs : list (g16_proof P)) : res (agg_proof P) :=
    let a := map pf_a proofs in
    let b := map pf_b proofs in
    let c := map pf_c proofs in
    let '(ck_1, ck_2) := get_commitment_keys ip_srs in
    do com_a <- pip a ck_1;
    do com_b <- pip ck_2 b;
    do com_c <- pip c ck_1;
    do r <- rand_challenge_w m w D fuel 0 (g16_payload P com_a com_b com_c);
    do r_vec <- structured_scalar_power (length proofs) r;
    let a_r := zipw (fun a r => r *m a) a r_vec in
    do ip_ab <- pip a_r b;
    do agg_c <- mip c r_vec;
    do ck_1_r <- rmapM (fun p => do ri <- runwrap (finverse (snd p)); Ok (ri *m fst p))
                       (combine ck_1 r_vec);
    do com_a' <- pip a_r ck_1_r;
    do _ <- rassert (meqb com_a com_a');
    do tipa_proof_ab <- tipa_prove_w c1 c2 it pip ip_srs (a_r, b) (ck_1_r, ck_2, (tt : unitmod K)) r;
    do tipa_proof_c <- tssm_prove_w c1 ig mip ip_srs (c, r_vec) (ck_1, (tt : unitmod K));
    Ok (mk_agg_proof com_a com_b com_c ip_ab agg_c tipa_proof_ab tipa_proof_c).

  (** groth16_aggregation.rs 206-228; 212: [public_inputs[0].len() + 1] *)
  Definition g16_ppe_w (vk : g16_vk P) (public_inputs : list (list K)) (r : K) (ip_ab : pGT P)
      (agg_c : pG1 P) : res bool :=
    do r_sum <- rdiv P (fpow r (length public_inputs) -f f1) (r -f f1);
    let p1 := pr_e P (r_sum *m vk_alpha_g1 vk) (vk_beta_g2 vk) in
    do row0 <- index public_inputs 0;
    do n <- wadd m w (length row0) 1;
    do _ <- rassert (length (vk_gamma_abc_g1 vk) =? n);
    do r_vec <- structured_scalar_power (length public_inputs) r;
    do abc0 <- index (vk_gamma_abc_g1 vk) 0;
    do g_ic <- g16_ic_loop P E 0 (skipn 1 (vk_gamma_abc_g1 vk)) public_inputs r_vec (r_sum *m abc0);
    let p2 := pr_e P g_ic (vk_gamma_g2 vk) in
    let p3 := pr_e P agg_c (vk_delta_g2 vk) in
    Ok (meqb ip_ab (p1 +m p2 +m p3)).

  (** groth16_aggregation.rs 162-231 *)
  Definition g16_verify_w (vs : vsrs P) (vk : g16_vk P) (public_inputs : list (list K))
      (proof : agg_proof P) : res bool :=
    do r <- rand_challenge_w m w D fuel 0 (g16_payload P (ag_com_a proof) (ag_com_b proof) (ag_com_c proof));
    do ab_valid <- tipa_verify_w c1 c2 it pip vs (tt : unitmod K)
       ((ag_com_a proof : mod_carrier (pGT P)), (ag_com_b proof : mod_carrier (pGT P)),
        ([ag_ip_ab proof] : identity_output (pGT P)))
       (ag_tipa_ab proof) r;
    do c_valid <- tssm_verify_w c1 ig mip vs (tt : unitmod K)
       ((ag_com_c proof : mod_carrier (pGT P)), ([ag_agg_c proof] : identity_output (pG1 P)))
       r (ag_tipa_c proof);
    do ppe_valid <- g16_ppe_w vk public_inputs r (ag_ip_ab proof) (ag_agg_c proof);
    Ok (ab_valid && c_valid && ppe_valid).
End Top.

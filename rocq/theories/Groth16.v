(** Model of ip_proofs/src/applications/groth16_aggregation.rs. *)
Require Import List Arith Bool NArith.
Import ListNotations.
Require Import Verif.Outcome Verif.Algebra Verif.Rust Verif.InnerProducts Verif.Commitments
  Verif.Poly Verif.Gipa Verif.Tipa Verif.Ssm.

(** ark_groth16::Proof and ark_groth16::VerifyingKey (dependency): the fields used. *)
Record g16_proof (P : pairing) : Type := mk_g16_proof {
  pf_a : pG1 P; pf_b : pG2 P; pf_c : pG1 P }.
Arguments mk_g16_proof {P}.
Arguments pf_a {P}.
Arguments pf_b {P}.
Arguments pf_c {P}.
Record g16_vk (P : pairing) : Type := mk_g16_vk {
  vk_alpha_g1 : pG1 P;
  vk_beta_g2 : pG2 P;
  vk_gamma_g2 : pG2 P;
  vk_delta_g2 : pG2 P;
  vk_gamma_abc_g1 : list (pG1 P) }.
Arguments mk_g16_vk {P}.
Arguments vk_alpha_g1 {P}.
Arguments vk_beta_g2 {P}.
Arguments vk_gamma_g2 {P}.
Arguments vk_delta_g2 {P}.
Arguments vk_gamma_abc_g1 {P}.

(** groth16_aggregation.rs 58-66 [AggregateProof] *)
Record agg_proof (P : pairing) : Type := mk_agg_proof {
  ag_com_a : pGT P;
  ag_com_b : pGT P;
  ag_com_c : pGT P;
  ag_ip_ab : pGT P;
  ag_agg_c : pG1 P;
  ag_tipa_ab : tipa_proof P (pG1 P) (pG2 P) (mod_carrier (pGT P)) (mod_carrier (pGT P))
                 (identity_output (pGT P));
  ag_tipa_c : tssm_proof P (pG1 P) (mod_carrier (pGT P)) (identity_output (pG1 P)) }.
Arguments mk_agg_proof {P}.
Arguments ag_com_a {P}.
Arguments ag_com_b {P}.
Arguments ag_com_c {P}.
Arguments ag_ip_ab {P}.
Arguments ag_agg_c {P}.
Arguments ag_tipa_ab {P}.
Arguments ag_tipa_c {P}.

Section Groth16.
  Context {R : Type}.
  Variable P : pairing.
  Notation K := (pK P).
  Variable E : penv.
  Variable D : bytes -> bytes.
  Variable fuel : nat.
  Variable rand_scalar : sampler R (pK P).
  Variable rand_g1 : sampler R (pG1 P).
  Variable rand_g2 : sampler R (pG2 P).

  (** groth16_aggregation.rs 24-56: the two arguments. *)
  Notation c1 := (afgho_g1 P E rand_g2).
  Notation c2 := (afgho_g2 P E rand_g1).
  Notation it := (identity (R := R) (pGT P)).
  Notation ig := (identity (R := R) (pG1 P)).
  Notation pip := (pairing_ip P E).
  Notation mip := (multiexp_ip (pG1 P)).

  (** 68-75 [setup_inner_product] *)
  Definition g16_setup (rng : R) (size : nat) : res (srs P * R) :=
    do (s, _, rng) <- tipa_setup it rand_scalar rng size;
    Ok (s, rng).

  (** 107-111 / 176-179 *)
  Definition g16_payload (com_a com_b com_c : pGT P) : bytes :=
    mser com_a ++ mser com_b ++ mser com_c.

  (** 77-160 [aggregate_proofs] *)
  Definition g16_aggregate (ip_srs : srs P) (proofs : list (g16_proof P)) : res (agg_proof P) :=
    let a := map pf_a proofs in
    let b := map pf_b proofs in
    let c := map pf_c proofs in
    let '(ck_1, ck_2) := get_commitment_keys ip_srs in
    do com_a <- pip a ck_1;
    do com_b <- pip ck_2 b;
    do com_c <- pip c ck_1;
    do r <- rand_challenge D fuel 0 (g16_payload com_a com_b com_c);
    do r_vec <- structured_scalar_power (length proofs) r;
    let a_r := zipw (fun a r => r *m a) a r_vec in
    do ip_ab <- pip a_r b;
    do agg_c <- mip c r_vec;
    do ck_1_r <- rmapM (fun p => do ri <- runwrap (finverse (snd p)); Ok (ri *m fst p))
                       (combine ck_1 r_vec);
    do com_a' <- pip a_r ck_1_r;
    do _ <- rassert (meqb com_a com_a');
    do tipa_proof_ab <- tipa_prove_with_srs_shift c1 c2 it pip D fuel ip_srs (a_r, b)
                          (ck_1_r, ck_2, (tt : unitmod K)) r;
    do tipa_proof_c <- tssm_prove c1 ig mip D fuel ip_srs (c, r_vec) (ck_1, (tt : unitmod K));
    Ok (mk_agg_proof com_a com_b com_c ip_ab agg_c tipa_proof_ab tipa_proof_c).

  (** 214-224: the loop over [gamma_abc_g1.iter().skip(1).enumerate()]. *)
  Fixpoint g16_ic_loop (i : nat) (bs : list (pG1 P)) (inputs : list (list K)) (r_vec : list K)
      (g_ic : pG1 P) : res (pG1 P) :=
    match bs with
    | [] => Ok g_ic
    | b :: bs =>
      do col <- rmapM (fun row => index row i) inputs;
      do s <- scalar_ip E col r_vec;
      g16_ic_loop (S i) bs inputs r_vec (g_ic +m (s *m b))
    end.

  (** Field division [/]: panics on a zero divisor. *)
  Definition rdiv (x y : K) : res K :=
    do yi <- runwrap (finverse y); Ok (x *f yi).

  (** 206-228: the aggregated pairing product equation. *)
  Definition g16_ppe (vk : g16_vk P) (public_inputs : list (list K)) (r : K) (ip_ab : pGT P)
      (agg_c : pG1 P) : res bool :=
    do r_sum <- rdiv (fpow r (length public_inputs) -f f1) (r -f f1);
    let p1 := pr_e P (r_sum *m vk_alpha_g1 vk) (vk_beta_g2 vk) in
    do row0 <- index public_inputs 0;
    do _ <- rassert (length (vk_gamma_abc_g1 vk) =? length row0 + 1);
    do r_vec <- structured_scalar_power (length public_inputs) r;
    do abc0 <- index (vk_gamma_abc_g1 vk) 0;
    do g_ic <- g16_ic_loop 0 (skipn 1 (vk_gamma_abc_g1 vk)) public_inputs r_vec (r_sum *m abc0);
    let p2 := pr_e P g_ic (vk_gamma_g2 vk) in
    let p3 := pr_e P agg_c (vk_delta_g2 vk) in
    Ok (meqb ip_ab (p1 +m p2 +m p3)).

  (** 162-231 [verify_aggregate_proof] *)
  Definition g16_verify (v : vsrs P) (vk : g16_vk P) (public_inputs : list (list K))
      (proof : agg_proof P) : res bool :=
    do r <- rand_challenge D fuel 0 (g16_payload (ag_com_a proof) (ag_com_b proof) (ag_com_c proof));
    do ab_valid <- tipa_verify_with_srs_shift c1 c2 it pip D fuel v (tt : unitmod K)
       ((ag_com_a proof : mod_carrier (pGT P)), (ag_com_b proof : mod_carrier (pGT P)),
        ([ag_ip_ab proof] : identity_output (pGT P)))
       (ag_tipa_ab proof) r;
    do c_valid <- tssm_verify c1 ig mip D fuel E v (tt : unitmod K)
       ((ag_com_c proof : mod_carrier (pGT P)), ([ag_agg_c proof] : identity_output (pG1 P)))
       r (ag_tipa_c proof);
    do ppe_valid <- g16_ppe vk public_inputs r (ag_ip_ab proof) (ag_agg_c proof);
    Ok (ab_valid && c_valid && ppe_valid).
End Groth16.

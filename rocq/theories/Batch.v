(** Model of [batch_verify_proof] in benches/benches/groth16_aggregation/bench.rs. *)
Require Import List Arith Bool NArith.
Import ListNotations.
Require Import Verif.Outcome Verif.Algebra Verif.Rust Verif.InnerProducts Verif.Commitments Verif.Groth16.

(** ark_groth16::PreparedVerifyingKey (dependency): the fields used; prepared points are identified
    with the points. *)
Record g16_pvk (P : pairing) : Type := mk_g16_pvk {
  pvk_vk : g16_vk P;
  pvk_gamma_g2_neg : pG2 P;
  pvk_delta_g2_neg : pG2 P }.
Arguments mk_g16_pvk {P}.
Arguments pvk_vk {P}.
Arguments pvk_gamma_g2_neg {P}.
Arguments pvk_delta_g2_neg {P}.

(** ark_groth16::prepare_verifying_key (ark-groth16 0.4): the negated points. *)
Definition prepare_verifying_key {P} (vk : g16_vk P) : g16_pvk P :=
  mk_g16_pvk vk (mopp (vk_gamma_g2 vk)) (mopp (vk_delta_g2 vk)).

Section Batch.
  Context {R : Type}.
  Variable P : pairing.
  Notation K := (pK P).
  (** StdRng (dependency): the state after [seed_from_u64(0)] and [u128::rand]. *)
  Variable seed_from_u64 : N -> R.
  Variable rand_u128 : sampler R N.

  (** 534-538: one scalar per proof. *)
  Definition batch_scalars (n : nat) : list K :=
    map f_ofN (fst (random_generators rand_u128 (seed_from_u64 0) n)).

  (** 544-548: zip of the inputs with the bases, stopping at the shorter one. *)
  Definition batch_input (abc : list (pG1 P)) (input : list K) : res (pG1 P) :=
    do abc0 <- index abc 0;
    Ok (fold_left (fun g_ic p => g_ic +m (fst p *m snd p)) (combine input (skipn 1 abc)) abc0).

  (** 529-595.  540-552, 554-558, 570-574: zips with the scalars, stopping at the shorter one;
      560-564: affine and prepared forms.  [Ok None] is [Err(SynthesisError::UnexpectedIdentity)]. *)
  Definition batch_verify_proof (pvk : g16_pvk P) (public_inputs : list (list K))
      (proofs : list (g16_proof P)) : res (option bool) :=
    let vk := pvk_vk pvk in
    let r_powers := batch_scalars (length proofs) in
    do inputs <- rmapM (fun p : list K * K =>
                          do g_ic <- batch_input (vk_gamma_abc_g1 vk) (fst p); Ok (snd p *m g_ic))
                       (combine public_inputs r_powers);
    let combined_inputs := fold_left madd inputs m0 in
    let combined_proof_a_s := zipw (fun pf r => r *m pf_a pf) proofs r_powers in
    let combined_proof_b_s := map pf_b proofs in
    do a_r_times_b <- mml_chunk P (combined_proof_a_s, combined_proof_b_s);
    let combined_c_s := fold_left madd (zipw (fun pf r => r *m pf_c pf) proofs r_powers) m0 in
    let sum_of_rs := fold_left fadd r_powers f0 in
    let combined_alpha := mopp (sum_of_rs *m vk_alpha_g1 vk) in
    do qap <- mml_chunk P ([combined_alpha; combined_inputs; combined_c_s],
                           [vk_beta_g2 vk; pvk_gamma_g2_neg pvk; pvk_delta_g2_neg pvk]);
    match fexp P (tfmul P qap a_r_times_b) with
    | None => Ok None
    | Some test => Ok (Some (meqb test m0))
    end.
End Batch.

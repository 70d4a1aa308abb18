(** Model of benches/examples/groth16_aggregation.rs and of the main program of
    benches/benches/groth16_aggregation/bench.rs.  The clock and the output: Report.v.

    Dependencies: Groth16 setup and prove (ark-groth16) are a [snark] over an arbitrary type of
    circuits, so that the constraints themselves (Blake2s gadget, verifier gadget) are not modelled;
    what a circuit claims is stated by the theorems.  Groth16 proofs are triples of points. *)
Require Import List Arith Bool NArith.
Import ListNotations.
Require Import Verif.Outcome Verif.Algebra Verif.Rust Verif.InnerProducts Verif.Commitments
  Verif.Poly Verif.Gipa Verif.Tipa Verif.Ssm Verif.Groth16 Verif.Batch Verif.Bench.

(** [Groth16::<P>::setup] (the proving key contains the verifying key) and [Groth16::<P>::prove]. *)
Record snark (R : Type) (P : pairing) (C : Type) : Type := mk_snark {
  sn_pk : Type;
  sn_vk : sn_pk -> g16_vk P;
  sn_setup : C -> R -> res (sn_pk * R);
  sn_prove : sn_pk -> C -> R -> res (g16_proof P * R)
}.
Arguments mk_snark {R P C}.
Arguments sn_pk {R P C}.
Arguments sn_vk {R P C}.
Arguments sn_setup {R P C}.
Arguments sn_prove {R P C}.

(** [Groth16::<P>::verify(..).unwrap()] (ark-groth16 0.4): an error, hence a panic, unless there is one base
    per input and one more; then the pairing equation. *)
Definition g16_verify_one (P : pairing) (vk : g16_vk P) (inputs : list (pK P)) (pf : g16_proof P) : res bool :=
  do _ <- rassert (length inputs + 1 =? length (vk_gamma_abc_g1 vk));
  do g_ic <- batch_input P (vk_gamma_abc_g1 vk) inputs;
  Ok (meqb (pr_e P (pf_a pf) (pf_b pf))
        (pr_e P (vk_alpha_g1 vk) (vk_beta_g2 vk) +m pr_e P g_ic (vk_gamma_g2 vk) +m pr_e P (pf_c pf) (vk_delta_g2 vk))).

Section Programs.
  Context {R : Type}.
  Variable P : pairing.
  Notation K := (pK P).
  Variable E : penv.
  Variable D : bytes -> bytes.
  Variable fuel : nat.
  Variable rand_scalar : sampler R (pK P).
  Variable rand_g1 : sampler R (pG1 P).
  Variable rand_g2 : sampler R (pG2 P).

  (** ** benches/examples/groth16_aggregation.rs *)

  (** 17-22 [TestCircuit] *)
  Record test_circuit : Type := mk_test_circuit {
    tc_inputs : list K; tc_witness : K; tc_sum : K }.

  Variable TS : snark R P test_circuit.

  (** 63-84: one iteration; the statement is the inputs followed by the sum. *)
  Definition example_one (pk : sn_pk TS) (num_inputs : nat) (rng : R) : res (g16_proof P * list K * R) :=
    let (public_inputs, rng) := random_generators rand_scalar rng num_inputs in
    let (w, rng) := rand_scalar rng in
    let sum := w +f fold_left fadd public_inputs f0 in
    do (pf, rng) <- ok_unwrap (sn_prove TS pk (mk_test_circuit public_inputs w sum) rng);
    Ok (pf, public_inputs ++ [sum], rng).
  (** 61-84 *)
  Fixpoint example_proofs (pk : sn_pk TS) (num_inputs n : nat) (rng : R) : res (list (g16_proof P) * list (list K) * R) :=
    match n with
    | O => Ok ([], [], rng)
    | S n =>
      do (pf, st, rng) <- example_one pk num_inputs rng;
      do (pfs, sts, rng) <- example_proofs pk num_inputs n rng;
      Ok (pf :: pfs, st :: sts, rng)
    end.

  (** 41-110 [main]; the two constants (4 and 1024) are parameters. *)
  Definition g16_example_main (num_inputs num_proofs : nat) (rng : R) : res unit :=
    do (pk, rng) <- ok_unwrap (sn_setup TS (mk_test_circuit (repeat f0 num_inputs) f0 f0) rng);
    do (srs, rng) <- ok_unwrap (g16_setup P rand_scalar rng num_proofs);
    do (proofs, statements, _) <- example_proofs pk num_inputs num_proofs rng;
    do aggregate_proof <- ok_unwrap (g16_aggregate P E D fuel rand_g1 rand_g2 srs proofs);
    do v <- get_verifier_key srs;
    do result <- ok_unwrap (g16_verify P E D fuel rand_g1 rand_g2 v (sn_vk TS pk) statements aggregate_proof);
    rassert result.

  (** ** benches/benches/groth16_aggregation/bench.rs *)

  (** Hash inputs and outputs ([u8; 32]), [Blake2s::evaluate(&[0; 32], ..)] and [to_field_elements]
      (which never returns None for byte arrays). *)
  Variables (HI HO : Type) (rand_hash_input : sampler R HI) (hash : HI -> HO).
  Variables (default_input : HI) (default_output : HO).
  Variable to_fe : HO -> list K.
  (** StdRng of [batch_verify_proof] *)
  Context {R0 : Type}.
  Variables (seed_from_u64 : N -> R0) (rand_u128 : sampler R0 N).

  (** 30-34 [SingleBlake2SCircuit], 52-56 [ManyBlake2SCircuit], 77-82
      [AggregateBlake2SCircuitVerificationCircuit] (over the outer curve [Q]) *)
  Variable Q : pairing.
  Variable SS : snark R P (HI * HO).
  Variable SM : snark R P (list HI * list HO).
  Variable SA : snark R Q (list HO * list (g16_proof P) * g16_vk P).
  (** 161-200: the outputs packed into elements of the outer scalar field *)
  Variable pack : list HO -> list (pK Q).

  (** 282-299: with [generate_all_proofs = false] the loop stops after the first proof. *)
  Fixpoint bench_proofs (pk : sn_pk SS) (all : bool) (ios : list (HI * HO)) (rng : R) : res (list (g16_proof P) * R) :=
    match ios with
    | [] => Ok ([], rng)
    | io :: ios =>
      do (pf, rng) <- ok_unwrap (sn_prove SS pk io rng);
      if all then do (pfs, rng) <- bench_proofs pk all ios rng; Ok (pf :: pfs, rng)
      else Ok ([pf], rng)
    end.

  (** 303-306 *)
  Definition bench_copies (all : bool) (n : nat) (proofs : list (g16_proof P)) (ins : list HI) (outs : list HO)
    : res (list (g16_proof P) * list HI * list HO) :=
    if all then Ok (proofs, ins, outs) else
    do pf <- index proofs 0; do i <- index ins 0; do o <- index outs 0;
    Ok (repeat pf n, repeat i n, repeat o n).

  (** 358-398: the trials of the aggregation *)
  Fixpoint bench_aggregate (n : nat) (srs : srs P) (v : vsrs P) (vk : g16_vk P) (inputs : list (list K))
      (proofs : list (g16_proof P)) : res unit :=
    match n with
    | O => Ok tt
    | S n =>
      do aggregate_proof <- ok_unwrap (g16_aggregate P E D fuel rand_g1 rand_g2 srs proofs);
      do result <- ok_unwrap (g16_verify P E D fuel rand_g1 rand_g2 v vk inputs aggregate_proof);
      do _ <- rassert result;
      bench_aggregate n srs v vk inputs proofs
    end.

  (** 426-466: the trials of the one-layer recursion *)
  Fixpoint bench_recursive (n : nat) (pk : sn_pk SA) (c : list HO * list (g16_proof P) * g16_vk P) (inputs : list (pK Q))
      (rng : R) : res R :=
    match n with
    | O => Ok rng
    | S n =>
      do (pf, rng) <- ok_unwrap (sn_prove SA pk c rng);
      do result <- g16_verify_one Q (sn_vk SA pk) inputs pf;
      do _ <- rassert result;
      bench_recursive n pk c inputs rng
    end.

  (** 247-526 [main] after the command line has been read *)
  Definition g16_bench_main (num_trials num_proofs : nat) (bench_recursion all monolithic : bool) (rng : R) : res unit :=
    let (ins, rng) := random_generators rand_hash_input rng num_proofs in
    let outs := map hash ins in
    do (pk, rng) <- ok_unwrap (sn_setup SS (default_input, default_output) rng);
    do (proofs, rng) <- bench_proofs pk all (combine ins outs) rng;
    do (proofs, ins, outs) <- bench_copies all num_proofs proofs ins outs;
    let vk := sn_vk SS pk in
    do result <- batch_verify_proof P seed_from_u64 rand_u128 (prepare_verifying_key vk) (map to_fe outs) proofs;
    do result <- runwrap result;
    do _ <- rassert result;
    do (srs, rng) <- ok_unwrap (g16_setup P rand_scalar rng num_proofs);
    do v <- get_verifier_key srs;
    do _ <- bench_aggregate num_trials srs v vk (map to_fe outs) proofs;
    do rng <- (if bench_recursion then
                 do (pka, rng) <- ok_unwrap (sn_setup SA (outs, proofs, vk) rng);
                 bench_recursive num_trials pka (outs, proofs, vk) (pack outs) rng
               else Ok rng);
    if monolithic then
      do (pkm, rng) <- ok_unwrap (sn_setup SM (ins, outs) rng);
      do (pf, _) <- ok_unwrap (sn_prove SM pkm (ins, outs) rng);
      do result <- g16_verify_one P (sn_vk SM pkm) (flat_map to_fe outs) pf;
      rassert result
    else Ok tt.
End Programs.
Arguments mk_test_circuit {P}.
Arguments tc_inputs {P}.
Arguments tc_witness {P}.
Arguments tc_sum {P}.

(** Model of the CSV output of benches/benches/poly_commit.rs, benches/benches/groth16_aggregation/bench.rs
    (that of sipp/examples/scaling-ipp.rs: Scaling.v): the programs of Bench.v and GrothMain.v with their [write_record].
    A program gets the rows written so far and returns the rows written when it ends, however it ends
    (rows are flushed, also by the destructor of the writer when a panic unwinds).
    The clock is an arbitrary function: the milliseconds measured for the row at a given position. *)
Require Import List Arith Bool NArith ZArith String Ascii Decimal DecimalString.
Import ListNotations.
Require Import Verif.Outcome Verif.Algebra Verif.Rust Verif.InnerProducts Verif.Commitments
  Verif.Poly Verif.Gipa Verif.Tipa Verif.Ssm Verif.Floats Verif.PolyCommit Verif.Transparent Verif.Rng Verif.Sipp
  Verif.Groth16 Verif.Batch Verif.Bench Verif.GrothMain Verif.Cli.
Local Open Scope string_scope.
Local Open Scope list_scope.

Definition row : Type := list string.
(** [to_string] of an unsigned number *)
Definition to_string (n : N) : string := NilEmpty.string_of_uint (N.to_uint n).

Definition report (A : Type) : Type := list row -> list row * res A.
Definition quiet {A} (x : res A) : report A := fun out => (out, x).
Definition pbind {A B} (e : report A) (f : A -> report B) : report B := fun out =>
  let (out, x) := e out in
  match x with
  | Ok a => f a out
  | Err e => (out, Err e)
  | Panic => (out, Panic)
  | Loop => (out, Loop)
  end.
Declare Scope report_scope.
Notation "'show' x <- e ; f" := (pbind e (fun x => f)) (at level 200, x pattern, e at level 100, f at level 200) : report_scope.
Local Open Scope report_scope.

Section Csv.
  Variable clock : nat -> N.

  (** [csv_writer.write_record(&[.., time.to_string()])] where the time is the measured one divided by [d]. *)
  Definition record_time (cells : list string) (d : N) : report unit := fun out =>
    (out ++ [cells ++ [to_string (clock (List.length out) / d)]], Ok tt).
  Definition record (cells : list string) : report unit := fun out => (out ++ [cells], Ok tt).

  Section PolyCommitCsv.
    Context {R : Type}.
    Variable P : pairing.
    Notation K := (pK P).
    Variables (E : penv) (D : bytes -> bytes) (fuel : nat).
    Variables (rand_scalar : sampler R K) (rand_g1 : sampler R (pG1 P)) (rand_g2 : sampler R (pG2 P)).

    Definition pc_cells (trial : nat) (scheme function : string) (degree : nat) : list string :=
      [to_string (N.of_nat trial); scheme; function; to_string (N.of_nat degree)].

    (** poly_commit.rs 68-120, 140-196, 214-274: one trial is commit, open, verify; [i] is the number of the
        next trial.  109, 185, 264: the time of 50 verifications is divided by 50. *)
    Fixpoint pc_trials_csv {A B : Type} (scheme : string) (commit : list K -> res A) (open : list K -> A -> K -> res B)
        (verify : A -> K -> K -> B -> res bool) (degree i num_trials : nat) (rng : R) : report R :=
      match num_trials with
      | O => quiet (Ok rng)
      | S n =>
        let (polynomial, rng) := poly_rand P rand_scalar degree rng in
        let (point, rng) := rand_scalar rng in
        let eval := poly_evaluate polynomial point in
        show com <- quiet (ok_unwrap (commit polynomial));
        show _ <- record_time (pc_cells i scheme "commit" degree) 1;
        show proof <- quiet (ok_unwrap (open polynomial com point));
        show _ <- record_time (pc_cells i scheme "open" degree) 1;
        show is_valid <- quiet (ok_unwrap (verify com point eval proof));
        show _ <- quiet (rassert is_valid);
        show _ <- record_time (pc_cells i scheme "verify" degree) 50;
        pc_trials_csv scheme commit open verify degree (i + 1) n rng
      end.

    (** poly_commit.rs 52-121 *)
    Definition bench_kzg_csv (rng : R) (degree num_trials : nat) : report R :=
      show (powers, v_srs, rng) <- quiet (ok_unwrap (kzg_setup rand_scalar rng degree));
      show _ <- record_time (pc_cells 1 "kzg" "setup" degree) 1;
      pc_trials_csv "kzg" (kzg_commit powers) (fun polynomial _ point => kzg_open powers polynomial point)
        (fun com point eval proof => kzg_verify v_srs com point eval proof) degree 1 num_trials rng.
    (** poly_commit.rs 123-196 *)
    Definition bench_ipa_csv (rng : R) (degree num_trials : nat) : report R :=
      show (srs, rng) <- quiet (ok_unwrap (upc_setup P rand_scalar rng degree));
      show v_srs <- quiet (get_verifier_key (fst srs));
      show _ <- record_time (pc_cells 1 "ipa" "setup" degree) 1;
      pc_trials_csv "ipa" (upc_commit P E rand_g2 srs)
        (fun polynomial com point => upc_open P E D fuel rand_g2 srs polynomial (snd com) point)
        (fun com point eval proof => upc_verify P E D fuel rand_g2 v_srs degree (fst com) point eval proof) degree 1 num_trials rng.
    (** poly_commit.rs 198-275 *)
    Definition bench_transparent_csv (rng : R) (degree num_trials : nat) : report R :=
      show (ck, rng) <- quiet (ok_unwrap (tupc_setup P E rand_g1 rand_g2 rng degree));
      show _ <- record_time (pc_cells 1 "transparent_ipa" "setup" degree) 1;
      pc_trials_csv "transparent_ipa" (tupc_commit P E rand_g1 rand_g2 ck)
        (fun polynomial com point => tupc_open P E D fuel rand_g1 rand_g2 ck polynomial (snd com) point)
        (fun com point eval proof => tupc_verify P E D fuel rand_g1 rand_g2 ck (fst com) point eval proof) degree 1 num_trials rng.

    (** poly_commit.rs 51-278 *)
    Fixpoint poly_commit_csv_loop (degrees : list nat) (rng0 : R) (num_trials : nat) : report unit :=
      match degrees with
      | [] => quiet (Ok tt)
      | degree :: degrees =>
        show _ <- bench_kzg_csv rng0 degree num_trials;
        show _ <- bench_ipa_csv rng0 degree num_trials;
        show _ <- bench_transparent_csv rng0 degree num_trials;
        poly_commit_csv_loop degrees rng0 num_trials
      end.
    (** poly_commit.rs 22-279 [main]: without arguments or with -h the usage is printed and no CSV.
        The generator is [StdRng::seed_from_u64(0)] each time: [rng0]. *)
    Definition poly_commit_program (rng0 : R) (args : list string) : report unit :=
      show conf <- quiet (pc_bench_args args);
      match conf with
      | None => quiet (Ok tt)
      | Some (num_trials, num_data_points) =>
        show _ <- record ["trial"; "scheme"; "function"; "degree"; "time"];
        poly_commit_csv_loop (map (fun i => 4 ^ (i + 1) - 1) (seq 0 (N.to_nat num_data_points))) rng0 (N.to_nat num_trials)
      end.
  End PolyCommitCsv.

  Section GrothCsv.
    Context {R : Type}.
    Variable P : pairing.
    Notation K := (pK P).
    Variables (E : penv) (D : bytes -> bytes) (fuel : nat).
    Variables (rand_scalar : sampler R K) (rand_g1 : sampler R (pG1 P)) (rand_g2 : sampler R (pG2 P)).
    Variables (HI HO : Type) (rand_hash_input : sampler R HI) (hash : HI -> HO).
    Variables (default_input : HI) (default_output : HO).
    Variable to_fe : HO -> list K.
    Context {R0 : Type}.
    Variables (seed_from_u64 : N -> R0) (rand_u128 : sampler R0 N).
    Variable Q : pairing.
    Variable SS : snark R P (HI * HO).
    Variable SM : snark R P (list HI * list HO).
    Variable SA : snark R Q (list HO * list (g16_proof P) * g16_vk P).
    Variable pack : list HO -> list (pK Q).

    Definition g16_cells (trial num_proofs : nat) (scheme function : string) : list string :=
      [to_string (N.of_nat trial); to_string (N.of_nat num_proofs); scheme; function].

    (** bench.rs 358-398: the row is written before [assert!(result)] *)
    Fixpoint bench_aggregate_csv (num_proofs i n : nat) (srs : srs P) (v : vsrs P) (vk : g16_vk P) (inputs : list (list K))
        (proofs : list (g16_proof P)) : report unit :=
      match n with
      | O => quiet (Ok tt)
      | S n =>
        show aggregate_proof <- quiet (ok_unwrap (g16_aggregate P E D fuel rand_g1 rand_g2 srs proofs));
        show _ <- record_time (g16_cells i num_proofs "ipa" "aggregate") 1;
        show result <- quiet (ok_unwrap (g16_verify P E D fuel rand_g1 rand_g2 v vk inputs aggregate_proof));
        show _ <- record_time (g16_cells i num_proofs "ipa" "verify") 1;
        show _ <- quiet (rassert result);
        bench_aggregate_csv num_proofs (i + 1) n srs v vk inputs proofs
      end.
    (** bench.rs 426-466: likewise *)
    Fixpoint bench_recursive_csv (num_proofs i n : nat) (pk : sn_pk SA) (c : list HO * list (g16_proof P) * g16_vk P)
        (inputs : list (pK Q)) (rng : R) : report R :=
      match n with
      | O => quiet (Ok rng)
      | S n =>
        show (pf, rng) <- quiet (ok_unwrap (sn_prove SA pk c rng));
        show _ <- record_time (g16_cells i num_proofs "olr" "aggregate") 1;
        show result <- quiet (g16_verify_one Q (sn_vk SA pk) inputs pf);
        show _ <- record_time (g16_cells i num_proofs "olr" "verify") 1;
        show _ <- quiet (rassert result);
        bench_recursive_csv num_proofs (i + 1) n pk c inputs rng
      end.

    (** 241-526 *)
    Definition g16_bench_csv (num_trials num_proofs : nat) (bench_recursion all monolithic : bool) (rng : R) : report unit :=
      show _ <- record ["trial"; "num_proofs"; "scheme"; "function"; "time"];
      let (ins, rng) := random_generators rand_hash_input rng num_proofs in
      let outs := map hash ins in
      show (pk, rng) <- quiet (ok_unwrap (sn_setup SS (default_input, default_output) rng));
      show _ <- (if all then record_time (g16_cells 1 num_proofs "single_circuit" "setup") 1 else quiet (Ok tt));
      show (proofs, rng) <- quiet (bench_proofs P HI HO SS pk all (combine ins outs) rng);
      show (proofs, ins, outs) <- quiet (bench_copies P HI HO all num_proofs proofs ins outs);
      show _ <- (if all then record_time (g16_cells 1 num_proofs "single_circuit" "prove") 1 else quiet (Ok tt));
      let vk := sn_vk SS pk in
      show result <- quiet (batch_verify_proof P seed_from_u64 rand_u128 (prepare_verifying_key vk) (map to_fe outs) proofs);
      show result <- quiet (runwrap result);
      show _ <- record_time (g16_cells 1 num_proofs "single_circuit" "verify") 1;
      show _ <- quiet (rassert result);
      show (srs, rng) <- quiet (ok_unwrap (g16_setup P rand_scalar rng num_proofs));
      show _ <- record_time (g16_cells 1 num_proofs "ipa" "setup") 1;
      show v <- quiet (get_verifier_key srs);
      show _ <- bench_aggregate_csv num_proofs 1 num_trials srs v vk (map to_fe outs) proofs;
      show rng <- (if bench_recursion then
                     show (pka, rng) <- quiet (ok_unwrap (sn_setup SA (outs, proofs, vk) rng));
                     show _ <- record_time (g16_cells 1 num_proofs "olr" "setup") 1;
                     bench_recursive_csv num_proofs 1 num_trials pka (outs, proofs, vk) (pack outs) rng
                   else quiet (Ok rng));
      if monolithic then
        show (pkm, rng) <- quiet (ok_unwrap (sn_setup SM (ins, outs) rng));
        show _ <- record_time (g16_cells 1 num_proofs "complete_circuit" "setup") 1;
        show (pf, _) <- quiet (ok_unwrap (sn_prove SM pkm (ins, outs) rng));
        show _ <- record_time (g16_cells 1 num_proofs "complete_circuit" "prove") 1;
        show result <- quiet (g16_verify_one P (sn_vk SM pkm) (flat_map to_fe outs) pf);
        show _ <- record_time (g16_cells 1 num_proofs "complete_circuit" "verify") 1;
        quiet (rassert result)
      else quiet (Ok tt).
    (** 203-526 [main] *)
    Definition g16_bench_program (rng : R) (args : list string) : report unit :=
      show conf <- quiet (g16_bench_args args);
      match conf with
      | None => quiet (Ok tt)
      | Some (num_trials, num_proofs, bench_recursion, all, monolithic) =>
        g16_bench_csv (N.to_nat num_trials) (N.to_nat num_proofs) bench_recursion all monolithic rng
      end.
  End GrothCsv.
End Csv.

(** Words.v continued: the benchmark program benches/benches/poly_commit.rs with word arithmetic in the program itself and
    in [KZG::setup].  For the other calls of the library see C121_poly_commit and C121_transparent. *)
Require Import List Arith Bool NArith ZArith String.
Import ListNotations.
Require Import Verif.Outcome Verif.Algebra Verif.Rust Verif.InnerProducts Verif.Commitments Verif.Poly Verif.Gipa Verif.Tipa
  Verif.PolyCommit Verif.Transparent Verif.Bench Verif.Cli Verif.Report Verif.Words.
Local Open Scope string_scope.
Local Open Scope list_scope.
Local Open Scope report_scope.

(** [4_usize.pow(i as u32)] *)
Definition wpow4 m w v i := word m w (4 ^ N.to_nat (N.of_nat i mod 2 ^ N.of_nat v)).

Section PolyCommitCsv.
  Variables (m : build) (w v : nat).
  Variable clock : nat -> N.
  Context {R : Type}.
  Variable P : pairing.
  Notation K := (pK P).
  Variables (E : penv) (D : bytes -> bytes) (fuel : nat).
  Variables (rand_scalar : sampler R K) (rand_g1 : sampler R (pG1 P)) (rand_g2 : sampler R (pG2 P)).

  (** poly_commit/mod.rs 56-74: [degree + 1] *)
  Definition kzg_setup_w (rng : R) (degree : nat) : res (list (pG1 P) * vsrs P * R) :=
    let (alpha, rng) := rand_scalar rng in
    let (beta, rng) := rand_scalar rng in
    let g := pr_g P in
    let h := pr_h P in
    do n <- wadd m w degree 1;
    do powers <- structured_generators_scalar_power n g alpha;
    Ok (powers, mk_vsrs g h (beta *m g) (alpha *m h), rng).

  (** poly_commit.rs 52-121; 68: [1..num_trials + 1] *)
  Definition bench_kzg_csv_w (rng : R) (degree num_trials : nat) : report R :=
    show (powers, v_srs, rng) <- quiet (ok_unwrap (kzg_setup_w rng degree));
    show _ <- record_time clock (pc_cells 1 "kzg" "setup" degree) 1;
    show stop <- quiet (wadd m w num_trials 1);
    pc_trials_csv clock P rand_scalar "kzg" (kzg_commit powers) (fun polynomial _ point => kzg_open powers polynomial point)
      (fun com point eval proof => kzg_verify v_srs com point eval proof) degree 1 (stop - 1) rng.

  (** poly_commit.rs 51-278; 51: [4_usize.pow((i + 1) as u32) - 1] for the next [i].  The other two schemes come after
      KZG and use the same [1..num_trials + 1]. *)
  Fixpoint poly_commit_csv_loop_w (points : list nat) (rng0 : R) (num_trials : nat) : report unit :=
    match points with
    | [] => quiet (Ok tt)
    | i :: points =>
      show e <- quiet (wadd m w i 1);
      show p <- quiet (wpow4 m w v e);
      show degree <- quiet (wsub m w p 1);
      show _ <- bench_kzg_csv_w rng0 degree num_trials;
      show stop <- quiet (wadd m w num_trials 1);
      show _ <- bench_ipa_csv clock P E D fuel rand_scalar rand_g2 rng0 degree (stop - 1);
      show _ <- bench_transparent_csv clock P E D fuel rand_scalar rand_g1 rand_g2 rng0 degree (stop - 1);
      poly_commit_csv_loop_w points rng0 num_trials
    end.

  (** poly_commit.rs 22-279 *)
  Definition poly_commit_program_w (rng0 : R) (args : list string) : report unit :=
    show conf <- quiet (pc_bench_args args);
    match conf with
    | None => quiet (Ok tt)
    | Some (num_trials, num_data_points) =>
      show _ <- record ["trial"; "scheme"; "function"; "degree"; "time"];
      poly_commit_csv_loop_w (seq 0 (N.to_nat num_data_points)) rng0 (N.to_nat num_trials)
    end.
End PolyCommitCsv.

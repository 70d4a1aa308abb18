(** Model of the program sipp/examples/scaling-ipp.rs with its command line, environment variable and CSV file
    (the computation itself: Bench.v).  The clock is an arbitrary function: the milliseconds of the k-th measurement.
    The seconds in the file are kept as binary64 numbers; their decimal form (crate csv/ryu) is not modelled.
    Creating and writing the file succeeds (54, 101: [unwrap]). *)
Require Import List Arith Bool NArith ZArith String.
Require Import Coq.Floats.SpecFloat.
Import ListNotations.
Require Import Verif.Outcome Verif.Algebra Verif.Rust Verif.InnerProducts Verif.Commitments
  Verif.Poly Verif.Floats Verif.Rng Verif.Sipp Verif.Bench Verif.Cli Verif.Report.
Local Open Scope string_scope.
Local Open Scope list_scope.

Definition f64_add : spec_float -> spec_float -> spec_float := SFadd 53 1024.
Definition f64_div : spec_float -> spec_float -> spec_float := SFdiv 53 1024.
(** 74, 78, 82: [(ms as f64) / 1_000.0] *)
Definition seconds (ms : N) : spec_float := f64_div (f64_of_Z (Z.of_N ms)) (f64_of_Z 1000).

Inductive cell : Type := Text (s : string) | Real (x : spec_float).
(** [csv::Writer::serialize] (99): the field names of [ProfileData] (13-19) before the first record. *)
Definition serialize (record : list cell) (out : list (list cell)) : list (list cell) :=
  match out with
  | [] => [map Text ["size"; "direct"; "prover"; "verifier"]; record]
  | _ => out ++ [record]
  end.

Section Scaling.
  Variable clock : nat -> N.
  Variable checks : bool.
  Variable P : pairing.
  Variables (E : penv) (S : stream) (D : bytes -> bytes).
  Context {R : Type}.
  Variables (shuffle1 : list (pG1 P) -> R -> list (pG1 P) * R) (shuffle2 : list (pG2 P) -> R -> list (pG2 P) * R).

  (** 69-83 with the three sums; [k] measurements were made before *)
  Fixpoint ipp_iters_timed (r_s : list (pK P)) (n k : nat) (direct prover verifier : spec_float) (a_s : list (pG1 P)) (b_s : list (pG2 P)) (rng : R)
    : res (spec_float * spec_float * spec_float * (list (pG1 P) * list (pG2 P) * R)) :=
    match n with
    | O => Ok (direct, prover, verifier, (a_s, b_s, rng))
    | Datatypes.S n =>
      let (a_s, rng) := shuffle1 a_s rng in
      let (b_s, rng) := shuffle2 b_s rng in
      do z <- product_of_pairings_with_coeffs P E a_s b_s r_s;
      let direct := f64_add direct (seconds (clock k)) in
      do proof <- sipp_prove P E S D a_s b_s r_s z;
      let prover := f64_add prover (seconds (clock (k + 1))) in
      do accept <- sipp_verify P E S D a_s b_s r_s z proof;
      do _ <- rassert accept;
      let verifier := f64_add verifier (seconds (clock (k + 2))) in
      ipp_iters_timed r_s n (k + 3) direct prover verifier a_s b_s rng
    end.

  (** 55-100: the rows written so far, and those written when the loop ends, however it ends *)
  Fixpoint ipp_loop_csv (r_s : list (pK P)) (sizes : list nat) (k : nat) (a_s : list (pG1 P)) (b_s : list (pG2 P)) (rng : R)
      (out : list (list cell)) : list (list cell) * res unit :=
    match sizes with
    | [] => (out, Ok tt)
    | i :: sizes =>
      match (
        do m <- shl_one checks 64 i;
        do a_m <- slice_to a_s (2 ^ m);
        do b_m <- slice_to b_s (2 ^ m);
        do x <- ipp_iters_timed r_s (num_iters i) k (S754_zero false) (S754_zero false) (S754_zero false) a_m b_m rng;
        Ok (m, x)) with
      | Ok (m, (direct, prover, verifier, (a_m, b_m, rng))) =>
        let n := f64_of_Z (Z.of_nat (num_iters i)) in
        ipp_loop_csv r_s sizes (k + 3 * num_iters i) (a_m ++ skipn (2 ^ m) a_s) (b_m ++ skipn (2 ^ m) b_s) rng
          (serialize [Text (to_string (2 ^ N.of_nat m)); Real (f64_div direct n); Real (f64_div prover n); Real (f64_div verifier n)] out)
      | Err e => (out, Err e)
      | Panic => (out, Panic)
      | Loop => (out, Loop)
      end
    end.

  (** 34-38: the environment variable RAYON_NUM_THREADS, else the size of the pool *)
  Definition num_threads (env : option string) (pool : N) : res N :=
    match env with None => Ok pool | Some s => runwrap (parse_usize s) end.
  (** 53 *)
  Definition output_file (output_directory : string) (threads : N) : string :=
    (output_directory ++ "/ipp-" ++ to_string threads ++ "-threads.csv")%string.

  (** 21-102 [main]: the file with its rows, if it was created, and how the program ends *)
  Definition scaling_program (rand_scalar : sampler R (pK P)) (rand_g1 : sampler R (pG1 P)) (rand_g2 : sampler R (pG2 P)) (rng : R)
      (env : option string) (pool : N) (args : list string) : option (string * list (list cell)) * res unit :=
    match (
      do (min_num_inputs, max_num_inputs, output_directory) <- scaling_args args;
      do threads <- num_threads env pool;
      do n <- vec_len checks (N.to_nat max_num_inputs);
      Ok (N.to_nat min_num_inputs, N.to_nat max_num_inputs, output_directory, threads, n)) with
    | Ok (lo, hi, output_directory, threads, n) =>
      let (g, rng) := rand_g1 rng in
      let (h, rng) := rand_g2 rng in
      let (r, rng) := rand_scalar rng in
      let (rows, x) := ipp_loop_csv (repeat r n) (seq lo (hi + 1 - lo)) 0 (repeat (g +m g) n) (repeat (h +m h) n) rng [] in
      (Some (output_file output_directory threads, rows), x)
    | Err e => (None, Err e)
    | Panic => (None, Panic)
    | Loop => (None, Loop)
    end.
End Scaling.

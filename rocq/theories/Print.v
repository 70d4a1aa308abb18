(** Model of what the programs print with [println!]: benches/benches/{gipa,tipa,inner_products}.rs, benches/examples/groth16_aggregation.rs
    and sipp/examples/scaling-ipp.rs (the computations: Bench.v, GrothMain.v, Scaling.v).  A line is a list of pieces of text and binary64
    numbers (their decimal form [{:?}] is not modelled).  The clock is an arbitrary function: the milliseconds printed in the line at a
    given position, for the scaling example those of the k-th measurement.  Printing itself succeeds. *)
Require Import List Arith Bool NArith ZArith String Ascii.
Require Import Coq.Floats.SpecFloat.
Import ListNotations.
Require Import Verif.Outcome Verif.Algebra Verif.Rust Verif.InnerProducts Verif.Commitments
  Verif.Poly Verif.Gipa Verif.Tipa Verif.Ssm Verif.Floats Verif.Rng Verif.Sipp Verif.Groth16 Verif.Bench Verif.GrothMain
  Verif.Cli Verif.Report Verif.Scaling.
Local Open Scope string_scope.
Local Open Scope list_scope.

Definition line : Type := list cell.
(** the lines printed before, and those printed when the program ends, however it ends *)
Definition printing (A : Type) : Type := list line -> list line * res A.
Definition silent {A} (x : res A) : printing A := fun out => (out, x).
Definition and_then {A B} (e : printing A) (f : A -> printing B) : printing B := fun out =>
  let (out, x) := e out in
  match x with
  | Ok a => f a out
  | Err e => (out, Err e)
  | Panic => (out, Panic)
  | Loop => (out, Loop)
  end.
Declare Scope print_scope.
Notation "'say' x <- e ; f" := (and_then e (fun x => f)) (at level 200, x pattern, e at level 100, f at level 200) : print_scope.
Local Open Scope print_scope.

Definition println (l : line) : printing unit := fun out => (out ++ [l], Ok tt).
Definition tab : string := String (ascii_of_nat 9) "".
Definition count (n : nat) : string := to_string (N.of_nat n).

Section Print.
  Variable clock : nat -> N.
  (** [println!("<before>{} ms", bench)] *)
  Definition println_ms (before : string) : printing unit := fun out =>
    (out ++ [[Text (before ++ to_string (clock (List.length out)) ++ " ms")%string]], Ok tt).

  (** inner_products.rs 10-25 [bench_inner_product] *)
  Definition bench_inner_product_print {R A B C} (rand_l : sampler R A) (rand_r : sampler R B)
      (ip : list A -> list B -> res C) (rng : R) (len : nat) : printing (C * R) :=
    say x <- silent (bench_inner_product rand_l rand_r ip rng len);
    say _ <- println_ms (tab ++ " time: ");
    silent (Ok x).

  Section Gipa.
    Context {R : Type} {K : field} {MA MB MT KA KB KT : module K} {OA OB OT : carrier K}.
    Variables (LMC : dhc R MA KA OA) (RMC : dhc R MB KB OB) (IPC : dhc R MT KT OT).
    Variables (ip : list MA -> list MB -> res MT) (D : bytes -> bytes) (fuel : nat).
    Variables (rand_l : sampler R MA) (rand_r : sampler R MB).
    (** gipa.rs 39-57: what is computed before anything is printed: keys, commitments and the proof *)
    Definition gipa_proved (rng : R) (len : nat)
      : res (list KA * list KB * KT * com3 OA OB OT * gipa_proof MA MB OA OB OT * R) :=
      let '(l, r, rng) := sample_pairs rand_l rand_r rng len in
      do (ck_l, ck_r, ck_t, rng) <- ok_unwrap (gipa_setup LMC RMC IPC rng len);
      do com_l <- ok_unwrap (dh_commit LMC ck_l l);
      do com_r <- ok_unwrap (dh_commit RMC ck_r r);
      do t <- ok_unwrap (ip l r);
      do com_t <- ok_unwrap (dh_commit IPC [ck_t] [t]);
      do proof <- ok_unwrap (gipa_prove LMC RMC IPC ip D fuel (l, r, t) (ck_l, ck_r, ck_t) (com_l, com_r, com_t));
      Ok (ck_l, ck_r, ck_t, (com_l, com_r, com_t), proof, rng).
    (** gipa.rs 19-65 [bench_gipa] *)
    Definition bench_gipa_print (rng : R) (len : nat) : printing (bool * R) :=
      say (ck_l, ck_r, ck_t, com, proof, rng) <- silent (gipa_proved rng len);
      say _ <- println_ms (tab ++ " proving time: ");
      say b <- silent (ok_unwrap (gipa_verify LMC RMC IPC ip D fuel (ck_l, ck_r, ck_t) com proof));
      say _ <- println_ms (tab ++ " verification time: ");
      silent (Ok (b, rng)).
  End Gipa.

  Section Tipa.
    Context {R : Type} {P : pairing} {MA MB MT KT : module (pK P)} {OA OB OT : carrier (pK P)}.
    Notation K := (pK P).
    Variables (LMC : dhc R MA (pG2 P) OA) (RMC : dhc R MB (pG1 P) OB) (IPC : dhc R MT KT OT).
    Variables (ip : list MA -> list MB -> res MT) (D : bytes -> bytes) (fuel : nat).
    Variables (rand_l : sampler R MA) (rand_r : sampler R MB) (rand_scalar : sampler R K).
    (** tipa.rs 48-65 *)
    Definition tipa_proved (rng : R) (len : nat) : res (vsrs P * KT * com3 OA OB OT * tipa_proof P MA MB OA OB OT * R) :=
      let '(l, r, rng) := sample_pairs rand_l rand_r rng len in
      do (srs, ck_t, rng) <- ok_unwrap (tipa_setup IPC rand_scalar rng len);
      let '(ck_l, ck_r) := get_commitment_keys srs in
      do v_srs <- get_verifier_key srs;
      do com_l <- ok_unwrap (dh_commit LMC ck_l l);
      do com_r <- ok_unwrap (dh_commit RMC ck_r r);
      do t <- ok_unwrap (ip l r);
      do com_t <- ok_unwrap (dh_commit IPC [ck_t] [t]);
      do proof <- ok_unwrap (tipa_prove LMC RMC IPC ip D fuel srs (l, r) (ck_l, ck_r, ck_t));
      Ok (v_srs, ck_t, (com_l, com_r, com_t), proof, rng).
    (** tipa.rs 25-72 [bench_tipa] *)
    Definition bench_tipa_print (rng : R) (len : nat) : printing (bool * R) :=
      say (v_srs, ck_t, com, proof, rng) <- silent (tipa_proved rng len);
      say _ <- println_ms (tab ++ " proving time: ");
      say b <- silent (ok_unwrap (tipa_verify LMC RMC IPC ip D fuel v_srs ck_t com proof));
      say _ <- println_ms (tab ++ " verification time: ");
      silent (Ok (b, rng)).

    (** tipa.rs 97-132 *)
    Definition shift_proved (rng : R) (len : nat) : res (vsrs P * KT * com3 OA OB OT * tipa_proof P MA MB OA OB OT * K * R) :=
      let '(l, r, rng) := sample_pairs rand_l rand_r rng len in
      do (srs, ck_t, rng) <- ok_unwrap (tipa_setup IPC rand_scalar rng len);
      let '(ck_l, ck_r) := get_commitment_keys srs in
      do v_srs <- get_verifier_key srs;
      do com_l <- ok_unwrap (dh_commit LMC ck_l l);
      do com_r <- ok_unwrap (dh_commit RMC ck_r r);
      let (a_scalar, rng) := rand_scalar rng in
      do r_vec <- structured_scalar_power len a_scalar;
      let l_a := zipw (fun a r => r *m a) l r_vec in
      do ck_l_a <- rmapM (fun p : pG2 P * K => do ri <- runwrap (finverse (snd p)); Ok (ri *m fst p))
                     (combine ck_l r_vec);
      do t <- ok_unwrap (ip l_a r);
      do com_t <- ok_unwrap (dh_commit IPC [ck_t] [t]);
      do proof <- ok_unwrap (tipa_prove_with_srs_shift LMC RMC IPC ip D fuel srs (l_a, r) (ck_l_a, ck_r, ck_t) a_scalar);
      Ok (v_srs, ck_t, (com_l, com_r, com_t), proof, a_scalar, rng).
    (** tipa.rs 74-145 [bench_tipa_srs_shift] *)
    Definition bench_shift_print (rng : R) (len : nat) : printing (bool * R) :=
      say (v_srs, ck_t, com, proof, a_scalar, rng) <- silent (shift_proved rng len);
      say _ <- println_ms (tab ++ " proving time: ");
      say b <- silent (ok_unwrap (tipa_verify_with_srs_shift LMC RMC IPC ip D fuel v_srs ck_t com proof a_scalar));
      say _ <- println_ms (tab ++ " verification time: ");
      silent (Ok (b, rng)).
  End Tipa.

  Section Ssm.
    Context {R : Type} {P : pairing} {MA MT KT : module (pK P)} {OA OT : carrier (pK P)}.
    Notation K := (pK P).
    Variables (LMC : dhc R MA (pG2 P) OA) (IPC : dhc R MT KT OT).
    Variables (ip : list MA -> list (fmod K) -> res MT) (D : bytes -> bytes) (fuel : nat) (E : penv).
    Variables (rand_l : sampler R MA) (rand_scalar : sampler R K).
    (** tipa.rs 163-183 *)
    Definition ssm_proved (rng : R) (len : nat) : res (vsrs P * KT * (OA * OT) * K * tssm_proof P MA OA OT * R) :=
      let (l, rng) := random_generators rand_l rng len in
      let (scalar, rng) := rand_scalar rng in
      do r <- structured_scalar_power len scalar;
      do (srs, ck_t, rng) <- ok_unwrap (tssm_setup IPC rand_scalar rng len);
      let '(ck_l, _) := get_commitment_keys srs in
      do v_srs <- get_verifier_key srs;
      do com_l <- ok_unwrap (dh_commit LMC ck_l l);
      do t <- ok_unwrap (ip l r);
      do com_t <- ok_unwrap (dh_commit IPC [ck_t] [t]);
      do proof <- ok_unwrap (tssm_prove LMC IPC ip D fuel srs (l, r) (ck_l, ck_t));
      Ok (v_srs, ck_t, (com_l, com_t), scalar, proof, rng).
    (** tipa.rs 147-196 [bench_tipa_ssm] *)
    Definition bench_ssm_print (rng : R) (len : nat) : printing (bool * R) :=
      say (v_srs, ck_t, com, scalar, proof, rng) <- silent (ssm_proved rng len);
      say _ <- println_ms (tab ++ " proving time: ");
      say b <- silent (ok_unwrap (tssm_verify LMC IPC ip D fuel E v_srs ck_t com scalar proof));
      say _ <- println_ms (tab ++ " verification time: ");
      silent (Ok (b, rng)).
  End Ssm.

  Section Mains.
    Context {R : Type}.
    Variable P : pairing.
    Notation K := (pK P).
    Variables (E : penv) (D : bytes -> bytes) (fuel : nat).
    Variables (rand_scalar : sampler R K) (rand_g1 : sampler R (pG1 P)) (rand_g2 : sampler R (pG2 P)).
    Notation gc1 := (afgho_g1 P E rand_g2).
    Notation gc2 := (afgho_g2 P E rand_g1).
    Notation sc1 := (pedersen (pG1 P) rand_g1).
    Notation it := (identity (R := R) (pGT P)).
    Notation ig := (identity (R := R) (pG1 P)).

    (** gipa.rs 67-98 [main] *)
    Definition gipa_main_print (rng : R) (len : nat) : printing (list bool) :=
      say _ <- println [Text ("Benchmarking GIPA with vector length: " ++ count len)];
      say _ <- println [Text "1) Pairing inner product..."];
      say (b1, rng) <- bench_gipa_print gc1 gc2 it (pairing_ip P E) D fuel rand_g1 rand_g2 rng len;
      say _ <- println [Text "2) Multiexponentiation G1 inner product..."];
      say (b2, rng) <- bench_gipa_print gc1 sc1 ig (multiexp_ip (pG1 P)) D fuel rand_g1 rand_scalar rng len;
      silent (Ok [b1; b2]).

    (** tipa.rs 198-249 [main] *)
    Definition tipa_main_print (rng : R) (len : nat) : printing (list bool) :=
      say _ <- println [Text ("Benchmarking TIPA with vector length: " ++ count len)];
      say _ <- println [Text "1) Pairing inner product..."];
      say (b1, rng) <- bench_tipa_print gc1 gc2 it (pairing_ip P E) D fuel rand_g1 rand_g2 rand_scalar rng len;
      say _ <- println [Text "2) Multiexponentiation G1 inner product..."];
      say (b2, rng) <- bench_tipa_print gc1 sc1 ig (multiexp_ip (pG1 P)) D fuel rand_g1 rand_scalar rand_scalar rng len;
      say _ <- println [Text "3) Pairing inner product with SRS shift..."];
      say (b3, rng) <- bench_shift_print gc1 gc2 it (pairing_ip P E) D fuel rand_g1 rand_g2 rand_scalar rng len;
      say _ <- println [Text "4) Multiexponentiation G1 inner product with structured scalar message..."];
      say (b4, rng) <- bench_ssm_print gc1 ig (multiexp_ip (pG1 P)) D fuel E rand_g1 rand_scalar rng len;
      silent (Ok [b1; b2; b3; b4]).

    (** inner_products.rs 27-46 [main] *)
    Definition inner_products_main_print (rng : R) (len : nat) : printing (pGT P * pG1 P * pG2 P) :=
      say _ <- println [Text ("Benchmarking inner products with vector length: " ++ count len)];
      say _ <- println [Text "1) Pairing inner product..."];
      say (t1, rng) <- bench_inner_product_print rand_g1 rand_g2 (pairing_ip P E) rng len;
      say _ <- println [Text "2) Multiexponentiation G1 inner product..."];
      say (t2, rng) <- bench_inner_product_print rand_g1 rand_scalar (multiexp_ip (pG1 P)) rng len;
      say _ <- println [Text "3) Multiexponentiation G2 inner product..."];
      say (t3, rng) <- bench_inner_product_print rand_g2 rand_scalar (multiexp_ip (pG2 P)) rng len;
      silent (Ok (t1, t2, t3)).

    (** benches/examples/groth16_aggregation.rs 42-110 [main] *)
    Variable TS : snark R P (test_circuit P).
    Definition g16_example_print (num_inputs num_proofs : nat) (rng : R) : printing unit :=
      say (pk, rng) <- silent (ok_unwrap (sn_setup TS (mk_test_circuit (repeat f0 num_inputs) f0 f0) rng));
      say (srs, rng) <- silent (ok_unwrap (g16_setup P rand_scalar rng num_proofs));
      say _ <- println [Text ("Generating " ++ count num_proofs ++ " Groth16 proofs...")];
      say (proofs, statements, _) <- silent (example_proofs P rand_scalar TS pk num_inputs num_proofs rng);
      say _ <- println [Text ("Aggregating " ++ count num_proofs ++ " Groth16 proofs...")];
      say aggregate_proof <- silent (ok_unwrap (g16_aggregate P E D fuel rand_g1 rand_g2 srs proofs));
      say _ <- println [Text "Verifying aggregated proof..."];
      say v <- silent (get_verifier_key srs);
      say result <- silent (ok_unwrap (g16_verify P E D fuel rand_g1 rand_g2 v (sn_vk TS pk) statements aggregate_proof));
      say _ <- silent (rassert result);
      say _ <- println_ms "Proof generation time: ";
      say _ <- println_ms "Proof aggregation time: ";
      println_ms "Proof verification time: ".
  End Mains.

  (** ** sipp/examples/scaling-ipp.rs *)
  Section ScalingPrint.
    Variable checks : bool.
    Variable P : pairing.
    Variables (E : penv) (S : stream) (D : bytes -> bytes).
    Context {R : Type}.
    Variables (shuffle1 : list (pG1 P) -> R -> list (pG1 P) * R) (shuffle2 : list (pG2 P) -> R -> list (pG2 P) * R).

    (** 85-92 *)
    Definition block (threads : N) (m : string) (direct prover verifier : spec_float) : list line :=
      [[Text ("=== Benchmarking SIPP over Bls12-377 with " ++ m ++ " input(s) and " ++ to_string threads ++ " thread(s) ====")];
       [Text "Direct time: "; Real direct; Text " seconds"];
       [Text "Prover time: "; Real prover; Text " seconds"];
       [Text "Verifier time: "; Real verifier; Text " seconds"];
       []]%string.

    (** 55-100: the lines printed and the rows of the file *)
    Fixpoint ipp_loop_print (threads : N) (r_s : list (pK P)) (sizes : list nat) (k : nat) (a_s : list (pG1 P)) (b_s : list (pG2 P)) (rng : R)
        (rows : list (list cell)) (out : list line) : list line * list (list cell) * res unit :=
      match sizes with
      | [] => (out, rows, Ok tt)
      | i :: sizes =>
        match (
          do m <- shl_one checks 64 i;
          do a_m <- slice_to a_s (2 ^ m);
          do b_m <- slice_to b_s (2 ^ m);
          do x <- ipp_iters_timed clock P E S D shuffle1 shuffle2 r_s (num_iters i) k (S754_zero false) (S754_zero false) (S754_zero false) a_m b_m rng;
          Ok (m, x)) with
        | Ok (m, (direct, prover, verifier, (a_m, b_m, rng))) =>
          let n := f64_of_Z (Z.of_nat (num_iters i)) in
          let out := out ++ block threads (to_string (2 ^ N.of_nat m)) (f64_div direct n) (f64_div prover n) (f64_div verifier n) in
          ipp_loop_print threads r_s sizes (k + 3 * num_iters i) (a_m ++ skipn (2 ^ m) a_s) (b_m ++ skipn (2 ^ m) b_s) rng
            (serialize [Text (to_string (2 ^ N.of_nat m)); Real (f64_div direct n); Real (f64_div prover n); Real (f64_div verifier n)] rows) out
        | Err e => (out, rows, Err e)
        | Panic => (out, rows, Panic)
        | Loop => (out, rows, Loop)
        end
      end.

    (** 24: the text begins and ends with a line break *)
    Definition help_lines : list line :=
      [[]; [Text "Help: Invoke this as <program> <log_min_num_inputs> <log_max_num_inputs> <path_to_output_dir>"]; []].

    (** 21-102 [main]: the lines printed, the file with its rows, and how the program ends *)
    Definition scaling_print (rand_scalar : sampler R (pK P)) (rand_g1 : sampler R (pG1 P)) (rand_g2 : sampler R (pG2 P)) (rng : R)
        (env : option string) (pool : N) (args : list string) : list line * option (string * list (list cell)) * res unit :=
      let out := match wants_help args with Ok true => help_lines | _ => [] end in
      match (
        do (min_num_inputs, max_num_inputs, output_directory) <- scaling_args args;
        do threads <- num_threads env pool;
        do n <- vec_len checks (N.to_nat max_num_inputs);
        Ok (N.to_nat min_num_inputs, N.to_nat max_num_inputs, output_directory, threads, n)) with
      | Ok (lo, hi, output_directory, threads, n) =>
        let (g, rng) := rand_g1 rng in
        let (h, rng) := rand_g2 rng in
        let (r, rng) := rand_scalar rng in
        let '(out, rows, x) := ipp_loop_print threads (repeat r n) (seq lo (hi + 1 - lo)) 0 (repeat (g +m g) n) (repeat (h +m h) n) rng [] out in
        (out, Some (output_file output_directory threads, rows), x)
      | Err e => (out, None, Err e)
      | Panic => (out, None, Panic)
      | Loop => (out, None, Loop)
      end.
  End ScalingPrint.
End Print.

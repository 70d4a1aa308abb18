(** Model of the text that benches/benches/poly_commit.rs and benches/benches/groth16_aggregation/bench.rs print on the standard output
    (the rows: Report.v).  [csv::Writer] (crate csv 1) is modelled by its documented behaviour with the default settings: cells
    separated by commas and quoted when necessary, records ended by a line feed, all of the length of the first one; a record without
    any character is written as two quotation marks.  Every record is flushed.  Panic messages go to the standard error. *)
Require Import List Arith Bool NArith String Ascii.
Import ListNotations.
Require Import Verif.Outcome Verif.Algebra Verif.Rust Verif.InnerProducts Verif.Commitments Verif.Poly Verif.Gipa Verif.Tipa
  Verif.PolyCommit Verif.Transparent Verif.Groth16 Verif.Batch Verif.Bench Verif.GrothMain Verif.Cli Verif.Report.
Local Open Scope string_scope.
Local Open Scope list_scope.

Definition text : Type := list ascii.
Definition chars : string -> text := list_ascii_of_string.
Definition line_feed : ascii := ascii_of_nat 10.
Definition carriage_return : ascii := ascii_of_nat 13.
Definition quotation_mark : ascii := ascii_of_nat 34.
Definition comma : ascii := ascii_of_nat 44.

Definition is_special (c : ascii) : bool :=
  Ascii.eqb c comma || Ascii.eqb c quotation_mark || Ascii.eqb c line_feed || Ascii.eqb c carriage_return.
Fixpoint double_quotes (s : text) : text :=
  match s with
  | [] => []
  | c :: s => if Ascii.eqb c quotation_mark then c :: c :: double_quotes s else c :: double_quotes s
  end.
Definition csv_cell (s : text) : text :=
  if existsb is_special s then quotation_mark :: double_quotes s ++ [quotation_mark] else s.
Fixpoint csv_cells (cells : list text) : text :=
  match cells with
  | [] => []
  | [c] => csv_cell c
  | c :: cells => csv_cell c ++ comma :: csv_cells cells
  end.
Definition csv_record (r : list text) : text :=
  match csv_cells r with [] => [quotation_mark; quotation_mark] | s => s end ++ [line_feed].

(** the text written and whether all calls of [write_record] succeed; [len]: the length of the first record *)
Fixpoint csv_write (len : option nat) (rows : list (list text)) : text * bool :=
  match rows with
  | [] => ([], true)
  | r :: rows =>
    let n := match len with Some n => n | None => List.length r end in
    if Nat.eqb (List.length r) n then let (s, b) := csv_write (Some n) rows in (csv_record r ++ s, b) else ([], false)
  end.

(** [write_record(..).unwrap()] *)
Definition csv_program (run : list row * res unit) : text * res unit :=
  let (s, b) := csv_write None (map (map chars) (fst run)) in
  (s, if b then snd run else Panic).

Definition println_text (s : string) : text := chars s ++ [line_feed].

(** poly_commit.rs 30 *)
Definition pc_usage : string := "Usage: ``cargo bench --bench poly_commit -- <num_trials> <num_data_points>``".
(** bench.rs 209 *)
Definition g16_usage : string :=
  "Usage: ``cargo bench --bench groth16_aggregation -- <num_trials> <num_proofs> <bench_rec=(true/false)> <generate_all_proofs=(true/false)> <monolithic_proof=(true/false)>``".

Section Stdout.
  Variable clock : nat -> N.
  Context {R : Type}.
  Variable P : pairing.
  Notation K := (pK P).
  Variables (E : penv) (D : bytes -> bytes) (fuel : nat).
  Variables (rand_scalar : sampler R K) (rand_g1 : sampler R (pG1 P)) (rand_g2 : sampler R (pG2 P)).

  (** poly_commit.rs 22-279 *)
  Definition poly_commit_stdout (rng0 : R) (args : list string) : text * res unit :=
    match pc_bench_args args with
    | Ok None => (println_text pc_usage, Ok tt)
    | _ => csv_program (poly_commit_program clock P E D fuel rand_scalar rand_g1 rand_g2 rng0 args [])
    end.

  Variables (HI HO : Type) (rand_hash_input : sampler R HI) (hash : HI -> HO).
  Variables (default_input : HI) (default_output : HO).
  Variable to_fe : HO -> list K.
  Context {R0 : Type}.
  Variables (seed_from_u64 : N -> R0) (rand_u128 : sampler R0 N).
  Variable Q : pairing.
  Variable SS : snark R P (HI * HO).
  Variable SM : snark R P (list HI * list HO).
  Variable SA : snark R Q (list HO * list (g16_proof P) * g16_vk P).
  Variable pack : list HO -> list (pK Q).

  (** bench.rs 203-525 *)
  Definition g16_bench_stdout (rng : R) (args : list string) : text * res unit :=
    match g16_bench_args args with
    | Ok None => (println_text g16_usage, Ok tt)
    | _ => csv_program (g16_bench_program clock P E D fuel rand_scalar rand_g1 rand_g2 HI HO rand_hash_input hash default_input
             default_output to_fe seed_from_u64 rand_u128 Q SS SM SA pack rng args [])
    end.
End Stdout.

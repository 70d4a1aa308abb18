(** Model of the command lines of benches/benches/groth16_aggregation/bench.rs,
    benches/benches/poly_commit.rs and sipp/examples/scaling-ipp.rs.
    A program gets its arguments (the first one is its own name) as a list of strings. *)
Require Import List Arith Bool NArith String Ascii.
Import ListNotations.
Require Import Verif.Outcome Verif.Rust.
Local Open Scope string_scope.

(** [str::parse::<usize>] of the standard library, 64 bits: an optional '+', at least one digit,
    no overflow. *)
Definition digit (c : ascii) : option N :=
  let n := N_of_ascii c in
  if (48 <=? n)%N && (n <=? 57)%N then Some (n - 48)%N else None.
Fixpoint parse_digits (acc : N) (s : string) : option N :=
  match s with
  | EmptyString => Some acc
  | String c s =>
    match digit c with
    | Some d => let acc := (10 * acc + d)%N in if (acc <? 2 ^ 64)%N then parse_digits acc s else None
    | None => None
    end
  end.
Definition parse_usize (s : string) : option N :=
  let s := match s with String c t => if Ascii.eqb c "+" then t else s | EmptyString => s end in
  match s with EmptyString => None | _ => parse_digits 0 s end.

(** [args.get(i).unwrap_or(&"true")], then the match on "true" / "false" with a panic otherwise
    (bench.rs 212-226). *)
Definition flag_arg (args : list string) (i : nat) : res bool :=
  let s := match nth_error args i with Some s => s | None => "true" end in
  if String.eqb s "true" then Ok true else if String.eqb s "false" then Ok false else Panic.

Definition int_arg (args : list string) (i : nat) : res N :=
  do s <- index args i; runwrap (parse_usize s).

(** bench.rs 205-207, poly_commit.rs 23-25: remove a trailing "--bench" ([last().unwrap()]). *)
Definition drop_bench (args : list string) : res (list string) :=
  do l <- runwrap (last_opt args);
  Ok (if String.eqb l "--bench" then removelast args else args).

Definition wants_help (args : list string) : res bool :=
  if (List.length args <? 2)%nat then Ok true else
  do a <- index args 1; Ok (String.eqb a "-h" || String.eqb a "--help").

(** bench.rs 204-239; [None]: the usage is printed and the program returns.
    222: reads argument 4 again, not 5. *)
Definition g16_bench_args (args : list string) : res (option (N * N * bool * bool * bool)) :=
  do args <- drop_bench args;
  do help <- wants_help args;
  if help then Ok None else
  do bench_recursion <- flag_arg args 3;
  do generate_all_proofs <- flag_arg args 4;
  do monolithic_proof <- flag_arg args 4;
  do num_trials <- int_arg args 1;
  do num_proofs <- int_arg args 2;
  Ok (Some (num_trials, num_proofs, bench_recursion, generate_all_proofs, monolithic_proof)).

(** poly_commit.rs 22-41 *)
Definition pc_bench_args (args : list string) : res (option (N * N)) :=
  do args <- drop_bench args;
  do help <- wants_help args;
  if help then Ok None else
  do num_trials <- int_arg args 1;
  do num_data_points <- int_arg args 2;
  Ok (Some (num_trials, num_data_points)).

(** scaling-ipp.rs 22-32: after the help text the program goes on. *)
Definition scaling_args (args : list string) : res (N * N * string) :=
  do _ <- wants_help args;
  do min_num_inputs <- int_arg args 1;
  do max_num_inputs <- int_arg args 2;
  do output_directory <- index args 3;
  Ok (min_num_inputs, max_num_inputs, output_directory).

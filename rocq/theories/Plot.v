(** Model of sipp/plot/ipp-scaling.gnuplot, the script that draws the files of the scaling example (Scaling.v): which files and columns
    it reads, what it leaves out, and which points it shows.  Line styles, labels, fonts and titles of axes are not modelled.
    Assumed of gnuplot: [column('name')] is the column with that name in the first line (no point if there is none); a point is left out if
    a coordinate is not a finite number, or is not positive on a logarithmic axis; a [plot] without any point is an error and ends the
    script; a missing file has no points.  Numbers are read back as written. *)
Require Import List Arith Bool NArith ZArith String.
Require Import Coq.Floats.SpecFloat.
Import ListNotations.
Require Import Verif.Floats Verif.Cli Verif.Scaling.
Local Open Scope string_scope.
Local Open Scope list_scope.

(** ** The script *)
Inductive y_expr : Type := Column (c : string) | Quotient (c d : string).
(** file; lines deleted by [sed 'a,bd'] (numbered from 1), if any; vertical coordinate; title in the key.  The horizontal coordinate is
    [column('size')] everywhere. *)
Record series : Type := mk_series { sr_file : string; sr_delete : option (nat * nat); sr_y : y_expr; sr_title : string }.
Inductive command : Type :=
| LogX (on : bool)             (* [set logscale x 2], [unset logscale x] *)
| LogY (on : bool)             (* [set logscale y 10], [unset logscale y] *)
| Ticks (at_ : list N)         (* [set xtics (..)] *)
| Plot (output : string) (l : list series).   (* [set output ".."] ... [plot ..] *)

(** 1-4 *)
Definition ipp_1_csv : string := "data/ipp-1-threads.csv".
Definition ipp_2_csv : string := "data/ipp-2-threads.csv".
Definition ipp_4_csv : string := "data/ipp-4-threads.csv".
Definition ipp_8_csv : string := "data/ipp-8-threads.csv".
Definition across (y : y_expr) : list series :=
  [mk_series ipp_1_csv None y "1 thread"; mk_series ipp_2_csv None y "2 threads";
   mk_series ipp_4_csv None y "4 threads"; mk_series ipp_8_csv None y "8 threads"].
Definition one_thread (delete : option (nat * nat)) : list series :=
  [mk_series ipp_1_csv delete (Column "direct") "Direct"; mk_series ipp_1_csv delete (Column "prover") "Prover";
   mk_series ipp_1_csv delete (Column "verifier") "Verifier"].

(** 43-127 *)
Definition script : list command :=
  [LogX true; LogY true;                                                                        (* 43, 44 *)
   Plot "plots/ipp-1-thread.pdf" (one_thread None);                                             (* 52-59 *)
   Plot "plots/ipp-direct-across-threads.pdf" (across (Column "direct"));                       (* 64-72 *)
   Plot "plots/ipp-prover-across-threads.pdf" (across (Column "prover"));                       (* 77-85 *)
   Plot "plots/ipp-verifier-across-threads.pdf" (across (Column "verifier"));                   (* 90-98 *)
   LogY false;                                                                                  (* 103 *)
   Plot "plots/ipp-ratio.pdf" (across (Quotient "direct" "verifier"));                          (* 105-113 *)
   LogX false; Ticks [2; 2 ^ 14; 2 ^ 15; 2 ^ 16; 2 ^ 17]%N;                                      (* 122, 123 *)
   Plot "plots/ipp-1-thread-linear.pdf" (one_thread (Some (3, 14)))].                           (* 118-127 *)

(** ** What gnuplot does with it *)
Fixpoint position (name : string) (header : list cell) : option nat :=
  match header with
  | [] => None
  | Text s :: header => if String.eqb s name then Some 0 else option_map S (position name header)
  | Real _ :: header => option_map S (position name header)
  end.
Definition number (c : cell) : option spec_float :=
  match c with Real x => Some x | Text s => option_map (fun n => f64_of_Z (Z.of_N n)) (parse_usize s) end.
Definition column (header row : list cell) (name : string) : option spec_float :=
  match position name header with
  | Some i => match nth_error row i with Some c => number c | None => None end
  | None => None
  end.
(** division by zero is undefined *)
Definition y_value (header row : list cell) (y : y_expr) : option spec_float :=
  match y with
  | Column c => column header row c
  | Quotient c d =>
    match column header row c, column header row d with
    | Some u, Some v => match v with S754_zero _ => None | _ => Some (f64_div u v) end
    | _, _ => None
    end
  end.
Definition shown (log : bool) (x : spec_float) : bool :=
  match x with
  | S754_finite false _ _ => true
  | S754_finite true _ _ | S754_zero _ => negb log
  | S754_infinity _ | S754_nan => false
  end.
Definition sed_delete (d : option (nat * nat)) {A} (lines : list A) : list A :=
  match d with None => lines | Some (a, b) => firstn (a - 1) lines ++ skipn b lines end.

Definition point : Type := spec_float * spec_float.
Definition row_points (logx logy : bool) (header : list cell) (y : y_expr) (row : list cell) : list point :=
  match column header row "size", y_value header row y with
  | Some u, Some v => if shown logx u && shown logy v then [(u, v)] else []
  | _, _ => []
  end.
Definition points (logx logy : bool) (files : string -> list (list cell)) (s : series) : list point :=
  match sed_delete (sr_delete s) (files (sr_file s)) with
  | [] => []
  | header :: rows => flat_map (row_points logx logy header (sr_y s)) rows
  end.

(** the files drawn with the points of their series, the ticks, and whether the script came to its end *)
Record drawing : Type := mk_drawing { dr_file : string; dr_ticks : option (list N); dr_lines : list (list point) }.
Fixpoint run_plots (logx logy : bool) (ticks : option (list N)) (files : string -> list (list cell)) (cs : list command) : list drawing * bool :=
  match cs with
  | [] => ([], true)
  | LogX on :: cs => run_plots on logy ticks files cs
  | LogY on :: cs => run_plots logx on ticks files cs
  | Ticks l :: cs => run_plots logx logy (Some l) files cs
  | Plot output l :: cs =>
    let lines := map (points logx logy files) l in
    match List.concat lines with
    | [] => ([], false)
    | _ => let (rest, ended) := run_plots logx logy ticks files cs in (mk_drawing output ticks lines :: rest, ended)
    end
  end.
Definition gnuplot (files : string -> list (list cell)) : list drawing * bool := run_plots false false None files script.

(** Model of the [Display] texts of the error types.  Both types return [None] as their source. *)
Require Import List NArith String.
Require Import Verif.Outcome Verif.Report.
Local Open Scope string_scope.

(** inner_products/src/lib.rs 29-38 and ip_proofs/src/lib.rs 33-43 *)
Definition display (e : error) : string :=
  match e with
  | IPMessageLengthInvalid l r => "left length, right length: " ++ to_string (N.of_nat l) ++ ", " ++ to_string (N.of_nat r)
  | ArgMessageLengthInvalid l r => "left length, right length: " ++ to_string (N.of_nat l) ++ ", " ++ to_string (N.of_nat r)
  | ArgInnerProductInvalid => "inner product not sound"
  end.

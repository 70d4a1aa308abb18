(** IEEE-754 operations used by the modelled code, with the purely computational specification of
    the Coq standard library (Coq.Floats.SpecFloat). *)
Require Import ZArith Lia.
Require Import Coq.Floats.SpecFloat.
Local Open Scope Z_scope.

(** [n as f64] (round to nearest even) *)
Definition f64_of_Z (n : Z) : spec_float := binary_normalize 53 1024 n 0 false.
(** [f64::sqrt] *)
Definition f64_sqrt (x : spec_float) : spec_float := SFsqrt 53 1024 x.
(** [x.ceil() as usize]: [ceil] is exact, the cast saturates. *)
Definition f64_ceil_as_usize (x : spec_float) : Z :=
  match x with
  | S754_zero _ => 0
  | S754_infinity false => 2 ^ 64 - 1
  | S754_infinity true => 0
  | S754_nan => 0
  | S754_finite true _ _ => 0
  | S754_finite false m e =>
    let v := if 0 <=? e then Zpos m * 2 ^ e
             else (Zpos m + 2 ^ (- e) - 1) / 2 ^ (- e) in
    Z.min v (2 ^ 64 - 1)
  end.

(** [n as f32] *)
Definition f32_of_Z (n : Z) : spec_float := binary_normalize 24 128 n 0 false.
(** [f32::log2] on an exact power of two 2^k (the only arguments on which the code calls it):
    assumed to return the exact result [k as f32]. *)
Definition f32_log2_pow2 (k : Z) : spec_float := f32_of_Z k.
(** [==] on f32 *)
Definition f32_eqb (a b : spec_float) : bool := SFeqb a b.

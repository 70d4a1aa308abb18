(** Model of inner_products/src/lib.rs. *)
Require Import List Arith Bool.
Import ListNotations.
Require Import Verif.Outcome Verif.Algebra Verif.Rust.

(** lib.rs 77-116 [cfg_multi_pairing].  [normalize_batch] and the conversion to prepared points
    (80-88) are the identity on group elements.  103-106: [chunks] of both sides.  112:
    [multi_miller_loop] uses [zip_eq], which panics on chunks of different lengths.  110-113: zip of
    the chunk iterators and product (in the order chosen by the schedule). *)
Definition chunk_size (E : penv) (n : nat) : nat :=
  if threads E <=? n then n / threads E else 1.

Definition mml_chunk (P : pairing) (c : list (pG1 P) * list (pG2 P)) : res (tf P) :=
  if length (fst c) =? length (snd c) then Ok (mml P (fst c) (snd c)) else Panic.

Definition cfg_multi_pairing (P : pairing) (E : penv) (left : list (pG1 P)) (right : list (pG2 P))
  : res (option (pGT P)) :=
  let size := chunk_size E (length left) in
  do lc <- chunks size left;
  do rc <- chunks size right;
  do mls <- rmapM (mml_chunk P) (combine lc rc);
  Ok (fexp P (par_reduce (tfmul P) (tf1 P) (shape E (length mls)) mls)).

(** lib.rs 61-73 *)
Definition pairing_ip (P : pairing) (E : penv) (left : list (pG1 P)) (right : list (pG2 P))
  : res (pGT P) :=
  if negb (length left =? length right)
  then Err (IPMessageLengthInvalid (length left) (length right))
  else do o <- cfg_multi_pairing P E left right; runwrap o.

(** ark_ec [VariableBaseMSM::msm] (ark-ec 0.4): [Err] when the lengths differ, otherwise the sum of
    the scalar multiples. Modelled by its functional result. *)
Definition msm {K} {M : module K} (bases : list M) (scalars : list K) : option M :=
  if length bases =? length scalars
  then Some (fold_right madd m0 (zipw (fun b s => s *m b) bases scalars))
  else None.

(** lib.rs 128-141 *)
Definition multiexp_ip {K} (M : module K) (left : list M) (right : list K) : res M :=
  if negb (length left =? length right)
  then Err (IPMessageLengthInvalid (length left) (length right))
  else runwrap (msm left right).

(** lib.rs 154-165; the parallel [sum] is a reduction with the schedule's shape. *)
Definition scalar_ip {K : field} (E : penv) (left right : list K) : res K :=
  if negb (length left =? length right)
  then Err (IPMessageLengthInvalid (length left) (length right))
  else let prods := zipw fmul left right in
       Ok (par_reduce fadd f0 (shape E (length prods)) prods).

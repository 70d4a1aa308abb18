(** Outcomes of the modelled Rust functions. *)
Require Import List.
Import ListNotations.

(** Error values that the modelled code boxes into [Error].
    inner_products/src/lib.rs 18-21 ([InnerProductError]) and
    ip_proofs/src/lib.rs 21-25 ([InnerProductArgumentError]).
    Serialization errors ([serialize_uncompressed(..)?] into a [Vec]) never happen and are
    not modelled. *)
Inductive error : Type :=
| IPMessageLengthInvalid (l r : nat)   (* InnerProductError::MessageLengthInvalid *)
| ArgMessageLengthInvalid (l r : nat)  (* InnerProductArgumentError::MessageLengthInvalid *)
| ArgInnerProductInvalid.              (* InnerProductArgumentError::InnerProductInvalid *)

(** What a call does: return [Ok]/[Err], panic ([unwrap], [assert!], slice index, division by
    zero), or still be running when the fuel of a [loop] is used up. *)
Inductive res (A : Type) : Type :=
| Ok (a : A)
| Err (e : error)
| Panic
| Loop.
Arguments Ok {A} a.
Arguments Err {A} e.
Arguments Panic {A}.
Arguments Loop {A}.

(** Rust [?] / sequencing. *)
Definition rbind {A B} (x : res A) (f : A -> res B) : res B :=
  match x with Ok a => f a | Err e => Err e | Panic => Panic | Loop => Loop end.

Notation "'do' x <- e ; f" := (rbind e (fun x => f))
  (at level 200, x pattern, e at level 100, f at level 200, right associativity).

(** Rust [assert!]. *)
Definition rassert (b : bool) : res unit := if b then Ok tt else Panic.

(** Rust [Option::unwrap]. *)
Definition runwrap {A} (o : option A) : res A := match o with Some a => Ok a | None => Panic end.

(** Rust [a? && b? ...] where each operand is a [Result<bool>]: the right operand is evaluated
    only when the left one is [Ok true]. *)
Definition rand_then (a : res bool) (b : res bool) : res bool :=
  do x <- a; if x then b else Ok false.

(** [iter().map(f).collect::<Result<Vec<_>,_>>()] *)
Fixpoint rmapM {A B} (f : A -> res B) (l : list A) : res (list B) :=
  match l with
  | [] => Ok []
  | x :: t => do y <- f x; do ys <- rmapM f t; Ok (y :: ys)
  end.

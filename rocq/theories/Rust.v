(** Rust standard library / rayon / itertools operations used by the modelled code, on lists.
    None of this is code of /repo; each definition says which library operation it stands for. *)
Require Import List Arith NArith Lia Bool.
Import ListNotations.
Require Import Verif.Outcome Verif.Algebra.

(** usize::count_ones *)
Fixpoint pos_ones (p : positive) : nat :=
  match p with xH => 1 | xO p => pos_ones p | xI p => S (pos_ones p) end.
Definition count_ones (n : nat) : nat :=
  match N.of_nat n with N0 => 0 | Npos p => pos_ones p end.
(** usize::is_power_of_two *)
Definition is_power_of_two (n : nat) : bool := count_ones n =? 1.

(** usize::next_power_of_two: smallest power of two that is >= n (1 for n = 0). *)
Fixpoint next_pow2_from (fuel p n : nat) : nat :=
  match fuel with
  | O => p
  | S fuel => if n <=? p then p else next_pow2_from fuel (2 * p) n
  end.
Definition next_power_of_two (n : nat) : nat := next_pow2_from n 1 n.

(** Indexing [v[i]] and slicing [&v[..n]], [&v[n..]]: panic when out of bounds. *)
Definition index {A} (l : list A) (i : nat) : res A := runwrap (nth_error l i).
Definition slice_to {A} (l : list A) (n : nat) : res (list A) :=
  if n <=? length l then Ok (firstn n l) else Panic.
Definition slice_from {A} (l : list A) (n : nat) : res (list A) :=
  if n <=? length l then Ok (skipn n l) else Panic.

(** [a.iter().zip(b).map(f).collect()]: stops at the shorter one. *)
Fixpoint zipw {A B C} (f : A -> B -> C) (l : list A) (r : list B) : list C :=
  match l, r with
  | x :: l, y :: r => f x y :: zipw f l r
  | _, _ => []
  end.

(** [Vec::resize] *)
Definition resize {A} (n : nat) (d : A) (l : list A) : list A :=
  firstn n l ++ repeat d (n - length l).

(** [slice::chunks] (panics for chunk size 0); the last chunk may be shorter. *)
Fixpoint chunks_fuel {A} (fuel size : nat) (l : list A) : list (list A) :=
  match fuel with
  | O => []
  | S fuel => match l with [] => [] | _ => firstn size l :: chunks_fuel fuel size (skipn size l) end
  end.
Definition chunks {A} (size : nat) (l : list A) : res (list (list A)) :=
  if size =? 0 then Panic else Ok (chunks_fuel (length l) size l).

(** [iter().step_by(2)] *)
Fixpoint step_by2 {A} (l : list A) : list A :=
  match l with
  | [] => []
  | [x] => [x]
  | x :: _ :: t => x :: step_by2 t
  end.

(** itertools [interleave]: alternates, continues with the longer one. *)
Fixpoint interleave {A} (l r : list A) : list A :=
  match l with
  | [] => r
  | x :: l' => x :: (match r with [] => l' | y :: r' => y :: interleave l' r' end)
  end.

(** [iter.chain(repeat d).take(n)] *)
Definition chain_cycle_take {A} (l : list A) (d : A) (n : nat) : list A :=
  firstn n l ++ repeat d (n - length l).

(** [slice::last] *)
Fixpoint last_opt {A} (l : list A) : option A :=
  match l with [] => None | [x] => Some x | _ :: t => last_opt t end.

(** usize::to_be_bytes on a 64-bit target (the counter is taken modulo 2^64). *)
Fixpoint be_bytes (k : nat) (n : N) : bytes :=
  match k with O => [] | S k => be_bytes k (n / 256)%N ++ [(n mod 256)%N] end.
Definition usize_be (n : nat) : bytes := be_bytes 8 (N.of_nat n).
(** u64 little-endian length prefix written by CanonicalSerialize for slices and Vec. *)
Definition u64_le (n : nat) : bytes := rev (be_bytes 8 (N.of_nat n)).
(** u128::from_be_bytes *)
Definition from_be_bytes (b : bytes) : N := fold_left (fun acc x => (acc * 256 + x)%N) b 0%N.

(** CanonicalSerialize for slices / Vec: length prefix, then the elements. *)
Definition ser_list {A} (f : A -> bytes) (l : list A) : bytes :=
  u64_le (length l) ++ flat_map f l.

(** ** rayon reductions.  A parallel [product]/[sum]/[reduce] splits its input at arbitrary places,
    folds each piece sequentially starting from the identity, and combines the pieces in order.
    [rtree] is the (schedule dependent) shape of the splits. *)
Inductive rtree : Type := RLeaf | RNode (k : nat) (l r : rtree).

Fixpoint par_reduce {A} (op : A -> A -> A) (e : A) (t : rtree) (l : list A) : A :=
  match t with
  | RLeaf => fold_left op l e
  | RNode k a b => op (par_reduce op e a (firstn k l)) (par_reduce op e b (skipn k l))
  end.

(** The parallel environment: number of threads of the pool and, for each parallel reduction over
    n items, the shape of the reduction. The sequential build is [threads = 1], all leaves. *)
Record penv : Type := { threads : nat; shape : nat -> rtree }.
Definition seq_env : penv := {| threads := 1; shape := fun _ => RLeaf |}.

(** Model of sipp/src/rng.rs. *)
Require Import List Arith Bool NArith.
Import ListNotations.
Require Import Verif.Outcome Verif.Algebra Verif.Rust.

(** rand_chacha::ChaChaRng (dependency): an arbitrary deterministic generator with a seed. *)
Record stream : Type := {
  st_state : Type;
  st_from_seed : bytes -> st_state;
  st_next_u32 : st_state -> N * st_state;
  st_next_u64 : st_state -> N * st_state;
  st_fill_bytes : nat -> st_state -> bytes * st_state
}.

Section Rng.
  Variable S : stream.
  Variable D : bytes -> bytes.

  (** rng.rs 12-20 [FiatShamirRng] *)
  Record fsrng : Type := mk_fsrng { fs_r : st_state S; fs_seed : bytes }.

  (** rng.rs 54-62 [from_seed] *)
  Definition fs_from_seed (seed : bytes) : fsrng :=
    let digested_seed := D seed in
    mk_fsrng (st_from_seed S digested_seed) digested_seed.

  (** rng.rs 67-72 [absorb] *)
  Definition fs_absorb (rng : fsrng) (seed : bytes) : fsrng :=
    let seed' := D (seed ++ fs_seed rng) in
    mk_fsrng (st_from_seed S seed') seed'.

  (** rng.rs 27-44: the [RngCore] methods delegate to the ChaCha generator. *)
  Definition fs_next_u32 (rng : fsrng) : N * fsrng :=
    let (x, r) := st_next_u32 S (fs_r rng) in (x, mk_fsrng r (fs_seed rng)).
  Definition fs_next_u64 (rng : fsrng) : N * fsrng :=
    let (x, r) := st_next_u64 S (fs_r rng) in (x, mk_fsrng r (fs_seed rng)).
  Definition fs_fill_bytes (n : nat) (rng : fsrng) : bytes * fsrng :=
    let (x, r) := st_fill_bytes S n (fs_r rng) in (x, mk_fsrng r (fs_seed rng)).

  (** [u128::rand] (rand 0.8, Standard distribution for u128): two u64, the first one low. *)
  Definition fs_u128 (rng : fsrng) : N * fsrng :=
    let (x, rng) := fs_next_u64 rng in
    let (y, rng) := fs_next_u64 rng in
    (N.lor (N.shiftl y 64) x, rng).
End Rng.
Arguments mk_fsrng {S}.
Arguments fs_r {S}.
Arguments fs_seed {S}.
Arguments fs_next_u32 {S}.
Arguments fs_next_u64 {S}.
Arguments fs_fill_bytes {S}.
Arguments fs_u128 {S}.
Arguments fs_absorb {S}.

(** Model of the circuits of benches/examples/groth16_aggregation.rs ([TestCircuit]) and of
    benches/benches/groth16_aggregation/bench.rs ([SingleBlake2SCircuit], [ManyBlake2SCircuit],
    [AggregateBlake2SCircuitVerificationCircuit] and the packing of their public inputs).

    Dependencies.  ark-relations 0.4: a constraint system is the list of values of the instance variables (without the
    constant one), of the witness variables, and the list of constraints.  [TestCircuit] is modelled down to its
    constraints.  The other circuits are modelled by what their gadgets (ark-r1cs-std, ark-crypto-primitives,
    ark-groth16 0.4) compute from given values of the instance and witness variables: the Blake2s gadget computes the
    function [blake], the verifier gadget the pairing check, [AllocatedFp::to_bits_le] the bits of the only
    representative below the modulus. *)
Require Import List Arith Bool NArith.
Import ListNotations.
Require Import Verif.Outcome Verif.Algebra Verif.Rust Verif.Commitments Verif.Groth16 Verif.Batch Verif.GrothMain.

(** ** Constraint systems (ark-relations) *)
Inductive var : Type := VOne | VInst (i : nat) | VWit (i : nat).
Section R1cs.
  Variable K : field.
  (** [LinearCombination] *)
  Definition lincomb : Type := list (K * var).
  Record cs : Type := mk_cs {
    cs_instance : list K; cs_witness : list K; cs_constraints : list (lincomb * lincomb * lincomb) }.
  Definition cs_empty : cs := mk_cs [] [] [].
  (** [new_input_variable], [new_witness_variable], [enforce_constraint] *)
  Definition new_input (s : cs) (v : K) : var * cs :=
    (VInst (length (cs_instance s)), mk_cs (cs_instance s ++ [v]) (cs_witness s) (cs_constraints s)).
  Definition new_witness (s : cs) (v : K) : var * cs :=
    (VWit (length (cs_witness s)), mk_cs (cs_instance s) (cs_witness s ++ [v]) (cs_constraints s)).
  Definition enforce (s : cs) (a b c : lincomb) : cs :=
    mk_cs (cs_instance s) (cs_witness s) (cs_constraints s ++ [(a, b, c)]).
  (** [Vec::<FpVar>::new_input]: one variable per element, in order *)
  Fixpoint new_inputs (s : cs) (vs : list K) : list var * cs :=
    match vs with
    | [] => ([], s)
    | v :: vs => let (x, s) := new_input s v in let (xs, s) := new_inputs s vs in (x :: xs, s)
    end.
End R1cs.
Arguments mk_cs {K}.
Arguments cs_instance {K}.
Arguments cs_witness {K}.
Arguments cs_constraints {K}.
Arguments cs_empty {K}.
Arguments new_input {K}.
Arguments new_witness {K}.
Arguments enforce {K}.
Arguments new_inputs {K}.

(** benches/examples/groth16_aggregation.rs 24-40 [TestCircuit::generate_constraints].  [FpVar::add_assign] makes a
    linear combination; [enforce_equal] is the constraint (sum - computed_sum) * 1 = 0. *)
Definition test_synth {P} (c : test_circuit P) : cs (pK P) :=
  let (input_variables, s) := new_inputs cs_empty (tc_inputs c) in
  let (sum, s) := new_input s (tc_sum c) in
  let (witness, s) := new_witness s (tc_witness c) in
  let computed_sum := fold_left (fun acc x => acc ++ [(f1, x)]) input_variables [(f1, witness)] in
  enforce s ((f1, sum) :: map (fun t => (fopp (fst t), snd t)) computed_sum) [(f1, VOne)] [].

(** ** Prime fields: [MODULUS], [into_bigint] and the number of bytes of [BigInt] (8 * NUM_LIMBS). *)
Record prime_repr (K : field) : Type := mk_prime_repr {
  pr_modulus : N; into_bigint : K -> N; pr_bytes : nat }.
Arguments mk_prime_repr {K}.
Arguments pr_modulus {K}.
Arguments into_bigint {K}.
Arguments pr_bytes {K}.

(** Little-endian bytes of a number (the lowest [k]) and the number with given bytes *)
Fixpoint le_bytes (k : nat) (n : N) : bytes :=
  match k with O => [] | S k => (n mod 256)%N :: le_bytes k (n / 256)%N end.
Definition from_le_bytes (b : bytes) : N := fold_right (fun x acc => (x + 256 * acc)%N) 0%N b.

Section Encoding.
  Context {K : field}.
  Variable F : prime_repr K.
  (** [MODULUS_BIT_SIZE], the bytes that fit below it, and the bytes of an element *)
  Definition modulus_bits : nat := N.to_nat (N.size (pr_modulus F)).
  Definition fit_bytes : nat := (modulus_bits - 1) / 8.
  Definition element_bytes : nat := (modulus_bits + 7) / 8.

  (** ark-ff [ToConstraintField for [u8]] (and [[u8; 32]]): chunks of [fit_bytes] bytes, little endian.  The padding
      with zeros and the failure of the deserialization, which does not occur below the modulus, are left out. *)
  Definition to_field_elements (b : bytes) : res (list K) :=
    do cs <- chunks fit_bytes b; Ok (map (fun c => f_ofN (from_le_bytes c)) cs).

  (** ark-r1cs-std [UInt8::new_input_vec]: allocates [to_field_elements(values)] as inputs ... *)
  Definition input_vec_values (values : bytes) : res (list K) := to_field_elements values.
  (** ... and for given values of these inputs the bytes are the lowest [8 * fit_bytes] bits of each, the first
      [8 * values.len()] of all of them. *)
  Definition input_vec_bytes (len : nat) (fes : list K) : res bytes :=
    slice_to (flat_map (fun fe => le_bytes fit_bytes (into_bigint F fe)) fes) len.
  (** the number of inputs allocated for [len] bytes *)
  Definition input_vec_len (len : nat) : nat := length (chunks_fuel len fit_bytes (repeat 0%N len)).
End Encoding.

Section Blake.
  Context {K : field}.
  Variable F : prime_repr K.
  (** [Blake2s::evaluate] with the seed [0; 32], and its gadget *)
  Variable blake : bytes -> bytes.

  Definition bytes_eqb (a b : bytes) : bool := if list_eq_dec N.eq_dec a b then true else false.

  (** bench.rs 36-50, 58-75 [generate_constraints] of [ManyBlake2SCircuit]: the values of the inputs in order of
      allocation and the witness bytes ([SingleBlake2SCircuit] is the case of one hash); [zip] stops at the shorter. *)
  Definition many_synth (c : list bytes * list bytes) : res (list K * list bytes) :=
    let l := combine (fst c) (snd c) in
    do fes <- rmapM (fun io : bytes * bytes => input_vec_values F (snd io)) l;
    Ok (concat fes, map fst l).
  Definition single_synth (c : bytes * bytes) : res (list K * list bytes) := many_synth ([fst c], [snd c]).

  (** whether values of the inputs and the witness satisfy the constraints of the circuit for as many hashes as there
      are witnesses: each takes the inputs of 32 bytes *)
  Fixpoint many_holds (x : list K) (ws : list bytes) : res bool :=
    match ws with
    | [] => Ok true
    | w :: ws =>
      do fes <- slice_to x (input_vec_len F 32);
      do rest <- slice_from x (input_vec_len F 32);
      do hash <- input_vec_bytes F 32 fes;
      do ok <- many_holds rest ws;
      Ok (bytes_eqb hash (blake w) && ok)
    end.
End Blake.

Section Aggregate.
  Variables (P Q : pairing).
  Variable F : prime_repr (pK P).
  Variable G : prime_repr (pK Q).

  (** bench.rs 93-109: the limbs of [into_bigint] as little-endian bytes *)
  Definition element_le_bytes (fe : pK P) : bytes := le_bytes (pr_bytes F) (into_bigint F fe).

  (** bench.rs 85-111, 125-138 [generate_constraints] of [AggregateBlake2SCircuitVerificationCircuit]: the values of
      the inputs; the witness is the list of proofs.  [unwrap] at 91, [assert_eq!] at 138. *)
  Definition agg_synth (hash_outputs : list bytes) (proofs : list (g16_proof P)) : res (list (pK Q)) :=
    do hs <- rmapM (to_field_elements F) hash_outputs;
    do input_gadgets <- rmapM (fun h => input_vec_values G (flat_map element_le_bytes h)) hs;
    do _ <- rassert (length input_gadgets =? length proofs);
    Ok (concat input_gadgets).

  (** the number of bytes allocated per hash *)
  Definition agg_bytes : nat := pr_bytes F * input_vec_len F 32.

  (** 113-124, 140-157: values of the inputs and proofs satisfying the constraints for the constant [vk].  The bytes are
      split into elements; each is a scalar given by its bits. *)
  Definition agg_decode (fes : list (pK Q)) : res (list (pK P)) :=
    do h_as_bls_fr_bytes <- input_vec_bytes G agg_bytes fes;
    do cs <- chunks (element_bytes F) h_as_bls_fr_bytes;
    Ok (map (fun c => f_ofN (from_le_bytes c)) cs).
  Fixpoint agg_holds (vk : g16_vk P) (x : list (pK Q)) (proofs : list (g16_proof P)) : res bool :=
    match proofs with
    | [] => Ok true
    | proof :: proofs =>
      do fes <- slice_to x (input_vec_len G agg_bytes);
      do rest <- slice_from x (input_vec_len G agg_bytes);
      do input <- agg_decode fes;
      do ok <- g16_verify_one P vk input proof;
      do ok' <- agg_holds vk rest proofs;
      Ok (ok && ok')
    end.

  (** 167-200 [AggregateBlake2SCircuitVerificationCircuitInput::to_field_elements] *)
  Fixpoint agg_input_loop (l : list bytes) (fr_elements : list (pK Q)) : res (list (pK Q)) :=
    match l with
    | [] => Ok fr_elements
    | h_as_bls_fr_bytes :: l =>
      do fes <- to_field_elements G h_as_bls_fr_bytes;
      agg_input_loop l (fr_elements ++ fes)
    end.
  Definition agg_verifier_input (hash_outputs : list bytes) : res (list (pK Q)) :=
    do hs <- rmapM (to_field_elements F) hash_outputs;
    agg_input_loop (map (fun h => flat_map element_le_bytes h) hs) [].
End Aggregate.

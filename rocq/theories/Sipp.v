(** Model of sipp/src/lib.rs. *)
Require Import List Arith Bool NArith ZArith.
Import ListNotations.
Require Import Verif.Outcome Verif.Algebra Verif.Rust Verif.InnerProducts Verif.Rng Verif.Floats.

Section Sipp.
  Variable P : pairing.
  Notation K := (pK P).
  Notation G1 := (pG1 P).
  Notation G2 := (pG2 P).
  Notation GT := (pGT P).
  Variable E : penv.
  Variable S : stream.
  Variable D : bytes -> bytes.

  (** lib.rs 184-217 [product_of_pairings_with_coeffs].  189-193: zip with the coefficients (stops at
      the shorter one).  Chunking as in inner_products, but with the panic of [zip_eq] in
      [multi_miller_loop]. *)
  Definition product_of_pairings_with_coeffs (a : list G1) (b : list G2) (r : list K) : res GT :=
    let a := zipw (fun a r => r *m a) a r in
    let size := chunk_size E (length a) in
    do ac <- chunks size a;
    do bc <- chunks size b;
    do mls <- rmapM (mml_chunk P) (combine ac bc);
    runwrap (fexp P (par_reduce (tfmul P) (tf1 P) (shape E (length mls)) mls)).

  (** lib.rs 221-224 [product_of_pairings] *)
  Definition product_of_pairings (a : list G1) (b : list G2) : res GT :=
    product_of_pairings_with_coeffs a b (repeat f1 (length a)).

  (** lib.rs 57-58 / 127-130: serialization of the tuple (a, b, r, value). *)
  Definition sipp_seed (a : list G1) (b : list G2) (r : list K) (value : GT) : bytes :=
    ser_list mser a ++ ser_list mser b ++ ser_list fser r ++ mser value.

  (** lib.rs 81-85 / 138-143: absorb (z_l, z_r), then draw a 128-bit challenge. *)
  Definition sipp_challenge (rng : fsrng S) (z_l z_r : GT) : K * fsrng S :=
    let rng := fs_absorb D rng (mser z_l ++ mser z_r) in
    let (n, rng) := fs_u128 rng in
    (f_ofN n, rng).

  (** lib.rs 69-101: the loop; [n] bounds the number of rounds ([length] is enough). *)
  Fixpoint sipp_prove_loop (n length : nat) (a : list G1) (b : list G2) (rng : fsrng S)
      (proof_vec : list (GT * GT)) : res (list (GT * GT)) :=
    if length =? 1 then Ok proof_vec else
    match n with
    | O => Loop
    | Datatypes.S n =>
      let length := length / 2 in
      do a_l <- slice_to a length;
      do a_r <- slice_from a length;
      do b_l <- slice_to b length;
      do b_r <- slice_from b length;
      do z_l <- product_of_pairings a_r b_l;
      do z_r <- product_of_pairings a_l b_r;
      let (x, rng) := sipp_challenge rng z_l z_r in
      let a := zipw (fun a_l a_r => x *m a_r +m a_l) a_l a_r in
      do x_inv <- runwrap (finverse x);
      let b := zipw (fun b_l b_r => x_inv *m b_r +m b_l) b_l b_r in
      sipp_prove_loop n length a b rng (proof_vec ++ [(z_l, z_r)])
    end.

  (** lib.rs 42-106 [prove] *)
  Definition sipp_prove (a : list G1) (b : list G2) (r : list K) (value : GT)
    : res (list (GT * GT)) :=
    do _ <- rassert (length a =? length b);
    do _ <- rassert (count_ones (length a) =? 1);
    let rng := fs_from_seed S D (sipp_seed a b r value) in
    sipp_prove_loop (length a) (length a) (zipw (fun a r => r *m a) a r) b rng [].

  (** lib.rs 134-146 *)
  Fixpoint sipp_challenges (rng : fsrng S) (gt_elems : list (GT * GT)) : list K :=
    match gt_elems with
    | [] => []
    | (z_l, z_r) :: t =>
      let (x, rng) := sipp_challenge rng z_l z_r in
      x :: sipp_challenges rng t
    end.

  (** ark_ff::batch_inversion: inverts the non-zero elements, leaves zero as it is. *)
  Definition batch_inverse (x : K) : K :=
    match finverse x with Some y => y | None => x end.

  (** lib.rs 164-169: one pass of the inner loop over [i in 0..length]. *)
  Definition sipp_scale_pass (bit : nat) (x : K) (s : list K) : list K :=
    zipw (fun i si => if Nat.testbit i bit then si *f x else si) (seq 0 (length s)) s.
  (** lib.rs 163-170: [for (j, (x, x_inv)) in ...enumerate()], testing bit proof_len - j - 1. *)
  Fixpoint sipp_s_loop (j proof_len : nat) (xs : list K) (s : list K) : list K :=
    match xs with
    | [] => s
    | x :: xs => sipp_s_loop (Datatypes.S j) proof_len xs (sipp_scale_pass (proof_len - j - 1) x s)
    end.

  (** lib.rs 109-180 [verify].  123: the number of rounds is compared as f32; [length] is a power of
      two here, so log2 is called on an exact power of two. *)
  Definition sipp_verify (a : list G1) (b : list G2) (r : list K) (claimed_value : GT)
      (proof : list (GT * GT)) : res bool :=
    let len := length a in
    do _ <- rassert (count_ones len =? 1);
    do _ <- rassert (2 <=? len);
    do _ <- rassert (len =? length b);
    let proof_len := length proof in
    do _ <- rassert (f32_eqb (f32_of_Z (Z.of_nat proof_len)) (f32_log2_pow2 (Z.of_nat (Nat.log2 len))));
    let rng := fs_from_seed S D (sipp_seed a b r claimed_value) in
    let x_s := sipp_challenges rng proof in
    let x_invs := map batch_inverse x_s in
    let z_terms := zipw (fun z (p : K * K) => fst p *m fst z +m snd p *m snd z) proof
                        (combine x_s x_invs) in
    let z_prime := claimed_value +m par_reduce madd m0 (shape E (length z_terms)) z_terms in
    let s := sipp_s_loop 0 proof_len x_s (repeat f1 len) in
    let s_invs := sipp_s_loop 0 proof_len x_invs (repeat f1 len) in
    let s := zipw fmul s r in
    do a_prime <- runwrap (msm a s);
    do b_prime <- runwrap (msm b s_invs);
    Ok (meqb (pr_e P a_prime b_prime) z_prime).
End Sipp.

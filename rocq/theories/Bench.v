(** Model of the benchmark programs benches/benches/{gipa,tipa,inner_products,poly_commit}.rs and of
    sipp/examples/scaling-ipp.rs.  Not modelled here: the clock, the output (csv: Report.v) and
    [sleep].  A benchmark that only unwraps the result of [verify] throws the boolean away; the model
    returns it. *)
Require Import List Arith Bool NArith ZArith.
Import ListNotations.
Require Import Verif.Outcome Verif.Algebra Verif.Rust Verif.InnerProducts Verif.Commitments
  Verif.Poly Verif.Gipa Verif.Tipa Verif.Ssm Verif.Floats Verif.PolyCommit Verif.Transparent Verif.Rng Verif.Sipp.

(** [Result::unwrap] on a call of the library. *)
Definition ok_unwrap {A} (x : res A) : res A := match x with Err _ => Panic | _ => x end.

(** tipa.rs 48-53, 97-102, gipa.rs 39-44, inner_products.rs 15-20: the two vectors, drawn alternately. *)
Fixpoint sample_pairs {R A B} (rand_l : sampler R A) (rand_r : sampler R B) (rng : R) (len : nat)
  : list A * list B * R :=
  match len with
  | O => ([], [], rng)
  | S n =>
    let (x, rng) := rand_l rng in
    let (y, rng) := rand_r rng in
    let '(l, r, rng) := sample_pairs rand_l rand_r rng n in (x :: l, y :: r, rng)
  end.

(** inner_products.rs 10-25 [bench_inner_product] *)
Definition bench_inner_product {R A B C} (rand_l : sampler R A) (rand_r : sampler R B)
    (ip : list A -> list B -> res C) (rng : R) (len : nat) : res (C * R) :=
  let '(l, r, rng) := sample_pairs rand_l rand_r rng len in
  do t <- ok_unwrap (ip l r); Ok (t, rng).

Section BenchGipa.
  Context {R : Type} {K : field} {MA MB MT KA KB KT : module K} {OA OB OT : carrier K}.
  Variables (LMC : dhc R MA KA OA) (RMC : dhc R MB KB OB) (IPC : dhc R MT KT OT).
  Variables (ip : list MA -> list MB -> res MT) (D : bytes -> bytes) (fuel : nat).
  Variables (rand_l : sampler R MA) (rand_r : sampler R MB).

  (** gipa.rs 19-65 [bench_gipa] *)
  Definition bench_gipa (rng : R) (len : nat) : res (bool * R) :=
    let '(l, r, rng) := sample_pairs rand_l rand_r rng len in
    do (ck_l, ck_r, ck_t, rng) <- ok_unwrap (gipa_setup LMC RMC IPC rng len);
    do com_l <- ok_unwrap (dh_commit LMC ck_l l);
    do com_r <- ok_unwrap (dh_commit RMC ck_r r);
    do t <- ok_unwrap (ip l r);
    do com_t <- ok_unwrap (dh_commit IPC [ck_t] [t]);
    do proof <- ok_unwrap (gipa_prove LMC RMC IPC ip D fuel (l, r, t) (ck_l, ck_r, ck_t) (com_l, com_r, com_t));
    do b <- ok_unwrap (gipa_verify LMC RMC IPC ip D fuel (ck_l, ck_r, ck_t) (com_l, com_r, com_t) proof);
    Ok (b, rng).
End BenchGipa.

Section BenchTipa.
  Context {R : Type} {P : pairing} {MA MB MT KT : module (pK P)} {OA OB OT : carrier (pK P)}.
  Notation K := (pK P).
  Variables (LMC : dhc R MA (pG2 P) OA) (RMC : dhc R MB (pG1 P) OB) (IPC : dhc R MT KT OT).
  Variables (ip : list MA -> list MB -> res MT) (D : bytes -> bytes) (fuel : nat).
  Variables (rand_l : sampler R MA) (rand_r : sampler R MB) (rand_scalar : sampler R K).

  (** tipa.rs 25-72 [bench_tipa] *)
  Definition bench_tipa (rng : R) (len : nat) : res (bool * R) :=
    let '(l, r, rng) := sample_pairs rand_l rand_r rng len in
    do (srs, ck_t, rng) <- ok_unwrap (tipa_setup IPC rand_scalar rng len);
    let '(ck_l, ck_r) := get_commitment_keys srs in
    do v_srs <- get_verifier_key srs;
    do com_l <- ok_unwrap (dh_commit LMC ck_l l);
    do com_r <- ok_unwrap (dh_commit RMC ck_r r);
    do t <- ok_unwrap (ip l r);
    do com_t <- ok_unwrap (dh_commit IPC [ck_t] [t]);
    do proof <- ok_unwrap (tipa_prove LMC RMC IPC ip D fuel srs (l, r) (ck_l, ck_r, ck_t));
    do b <- ok_unwrap (tipa_verify LMC RMC IPC ip D fuel v_srs ck_t (com_l, com_r, com_t) proof);
    Ok (b, rng).

  (** tipa.rs 74-145 [bench_tipa_srs_shift]; 119: [inverse().unwrap()] *)
  Definition bench_tipa_srs_shift (rng : R) (len : nat) : res (bool * R) :=
    let '(l, r, rng) := sample_pairs rand_l rand_r rng len in
    do (srs, ck_t, rng) <- ok_unwrap (tipa_setup IPC rand_scalar rng len);
    let '(ck_l, ck_r) := get_commitment_keys srs in
    do v_srs <- get_verifier_key srs;
    do com_l <- ok_unwrap (dh_commit LMC ck_l l);
    do com_r <- ok_unwrap (dh_commit RMC ck_r r);
    let (a_scalar, rng) := rand_scalar rng in
    do r_vec <- structured_scalar_power len a_scalar;
    let l_a := zipw (fun a r => r *m a) l r_vec in
    do ck_l_a <- rmapM (fun p : pG2 P * K => do ri <- runwrap (finverse (snd p)); Ok (ri *m fst p))
                   (combine ck_l r_vec);
    do t <- ok_unwrap (ip l_a r);
    do com_t <- ok_unwrap (dh_commit IPC [ck_t] [t]);
    do proof <- ok_unwrap (tipa_prove_with_srs_shift LMC RMC IPC ip D fuel srs (l_a, r) (ck_l_a, ck_r, ck_t) a_scalar);
    do b <- ok_unwrap (tipa_verify_with_srs_shift LMC RMC IPC ip D fuel v_srs ck_t (com_l, com_r, com_t) proof a_scalar);
    Ok (b, rng).
End BenchTipa.

Section BenchSsm.
  Context {R : Type} {P : pairing} {MA MT KT : module (pK P)} {OA OT : carrier (pK P)}.
  Notation K := (pK P).
  Variables (LMC : dhc R MA (pG2 P) OA) (IPC : dhc R MT KT OT).
  Variables (ip : list MA -> list (fmod K) -> res MT) (D : bytes -> bytes) (fuel : nat) (E : penv).
  Variables (rand_l : sampler R MA) (rand_scalar : sampler R K).

  (** tipa.rs 147-196 [bench_tipa_ssm] *)
  Definition bench_tipa_ssm (rng : R) (len : nat) : res (bool * R) :=
    let (l, rng) := random_generators rand_l rng len in
    let (scalar, rng) := rand_scalar rng in
    do r <- structured_scalar_power len scalar;
    do (srs, ck_t, rng) <- ok_unwrap (tssm_setup IPC rand_scalar rng len);
    let '(ck_l, _) := get_commitment_keys srs in
    do v_srs <- get_verifier_key srs;
    do com_l <- ok_unwrap (dh_commit LMC ck_l l);
    do t <- ok_unwrap (ip l r);
    do com_t <- ok_unwrap (dh_commit IPC [ck_t] [t]);
    do proof <- ok_unwrap (tssm_prove LMC IPC ip D fuel srs (l, r) (ck_l, ck_t));
    do b <- ok_unwrap (tssm_verify LMC IPC ip D fuel E v_srs ck_t (com_l, com_t) scalar proof);
    Ok (b, rng).
End BenchSsm.

Section BenchMains.
  Context {R : Type}.
  Variable P : pairing.
  Notation K := (pK P).
  Variables (E : penv) (D : bytes -> bytes) (fuel : nat).
  Variables (rand_scalar : sampler R K) (rand_g1 : sampler R (pG1 P)) (rand_g2 : sampler R (pG2 P)).
  Notation gc1 := (afgho_g1 P E rand_g2).
  Notation gc2 := (afgho_g2 P E rand_g1).
  Notation sc1 := (pedersen (pG1 P) rand_g1).
  Notation it := (identity (R := R) (pGT P)).
  Notation ig := (identity (R := R) (pG1 P)).

  (** gipa.rs 67-98 [main]; [len] is 16 there *)
  Definition gipa_main (rng : R) (len : nat) : res (list bool) :=
    do (b1, rng) <- bench_gipa gc1 gc2 it (pairing_ip P E) D fuel rand_g1 rand_g2 rng len;
    do (b2, rng) <- bench_gipa gc1 sc1 ig (multiexp_ip (pG1 P)) D fuel rand_g1 rand_scalar rng len;
    Ok [b1; b2].

  (** tipa.rs 198-249 [main]; [len] is 16 there *)
  Definition tipa_main (rng : R) (len : nat) : res (list bool) :=
    do (b1, rng) <- bench_tipa gc1 gc2 it (pairing_ip P E) D fuel rand_g1 rand_g2 rand_scalar rng len;
    do (b2, rng) <- bench_tipa gc1 sc1 ig (multiexp_ip (pG1 P)) D fuel rand_g1 rand_scalar rand_scalar rng len;
    do (b3, rng) <- bench_tipa_srs_shift gc1 gc2 it (pairing_ip P E) D fuel rand_g1 rand_g2 rand_scalar rng len;
    do (b4, rng) <- bench_tipa_ssm gc1 ig (multiexp_ip (pG1 P)) D fuel E rand_g1 rand_scalar rng len;
    Ok [b1; b2; b3; b4].

  (** inner_products.rs 27-46 [main] *)
  Definition inner_products_main (rng : R) (len : nat) : res (pGT P * pG1 P * pG2 P) :=
    do (t1, rng) <- bench_inner_product rand_g1 rand_g2 (pairing_ip P E) rng len;
    do (t2, rng) <- bench_inner_product rand_g1 rand_scalar (multiexp_ip (pG1 P)) rng len;
    do (t3, rng) <- bench_inner_product rand_g2 rand_scalar (multiexp_ip (pG2 P)) rng len;
    Ok (t1, t2, t3).

  (** [DensePolynomial::rand] of ark-poly: degree + 1 coefficients, leading zeros removed. *)
  Definition poly_rand (degree : nat) (rng : R) : list K * R :=
    let (cs, rng) := random_generators rand_scalar rng (degree + 1) in (from_coefficients cs, rng).

  (** poly_commit.rs 68-120, 140-196, 214-274: [num_trials] trials with a fresh polynomial and point.
      104-108 and so on repeat [assert!(is_valid)] 50 times on the same arguments; modelled once. *)
  Fixpoint pc_trials (trial : list K -> K -> K -> res bool) (degree num_trials : nat) (rng : R) : res R :=
    match num_trials with
    | O => Ok rng
    | S n =>
      let (polynomial, rng) := poly_rand degree rng in
      let (point, rng) := rand_scalar rng in
      do is_valid <- ok_unwrap (trial polynomial point (poly_evaluate polynomial point));
      do _ <- rassert is_valid;
      pc_trials trial degree n rng
    end.

  (** poly_commit.rs 52-121 *)
  Definition bench_kzg (rng : R) (degree num_trials : nat) : res R :=
    do (powers, v_srs, rng) <- ok_unwrap (kzg_setup rand_scalar rng degree);
    pc_trials (fun polynomial point eval =>
      do com <- kzg_commit powers polynomial;
      do proof <- kzg_open powers polynomial point;
      kzg_verify v_srs com point eval proof) degree num_trials rng.
  (** poly_commit.rs 123-196 *)
  Definition bench_ipa (rng : R) (degree num_trials : nat) : res R :=
    do (srs, rng) <- ok_unwrap (upc_setup P rand_scalar rng degree);
    do v_srs <- get_verifier_key (fst srs);
    pc_trials (fun polynomial point eval =>
      do (com, prover_aux) <- upc_commit P E rand_g2 srs polynomial;
      do proof <- upc_open P E D fuel rand_g2 srs polynomial prover_aux point;
      upc_verify P E D fuel rand_g2 v_srs degree com point eval proof) degree num_trials rng.
  (** poly_commit.rs 198-275 *)
  Definition bench_transparent_ipa (rng : R) (degree num_trials : nat) : res R :=
    do (ck, rng) <- ok_unwrap (tupc_setup P E rand_g1 rand_g2 rng degree);
    pc_trials (fun polynomial point eval =>
      do (com, prover_aux) <- tupc_commit P E rand_g1 rand_g2 ck polynomial;
      do proof <- tupc_open P E D fuel rand_g1 rand_g2 ck polynomial prover_aux point;
      tupc_verify P E D fuel rand_g1 rand_g2 ck com point eval proof) degree num_trials rng.

  (** poly_commit.rs 51-278: the degrees 4^(i+1) - 1, each scheme with the generator seeded again.
      The u64 overflow of [4_usize.pow] (32 and more data points): WordsBench.v. *)
  Fixpoint poly_commit_loop (degrees : list nat) (rng0 : R) (num_trials : nat) : res unit :=
    match degrees with
    | [] => Ok tt
    | degree :: degrees =>
      do _ <- bench_kzg rng0 degree num_trials;
      do _ <- bench_ipa rng0 degree num_trials;
      do _ <- bench_transparent_ipa rng0 degree num_trials;
      poly_commit_loop degrees rng0 num_trials
    end.
  Definition poly_commit_main (rng0 : R) (num_trials num_data_points : nat) : res unit :=
    poly_commit_loop (map (fun i => 4 ^ (i + 1) - 1) (seq 0 num_data_points)) rng0 num_trials.
End BenchMains.

(** [1 << i] for an integer type with the given number of bits: the position of the bit set.  With overflow
    checks (dev profile) the shift panics when i is too large, without them (release) it is reduced. *)
Definition shl_one (checks : bool) (bits i : nat) : res nat :=
  if i <? bits then Ok i else if checks then Panic else Ok (i mod bits).
(** scaling-ipp.rs 45: nothing determines the type of the bounds of [0..(1 << max_num_inputs)], so they
    are i32; [1 << 31] is negative and the range empty. *)
Definition vec_len (checks : bool) (max_num_inputs : nat) : res nat :=
  do e <- shl_one checks 32 max_num_inputs; Ok (if e =? 31 then 0 else 2 ^ e).

Section ScalingIpp.
  Variable checks : bool.
  Variable P : pairing.
  Variables (E : penv) (S : stream) (D : bytes -> bytes).
  Context {R : Type}.
  (** [SliceRandom::shuffle] *)
  Variables (shuffle1 : list (pG1 P) -> R -> list (pG1 P) * R) (shuffle2 : list (pG2 P) -> R -> list (pG2 P) * R).
  Variable r_s : list (pK P).

  (** scaling-ipp.rs 57-62 *)
  Definition num_iters (i : nat) : nat :=
    if (1 <=? i) && (i <=? 5) then 20 else if (7 <=? i) && (i <=? 10) then 10
    else if (11 <=? i) && (i <=? 13) then 5 else 1.

  (** 69-83 *)
  Fixpoint ipp_iters (n : nat) (a_s : list (pG1 P)) (b_s : list (pG2 P)) (rng : R)
    : res (list (pG1 P) * list (pG2 P) * R) :=
    match n with
    | O => Ok (a_s, b_s, rng)
    | Datatypes.S n =>
      let (a_s, rng) := shuffle1 a_s rng in
      let (b_s, rng) := shuffle2 b_s rng in
      do z <- product_of_pairings_with_coeffs P E a_s b_s r_s;
      do proof <- sipp_prove P E S D a_s b_s r_s z;
      do accept <- sipp_verify P E S D a_s b_s r_s z proof;
      do _ <- rassert accept;
      ipp_iters n a_s b_s rng
    end.

  (** 55-84 ([m] is a usize): the shuffled prefix is part of the same vector. *)
  Fixpoint ipp_loop (sizes : list nat) (a_s : list (pG1 P)) (b_s : list (pG2 P)) (rng : R) : res unit :=
    match sizes with
    | [] => Ok tt
    | i :: sizes =>
      do e <- shl_one checks 64 i;
      do a_m <- slice_to a_s (2 ^ e);
      do b_m <- slice_to b_s (2 ^ e);
      do (a_m, b_m, rng) <- ipp_iters (num_iters i) a_m b_m rng;
      ipp_loop sizes (a_m ++ skipn (2 ^ e) a_s) (b_m ++ skipn (2 ^ e) b_s) rng
    end.
End ScalingIpp.

(** scaling-ipp.rs 40-51, 55-84: equal elements, one coefficient repeated. *)
Definition scaling_ipp {R} (checks : bool) (P : pairing) E S D shuffle1 shuffle2 (rand_scalar : sampler R (pK P))
    (rand_g1 : sampler R (pG1 P)) (rand_g2 : sampler R (pG2 P)) (rng : R) (min_num_inputs max_num_inputs : nat) : res unit :=
  let (g, rng) := rand_g1 rng in
  let (h, rng) := rand_g2 rng in
  do n <- vec_len checks max_num_inputs;
  let a_s := repeat (g +m g) n in
  let b_s := repeat (h +m h) n in
  let (r, rng) := rand_scalar rng in
  let r_s := repeat r n in
  ipp_loop checks P E S D shuffle1 shuffle2 r_s (seq min_num_inputs (max_num_inputs + 1 - min_num_inputs)) a_s b_s rng.

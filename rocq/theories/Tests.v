(** Model of the unit tests of the crates (the [#[cfg(test)]] modules).  Each test is a function of the state of the
    generator (the tests seed it with a constant) and of the size (a constant 8, 7 or 65535 in the tests); it
    returns [Ok tt] if the test passes and [Panic] if an assertion or [unwrap] fails.  Modelled once where a test is
    repeated with other types. *)
Require Import List Arith Bool NArith ZArith.
Import ListNotations.
Require Import Verif.Outcome Verif.Algebra Verif.Rust Verif.InnerProducts Verif.Commitments
  Verif.Poly Verif.Gipa Verif.Tipa Verif.Ssm Verif.Floats Verif.PolyCommit Verif.Transparent Verif.Rng Verif.Sipp Verif.Bench.

(** [assert!(x.is_err())] *)
Definition assert_is_err {A} (x : res A) : res unit :=
  match x with Err _ => Ok tt | Ok _ => Panic | Panic => Panic | Loop => Loop end.

(** Two vectors, one after the other (e.g. gipa.rs 479-480; the loop of gipa.rs 508-511 draws the same). *)
Definition sample_both {R A B} (rand_a : sampler R A) (rand_b : sampler R B) (rng : R) (n : nat) : list A * list B * R :=
  let (a, rng) := random_generators rand_a rng n in
  let (b, rng) := random_generators rand_b rng n in (a, b, rng).

(** dh_commitments/src/pedersen/mod.rs 40-54 [pedersen_test], afgho16/mod.rs 62-76 [afgho_g1_test],
    79-93 [afgho_g2_test] *)
Definition commit_test {R K} {M Ky : module K} {O : carrier K} (C : dhc R M Ky O) (rand_m : sampler R M)
    (rng : R) (n : nat) : res unit :=
  do (commit_keys, rng) <- ok_unwrap (dh_setup C rng n);
  let '(message, wrong_message, rng) := sample_pairs rand_m rand_m rng n in
  do com <- ok_unwrap (dh_commit C commit_keys message);
  do b <- ok_unwrap (dh_verify C commit_keys message com);
  do _ <- rassert b;
  do b <- ok_unwrap (dh_verify C commit_keys wrong_message com);
  do _ <- rassert (negb b);
  let (x, _) := rand_m rng in
  assert_is_err (dh_verify C commit_keys (message ++ [x]) com).

Section GipaTest.
  Context {R : Type} {K : field} {MA MB MT KA KB KT : module K} {OA OB OT : carrier K}.
  Variables (LMC : dhc R MA KA OA) (RMC : dhc R MB KB OB) (IPC : dhc R MT KT OT).
  Variables (ip : list MA -> list MB -> res MT) (D : bytes -> bytes) (fuel : nat).
  Variable draw : R -> nat -> list MA * list MB * R.

  (** gipa.rs 471-496 [pairing_inner_product_test], 499-527 [multiexponentiation_inner_product_test],
      530-561 [scalar_inner_product_test] *)
  Definition gipa_test (rng : R) (n : nat) : res unit :=
    do (ck_a, ck_b, ck_t, rng) <- ok_unwrap (gipa_setup LMC RMC IPC rng n);
    let '(m_a, m_b, _) := draw rng n in
    do com_a <- ok_unwrap (dh_commit LMC ck_a m_a);
    do com_b <- ok_unwrap (dh_commit RMC ck_b m_b);
    do t <- ok_unwrap (ip m_a m_b);
    do com_t <- ok_unwrap (dh_commit IPC [ck_t] [t]);
    do proof <- ok_unwrap (gipa_prove LMC RMC IPC ip D fuel (m_a, m_b, t) (ck_a, ck_b, ck_t) (com_a, com_b, com_t));
    do b <- ok_unwrap (gipa_verify LMC RMC IPC ip D fuel (ck_a, ck_b, ck_t) (com_a, com_b, com_t) proof);
    rassert b.
End GipaTest.

Section TipaTest.
  Context {R : Type} {P : pairing} {MA MB MT KT : module (pK P)} {OA OB OT : carrier (pK P)}.
  Notation K := (pK P).
  Variables (LMC : dhc R MA (pG2 P) OA) (RMC : dhc R MB (pG1 P) OB) (IPC : dhc R MT KT OT).
  Variables (ip : list MA -> list MB -> res MT) (D : bytes -> bytes) (fuel : nat).
  Variables (draw : R -> nat -> list MA * list MB * R) (rand_scalar : sampler R K).

  (** tipa/mod.rs 451-471 [pairing_inner_product_test], 474-497 [multiexponentiation_inner_product_test],
      500-526 [scalar_inner_product_test] *)
  Definition tipa_test (rng : R) (n : nat) : res unit :=
    do (srs, ck_t, rng) <- ok_unwrap (tipa_setup IPC rand_scalar rng n);
    let '(ck_a, ck_b) := get_commitment_keys srs in
    do v_srs <- get_verifier_key srs;
    let '(m_a, m_b, _) := draw rng n in
    do com_a <- ok_unwrap (dh_commit LMC ck_a m_a);
    do com_b <- ok_unwrap (dh_commit RMC ck_b m_b);
    do t <- ok_unwrap (ip m_a m_b);
    do com_t <- ok_unwrap (dh_commit IPC [ck_t] [t]);
    do proof <- ok_unwrap (tipa_prove LMC RMC IPC ip D fuel srs (m_a, m_b) (ck_a, ck_b, ck_t));
    do b <- ok_unwrap (tipa_verify LMC RMC IPC ip D fuel v_srs ck_t (com_a, com_b, com_t) proof);
    rassert b.

  (** tipa/mod.rs 529-579 [pairing_inner_product_with_srs_shift_test]; 555: [inverse().unwrap()];
      561: [assert_eq!] of the commitment, which [LMC] computes in the tests as [IP::inner_product]. *)
  Definition tipa_shift_test (rng : R) (n : nat) : res unit :=
    do (srs, ck_t, rng) <- ok_unwrap (tipa_setup IPC rand_scalar rng n);
    let '(ck_a, ck_b) := get_commitment_keys srs in
    do v_srs <- get_verifier_key srs;
    let '(m_a, m_b, rng) := draw rng n in
    do com_a <- ok_unwrap (dh_commit LMC ck_a m_a);
    do com_b <- ok_unwrap (dh_commit RMC ck_b m_b);
    let (r_scalar, _) := rand_scalar rng in
    do r_vec <- structured_scalar_power n r_scalar;
    let m_a_r := zipw (fun a r => r *m a) m_a r_vec in
    do ck_a_r <- rmapM (fun p : pG2 P * K => do ri <- runwrap (finverse (snd p)); Ok (ri *m fst p))
                   (combine ck_a r_vec);
    do t <- ok_unwrap (ip m_a_r m_b);
    do com_t <- ok_unwrap (dh_commit IPC [ck_t] [t]);
    do com_a_r <- ok_unwrap (dh_commit LMC ck_a_r m_a_r);
    do _ <- rassert (ceqb com_a com_a_r);
    do proof <- ok_unwrap (tipa_prove_with_srs_shift LMC RMC IPC ip D fuel srs (m_a_r, m_b) (ck_a_r, ck_b, ck_t) r_scalar);
    do b <- ok_unwrap (tipa_verify_with_srs_shift LMC RMC IPC ip D fuel v_srs ck_t (com_a, com_b, com_t) proof r_scalar);
    rassert b.
End TipaTest.

Section SsmTest.
  Context {R : Type} {P : pairing} {MA MT KT : module (pK P)} {OA OT : carrier (pK P)}.
  Notation K := (pK P).
  Variables (LMC : dhc R MA (pG2 P) OA) (IPC : dhc R MT KT OT).
  Variables (ip : list MA -> list (fmod K) -> res MT) (D : bytes -> bytes) (fuel : nat) (E : penv).
  Variables (rand_a : sampler R MA) (rand_scalar : sampler R K).

  (** tipa/structured_scalar_message.rs 361-390 [tipa_ssm_multiexponentiation_inner_product_test] *)
  Definition tipa_ssm_test (rng : R) (n : nat) : res unit :=
    do (srs, ck_t, rng) <- ok_unwrap (tssm_setup IPC rand_scalar rng n);
    let '(ck_a, _) := get_commitment_keys srs in
    do v_srs <- get_verifier_key srs;
    let (m_a, rng) := random_generators rand_a rng n in
    let (b, _) := rand_scalar rng in
    do m_b <- structured_scalar_power n b;
    do com_a <- ok_unwrap (dh_commit LMC ck_a m_a);
    do t <- ok_unwrap (ip m_a m_b);
    do com_t <- ok_unwrap (dh_commit IPC [ck_t] [t]);
    do proof <- ok_unwrap (tssm_prove LMC IPC ip D fuel srs (m_a, m_b) (ck_a, ck_t));
    do ok <- ok_unwrap (tssm_verify LMC IPC ip D fuel E v_srs ck_t (com_a, com_t) b proof);
    rassert ok.
End SsmTest.

Section GssmTest.
  Context {R : Type} {K : field} {MA KA MT KT : module K} {OA OT : carrier K}.
  Variables (LMC : dhc R MA KA OA) (IPC : dhc R MT KT OT).
  Variables (ip : list MA -> list (fmod K) -> res MT) (D : bytes -> bytes) (fuel : nat) (E : penv).
  Variables (rand_a : sampler R MA) (rand_scalar : sampler R K).

  (** tipa/structured_scalar_message.rs 393-423 [gipa_ssm_scalar_inner_product_test] *)
  Definition gipa_ssm_test (rng : R) (n : nat) : res unit :=
    do (ck_a, ck_t, rng) <- ok_unwrap (gssm_setup LMC IPC rng n);
    let (m_a, rng) := random_generators rand_a rng n in
    let (b, _) := rand_scalar rng in
    do m_b <- structured_scalar_power n b;
    do com_a <- ok_unwrap (dh_commit LMC ck_a m_a);
    do t <- ok_unwrap (ip m_a m_b);
    do com_t <- ok_unwrap (dh_commit IPC [ck_t] [t]);
    do proof <- ok_unwrap (gssm_prove LMC IPC ip D fuel (m_a, m_b) (ck_a, ck_t));
    do ok <- ok_unwrap (gssm_verify LMC IPC ip D fuel E (ck_a, ck_t) (com_a, com_t) b proof);
    rassert ok.
End GssmTest.

Section PolyTests.
  Context {R : Type}.
  Variable P : pairing.
  Notation K := (pK P).
  Variables (E : penv) (D : bytes -> bytes) (fuel : nat).
  Variables (rand_scalar : sampler R K) (rand_g1 : sampler R (pG1 P)) (rand_g2 : sampler R (pG2 P)).

  (** poly_commit/mod.rs 403-412, transparent.rs 331-340: [xn] rows of [yn] coefficients *)
  Fixpoint sample_bipoly (rng : R) (xn yn : nat) : bipoly K * R :=
    match xn with
    | O => ([], rng)
    | S xn =>
      let (y_polynomial_coeffs, rng) := random_generators rand_scalar rng yn in
      let (rest, rng) := sample_bipoly rng xn yn in (from_coefficients y_polynomial_coeffs :: rest, rng)
    end.

  (** poly_commit/mod.rs 396-434 [bivariate_poly_commit_test] *)
  Definition bivariate_poly_commit_test (rng : R) (x_degree y_degree : nat) : res unit :=
    do (srs, rng) <- ok_unwrap (bpc_setup P rand_scalar rng x_degree y_degree);
    do v_srs <- get_verifier_key (fst srs);
    let (polynomial, rng) := sample_bipoly rng (x_degree + 1) (y_degree + 1) in
    do (com, y_polynomial_comms) <- ok_unwrap (bpc_commit P E rand_g2 srs polynomial);
    let (x, rng) := rand_scalar rng in
    let (y, rng) := rand_scalar rng in
    do eval_proof <- ok_unwrap (bpc_open P E D fuel rand_g2 srs polynomial y_polynomial_comms (x, y));
    let eval := bipoly_evaluate polynomial (x, y) in
    do b <- ok_unwrap (bpc_verify P E D fuel rand_g2 v_srs com (x, y) eval eval_proof);
    rassert b.

  (** poly_commit/mod.rs 439-471 [univariate_poly_commit_test] *)
  Definition univariate_poly_commit_test (rng : R) (degree : nat) : res unit :=
    do (srs, rng) <- ok_unwrap (upc_setup P rand_scalar rng degree);
    do v_srs <- get_verifier_key (fst srs);
    let (polynomial_coeffs, rng) := random_generators rand_scalar rng (degree + 1) in
    let polynomial := from_coefficients polynomial_coeffs in
    do (com, y_polynomial_comms) <- ok_unwrap (upc_commit P E rand_g2 srs polynomial);
    let (point, rng) := rand_scalar rng in
    do eval_proof <- ok_unwrap (upc_open P E D fuel rand_g2 srs polynomial y_polynomial_comms point);
    let eval := poly_evaluate polynomial point in
    do b <- ok_unwrap (upc_verify P E D fuel rand_g2 v_srs degree com point eval eval_proof);
    rassert b.

  (** transparent.rs 325-362 [transparent_bivariate_poly_commit_test] *)
  Definition transparent_bivariate_poly_commit_test (rng : R) (x_degree y_degree : nat) : res unit :=
    do (ck, rng) <- ok_unwrap (tbpc_setup P E rand_g1 rand_g2 rng x_degree y_degree);
    let (polynomial, rng) := sample_bipoly rng (x_degree + 1) (y_degree + 1) in
    do (com, y_polynomial_comms) <- ok_unwrap (tbpc_commit P E rand_g1 rand_g2 ck polynomial);
    let (x, rng) := rand_scalar rng in
    let (y, rng) := rand_scalar rng in
    do eval_proof <- ok_unwrap (tbpc_open P E D fuel rand_g1 rand_g2 ck polynomial y_polynomial_comms (x, y));
    let eval := bipoly_evaluate polynomial (x, y) in
    do b <- ok_unwrap (tbpc_verify P E D fuel rand_g1 rand_g2 ck com (x, y) eval eval_proof);
    rassert b.

  (** transparent.rs 367-392 [transparent_univariate_poly_commit_test] *)
  Definition transparent_univariate_poly_commit_test (rng : R) (degree : nat) : res unit :=
    do (ck, rng) <- ok_unwrap (tupc_setup P E rand_g1 rand_g2 rng degree);
    let (polynomial_coeffs, rng) := random_generators rand_scalar rng (degree + 1) in
    let polynomial := from_coefficients polynomial_coeffs in
    do (com, y_polynomial_comms) <- ok_unwrap (tupc_commit P E rand_g1 rand_g2 ck polynomial);
    let (point, rng) := rand_scalar rng in
    do eval_proof <- ok_unwrap (tupc_open P E D fuel rand_g1 rand_g2 ck polynomial y_polynomial_comms point);
    let eval := poly_evaluate polynomial point in
    do b <- ok_unwrap (tupc_verify P E D fuel rand_g1 rand_g2 ck com point eval eval_proof);
    rassert b.
End PolyTests.

Section SippTest.
  Variable P : pairing.
  Notation K := (pK P).
  Variables (E : penv) (S : stream) (D : bytes -> bytes).
  Variables (rand_g1 : sampler (fsrng S) (pG1 P)) (rand_g2 : sampler (fsrng S) (pG2 P)) (rand_scalar : sampler (fsrng S) K).

  (** sipp/src/lib.rs 238-242 *)
  Fixpoint sample_triples (rng : fsrng S) (n : nat) : list (pG1 P) * list (pG2 P) * list K * fsrng S :=
    match n with
    | O => ([], [], [], rng)
    | Datatypes.S n =>
      let (x, rng) := rand_g1 rng in
      let (y, rng) := rand_g2 rng in
      let (s, rng) := rand_scalar rng in
      let '(a, b, r, rng) := sample_triples rng n in (x :: a, y :: b, s :: r, rng)
    end.

  (** lib.rs 233-254 [prove_and_verify_base_case]; [seed] is "falafel" and [n] is 32 there *)
  Definition prove_and_verify_base_case (seed : bytes) (n : nat) : res unit :=
    let '(a, b, r, _) := sample_triples (fs_from_seed S D seed) n in
    do z <- product_of_pairings_with_coeffs P E a b r;
    do proof <- ok_unwrap (sipp_prove P E S D a b r z);
    do accept <- ok_unwrap (sipp_verify P E S D a b r z proof);
    rassert accept.
End SippTest.

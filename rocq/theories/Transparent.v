(** Model of ip_proofs/src/applications/poly_commit/transparent.rs. *)
Require Import List Arith Bool NArith ZArith.
Import ListNotations.
Require Import Verif.Outcome Verif.Algebra Verif.Rust Verif.InnerProducts Verif.Commitments
  Verif.Poly Verif.Gipa Verif.Tipa Verif.Ssm Verif.Floats Verif.PolyCommit.

(** transparent.rs 79-83 [OpeningProof] *)
Record t_opening_proof (P : pairing) : Type := mk_t_opening {
  to_second : gssm_proof (pG1 P) (mod_carrier (pGT P)) (identity_output (pG1 P));
  to_y_eval_comm : pG1 P;
  to_first : gssm_proof (fmod (pK P)) (mod_carrier (pG1 P)) (identity_output (fmod (pK P)))
}.
Arguments mk_t_opening {P}.
Arguments to_second {P}.
Arguments to_y_eval_comm {P}.
Arguments to_first {P}.

Section Transparent.
  Context {R : Type}.
  Variable P : pairing.
  Notation K := (pK P).
  Variable E : penv.
  Variable D : bytes -> bytes.
  Variable fuel : nat.
  Variable rand_g1 : sampler R (pG1 P).
  Variable rand_g2 : sampler R (pG2 P).

  (** transparent.rs 28-56: the two inner-product arguments. *)
  Notation lmc2 := (afgho_g1 P E rand_g2).
  Notation ipc2 := (identity (R := R) (pG1 P)).
  Notation ip2 := (multiexp_ip (pG1 P)).
  Notation lmc1 := (pedersen (pG1 P) rand_g1).
  Notation ipc1 := (identity (R := R) (fmod (pK P))).
  Notation ip1 := (@scalar_ip (pK P) E).

  (** transparent.rs 91-99 [setup] *)
  Definition tbpc_setup (rng : R) (x_degree y_degree : nat)
    : res (list (pG1 P) * list (pG2 P) * R) :=
    do (ck1, _, rng) <- gssm_setup lmc1 ipc1 rng (y_degree + 1);
    do (ck2, _, rng) <- gssm_setup lmc2 ipc2 rng (x_degree + 1);
    Ok (ck1, ck2, rng).

  (** transparent.rs 114-119: commit to one row. *)
  Definition t_row_commit (first_tier_ck : list (pG1 P)) (coeffs : list K) : res (pG1 P) :=
    do _ <- rassert (length coeffs <=? length first_tier_ck);
    dh_commit lmc1 first_tier_ck (resize (length first_tier_ck) f0 coeffs).

  (** transparent.rs 101-127 [commit] *)
  Definition tbpc_commit (ck : list (pG1 P) * list (pG2 P)) (p : bipoly K)
    : res (pGT P * list (pG1 P)) :=
    let '(first_tier_ck, second_tier_ck) := ck in
    do _ <- rassert (length p <=? length second_tier_ck);
    do coms <- rmapM (t_row_commit first_tier_ck) (chain_cycle_take p [] (length second_tier_ck));
    do com <- dh_commit lmc2 second_tier_ck coms;
    Ok (com, coms).

  (** transparent.rs 129-186 [open] *)
  Definition tbpc_open (ck : list (pG1 P) * list (pG2 P)) (p : bipoly K)
      (y_polynomial_comms : list (pG1 P)) (point : K * K) : res (t_opening_proof P) :=
    let '(x, y) := point in
    let '(first_tier_ck, second_tier_ck) := ck in
    do _ <- rassert (length p <=? length second_tier_ck);
    do powers_of_x <- structured_scalar_power (length second_tier_ck) x;
    let coeffs := map (resize (length first_tier_ck) f0)
                      (chain_cycle_take p [] (length second_tier_ck)) in
    do y_eval_coeffs <- y_eval_coefficients (length first_tier_ck) (length second_tier_ck)
                          powers_of_x coeffs;
    do y_eval_comm <- dh_commit lmc1 first_tier_ck y_eval_coeffs;
    do second <- gssm_prove lmc2 ipc2 ip2 D fuel (y_polynomial_comms, powers_of_x)
                   (second_tier_ck, (tt : unitmod K));
    do powers_of_y <- structured_scalar_power (length first_tier_ck) y;
    do first <- gssm_prove lmc1 ipc1 ip1 D fuel (y_eval_coeffs, powers_of_y)
                  (first_tier_ck, (tt : unitmod K));
    Ok (mk_t_opening second y_eval_comm first).

  (** transparent.rs 188-212 [verify] *)
  Definition tbpc_verify (ck : list (pG1 P) * list (pG2 P)) (com : pGT P) (point : K * K) (eval : K)
      (proof : t_opening_proof P) : res bool :=
    let '(first_tier_ck, second_tier_ck) := ck in
    let '(x, y) := point in
    do second_valid <- gssm_verify lmc2 ipc2 ip2 D fuel E (second_tier_ck, (tt : unitmod K))
         ((com : mod_carrier (pGT P)), ([to_y_eval_comm proof] : identity_output (pG1 P)))
         x (to_second proof);
    do first_valid <- gssm_verify lmc1 ipc1 ip1 D fuel E (first_tier_ck, (tt : unitmod K))
         ((to_y_eval_comm proof : mod_carrier (pG1 P)), ([eval] : identity_output (fmod K)))
         y (to_first proof);
    Ok (second_valid && first_valid).

  (** transparent.rs 229-233; the subtractions underflow (panic) on empty vectors. *)
  Definition parse_degrees_ck (ck : list (pG1 P) * list (pG2 P)) : res (nat * nat) :=
    do _ <- rassert (0 <? length (snd ck));
    do _ <- rassert (0 <? length (fst ck));
    Ok (length (snd ck) - 1, length (fst ck) - 1).

  (** transparent.rs 260-263 *)
  Definition tupc_setup (rng : R) (degree : nat) : res (list (pG1 P) * list (pG2 P) * R) :=
    do (x_degree, y_degree) <- bivariate_degrees 8 4 degree;
    tbpc_setup rng x_degree y_degree.

  (** transparent.rs 265-274 *)
  Definition tupc_commit (ck : list (pG1 P) * list (pG2 P)) (p : list K)
    : res (pGT P * list (pG1 P)) :=
    do degrees <- parse_degrees_ck ck;
    do bp <- bivariate_form degrees p;
    tbpc_commit ck bp.

  (** transparent.rs 276-291 *)
  Definition tupc_open (ck : list (pG1 P) * list (pG2 P)) (p : list K)
      (y_polynomial_comms : list (pG1 P)) (point : K) : res (t_opening_proof P) :=
    do (x_degree, y_degree) <- parse_degrees_ck ck;
    do bp <- bivariate_form (x_degree, y_degree) p;
    tbpc_open ck bp y_polynomial_comms (fpow point (y_degree + 1), point).

  (** transparent.rs 293-304 *)
  Definition tupc_verify (ck : list (pG1 P) * list (pG2 P)) (com : pGT P) (point eval : K)
      (proof : t_opening_proof P) : res bool :=
    do (_, y_degree) <- parse_degrees_ck ck;
    tbpc_verify ck com (fpow point (y_degree + 1), point) eval proof.
End Transparent.

(** Model of ip_proofs/src/applications/poly_commit/mod.rs. *)
Require Import List Arith Bool NArith ZArith.
Import ListNotations.
Require Import Verif.Outcome Verif.Algebra Verif.Rust Verif.InnerProducts Verif.Commitments
  Verif.Poly Verif.Gipa Verif.Tipa Verif.Ssm Verif.Floats.

Section Kzg.
  Context {R : Type}.
  Variable P : pairing.
  Notation K := (pK P).
  Variable rand_scalar : sampler R (pK P).

  (** mod.rs 56-74 [KZG::setup] *)
  Definition kzg_setup (rng : R) (degree : nat) : res (list (pG1 P) * vsrs P * R) :=
    let (alpha, rng) := rand_scalar rng in
    let (beta, rng) := rand_scalar rng in
    let g := pr_g P in
    let h := pr_h P in
    do powers <- structured_generators_scalar_power (degree + 1) g alpha;
    Ok (powers, mk_vsrs g h (beta *m g) (alpha *m h), rng).

  (** mod.rs 76-86 [KZG::commit] *)
  Definition kzg_commit (powers : list (pG1 P)) (polynomial : list K) : res (pG1 P) :=
    do deg <- poly_degree polynomial;
    do _ <- rassert (deg + 1 <=? length powers);
    runwrap (msm powers (resize (length powers) f0 polynomial)).

  (** mod.rs 88-106 [KZG::open] *)
  Definition kzg_open (powers : list (pG1 P)) (polynomial : list K) (point : K) : res (pG1 P) :=
    do deg <- poly_degree polynomial;
    do _ <- rassert (deg + 1 <=? length powers);
    do quotient <- poly_div polynomial (from_coefficients [fopp point; f1]);
    runwrap (msm powers (resize (length powers) f0 quotient)).

  (** mod.rs 108-117 [KZG::verify] *)
  Definition kzg_verify (v : vsrs P) (com : pG1 P) (point eval : K) (proof : pG1 P) : res bool :=
    Ok (meqb (pr_e P (com -m (eval *m v_g v)) (v_h v))
             (pr_e P proof (v_h_alpha v -m (point *m v_h v)))).
End Kzg.
Arguments kzg_setup {R P}.
Arguments kzg_commit {P}.
Arguments kzg_open {P}.
Arguments kzg_verify {P}.

(** mod.rs 120-122 [BivariatePolynomial]: the vector [y_polynomials]. *)
Definition bipoly (K : field) : Type := list (list K).

(** mod.rs 127-132: [cur = 1; for _ in 0..n { push(cur); cur *= x }] is [push_powers]. *)
(** mod.rs 125-138 [BivariatePolynomial::evaluate] (also transparent.rs 63-76) *)
Definition bipoly_evaluate {K : field} (p : bipoly K) (point : K * K) : K :=
  let '(x, y) := point in
  let point_x_powers := push_powers (length p) f1 x in
  fold_left fadd (zipw (fun xp yp => xp *f poly_evaluate yp y) point_x_powers p) f0.

(** mod.rs 230-236 (also transparent.rs 153-159): the coefficients of the polynomial in y obtained
    by evaluating at x. [ny], [nx] are the two lengths. *)
Definition y_eval_coefficients {K : field} (ny nx : nat) (powers_of_x : list K) (coeffs : list (list K))
  : res (list K) :=
  rmapM (fun j =>
    do terms <- rmapM (fun i =>
      do px <- index powers_of_x i;
      do row <- index coeffs i;
      do c <- index row j;
      Ok (px *f c)) (seq 0 nx);
    Ok (fold_left fadd terms f0)) (seq 0 ny).

(** mod.rs 141-145 [OpeningProof] *)
Record opening_proof (P : pairing) : Type := mk_opening {
  op_ip : tssm_proof P (pG1 P) (mod_carrier (pGT P)) (identity_output (pG1 P));
  op_y_eval_comm : pG1 P;
  op_kzg : pG1 P
}.
Arguments mk_opening {P}.
Arguments op_ip {P}.
Arguments op_y_eval_comm {P}.
Arguments op_kzg {P}.

(** mod.rs 292-298 (skew 32/16) and transparent.rs 221-227 (skew 8/4): [bivariate_degrees].
    [d + 1] overflows only for d = usize::MAX (modelled in Words.v).  Division by a zero skew factor panics. *)
Definition bivariate_degrees (threshold factor : nat) (d : nat) : res (nat * nat) :=
  let sqrt := next_power_of_two
    (Z.to_nat (f64_ceil_as_usize (f64_sqrt (f64_of_Z (Z.of_nat (d + 1)))))) in
  let skew_factor := if threshold <=? sqrt then factor else sqrt / 2 in
  if skew_factor =? 0 then Panic else
  Ok (sqrt / skew_factor - 1, sqrt * skew_factor - 1).

(** mod.rs 320-323: one row of [coeff_iter.next().unwrap()]. *)
Fixpoint take_row {A} (n : nat) (it : list A) : res (list A * list A) :=
  match n with
  | O => Ok ([], it)
  | S n => do x <- runwrap (hd_error it);
           do (row, it) <- take_row n (tl it);
           Ok (x :: row, it)
  end.
(** mod.rs 319-327 *)
Fixpoint take_rows {K : field} (rows cols : nat) (it : list K) : res (list (list K)) :=
  match rows with
  | O => Ok []
  | S rows => do (row, it) <- take_row cols it;
              do rest <- take_rows rows cols it;
              Ok (from_coefficients row :: rest)
  end.
(** mod.rs 306-329 (and transparent.rs 235-258) [bivariate_form] *)
Definition bivariate_form {K : field} (degrees : nat * nat) (polynomial : list K) : res (bipoly K) :=
  let '(x_degree, y_degree) := degrees in
  take_rows (x_degree + 1) (y_degree + 1)
    (chain_cycle_take polynomial f0 ((x_degree + 1) * (y_degree + 1))).

Section Bivariate.
  Context {R : Type}.
  Variable P : pairing.
  Notation K := (pK P).
  Variable E : penv.
  Variable D : bytes -> bytes.
  Variable fuel : nat.
  Variable rand_scalar : sampler R (pK P).
  Variable rand_g2 : sampler R (pG2 P).

  (** mod.rs 34-48: the inner-product argument used. *)
  Notation lmc := (afgho_g1 P E rand_g2).
  Notation ipc := (identity (R := R) (pG1 P)).
  Notation ip := (multiexp_ip (pG1 P)).

  (** mod.rs 153-174 [BivariatePolynomialCommitment::setup] *)
  Definition bpc_setup (rng : R) (x_degree y_degree : nat) : res (srs P * list (pG1 P) * R) :=
    let (alpha, rng) := rand_scalar rng in
    let (beta, rng) := rand_scalar rng in
    let g := pr_g P in
    let h := pr_h P in
    do kzg_srs <- structured_generators_scalar_power (y_degree + 1) g alpha;
    do hb <- structured_generators_scalar_power (2 * x_degree + 1) h beta;
    Ok (mk_srs [g] hb (beta *m g) (alpha *m h), kzg_srs, rng).

  (** mod.rs 176-198 [commit] *)
  Definition bpc_commit (s : srs P * list (pG1 P)) (p : bipoly K) : res (pGT P * list (pG1 P)) :=
    let '(ip_srs, kzg_srs) := s in
    let ck := fst (get_commitment_keys ip_srs) in
    do _ <- rassert (length p <=? length ck);
    do coms <- rmapM (kzg_commit kzg_srs) (chain_cycle_take p [] (length ck));
    do com <- dh_commit lmc ck coms;
    Ok (com, coms).

  (** mod.rs 200-262 [open] *)
  Definition bpc_open (s : srs P * list (pG1 P)) (p : bipoly K) (y_polynomial_comms : list (pG1 P))
      (point : K * K) : res (opening_proof P) :=
    let '(x, y) := point in
    let '(ip_srs, kzg_srs) := s in
    let ck_1 := fst (get_commitment_keys ip_srs) in
    do _ <- rassert (length p <=? length ck_1);
    let powers_of_x := push_powers (length ck_1) f1 x in
    let coeffs := map (resize (length kzg_srs) f0) (chain_cycle_take p [] (length ck_1)) in
    do y_eval_coeffs <- y_eval_coefficients (length kzg_srs) (length ck_1) powers_of_x coeffs;
    do y_eval_comm <- runwrap (msm kzg_srs y_eval_coeffs);
    do ip_proof <- tssm_prove lmc ipc ip D fuel ip_srs (y_polynomial_comms, powers_of_x)
                     (ck_1, (tt : unitmod K));
    do kzg_proof <- kzg_open kzg_srs (from_coefficients y_eval_coeffs) y;
    Ok (mk_opening ip_proof y_eval_comm kzg_proof).

  (** mod.rs 264-283 [verify] *)
  Definition bpc_verify (v : vsrs P) (com : pGT P) (point : K * K) (eval : K)
      (proof : opening_proof P) : res bool :=
    let '(x, y) := point in
    do ip_valid <- tssm_verify lmc ipc ip D fuel E v (tt : unitmod K)
                     ((com : mod_carrier (pGT P)), ([op_y_eval_comm proof] : identity_output (pG1 P)))
                     x (op_ip proof);
    do kzg_valid <- kzg_verify v (op_y_eval_comm proof) y eval (op_kzg proof);
    Ok (ip_valid && kzg_valid).

  (** mod.rs 300-304 [parse_bivariate_degrees_from_srs]; the subtractions underflow (panic) on empty
      vectors. *)
  Definition parse_degrees_srs (s : srs P * list (pG1 P)) : res (nat * nat) :=
    do _ <- rassert (0 <? length (h_beta_powers (fst s)));
    do _ <- rassert (0 <? length (snd s));
    Ok ((length (h_beta_powers (fst s)) - 1) / 2, length (snd s) - 1).

  (** mod.rs 331-334 *)
  Definition upc_setup (rng : R) (degree : nat) : res (srs P * list (pG1 P) * R) :=
    do (x_degree, y_degree) <- bivariate_degrees 32 16 degree;
    bpc_setup rng x_degree y_degree.

  (** mod.rs 336-345 *)
  Definition upc_commit (s : srs P * list (pG1 P)) (p : list K) : res (pGT P * list (pG1 P)) :=
    do degrees <- parse_degrees_srs s;
    do bp <- bivariate_form degrees p;
    bpc_commit s bp.

  (** mod.rs 347-362 *)
  Definition upc_open (s : srs P * list (pG1 P)) (p : list K) (y_polynomial_comms : list (pG1 P))
      (point : K) : res (opening_proof P) :=
    do (x_degree, y_degree) <- parse_degrees_srs s;
    do bp <- bivariate_form (x_degree, y_degree) p;
    bpc_open s bp y_polynomial_comms (fpow point (y_degree + 1), point).

  (** mod.rs 364-376 *)
  Definition upc_verify (v : vsrs P) (max_degree : nat) (com : pGT P) (point eval : K)
      (proof : opening_proof P) : res bool :=
    do (_, y_degree) <- bivariate_degrees 32 16 max_degree;
    bpc_verify v com (fpow point (y_degree + 1), point) eval proof.
End Bivariate.

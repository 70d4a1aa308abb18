(** Instrumented copies of the remaining provers, of commit, of the polynomial openings and of the setups
    (Tipa.v, Ssm.v, PolyCommit.v, Transparent.v, Groth16.v); see Cost.v.  PropsCostProve.v proves that
    without the list of operations they are the same functions. *)
Require Import List Arith Bool NArith ZArith.
Import ListNotations.
Require Import Verif.Outcome Verif.Algebra Verif.Rust Verif.InnerProducts Verif.Commitments
  Verif.Poly Verif.Gipa Verif.Tipa Verif.Ssm Verif.Floats Verif.PolyCommit Verif.Transparent Verif.Groth16 Verif.Cost.

(** a loop that stops at the first failure ([rmapM]) *)
Fixpoint tmapM {A B} (f : A -> traced B) (l : list A) : traced (list B) :=
  match l with
  | [] => lift (Ok [])
  | x :: l => run y <- f x; run ys <- tmapM f l; lift (Ok (y :: ys))
  end.

(** ip_proofs/src/tipa/mod.rs 372-391: [num] powers and [num] multiples of one base ([FixedBase::msm];
    building its window table is not listed) *)
Definition structured_generators_scalar_power_t {K} {G : module K} (num : nat) (g : G) (s : K)
  : traced (list G) :=
  run _ <- lift (rassert (0 <? num));
  run _ <- emit (repeat OPush num);
  run _ <- emit (repeat OScale num);
  lift (Ok (map (fun x => x *m g) (push_powers num f1 s))).

(** tipa/mod.rs 408-415 *)
Fixpoint coefficients_loop_t {K : field} (i : nat) (transcript : list K) (power_2_r : K)
    (coefficients : list K) : traced (list K) :=
  match transcript with
  | [] => lift (Ok coefficients)
  | x :: t =>
    run coefficients <- push_scaled_t (x *f power_2_r) (seq 0 (2 ^ i)) coefficients;
    coefficients_loop_t (S i) t (power_2_r *f power_2_r) coefficients
  end.

(** tipa/mod.rs 407-422 *)
Definition poly_coefficients_from_transcript_t {K : field} (transcript : list K) (r_shift : K)
  : traced (list K) :=
  run coefficients <- coefficients_loop_t 0 transcript r_shift [f1];
  lift (Ok (interleave coefficients (repeat f0 (length coefficients - 1)))).

(** tipa/mod.rs 304-337.  The division (field operations linear in the degree) is not listed. *)
Definition prove_ck_kzg_opening_t {K} {G : module K} (srs_powers : list G) (transcript : list K)
    (r_shift kzg_challenge : K) : traced G :=
  run coeffs <- poly_coefficients_from_transcript_t transcript r_shift;
  let ck_polynomial := from_coefficients coeffs in
  run _ <- lift (rassert (length srs_powers =? length ck_polynomial));
  let eval := poly_eval_product_form transcript kzg_challenge r_shift in
  run quotient <- lift (poly_div (poly_sub ck_polynomial (from_coefficients [eval]))
                          (from_coefficients [fopp kzg_challenge; f1]));
  run _ <- emit [OMsm (length srs_powers)];
  lift (multiexp_ip G srs_powers (resize (length srs_powers) f0 quotient)).

Section Tipa.
  Context {R : Type} {P : pairing}.
  Notation K := (pK P).
  Context {MA MB MT KT : module (pK P)} {OA OB OT : carrier (pK P)}.
  Variable LMC : dhc R MA (pG2 P) OA.
  Variable RMC : dhc R MB (pG1 P) OB.
  Variable IPC : dhc R MT KT OT.
  Variable ip : list MA -> list MB -> res MT.
  Variable D : bytes -> bytes.
  Variable fuel : nat.
  Variable rand_scalar : sampler R (pK P).

  (** tipa/mod.rs 150-164; the setup of the inner-product commitment (one key) is not listed *)
  Definition tipa_setup_t (rng : R) (size : nat) : traced (srs P * KT * R) :=
    let (alpha, rng) := rand_scalar rng in
    let (beta, rng) := rand_scalar rng in
    let g := pr_g P in
    let h := pr_h P in
    run _ <- lift (rassert (0 <? size));
    run ga <- structured_generators_scalar_power_t (2 * size - 1) g alpha;
    run hb <- structured_generators_scalar_power_t (2 * size - 1) h beta;
    run _ <- emit [OScale; OScale];
    run (kt, rng) <- lift (dh_setup IPC rng 1);
    run kt <- lift (runwrap (last_opt kt));
    lift (Ok (mk_srs ga hb (beta *m g) (alpha *m h), kt, rng)).

  (** tipa/mod.rs 176-231 *)
  Definition tipa_prove_with_srs_shift_t (s : srs P) (values : list MA * list MB)
      (ck : list (pG2 P) * list (pG1 P) * KT) (r_shift : K) : traced (tipa_proof P MA MB OA OB OT) :=
    let '(ck_a, ck_b, ck_t) := ck in
    run (proof, aux) <- gipa_prove_with_aux_t LMC RMC IPC ip D fuel values (ck_a, ck_b, [ck_t]);
    let '(ck_a_final, ck_b_final) := ga_ck_base aux in
    let transcript := ga_transcript aux in
    run transcript_inverse <- lift (invert_all transcript);
    run r_inverse <- lift (runwrap (finverse r_shift));
    run t0 <- lift (runwrap (hd_error transcript));
    run c <- rand_challenge_t D fuel 0 (tipa_kzg_payload t0 ck_a_final ck_b_final);
    run ck_a_kzg_opening <- prove_ck_kzg_opening_t (h_beta_powers s) transcript_inverse r_inverse c;
    run ck_b_kzg_opening <- prove_ck_kzg_opening_t (g_alpha_powers s) transcript f1 c;
    lift (Ok (mk_tipa_proof proof (ck_a_final, ck_b_final) (ck_a_kzg_opening, ck_b_kzg_opening))).
End Tipa.

Section Ssm.
  Context {R : Type} {P : pairing}.
  Notation K := (pK P).
  Context {MA MT KA KT : module (pK P)} {OA OT : carrier (pK P)}.
  Variable IPC : dhc R MT KT OT.
  Variable ip : list MA -> list (fmod (pK P)) -> res MT.
  Variable D : bytes -> bytes.
  Variable fuel : nat.

  (** tipa/structured_scalar_message.rs 70-84.  The right commitment is the placeholder scheme, which
      computes nothing; it is listed like any other commitment. *)
  Definition gssm_prove_t (LMC : dhc R MA KA OA) (values : list MA * list (fmod K)) (ck : list KA * KT)
    : traced (gssm_proof MA OA OT) :=
    let '(ck_a, ck_t) := ck in
    run (proof, _) <- gipa_prove_with_aux_t LMC (ssm_placeholder K) IPC ip D fuel values
                       (ck_a, repeat (tt : unitmod K) (length (snd values)), [ck_t]);
    lift (Ok proof).

  (** 211-268 *)
  Definition tssm_prove_t (LMC : dhc R MA (pG2 P) OA) (s : srs P) (values : list MA * list (fmod K))
      (ck : list (pG2 P) * KT) : traced (tssm_proof P MA OA OT) :=
    let '(ck_a, ck_t) := ck in
    run (proof, aux) <- gipa_prove_with_aux_t LMC (ssm_placeholder K) IPC ip D fuel values
                         (ck_a, repeat (tt : unitmod K) (length (snd values)), [ck_t]);
    let '(ck_a_final, _) := ga_ck_base aux in
    let transcript := ga_transcript aux in
    run transcript_inverse <- lift (invert_all transcript);
    run t0 <- lift (runwrap (hd_error transcript));
    run c <- rand_challenge_t D fuel 0 (tssm_kzg_payload t0 ck_a_final);
    run opening <- prove_ck_kzg_opening_t (h_beta_powers s) transcript_inverse f1 c;
    lift (Ok (mk_tssm_proof proof ck_a_final opening)).
End Ssm.

Section Poly.
  Context {R : Type}.
  Variable P : pairing.
  Notation K := (pK P).
  Variable E : penv.
  Variable D : bytes -> bytes.
  Variable fuel : nat.
  Variable rand_scalar : sampler R (pK P).
  Variable rand_g1 : sampler R (pG1 P).
  Variable rand_g2 : sampler R (pG2 P).

  (** applications/poly_commit/mod.rs 76-86 *)
  Definition kzg_commit_t (powers : list (pG1 P)) (polynomial : list K) : traced (pG1 P) :=
    run deg <- lift (poly_degree polynomial);
    run _ <- lift (rassert (deg + 1 <=? length powers));
    run _ <- emit [OMsm (length powers)];
    lift (runwrap (msm powers (resize (length powers) f0 polynomial))).

  (** 88-106.  The division is not listed. *)
  Definition kzg_open_t (powers : list (pG1 P)) (polynomial : list K) (point : K) : traced (pG1 P) :=
    run deg <- lift (poly_degree polynomial);
    run _ <- lift (rassert (deg + 1 <=? length powers));
    run quotient <- lift (poly_div polynomial (from_coefficients [fopp point; f1]));
    run _ <- emit [OMsm (length powers)];
    lift (runwrap (msm powers (resize (length powers) f0 quotient))).

  (** 153-174 *)
  Definition bpc_setup_t (rng : R) (x_degree y_degree : nat) : traced (srs P * list (pG1 P) * R) :=
    let (alpha, rng) := rand_scalar rng in
    let (beta, rng) := rand_scalar rng in
    let g := pr_g P in
    let h := pr_h P in
    run kzg_srs <- structured_generators_scalar_power_t (y_degree + 1) g alpha;
    run hb <- structured_generators_scalar_power_t (2 * x_degree + 1) h beta;
    run _ <- emit [OScale; OScale];
    lift (Ok (mk_srs [g] hb (beta *m g) (alpha *m h), kzg_srs, rng)).

  (** 176-198 *)
  Definition bpc_commit_t (s : srs P * list (pG1 P)) (p : bipoly K) : traced (pGT P * list (pG1 P)) :=
    let '(ip_srs, kzg_srs) := s in
    let ck := fst (get_commitment_keys ip_srs) in
    run _ <- lift (rassert (length p <=? length ck));
    run coms <- tmapM (kzg_commit_t kzg_srs) (chain_cycle_take p [] (length ck));
    run _ <- emit [OCommit (length coms)];
    run com <- lift (dh_commit (afgho_g1 P E rand_g2) ck coms);
    lift (Ok (com, coms)).

  (** 200-262; the coefficients of the polynomial in y (230-236) are inner products with the powers of x *)
  Definition bpc_open_t (s : srs P * list (pG1 P)) (p : bipoly K) (y_polynomial_comms : list (pG1 P))
      (point : K * K) : traced (opening_proof P) :=
    let '(x, y) := point in
    let '(ip_srs, kzg_srs) := s in
    let ck_1 := fst (get_commitment_keys ip_srs) in
    run _ <- lift (rassert (length p <=? length ck_1));
    run _ <- emit (repeat OPush (length ck_1));
    let powers_of_x := push_powers (length ck_1) f1 x in
    let coeffs := map (resize (length kzg_srs) f0) (chain_cycle_take p [] (length ck_1)) in
    run _ <- emit (repeat (OProduct (length ck_1)) (length kzg_srs));
    run y_eval_coeffs <- lift (y_eval_coefficients (length kzg_srs) (length ck_1) powers_of_x coeffs);
    run _ <- emit [OMsm (length kzg_srs)];
    run y_eval_comm <- lift (runwrap (msm kzg_srs y_eval_coeffs));
    run ip_proof <- tssm_prove_t (identity (R := R) (pG1 P)) (multiexp_ip (pG1 P)) D fuel (afgho_g1 P E rand_g2) ip_srs
                      (y_polynomial_comms, powers_of_x) (ck_1, (tt : unitmod K));
    run kzg_proof <- kzg_open_t kzg_srs (from_coefficients y_eval_coeffs) y;
    lift (Ok (mk_opening ip_proof y_eval_comm kzg_proof)).

  (** transparent.rs 114-119 *)
  Definition t_row_commit_t (first_tier_ck : list (pG1 P)) (coeffs : list K) : traced (pG1 P) :=
    run _ <- lift (rassert (length coeffs <=? length first_tier_ck));
    run _ <- emit [OCommit (length first_tier_ck)];
    lift (dh_commit (pedersen (pG1 P) rand_g1) first_tier_ck (resize (length first_tier_ck) f0 coeffs)).

  (** transparent.rs 101-127 *)
  Definition tbpc_commit_t (ck : list (pG1 P) * list (pG2 P)) (p : bipoly K)
    : traced (pGT P * list (pG1 P)) :=
    let '(first_tier_ck, second_tier_ck) := ck in
    run _ <- lift (rassert (length p <=? length second_tier_ck));
    run coms <- tmapM (t_row_commit_t first_tier_ck) (chain_cycle_take p [] (length second_tier_ck));
    run _ <- emit [OCommit (length coms)];
    run com <- lift (dh_commit (afgho_g1 P E rand_g2) second_tier_ck coms);
    lift (Ok (com, coms)).

  (** transparent.rs 129-186 *)
  Definition tbpc_open_t (ck : list (pG1 P) * list (pG2 P)) (p : bipoly K)
      (y_polynomial_comms : list (pG1 P)) (point : K * K) : traced (t_opening_proof P) :=
    let '(x, y) := point in
    let '(first_tier_ck, second_tier_ck) := ck in
    run _ <- lift (rassert (length p <=? length second_tier_ck));
    run powers_of_x <- lift (structured_scalar_power (length second_tier_ck) x);
    run _ <- emit (repeat OPush (length powers_of_x));
    let coeffs := map (resize (length first_tier_ck) f0)
                      (chain_cycle_take p [] (length second_tier_ck)) in
    run _ <- emit (repeat (OProduct (length second_tier_ck)) (length first_tier_ck));
    run y_eval_coeffs <- lift (y_eval_coefficients (length first_tier_ck) (length second_tier_ck)
                          powers_of_x coeffs);
    run _ <- emit [OCommit (length y_eval_coeffs)];
    run y_eval_comm <- lift (dh_commit (pedersen (pG1 P) rand_g1) first_tier_ck y_eval_coeffs);
    run second <- gssm_prove_t (identity (R := R) (pG1 P)) (multiexp_ip (pG1 P)) D fuel (afgho_g1 P E rand_g2)
                    (y_polynomial_comms, powers_of_x) (second_tier_ck, (tt : unitmod K));
    run powers_of_y <- lift (structured_scalar_power (length first_tier_ck) y);
    run _ <- emit (repeat OPush (length powers_of_y));
    run first <- gssm_prove_t (MA := fmod (pK P)) (identity (R := R) (fmod (pK P))) (@scalar_ip (pK P) E) D fuel (pedersen (pG1 P) rand_g1)
                   (y_eval_coeffs, powers_of_y) (first_tier_ck, (tt : unitmod K));
    lift (Ok (mk_t_opening second y_eval_comm first)).

  (** applications/groth16_aggregation.rs 77-160: the three commitments (100-102) and the self-check (133-136)
      are pairing inner products *)
  Definition g16_aggregate_t (ip_srs : srs P) (proofs : list (g16_proof P)) : traced (agg_proof P) :=
    let a := map pf_a proofs in
    let b := map pf_b proofs in
    let c := map pf_c proofs in
    let '(ck_1, ck_2) := get_commitment_keys ip_srs in
    run _ <- emit [OProduct (length a)];
    run com_a <- lift (pairing_ip P E a ck_1);
    run _ <- emit [OProduct (length b)];
    run com_b <- lift (pairing_ip P E ck_2 b);
    run _ <- emit [OProduct (length c)];
    run com_c <- lift (pairing_ip P E c ck_1);
    run r <- rand_challenge_t D fuel 0 (g16_payload P com_a com_b com_c);
    run r_vec <- lift (structured_scalar_power (length proofs) r);
    run _ <- emit (repeat OPush (length r_vec));
    run _ <- emit (repeat OScale (Nat.min (length a) (length r_vec)));
    let a_r := zipw (fun a r => r *m a) a r_vec in
    run _ <- emit [OProduct (length a_r)];
    run ip_ab <- lift (pairing_ip P E a_r b);
    run _ <- emit [OMsm (length c)];
    run agg_c <- lift (multiexp_ip (pG1 P) c r_vec);
    run ck_1_r <- tmapM (fun p => run ri <- lift (runwrap (finverse (snd p))); run _ <- emit [OScale]; lift (Ok (ri *m fst p)))
                       (combine ck_1 r_vec);
    run _ <- emit [OProduct (length a_r)];
    run com_a' <- lift (pairing_ip P E a_r ck_1_r);
    run _ <- lift (rassert (meqb com_a com_a'));
    run tipa_proof_ab <- tipa_prove_with_srs_shift_t (afgho_g1 P E rand_g2) (afgho_g2 P E rand_g1) (identity (R := R) (pGT P)) (pairing_ip P E) D fuel
                          ip_srs (a_r, b) (ck_1_r, ck_2, (tt : unitmod K)) r;
    run tipa_proof_c <- tssm_prove_t (identity (R := R) (pG1 P)) (multiexp_ip (pG1 P)) D fuel (afgho_g1 P E rand_g2)
                          ip_srs (c, r_vec) (ck_1, (tt : unitmod K));
    lift (Ok (mk_agg_proof com_a com_b com_c ip_ab agg_c tipa_proof_ab tipa_proof_c)).
End Poly.

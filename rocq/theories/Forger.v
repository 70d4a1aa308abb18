(** Adversaries, not code of the repository: programs that run the library's own functions and group
    operations on public data (keys, SRS elements, the prover's vectors) to make proofs of false
    statements.  They exploit that the round challenges hash neither the statement nor the claimed value:
    the first round is made with one component shifted by [d], and the claimed value is shifted by
    [- c * d] once the challenge [c] is known.  Used in the [_refuted] theorems of C17 and C61. *)
Require Import List Arith Bool NArith ZArith.
Import ListNotations.
Require Import Verif.Outcome Verif.Algebra Verif.Rust Verif.InnerProducts Verif.Commitments
  Verif.Poly Verif.Gipa Verif.Tipa Verif.Ssm Verif.Floats Verif.PolyCommit Verif.Transparent.

Section GipaForger.
  Context {R : Type} {K : field}.
  Context {MA MB MT KA KB KT : module K} {OA OB OT : carrier K}.
  Variable LMC : dhc R MA KA OA.
  Variable RMC : dhc R MB KB OB.
  Variable IPC : dhc R MT KT OT.
  Variable ip : list MA -> list MB -> res MT.
  Variable D : bytes -> bytes.
  Variable fuel : nat.

  (** [prove_with_aux] with the inner product of the first round shifted by [d]; also returns the first
      challenge. *)
  Definition gipa_forger (values : list MA * list MB) (ck : list KA * list KB * list KT) (d : MT)
    : res (gipa_proof MA MB OA OB OT * gipa_aux KA KB * K) :=
    let '(m_a, m_b) := values in
    let '(ck_a, ck_b, ck_t) := ck in
    let split := length m_a / 2 in
    do m_a_1 <- slice_from m_a split;
    do m_a_2 <- slice_to m_a split;
    do ck_a_1 <- slice_to ck_a split;
    do ck_a_2 <- slice_from ck_a split;
    do m_b_1 <- slice_to m_b split;
    do m_b_2 <- slice_from m_b split;
    do ck_b_1 <- slice_from ck_b split;
    do ck_b_2 <- slice_to ck_b split;
    do a <- dh_commit LMC ck_a_1 m_a_1;
    do b <- dh_commit RMC ck_b_1 m_b_1;
    do v <- ip m_a_1 m_b_1;
    do t <- dh_commit IPC ck_t [v +m d];
    let com_1 := (a, b, t) in
    do com_2 <- gipa_commit3 LMC RMC IPC ip ck_a_2 m_a_2 ck_b_2 m_b_2 ck_t;
    do (c, c_inv) <- gipa_challenge D fuel 0 f0 com_1 com_2;
    do (m_base, ck_base, steps, transcript) <-
      gipa_prove_loop LMC RMC IPC ip D fuel (length m_a)
        (rescale c m_a_1 m_a_2) (rescale c_inv m_b_2 m_b_1)
        (rescale c_inv ck_a_2 ck_a_1) (rescale c ck_b_1 ck_b_2) ck_t [(com_1, com_2)] [c];
    Ok (mk_gipa_proof (rev steps) m_base, mk_gipa_aux (rev transcript) ck_base, c).
End GipaForger.

Section SsmForger.
  Context {R : Type} {K : field}.
  Context {MA MT KA KT : module K} {OA OT : carrier K}.
  Variable LMC : dhc R MA KA OA.
  Variable IPC : dhc R MT KT OT.
  Variable ip : list MA -> list (fmod K) -> res MT.
  Variable D : bytes -> bytes.
  Variable fuel : nat.

  Definition gssm_forger (values : list MA * list (fmod K)) (ck : list KA * KT) (d : MT)
    : res (gssm_proof MA OA OT * K) :=
    let '(ck_a, ck_t) := ck in
    do (proof, _, c) <- gipa_forger LMC (ssm_placeholder K) IPC ip D fuel values
                          (ck_a, repeat (tt : unitmod K) (length (snd values)), [ck_t]) d;
    Ok (proof, c).
End SsmForger.

Section TssmForger.
  Context {R : Type} {P : pairing}.
  Notation K := (pK P).
  Context {MA MT KT : module (pK P)} {OA OT : carrier (pK P)}.
  Variable LMC : dhc R MA (pG2 P) OA.
  Variable IPC : dhc R MT KT OT.
  Variable ip : list MA -> list (fmod (pK P)) -> res MT.
  Variable D : bytes -> bytes.
  Variable fuel : nat.

  Definition tssm_forger (s : srs P) (values : list MA * list (fmod K)) (ck : list (pG2 P) * KT) (d : MT)
    : res (tssm_proof P MA OA OT * K) :=
    let '(ck_a, ck_t) := ck in
    do (proof, aux, c1) <- gipa_forger LMC (ssm_placeholder K) IPC ip D fuel values
                             (ck_a, repeat (tt : unitmod K) (length (snd values)), [ck_t]) d;
    let '(ck_a_final, _) := ga_ck_base aux in
    let transcript := ga_transcript aux in
    do transcript_inverse <- invert_all transcript;
    do t0 <- runwrap (hd_error transcript);
    do c <- rand_challenge D fuel 0 (tssm_kzg_payload t0 ck_a_final);
    do opening <- prove_ck_kzg_opening (h_beta_powers s) transcript_inverse f1 c;
    Ok (mk_tssm_proof proof ck_a_final opening, c1).
End TssmForger.

Section PcForger.
  Context {R : Type}.
  Variable P : pairing.
  Notation K := (pK P).
  Variable E : penv.
  Variable D : bytes -> bytes.
  Variable fuel : nat.
  Variable rand_g1 : sampler R (pG1 P).
  Variable rand_g2 : sampler R (pG2 P).

  (** Takes the honest opening and remakes its inner-product argument; returns the forged opening and the
      value it is for. *)
  Definition bpc_forger (s : srs P * list (pG1 P)) (p : bipoly K) (y_polynomial_comms : list (pG1 P))
      (point : K * K) (d : K) : res (opening_proof P * K) :=
    let '(ip_srs, kzg_srs) := s in
    let ck_1 := fst (get_commitment_keys ip_srs) in
    do honest <- bpc_open P E D fuel rand_g2 s p y_polynomial_comms point;
    do g <- index kzg_srs 0;
    do (ip_proof, c) <- tssm_forger (afgho_g1 P E rand_g2) (identity (R := R) (pG1 P)) (multiexp_ip (pG1 P)) D fuel
      ip_srs (y_polynomial_comms, push_powers (length ck_1) f1 (fst point)) (ck_1, (tt : unitmod K)) (d *m g);
    Ok (mk_opening ip_proof (op_y_eval_comm honest -m c *m (d *m g)) (op_kzg honest),
        bipoly_evaluate p point -f c *f d).

  Definition upc_forger (s : srs P * list (pG1 P)) (p : list K) (y_polynomial_comms : list (pG1 P))
      (point d : K) : res (opening_proof P * K) :=
    do (x_degree, y_degree) <- parse_degrees_srs P s;
    do bp <- bivariate_form (x_degree, y_degree) p;
    bpc_forger s bp y_polynomial_comms (fpow point (y_degree + 1), point) d.

  Definition tbpc_forger (ck : list (pG1 P) * list (pG2 P)) (p : bipoly K) (y_polynomial_comms : list (pG1 P))
      (point : K * K) (d : K) : res (t_opening_proof P * K) :=
    let '(first_tier_ck, second_tier_ck) := ck in
    let '(x, y) := point in
    do honest <- tbpc_open P E D fuel rand_g1 rand_g2 ck p y_polynomial_comms point;
    do y_eval_coeffs <- y_eval_coefficients (length first_tier_ck) (length second_tier_ck)
      (push_powers (length second_tier_ck) f1 x)
      (map (resize (length first_tier_ck) f0) (chain_cycle_take p [] (length second_tier_ck)));
    do (first, c) <- gssm_forger (pedersen (pG1 P) rand_g1) (identity (R := R) (fmod K)) (@scalar_ip (pK P) E) D fuel
      ((y_eval_coeffs : list (fmod K)), push_powers (length first_tier_ck) f1 y)
      (first_tier_ck, (tt : unitmod K)) (d : fmod K);
    Ok (mk_t_opening (to_second honest) (to_y_eval_comm honest) first, bipoly_evaluate p point -f c *f d).

  Definition tupc_forger (ck : list (pG1 P) * list (pG2 P)) (p : list K) (y_polynomial_comms : list (pG1 P))
      (point d : K) : res (t_opening_proof P * K) :=
    do (x_degree, y_degree) <- parse_degrees_ck P ck;
    do bp <- bivariate_form (x_degree, y_degree) p;
    tbpc_forger ck bp y_polynomial_comms (fpow point (y_degree + 1), point) d.
End PcForger.

(** Model of ip_proofs/src/tipa/mod.rs. *)
Require Import List Arith Bool NArith.
Import ListNotations.
Require Import Verif.Outcome Verif.Algebra Verif.Rust Verif.InnerProducts Verif.Commitments
  Verif.Poly Verif.Gipa.

(** mod.rs 97-102 [SRS], 105-110 [VerifierSRS] *)
Record srs (P : pairing) : Type := mk_srs {
  g_alpha_powers : list (pG1 P);
  h_beta_powers : list (pG2 P);
  srs_g_beta : pG1 P;
  srs_h_alpha : pG2 P
}.
Arguments mk_srs {P}.
Arguments g_alpha_powers {P}.
Arguments h_beta_powers {P}.
Arguments srs_g_beta {P}.
Arguments srs_h_alpha {P}.

Record vsrs (P : pairing) : Type := mk_vsrs {
  v_g : pG1 P;
  v_h : pG2 P;
  v_g_beta : pG1 P;
  v_h_alpha : pG2 P
}.
Arguments mk_vsrs {P}.
Arguments v_g {P}.
Arguments v_h {P}.
Arguments v_g_beta {P}.
Arguments v_h_alpha {P}.

(** mod.rs 114-118 *)
Definition get_commitment_keys {P} (s : srs P) : list (pG2 P) * list (pG1 P) :=
  (step_by2 (h_beta_powers s), step_by2 (g_alpha_powers s)).

(** mod.rs 120-127 *)
Definition get_verifier_key {P} (s : srs P) : res (vsrs P) :=
  do g <- index (g_alpha_powers s) 0;
  do h <- index (h_beta_powers s) 0;
  Ok (mk_vsrs g h (srs_g_beta s) (srs_h_alpha s)).

(** mod.rs 378-383: powers pushed in a loop. *)
Fixpoint push_powers {K : field} (num : nat) (pow s : K) : list K :=
  match num with
  | O => []
  | S n => pow :: push_powers n (pow *f s) s
  end.

(** mod.rs 372-391 [structured_generators_scalar_power]; [FixedBase::msm] gives the scalar
    multiples of the base. *)
Definition structured_generators_scalar_power {K} {G : module K} (num : nat) (g : G) (s : K)
  : res (list G) :=
  do _ <- rassert (0 <? num);
  Ok (map (fun x => x *m g) (push_powers num f1 s)).

(** mod.rs 398-404 *)
Fixpoint product_form_terms {K : field} (transcript : list K) (power_2_zr : K) : list K :=
  match transcript with
  | [] => []
  | x :: t => (f1 +f x *f power_2_zr) :: product_form_terms t (power_2_zr *f power_2_zr)
  end.

(** mod.rs 393-405 [polynomial_evaluation_product_form_from_transcript] *)
Definition poly_eval_product_form {K : field} (transcript : list K) (z r_shift : K) : K :=
  fold_left fmul (product_form_terms transcript ((z *f z) *f r_shift)) f1.

(** mod.rs 408-415 *)
Fixpoint coefficients_loop {K : field} (i : nat) (transcript : list K) (power_2_r : K)
    (coefficients : list K) : res (list K) :=
  match transcript with
  | [] => Ok coefficients
  | x :: t =>
    do coefficients <- push_scaled (x *f power_2_r) (seq 0 (2 ^ i)) coefficients;
    coefficients_loop (S i) t (power_2_r *f power_2_r) coefficients
  end.

(** mod.rs 407-422 [polynomial_coefficients_from_transcript] *)
Definition poly_coefficients_from_transcript {K : field} (transcript : list K) (r_shift : K)
  : res (list K) :=
  do coefficients <- coefficients_loop 0 transcript r_shift [f1];
  Ok (interleave coefficients (repeat f0 (length coefficients - 1))).

(** mod.rs 304-337 [prove_commitment_key_kzg_opening] *)
Definition prove_ck_kzg_opening {K} {G : module K} (srs_powers : list G) (transcript : list K)
    (r_shift kzg_challenge : K) : res G :=
  do coeffs <- poly_coefficients_from_transcript transcript r_shift;
  let ck_polynomial := from_coefficients coeffs in
  do _ <- rassert (length srs_powers =? length ck_polynomial);
  let eval := poly_eval_product_form transcript kzg_challenge r_shift in
  do quotient <- poly_div (poly_sub ck_polynomial (from_coefficients [eval]))
                          (from_coefficients [fopp kzg_challenge; f1]);
  multiexp_ip G srs_powers (resize (length srs_powers) f0 quotient).

(** mod.rs 340-354 [verify_commitment_key_g2_kzg_opening]; [P::pairing] is [pr_e]. *)
Definition verify_ck_g2_kzg_opening {P} (v : vsrs P) (ck_final ck_opening : pG2 P)
    (transcript : list (pK P)) (r_shift kzg_challenge : pK P) : res bool :=
  let eval := poly_eval_product_form transcript kzg_challenge r_shift in
  Ok (meqb (pr_e P (v_g v) (ck_final -m (eval *m v_h v)))
           (pr_e P (v_g_beta v -m (kzg_challenge *m v_g v)) ck_opening)).

(** mod.rs 356-370 [verify_commitment_key_g1_kzg_opening] *)
Definition verify_ck_g1_kzg_opening {P} (v : vsrs P) (ck_final ck_opening : pG1 P)
    (transcript : list (pK P)) (r_shift kzg_challenge : pK P) : res bool :=
  let eval := poly_eval_product_form transcript kzg_challenge r_shift in
  Ok (meqb (pr_e P (ck_final -m (eval *m v_g v)) (v_h v))
           (pr_e P ck_opening (v_h_alpha v -m (kzg_challenge *m v_h v)))).

(** The loops that draw a field element with [from_random_bytes]: mod.rs 195-209 and 258-272,
    structured_scalar_message.rs 238-251 and 289-302, groth16_aggregation.rs 105-116 and 173-184.
    [payload] is what follows the nonce in [hash_input]. *)
Fixpoint rand_challenge {K : field} (D : bytes -> bytes) (fuel nonce : nat) (payload : bytes) : res K :=
  match fuel with
  | O => Loop
  | S fuel =>
    match f_rand (D (usize_be nonce ++ payload)) with
    | Some c => Ok c
    | None => rand_challenge D fuel (S nonce) payload
    end
  end.

(** [iter().map(|x| x.inverse().unwrap()).collect()]: mod.rs 191, 251 *)
Definition invert_all {K : field} (l : list K) : res (list K) :=
  rmapM (fun x => runwrap (finverse x)) l.

(** mod.rs 42-65 [TIPAProof] *)
Record tipa_proof (P : pairing) (MA MB : module (pK P)) (OA OB OT : carrier (pK P)) : Type := mk_tipa_proof {
  tp_gipa : gipa_proof MA MB OA OB OT;
  tp_final_ck : pG2 P * pG1 P;
  tp_final_ck_proof : pG2 P * pG1 P
}.
Arguments mk_tipa_proof {P MA MB OA OB OT}.
Arguments tp_gipa {P MA MB OA OB OT}.
Arguments tp_final_ck {P MA MB OA OB OT}.
Arguments tp_final_ck_proof {P MA MB OA OB OT}.

Section Tipa.
  Context {R : Type} {P : pairing}.
  Notation K := (pK P).
  Context {MA MB MT KT : module (pK P)} {OA OB OT : carrier (pK P)}.
  Variable LMC : dhc R MA (pG2 P) OA.
  Variable RMC : dhc R MB (pG1 P) OB.
  Variable IPC : dhc R MT KT OT.
  Variable ip : list MA -> list MB -> res MT.
  Variable D : bytes -> bytes.
  Variable fuel : nat.
  Variable rand_scalar : sampler R (pK P).

  (** mod.rs 150-164 [setup].  [2 * size - 1] underflows for size 0: modelled as a panic (debug
      build; with wrapping arithmetic the allocation fails). *)
  Definition tipa_setup (rng : R) (size : nat) : res (srs P * KT * R) :=
    let (alpha, rng) := rand_scalar rng in
    let (beta, rng) := rand_scalar rng in
    let g := pr_g P in
    let h := pr_h P in
    do _ <- rassert (0 <? size);
    do ga <- structured_generators_scalar_power (2 * size - 1) g alpha;
    do hb <- structured_generators_scalar_power (2 * size - 1) h beta;
    do (kt, rng) <- dh_setup IPC rng 1;
    do kt <- runwrap (last_opt kt);
    Ok (mk_srs ga hb (beta *m g) (alpha *m h), kt, rng).

  (** mod.rs 197-204 and 260-267: what is hashed for the KZG challenge, after the nonce. *)
  Definition tipa_kzg_payload (t0 : K) (ck_a_final : pG2 P) (ck_b_final : pG1 P) : bytes :=
    fser t0 ++ mser ck_a_final ++ mser ck_b_final.

  (** mod.rs 176-231 [prove_with_srs_shift] *)
  Definition tipa_prove_with_srs_shift (s : srs P) (values : list MA * list MB)
      (ck : list (pG2 P) * list (pG1 P) * KT) (r_shift : K) : res (tipa_proof P MA MB OA OB OT) :=
    let '(ck_a, ck_b, ck_t) := ck in
    do (proof, aux) <- gipa_prove_with_aux LMC RMC IPC ip D fuel values (ck_a, ck_b, [ck_t]);
    let '(ck_a_final, ck_b_final) := ga_ck_base aux in
    let transcript := ga_transcript aux in
    do transcript_inverse <- invert_all transcript;
    do r_inverse <- runwrap (finverse r_shift);
    do t0 <- runwrap (hd_error transcript);
    do c <- rand_challenge D fuel 0 (tipa_kzg_payload t0 ck_a_final ck_b_final);
    do ck_a_kzg_opening <- prove_ck_kzg_opening (h_beta_powers s) transcript_inverse r_inverse c;
    do ck_b_kzg_opening <- prove_ck_kzg_opening (g_alpha_powers s) transcript f1 c;
    Ok (mk_tipa_proof proof (ck_a_final, ck_b_final) (ck_a_kzg_opening, ck_b_kzg_opening)).

  (** mod.rs 166-172 [prove] *)
  Definition tipa_prove (s : srs P) (values : list MA * list MB)
      (ck : list (pG2 P) * list (pG1 P) * KT) : res (tipa_proof P MA MB OA OB OT) :=
    tipa_prove_with_srs_shift s values ck f1.

  (** mod.rs 242-301 [verify_with_srs_shift] *)
  Definition tipa_verify_with_srs_shift (v : vsrs P) (ck_t : KT) (com : com3 OA OB OT)
      (proof : tipa_proof P MA MB OA OB OT) (r_shift : K) : res bool :=
    do (base_com, transcript) <- gipa_recursive_challenges D fuel com (tp_gipa proof);
    do transcript_inverse <- invert_all transcript;
    let '(ck_a_final, ck_b_final) := tp_final_ck proof in
    let '(ck_a_proof, ck_b_proof) := tp_final_ck_proof proof in
    do t0 <- runwrap (hd_error transcript);
    do c <- rand_challenge D fuel 0 (tipa_kzg_payload t0 ck_a_final ck_b_final);
    do r_inverse <- runwrap (finverse r_shift);
    do ck_a_valid <- verify_ck_g2_kzg_opening v ck_a_final ck_a_proof transcript_inverse r_inverse c;
    do ck_b_valid <- verify_ck_g1_kzg_opening v ck_b_final ck_b_proof transcript f1 c;
    let '(com_a, com_b, com_t) := base_com in
    let '(a, b) := gp_base (tp_gipa proof) in
    do t <- ip [a] [b];
    do base_valid <- rand_then (dh_verify LMC [ck_a_final] [a] com_a)
                       (rand_then (dh_verify RMC [ck_b_final] [b] com_b)
                                  (dh_verify IPC [ck_t] [t] com_t));
    Ok (ck_a_valid && ck_b_valid && base_valid).

  (** mod.rs 233-240 [verify] *)
  Definition tipa_verify (v : vsrs P) (ck_t : KT) (com : com3 OA OB OT)
      (proof : tipa_proof P MA MB OA OB OT) : res bool :=
    tipa_verify_with_srs_shift v ck_t com proof f1.
End Tipa.

(** Model of ip_proofs/src/tipa/structured_scalar_message.rs. *)
Require Import List Arith Bool NArith.
Import ListNotations.
Require Import Verif.Outcome Verif.Algebra Verif.Rust Verif.InnerProducts Verif.Commitments
  Verif.Poly Verif.Gipa Verif.Tipa.

(** 28-47 [SSMPlaceholderCommitment] *)
Definition ssm_placeholder {R} (K : field) : dhc R (fmod K) (unitmod K) (mod_carrier (fmod K)) :=
  mk_dhc (fmod K) (unitmod K) (mod_carrier (fmod K))
    (fun rng size => Ok (repeat (tt : unitmod K) size, rng))
    (fun _ _ => Ok (f0 : K)).

(** 334-340 [structured_scalar_power]: [powers = [1]; for i in 1..num { push(powers[i-1] * s) }]. *)
Fixpoint scalar_power_loop {K : field} (is_ : list nat) (s : K) (powers : list K) : res (list K) :=
  match is_ with
  | [] => Ok powers
  | i :: is_ => do p <- index powers (i - 1); scalar_power_loop is_ s (powers ++ [p *f s])
  end.
Definition structured_scalar_power {K : field} (num : nat) (s : K) : res (list K) :=
  scalar_power_loop (seq 1 (num - 1)) s [f1].

(** 111-116 / 315-320: the factors of the final scalar; [x.inverse().unwrap()] may panic. *)
Fixpoint final_scalar_terms {K : field} (transcript : list K) (power_2_b : K) : res (list K) :=
  match transcript with
  | [] => Ok []
  | x :: t =>
    do xi <- runwrap (finverse x);
    do ts <- final_scalar_terms t (power_2_b *f power_2_b);
    Ok ((f1 +f xi *f power_2_b) :: ts)
  end.
(** 110-117 / 314-321: parallel product of the factors. *)
Definition final_scalar {K : field} (E : penv) (transcript : list K) (scalar_b : K) : res K :=
  do ts <- final_scalar_terms transcript scalar_b;
  Ok (par_reduce fmul f1 (shape E (length ts)) ts).

Section GipaSsm.
  Context {R : Type} {K : field}.
  Context {MA MT KA KT : module K} {OA OT : carrier K}.
  Variable LMC : dhc R MA KA OA.
  Variable IPC : dhc R MT KT OT.
  Variable ip : list MA -> list (fmod K) -> res MT.
  Variable D : bytes -> bytes.
  Variable fuel : nat.
  Variable E : penv.

  Definition gssm_proof : Type := gipa_proof MA (fmod K) OA (mod_carrier (fmod K)) OT.

  (** 66-68 [setup] *)
  Definition gssm_setup (rng : R) (size : nat) : res (list KA * KT * R) :=
    do (ka, rng) <- dh_setup LMC rng size;
    do (kt, rng) <- dh_setup IPC rng 1;
    do kt <- runwrap (last_opt kt);
    Ok (ka, kt, rng).

  (** 70-84 [prove_with_structured_scalar_message] *)
  Definition gssm_prove (values : list MA * list (fmod K)) (ck : list KA * KT) : res gssm_proof :=
    let '(ck_a, ck_t) := ck in
    do (proof, _) <- gipa_prove_with_aux LMC (ssm_placeholder K) IPC ip D fuel values
                       (ck_a, repeat (tt : unitmod K) (length (snd values)), [ck_t]);
    Ok proof.

  (** 86-127 [verify_with_structured_scalar_message] *)
  Definition gssm_verify (ck : list KA * KT) (com : OA * OT) (scalar_b : K) (proof : gssm_proof)
    : res bool :=
    let '(ck_a, ck_t) := ck in
    do (base_com, transcript) <-
      gipa_recursive_challenges D fuel (fst com, (f0 : mod_carrier (fmod K)), snd com) proof;
    do (ck_a_base, ck_b_base) <-
      gipa_final_keys ck_a (repeat (tt : unitmod K) (length ck_a)) transcript;
    do gipa_valid <- gipa_verify_base LMC (ssm_placeholder K) IPC ip ck_a_base ck_b_base [ck_t] base_com proof;
    do b_base <- final_scalar E transcript scalar_b;
    let '(com_a, _, com_t) := base_com in
    let a := fst (gp_base proof) in
    do t <- ip [a] [b_base : fmod K];
    do base_valid <- rand_then (dh_verify LMC [ck_a_base] [a] com_a)
                               (dh_verify IPC [ck_t] [t] com_t);
    Ok (gipa_valid && base_valid).
End GipaSsm.
Arguments gssm_proof {K} MA OA OT.

(** 138-156 [TIPAWithSSMProof] *)
Record tssm_proof (P : pairing) (MA : module (pK P)) (OA OT : carrier (pK P)) : Type := mk_tssm_proof {
  ts_gipa : gssm_proof MA OA OT;
  ts_final_ck : pG2 P;
  ts_final_ck_proof : pG2 P
}.
Arguments mk_tssm_proof {P MA OA OT}.
Arguments ts_gipa {P MA OA OT}.
Arguments ts_final_ck {P MA OA OT}.
Arguments ts_final_ck_proof {P MA OA OT}.

Section TipaSsm.
  Context {R : Type} {P : pairing}.
  Notation K := (pK P).
  Context {MA MT KT : module (pK P)} {OA OT : carrier (pK P)}.
  Variable LMC : dhc R MA (pG2 P) OA.
  Variable IPC : dhc R MT KT OT.
  Variable ip : list MA -> list (fmod (pK P)) -> res MT.
  Variable D : bytes -> bytes.
  Variable fuel : nat.
  Variable E : penv.
  Variable rand_scalar : sampler R (pK P).

  (** 195-209 [setup]: textually the same as TIPA::setup. *)
  Definition tssm_setup (rng : R) (size : nat) : res (srs P * KT * R) :=
    tipa_setup IPC rand_scalar rng size.

  (** 240-246 / 291-297 *)
  Definition tssm_kzg_payload (t0 : K) (ck_a_final : pG2 P) : bytes :=
    fser t0 ++ mser ck_a_final.

  (** 211-268 [prove_with_structured_scalar_message] *)
  Definition tssm_prove (s : srs P) (values : list MA * list (fmod K)) (ck : list (pG2 P) * KT)
    : res (tssm_proof P MA OA OT) :=
    let '(ck_a, ck_t) := ck in
    do (proof, aux) <- gipa_prove_with_aux LMC (ssm_placeholder K) IPC ip D fuel values
                         (ck_a, repeat (tt : unitmod K) (length (snd values)), [ck_t]);
    let '(ck_a_final, _) := ga_ck_base aux in
    let transcript := ga_transcript aux in
    do transcript_inverse <- invert_all transcript;
    do t0 <- runwrap (hd_error transcript);
    do c <- rand_challenge D fuel 0 (tssm_kzg_payload t0 ck_a_final);
    do opening <- prove_ck_kzg_opening (h_beta_powers s) transcript_inverse f1 c;
    Ok (mk_tssm_proof proof ck_a_final opening).

  (** 270-331 [verify_with_structured_scalar_message] *)
  Definition tssm_verify (v : vsrs P) (ck_t : KT) (com : OA * OT) (scalar_b : K)
      (proof : tssm_proof P MA OA OT) : res bool :=
    do (base_com, transcript) <-
      gipa_recursive_challenges D fuel (fst com, (scalar_b : mod_carrier (fmod K)), snd com)
        (ts_gipa proof);
    do transcript_inverse <- invert_all transcript;
    let ck_a_final := ts_final_ck proof in
    do t0 <- runwrap (hd_error transcript);
    do c <- rand_challenge D fuel 0 (tssm_kzg_payload t0 ck_a_final);
    do ck_a_valid <- verify_ck_g2_kzg_opening v ck_a_final (ts_final_ck_proof proof)
                       transcript_inverse f1 c;
    do b_base <- final_scalar E transcript scalar_b;
    let '(com_a, _, com_t) := base_com in
    let a := fst (gp_base (ts_gipa proof)) in
    do t <- ip [a] [b_base : fmod K];
    do base_valid <- rand_then (dh_verify LMC [ck_a_final] [a] com_a)
                               (dh_verify IPC [ck_t] [t] com_t);
    Ok (ck_a_valid && base_valid).
End TipaSsm.

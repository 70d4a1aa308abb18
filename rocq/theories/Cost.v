(** Instrumented copies of the provers and verifiers: the same programs as in Gipa.v, Tipa.v, Ssm.v,
    PolyCommit.v, Transparent.v, Groth16.v and Sipp.v, which additionally list the expensive operations
    they perform, in order, until they end or panic.  PropsCost.v proves that without the list they are
    the same functions. *)
Require Import List Arith Bool NArith ZArith.
Import ListNotations.
Require Import Verif.Outcome Verif.Algebra Verif.Rust Verif.InnerProducts Verif.Commitments
  Verif.Poly Verif.Gipa Verif.Tipa Verif.Ssm Verif.Floats Verif.PolyCommit Verif.Transparent Verif.Groth16 Verif.Rng Verif.Sipp.

(** What is listed.  Scalings of a commitment that is a vector ([IdentityOutput]) are one [OScaleCom]. *)
Inductive op : Type :=
| OHash                  (* one call of the digest for a challenge *)
| OPush                  (* one field element appended to a vector *)
| OScale                 (* scalar multiplication of one message or key (group element or scalar) *)
| OScaleCom              (* scalar multiplication of one commitment *)
| OPairing               (* one pairing *)
| OCommit (n : nat)      (* a commitment to n messages (left or right) *)
| OCommitT (n : nat)     (* a commitment to n inner products *)
| OProduct (n : nat)     (* an inner product of n elements *)
| OMsm (n : nat).        (* a multi-exponentiation with n bases *)

Definition traced (A : Type) : Type := (list op * res A)%type.
Definition lift {A} (x : res A) : traced A := ([], x).
Definition emit (t : list op) : traced unit := (t, Ok tt).
Definition tbind {A B} (x : traced A) (f : A -> traced B) : traced B :=
  match snd x with
  | Ok a => let y := f a in (fst x ++ fst y, snd y)
  | Err e => (fst x, Err e)
  | Panic => (fst x, Panic)
  | Loop => (fst x, Loop)
  end.
Notation "'run' x <- e ; f" := (tbind e (fun x => f))
  (at level 200, x pattern, e at level 100, f at level 200, right associativity).
Definition tand_then (a b : traced bool) : traced bool := run x <- a; if x then b else lift (Ok false).

Section Gipa.
  Context {R : Type} {K : field}.
  Context {MA MB MT KA KB KT : module K} {OA OB OT : carrier K}.
  Variable LMC : dhc R MA KA OA.
  Variable RMC : dhc R MB KB OB.
  Variable IPC : dhc R MT KT OT.
  Variable ip : list MA -> list MB -> res MT.
  Variable D : bytes -> bytes.
  Variable fuel : nat.

  (** ip_proofs/src/gipa.rs 235-258 and 330-353 *)
  Fixpoint gipa_challenge_t (fuel nonce : nat) (prev : K) (com_1 com_2 : com3 OA OB OT) : traced (K * K) :=
    match fuel with
    | O => lift Loop
    | S fuel =>
      run _ <- emit [OHash];
      run first16 <- lift (slice_to (D (gipa_hash_input nonce prev com_1 com_2)) 16);
      let c : K := f_ofN (from_be_bytes first16) in
      match finverse c with
      | Some c_inv => lift (Ok (c_inv, c))
      | None => gipa_challenge_t fuel (S nonce) prev com_1 com_2
      end
    end.

  (** gipa.rs 262-291 *)
  Definition rescale_t {M : module K} (x : K) (l1 l2 : list M) : traced (list M) :=
    run _ <- emit (repeat OScale (Nat.min (length l1) (length l2)));
    lift (Ok (rescale x l1 l2)).

  (** gipa.rs 220-224 / 227-231 *)
  Definition gipa_commit3_t (ka : list KA) (ma : list MA) (kb : list KB) (mb : list MB) (kt : list KT)
    : traced (com3 OA OB OT) :=
    run _ <- emit [OCommit (length ma)];
    run a <- lift (dh_commit LMC ka ma);
    run _ <- emit [OCommit (length mb)];
    run b <- lift (dh_commit RMC kb mb);
    run _ <- emit [OProduct (length ma)];
    run v <- lift (ip ma mb);
    run _ <- emit [OCommitT 1];
    run t <- lift (dh_commit IPC kt [v]);
    lift (Ok (a, b, t)).

  (** gipa.rs 196-297 *)
  Fixpoint gipa_prove_loop_t (n : nat) (m_a : list MA) (m_b : list MB) (ck_a : list KA) (ck_b : list KB)
      (ck_t : list KT) (r_commitment_steps : list (com3 OA OB OT * com3 OA OB OT))
      (r_transcript : list K)
    : traced ((MA * MB) * (KA * KB) * list (com3 OA OB OT * com3 OA OB OT) * list K) :=
    if length m_a =? 1 then
      lift (do a <- index m_a 0;
      do b <- index m_b 0;
      do ka <- index ck_a 0;
      do kb <- index ck_b 0;
      Ok ((a, b), (ka, kb), r_commitment_steps, r_transcript))
    else
    match n with
    | O => lift Loop
    | S n =>
      let split := length m_a / 2 in
      run m_a_1 <- lift (slice_from m_a split);
      run m_a_2 <- lift (slice_to m_a split);
      run ck_a_1 <- lift (slice_to ck_a split);
      run ck_a_2 <- lift (slice_from ck_a split);
      run m_b_1 <- lift (slice_to m_b split);
      run m_b_2 <- lift (slice_from m_b split);
      run ck_b_1 <- lift (slice_from ck_b split);
      run ck_b_2 <- lift (slice_to ck_b split);
      run com_1 <- gipa_commit3_t ck_a_1 m_a_1 ck_b_1 m_b_1 ck_t;
      run com_2 <- gipa_commit3_t ck_a_2 m_a_2 ck_b_2 m_b_2 ck_t;
      run (c, c_inv) <- gipa_challenge_t fuel 0 (gipa_prev r_transcript) com_1 com_2;
      run m_a <- rescale_t c m_a_1 m_a_2;
      run m_b <- rescale_t c_inv m_b_2 m_b_1;
      run ck_a <- rescale_t c_inv ck_a_2 ck_a_1;
      run ck_b <- rescale_t c ck_b_1 ck_b_2;
      gipa_prove_loop_t n m_a m_b ck_a ck_b ck_t
        (r_commitment_steps ++ [(com_1, com_2)])
        (r_transcript ++ [c])
    end.

  (** gipa.rs 162-312 *)
  Definition gipa_prove_with_aux_t (values : list MA * list MB) (ck : list KA * list KB * list KT)
    : traced (gipa_proof MA MB OA OB OT * gipa_aux KA KB) :=
    let '(m_a, m_b) := values in
    let '(ck_a, ck_b, ck_t) := ck in
    run _ <- lift (rassert (is_power_of_two (length m_a)));
    run (m_base, ck_base, steps, transcript) <-
       gipa_prove_loop_t (length m_a) m_a m_b ck_a ck_b ck_t [] [];
    lift (Ok (mk_gipa_proof (rev steps) m_base, mk_gipa_aux (rev transcript) ck_base)).

  (** gipa.rs 326-360: six scalings per round *)
  Fixpoint gipa_challenges_loop_t (com : com3 OA OB OT) (r_transcript : list K)
      (steps : list (com3 OA OB OT * com3 OA OB OT)) : traced (com3 OA OB OT * list K) :=
    match steps with
    | [] => lift (Ok (com, r_transcript))
    | (com_1, com_2) :: steps =>
      run (c, c_inv) <- gipa_challenge_t fuel 0 (gipa_prev r_transcript) com_1 com_2;
      run _ <- emit (repeat OScaleCom 6);
      let '(com_a, com_b, com_t) := com in
      let '(a1, b1, t1) := com_1 in
      let '(a2, b2, t2) := com_2 in
      gipa_challenges_loop_t
        (com_fold c c_inv a1 com_a a2, com_fold c c_inv b1 com_b b2, com_fold c c_inv t1 com_t t2)
        (r_transcript ++ [c]) steps
    end.

  (** gipa.rs 315-363 *)
  Definition gipa_recursive_challenges_t (com : com3 OA OB OT) (proof : gipa_proof MA MB OA OB OT)
    : traced (com3 OA OB OT * list K) :=
    run (com, transcript) <- gipa_challenges_loop_t com [] (rev (gp_steps proof));
    lift (Ok (com, rev transcript)).

  (** gipa.rs 377-380 *)
  Fixpoint push_scaled_t (x : K) (js : list nat) (v : list K) : traced (list K) :=
    match js with
    | [] => lift (Ok v)
    | j :: js => run y <- lift (index v j); run _ <- emit [OPush]; push_scaled_t x js (v ++ [y *f x])
    end.

  (** gipa.rs 375-381 *)
  Fixpoint ck_exponents_t (i : nat) (transcript : list K) (ea eb : list K) : traced (list K * list K) :=
    match transcript with
    | [] => lift (Ok (ea, eb))
    | c :: t =>
      run c_inv <- lift (runwrap (finverse c));
      run ea <- push_scaled_t c_inv (seq 0 (2 ^ i)) ea;
      run eb <- push_scaled_t c (seq 0 (2 ^ i)) eb;
      ck_exponents_t (S i) t ea eb
    end.

  (** gipa.rs 384-389 / 391-396 *)
  Definition ck_combine_t {M : module K} (ck : list M) (exps : list K) : traced M :=
    run k0 <- lift (index ck 0);
    run e0 <- lift (index exps 0);
    run _ <- emit [OScale];
    run ks <- lift (slice_from ck 1);
    run es <- lift (slice_from exps 1);
    run _ <- emit (repeat OScale (Nat.min (length ks) (length es)));
    lift (Ok (fold_left madd (zipw (fun g x => x *m g) ks es) (e0 *m k0))).

  (** gipa.rs 365-399 *)
  Definition gipa_final_keys_t (ck_a : list KA) (ck_b : list KB) (transcript : list K) : traced (KA * KB) :=
    run _ <- lift (rassert (is_power_of_two (length ck_a)));
    run (ea, eb) <- ck_exponents_t 0 transcript [f1] [f1];
    run _ <- lift (rassert (length ea =? length ck_a));
    run ka <- ck_combine_t ck_a ea;
    run kb <- ck_combine_t ck_b eb;
    lift (Ok (ka, kb)).

  (** gipa.rs 401-415; also tipa/mod.rs 292-298 *)
  Definition gipa_verify_base_t (ck_a_base : KA) (ck_b_base : KB) (ck_t : list KT)
      (base_com : com3 OA OB OT) (proof : gipa_proof MA MB OA OB OT) : traced bool :=
    let '(com_a, com_b, com_t) := base_com in
    let '(a, b) := gp_base proof in
    run _ <- emit [OProduct 1];
    run t <- lift (ip [a] [b]);
    tand_then (run _ <- emit [OCommit 1]; lift (dh_verify LMC [ck_a_base] [a] com_a))
      (tand_then (run _ <- emit [OCommit 1]; lift (dh_verify RMC [ck_b_base] [b] com_b))
        (run _ <- emit [OCommitT 1]; lift (dh_verify IPC ck_t [t] com_t))).

  (** gipa.rs 135-160 *)
  Definition gipa_verify_t (ck : list KA * list KB * KT) (com : com3 OA OB OT)
      (proof : gipa_proof MA MB OA OB OT) : traced bool :=
    let '(ck_a, ck_b, ck_t) := ck in
    if negb (count_ones (length ck_a) =? 1) || negb (length ck_a =? length ck_b)
    then lift (Err (ArgMessageLengthInvalid (length ck_a) (length ck_b))) else
    run (base_com, transcript) <- gipa_recursive_challenges_t com proof;
    run (ck_a_base, ck_b_base) <- gipa_final_keys_t ck_a ck_b transcript;
    gipa_verify_base_t ck_a_base ck_b_base [ck_t] base_com proof.
End Gipa.

(** tipa/mod.rs 195-209, 258-272 and the other loops of this form *)
Fixpoint rand_challenge_t {K : field} (D : bytes -> bytes) (fuel nonce : nat) (payload : bytes) : traced K :=
  match fuel with
  | O => lift Loop
  | S fuel =>
    run _ <- emit [OHash];
    match f_rand (D (usize_be nonce ++ payload)) with
    | Some c => lift (Ok c)
    | None => rand_challenge_t D fuel (S nonce) payload
    end
  end.

(** tipa/mod.rs 340-354: two pairings, two scalar multiplications *)
Definition verify_ck_g2_kzg_opening_t {P} (v : vsrs P) (ck_final ck_opening : pG2 P)
    (transcript : list (pK P)) (r_shift kzg_challenge : pK P) : traced bool :=
  run _ <- emit [OScale; OPairing; OScale; OPairing];
  lift (verify_ck_g2_kzg_opening v ck_final ck_opening transcript r_shift kzg_challenge).

(** tipa/mod.rs 356-370 *)
Definition verify_ck_g1_kzg_opening_t {P} (v : vsrs P) (ck_final ck_opening : pG1 P)
    (transcript : list (pK P)) (r_shift kzg_challenge : pK P) : traced bool :=
  run _ <- emit [OScale; OPairing; OScale; OPairing];
  lift (verify_ck_g1_kzg_opening v ck_final ck_opening transcript r_shift kzg_challenge).

Section Tipa.
  Context {R : Type} {P : pairing}.
  Notation K := (pK P).
  Context {MA MB MT KT : module (pK P)} {OA OB OT : carrier (pK P)}.
  Variable LMC : dhc R MA (pG2 P) OA.
  Variable RMC : dhc R MB (pG1 P) OB.
  Variable IPC : dhc R MT KT OT.
  Variable ip : list MA -> list MB -> res MT.
  Variable D : bytes -> bytes.
  Variable fuel : nat.

  (** tipa/mod.rs 242-301 *)
  Definition tipa_verify_with_srs_shift_t (v : vsrs P) (ck_t : KT) (com : com3 OA OB OT)
      (proof : tipa_proof P MA MB OA OB OT) (r_shift : K) : traced bool :=
    run (base_com, transcript) <- gipa_recursive_challenges_t D fuel com (tp_gipa proof);
    run transcript_inverse <- lift (invert_all transcript);
    let '(ck_a_final, ck_b_final) := tp_final_ck proof in
    let '(ck_a_proof, ck_b_proof) := tp_final_ck_proof proof in
    run t0 <- lift (runwrap (hd_error transcript));
    run c <- rand_challenge_t D fuel 0 (tipa_kzg_payload t0 ck_a_final ck_b_final);
    run r_inverse <- lift (runwrap (finverse r_shift));
    run ck_a_valid <- verify_ck_g2_kzg_opening_t v ck_a_final ck_a_proof transcript_inverse r_inverse c;
    run ck_b_valid <- verify_ck_g1_kzg_opening_t v ck_b_final ck_b_proof transcript f1 c;
    run base_valid <- gipa_verify_base_t LMC RMC IPC ip ck_a_final ck_b_final [ck_t] base_com (tp_gipa proof);
    lift (Ok (ck_a_valid && ck_b_valid && base_valid)).
End Tipa.

Section Ssm.
  Context {R : Type} {P : pairing}.
  Notation K := (pK P).
  Context {MA MT KA KT : module (pK P)} {OA OT : carrier (pK P)}.
  Variable IPC : dhc R MT KT OT.
  Variable ip : list MA -> list (fmod (pK P)) -> res MT.
  Variable D : bytes -> bytes.
  Variable fuel : nat.
  Variable E : penv.

  (** tipa/structured_scalar_message.rs 120-125 / 324-328 *)
  Definition ssm_base_t {KM : module (pK P)} (LMC : dhc R MA KM OA) (ck_a : KM) (ck_t : KT) (a : MA) (b : K) (com_a : OA) (com_t : OT) : traced bool :=
    run _ <- emit [OProduct 1];
    run t <- lift (ip [a] [b : fmod K]);
    tand_then (run _ <- emit [OCommit 1]; lift (dh_verify LMC [ck_a] [a] com_a))
              (run _ <- emit [OCommitT 1]; lift (dh_verify IPC [ck_t] [t] com_t)).

  (** 86-127 *)
  Definition gssm_verify_t (LMC : dhc R MA KA OA) (ck : list KA * KT) (com : OA * OT) (scalar_b : K) (proof : gssm_proof MA OA OT)
    : traced bool :=
    let '(ck_a, ck_t) := ck in
    run (base_com, transcript) <-
      gipa_recursive_challenges_t D fuel (fst com, (f0 : mod_carrier (fmod K)), snd com) proof;
    run (ck_a_base, ck_b_base) <-
      gipa_final_keys_t ck_a (repeat (tt : unitmod K) (length ck_a)) transcript;
    run gipa_valid <- gipa_verify_base_t LMC (ssm_placeholder K) IPC ip ck_a_base ck_b_base [ck_t] base_com proof;
    run b_base <- lift (final_scalar E transcript scalar_b);
    let '(com_a, _, com_t) := base_com in
    run base_valid <- ssm_base_t LMC ck_a_base ck_t (fst (gp_base proof)) b_base com_a com_t;
    lift (Ok (gipa_valid && base_valid)).

  (** 270-331 *)
  Definition tssm_verify_t (LMC : dhc R MA (pG2 P) OA) (v : vsrs P) (ck_t : KT) (com : OA * OT) (scalar_b : K)
      (proof : tssm_proof P MA OA OT) : traced bool :=
    run (base_com, transcript) <-
      gipa_recursive_challenges_t D fuel (fst com, (scalar_b : mod_carrier (fmod K)), snd com) (ts_gipa proof);
    run transcript_inverse <- lift (invert_all transcript);
    let ck_a_final := ts_final_ck proof in
    run t0 <- lift (runwrap (hd_error transcript));
    run c <- rand_challenge_t D fuel 0 (tssm_kzg_payload t0 ck_a_final);
    run ck_a_valid <- verify_ck_g2_kzg_opening_t v ck_a_final (ts_final_ck_proof proof) transcript_inverse f1 c;
    run b_base <- lift (final_scalar E transcript scalar_b);
    let '(com_a, _, com_t) := base_com in
    run base_valid <- ssm_base_t LMC ck_a_final ck_t (fst (gp_base (ts_gipa proof))) b_base com_a com_t;
    lift (Ok (ck_a_valid && base_valid)).
End Ssm.

Section Poly.
  Context {R : Type}.
  Variable P : pairing.
  Notation K := (pK P).
  Variable E : penv.
  Variable D : bytes -> bytes.
  Variable fuel : nat.
  Variable rand_g1 : sampler R (pG1 P).
  Variable rand_g2 : sampler R (pG2 P).

  (** applications/poly_commit/mod.rs 108-117 *)
  Definition kzg_verify_t (v : vsrs P) (com : pG1 P) (point eval : K) (proof : pG1 P) : traced bool :=
    run _ <- emit [OScale; OPairing; OScale; OPairing];
    lift (kzg_verify v com point eval proof).

  (** applications/poly_commit/mod.rs 264-283 *)
  Definition bpc_verify_t (v : vsrs P) (com : pGT P) (point : K * K) (eval : K)
      (proof : opening_proof P) : traced bool :=
    let '(x, y) := point in
    run ip_valid <- tssm_verify_t (identity (R := R) (pG1 P)) (multiexp_ip (pG1 P)) D fuel E (afgho_g1 P E rand_g2) v (tt : unitmod K)
                     ((com : mod_carrier (pGT P)), ([op_y_eval_comm proof] : identity_output (pG1 P)))
                     x (op_ip proof);
    run kzg_valid <- kzg_verify_t v (op_y_eval_comm proof) y eval (op_kzg proof);
    lift (Ok (ip_valid && kzg_valid)).

  (** applications/poly_commit/transparent.rs 188-212 *)
  Definition tbpc_verify_t (ck : list (pG1 P) * list (pG2 P)) (com : pGT P) (point : K * K) (eval : K)
      (proof : t_opening_proof P) : traced bool :=
    let '(first_tier_ck, second_tier_ck) := ck in
    let '(x, y) := point in
    run second_valid <- gssm_verify_t (identity (R := R) (pG1 P)) (multiexp_ip (pG1 P)) D fuel E (afgho_g1 P E rand_g2) (second_tier_ck, (tt : unitmod K))
         ((com : mod_carrier (pGT P)), ([to_y_eval_comm proof] : identity_output (pG1 P)))
         x (to_second proof);
    run first_valid <- gssm_verify_t (MA := fmod (pK P)) (identity (R := R) (fmod (pK P))) (@scalar_ip (pK P) E) D fuel E (pedersen (pG1 P) rand_g1) (first_tier_ck, (tt : unitmod K))
         ((to_y_eval_comm proof : mod_carrier (pG1 P)), ([eval] : identity_output (fmod K)))
         y (to_first proof);
    lift (Ok (second_valid && first_valid)).

  (** applications/groth16_aggregation.rs 214-224 *)
  Fixpoint g16_ic_loop_t (i : nat) (bs : list (pG1 P)) (inputs : list (list K)) (r_vec : list K)
      (g_ic : pG1 P) : traced (pG1 P) :=
    match bs with
    | [] => lift (Ok g_ic)
    | b :: bs =>
      run col <- lift (rmapM (fun row => index row i) inputs);
      run _ <- emit [OProduct (length col)];
      run s <- lift (scalar_ip E col r_vec);
      run _ <- emit [OScale];
      g16_ic_loop_t (S i) bs inputs r_vec (g_ic +m (s *m b))
    end.

  (** applications/groth16_aggregation.rs 206-228 *)
  Definition g16_ppe_t (vk : g16_vk P) (public_inputs : list (list K)) (r : K) (ip_ab : pGT P)
      (agg_c : pG1 P) : traced bool :=
    run r_sum <- lift (rdiv P (fpow r (length public_inputs) -f f1) (r -f f1));
    run _ <- emit [OScale; OPairing];
    let p1 := pr_e P (r_sum *m vk_alpha_g1 vk) (vk_beta_g2 vk) in
    run row0 <- lift (index public_inputs 0);
    run _ <- lift (rassert (length (vk_gamma_abc_g1 vk) =? length row0 + 1));
    run r_vec <- lift (structured_scalar_power (length public_inputs) r);
    run _ <- emit (repeat OPush (length r_vec));
    run abc0 <- lift (index (vk_gamma_abc_g1 vk) 0);
    run _ <- emit [OScale];
    run g_ic <- g16_ic_loop_t 0 (skipn 1 (vk_gamma_abc_g1 vk)) public_inputs r_vec (r_sum *m abc0);
    run _ <- emit [OPairing; OPairing];
    let p2 := pr_e P g_ic (vk_gamma_g2 vk) in
    let p3 := pr_e P agg_c (vk_delta_g2 vk) in
    lift (Ok (meqb ip_ab (p1 +m p2 +m p3))).

  (** applications/groth16_aggregation.rs 162-231 *)
  Definition g16_verify_t (v : vsrs P) (vk : g16_vk P) (public_inputs : list (list K))
      (proof : agg_proof P) : traced bool :=
    run r <- rand_challenge_t D fuel 0 (g16_payload P (ag_com_a proof) (ag_com_b proof) (ag_com_c proof));
    run ab_valid <- tipa_verify_with_srs_shift_t (afgho_g1 P E rand_g2) (afgho_g2 P E rand_g1) (identity (R := R) (pGT P)) (pairing_ip P E) D fuel v (tt : unitmod K)
       ((ag_com_a proof : mod_carrier (pGT P)), (ag_com_b proof : mod_carrier (pGT P)),
        ([ag_ip_ab proof] : identity_output (pGT P)))
       (ag_tipa_ab proof) r;
    run c_valid <- tssm_verify_t (identity (R := R) (pG1 P)) (multiexp_ip (pG1 P)) D fuel E (afgho_g1 P E rand_g2) v (tt : unitmod K)
       ((ag_com_c proof : mod_carrier (pGT P)), ([ag_agg_c proof] : identity_output (pG1 P)))
       r (ag_tipa_c proof);
    run ppe_valid <- g16_ppe_t vk public_inputs r (ag_ip_ab proof) (ag_agg_c proof);
    lift (Ok (ab_valid && c_valid && ppe_valid)).
End Poly.

Section Sipp.
  Variable P : pairing.
  Notation K := (pK P).
  Notation G1 := (pG1 P).
  Notation G2 := (pG2 P).
  Notation GT := (pGT P).
  Variable E : penv.
  Variable S : stream.
  Variable D : bytes -> bytes.

  (** sipp/src/lib.rs 221-224, with the multiplications by the coefficients of 189-193 *)
  Definition product_of_pairings_t (a : list G1) (b : list G2) : traced GT :=
    run _ <- emit (repeat OScale (length a) ++ [OProduct (length a)]);
    lift (product_of_pairings P E a b).

  (** sipp/src/lib.rs 69-101 *)
  Fixpoint sipp_prove_loop_t (n length : nat) (a : list G1) (b : list G2) (rng : fsrng S)
      (proof_vec : list (GT * GT)) : traced (list (GT * GT)) :=
    if length =? 1 then lift (Ok proof_vec) else
    match n with
    | O => lift Loop
    | Datatypes.S n =>
      let length := length / 2 in
      run a_l <- lift (slice_to a length);
      run a_r <- lift (slice_from a length);
      run b_l <- lift (slice_to b length);
      run b_r <- lift (slice_from b length);
      run z_l <- product_of_pairings_t a_r b_l;
      run z_r <- product_of_pairings_t a_l b_r;
      run _ <- emit [OHash];
      let (x, rng) := sipp_challenge P S D rng z_l z_r in
      run _ <- emit (repeat OScale (Nat.min (List.length a_l) (List.length a_r)));
      let a := zipw (fun a_l a_r => x *m a_r +m a_l) a_l a_r in
      run x_inv <- lift (runwrap (finverse x));
      run _ <- emit (repeat OScale (Nat.min (List.length b_l) (List.length b_r)));
      let b := zipw (fun b_l b_r => x_inv *m b_r +m b_l) b_l b_r in
      sipp_prove_loop_t n length a b rng (proof_vec ++ [(z_l, z_r)])
    end.

  (** sipp/src/lib.rs 42-106 *)
  Definition sipp_prove_t (a : list G1) (b : list G2) (r : list K) (value : GT) : traced (list (GT * GT)) :=
    run _ <- lift (rassert (length a =? length b));
    run _ <- lift (rassert (count_ones (length a) =? 1));
    run _ <- emit [OHash];
    let rng := fs_from_seed S D (sipp_seed P a b r value) in
    run _ <- emit (repeat OScale (Nat.min (length a) (length r)));
    sipp_prove_loop_t (length a) (length a) (zipw (fun a r => r *m a) a r) b rng [].

  (** sipp/src/lib.rs 109-180; per round one hash (the absorbed elements) and two multiplications of a
      target group element; two multi-exponentiations; one pairing *)
  Definition sipp_verify_t (a : list G1) (b : list G2) (r : list K) (claimed_value : GT)
      (proof : list (GT * GT)) : traced bool :=
    let len := length a in
    run _ <- lift (rassert (count_ones len =? 1));
    run _ <- lift (rassert (2 <=? len));
    run _ <- lift (rassert (len =? length b));
    let proof_len := length proof in
    run _ <- lift (rassert (f32_eqb (f32_of_Z (Z.of_nat proof_len)) (f32_log2_pow2 (Z.of_nat (Nat.log2 len)))));
    run _ <- emit [OHash];
    let rng := fs_from_seed S D (sipp_seed P a b r claimed_value) in
    run _ <- emit (repeat OHash (length proof));
    let x_s := sipp_challenges P S D rng proof in
    let x_invs := map (batch_inverse P) x_s in
    run _ <- emit (repeat OScaleCom (2 * Nat.min (length proof) (Nat.min (length x_s) (length x_invs))));
    let z_terms := zipw (fun z (p : K * K) => fst p *m fst z +m snd p *m snd z) proof
                        (combine x_s x_invs) in
    let z_prime := claimed_value +m par_reduce madd m0 (shape E (length z_terms)) z_terms in
    let s := sipp_s_loop P 0 proof_len x_s (repeat f1 len) in
    let s_invs := sipp_s_loop P 0 proof_len x_invs (repeat f1 len) in
    let s := zipw fmul s r in
    run _ <- emit [OMsm (length a)];
    run a_prime <- lift (runwrap (msm a s));
    run _ <- emit [OMsm (length b)];
    run b_prime <- lift (runwrap (msm b s_invs));
    run _ <- emit [OPairing];
    lift (Ok (meqb (pr_e P a_prime b_prime) z_prime)).
End Sipp.

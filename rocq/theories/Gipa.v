(** Model of ip_proofs/src/gipa.rs (and mul_helper of ip_proofs/src/lib.rs 15-19, which is just the
    scalar multiplication [mscale]/[cscale]). *)
Require Import List Arith Bool NArith.
Import ListNotations.
Require Import Verif.Outcome Verif.Algebra Verif.Rust Verif.Commitments.

(** gipa.rs 25-51 [GIPAProof]; 54-75 [GIPAAux] (phantom fields dropped). *)
Definition com3 {K} (OA OB OT : carrier K) : Type := (OA * OB * OT)%type.

Record gipa_proof {K} (MA MB : module K) (OA OB OT : carrier K) : Type := mk_gipa_proof {
  gp_steps : list (com3 OA OB OT * com3 OA OB OT);   (* r_commitment_steps *)
  gp_base : MA * MB                                  (* r_base *)
}.
Arguments mk_gipa_proof {K MA MB OA OB OT}.
Arguments gp_steps {K MA MB OA OB OT}.
Arguments gp_base {K MA MB OA OB OT}.

Record gipa_aux {K} (KA KB : module K) : Type := mk_gipa_aux {
  ga_transcript : list K;                            (* r_transcript *)
  ga_ck_base : KA * KB                               (* ck_base *)
}.
Arguments mk_gipa_aux {K KA KB}.
Arguments ga_transcript {K KA KB}.
Arguments ga_ck_base {K KA KB}.

Section Gipa.
  Context {R : Type} {K : field}.
  Context {MA MB MT KA KB KT : module K} {OA OB OT : carrier K}.
  Variable LMC : dhc R MA KA OA.
  Variable RMC : dhc R MB KB OB.
  Variable IPC : dhc R MT KT OT.
  Variable ip : list MA -> list MB -> res MT.
  Variable D : bytes -> bytes.      (* D::digest *)
  Variable fuel : nat.              (* bound on the iterations of the challenge loops *)

  (** gipa.rs 97-106 [setup] *)
  Definition gipa_setup (rng : R) (size : nat) : res (list KA * list KB * KT * R) :=
    do (ka, rng) <- dh_setup LMC rng size;
    do (kb, rng) <- dh_setup RMC rng size;
    do (kt, rng) <- dh_setup IPC rng 1;
    do kt <- runwrap (last_opt kt);
    Ok (ka, kb, kt, rng).

  (** gipa.rs 239-247 and 334-342: the bytes hashed for a challenge. *)
  Definition gipa_hash_input (nonce : nat) (prev : K) (com_1 com_2 : com3 OA OB OT) : bytes :=
    let '(a1, b1, t1) := com_1 in
    let '(a2, b2, t2) := com_2 in
    usize_be nonce ++ fser prev ++ cser a1 ++ cser b1 ++ cser t1
                                ++ cser a2 ++ cser b2 ++ cser t2.

  (** gipa.rs 235-258 and 330-353: the challenge loop; returns (c, c_inv) where c_inv is the
      128-bit value. *)
  Fixpoint gipa_challenge (fuel nonce : nat) (prev : K) (com_1 com_2 : com3 OA OB OT)
    : res (K * K) :=
    match fuel with
    | O => Loop
    | S fuel =>
      do first16 <- slice_to (D (gipa_hash_input nonce prev com_1 com_2)) 16;
      let c : K := f_ofN (from_be_bytes first16) in
      match finverse c with
      | Some c_inv => Ok (c_inv, c)
      | None => gipa_challenge fuel (S nonce) prev com_1 com_2
      end
    end.

  (** gipa.rs 236-237, 331-332: [r_transcript.last().unwrap_or(&Default::default())]. *)
  Definition gipa_prev (r_transcript : list K) : K :=
    match last_opt r_transcript with Some x => x | None => f0 end.

  (** gipa.rs 262-291: [x_2 -> x * x_1 + x_2] on zipped vectors. *)
  Definition rescale {M : module K} (x : K) (l1 l2 : list M) : list M :=
    zipw (fun a1 a2 => x *m a1 +m a2) l1 l2.

  (** gipa.rs 220-224 / 227-231: one triple of commitments. *)
  Definition gipa_commit3 (ka : list KA) (ma : list MA) (kb : list KB) (mb : list MB) (kt : list KT)
    : res (com3 OA OB OT) :=
    do a <- dh_commit LMC ka ma;
    do b <- dh_commit RMC kb mb;
    do v <- ip ma mb;
    do t <- dh_commit IPC kt [v];
    Ok (a, b, t).

  (** gipa.rs 196-297: the 'recurse loop; [n] bounds the number of rounds (each round halves the
      vectors, so [length m_a] is enough). *)
  Fixpoint gipa_prove_loop (n : nat) (m_a : list MA) (m_b : list MB) (ck_a : list KA) (ck_b : list KB)
      (ck_t : list KT) (r_commitment_steps : list (com3 OA OB OT * com3 OA OB OT))
      (r_transcript : list K)
    : res ((MA * MB) * (KA * KB) * list (com3 OA OB OT * com3 OA OB OT) * list K) :=
    if length m_a =? 1 then
      do a <- index m_a 0;
      do b <- index m_b 0;
      do ka <- index ck_a 0;
      do kb <- index ck_b 0;
      Ok ((a, b), (ka, kb), r_commitment_steps, r_transcript)
    else
    match n with
    | O => Loop
    | S n =>
      let split := length m_a / 2 in
      do m_a_1 <- slice_from m_a split;
      do m_a_2 <- slice_to m_a split;
      do ck_a_1 <- slice_to ck_a split;
      do ck_a_2 <- slice_from ck_a split;
      do m_b_1 <- slice_to m_b split;
      do m_b_2 <- slice_from m_b split;
      do ck_b_1 <- slice_from ck_b split;
      do ck_b_2 <- slice_to ck_b split;
      do com_1 <- gipa_commit3 ck_a_1 m_a_1 ck_b_1 m_b_1 ck_t;
      do com_2 <- gipa_commit3 ck_a_2 m_a_2 ck_b_2 m_b_2 ck_t;
      do (c, c_inv) <- gipa_challenge fuel 0 (gipa_prev r_transcript) com_1 com_2;
      gipa_prove_loop n
        (rescale c m_a_1 m_a_2)
        (rescale c_inv m_b_2 m_b_1)
        (rescale c_inv ck_a_2 ck_a_1)
        (rescale c ck_b_1 ck_b_2)
        ck_t
        (r_commitment_steps ++ [(com_1, com_2)])
        (r_transcript ++ [c])
    end.

  (** gipa.rs 162-178 [prove_with_aux] and 181-312 [_prove] *)
  Definition gipa_prove_with_aux (values : list MA * list MB) (ck : list KA * list KB * list KT)
    : res (gipa_proof MA MB OA OB OT * gipa_aux KA KB) :=
    let '(m_a, m_b) := values in
    let '(ck_a, ck_b, ck_t) := ck in
    do _ <- rassert (is_power_of_two (length m_a));
    do (m_base, ck_base, steps, transcript) <-
       gipa_prove_loop (length m_a) m_a m_b ck_a ck_b ck_t [] [];
    Ok (mk_gipa_proof (rev steps) m_base, mk_gipa_aux (rev transcript) ck_base).

  (** gipa.rs 108-133 [prove] *)
  Definition gipa_prove (values : list MA * list MB * MT) (ck : list KA * list KB * KT)
      (com : com3 OA OB OT) : res (gipa_proof MA MB OA OB OT) :=
    let '(a, b, t) := values in
    let '(ck_a, ck_b, ck_t) := ck in
    let '(com_a, com_b, com_t) := com in
    do v <- ip a b;
    if negb (meqb v t) then Err ArgInnerProductInvalid else
    if negb (count_ones (length a) =? 1)
    then Err (ArgMessageLengthInvalid (length a) (length b)) else
    do ok <- rand_then (dh_verify LMC ck_a a com_a)
               (rand_then (dh_verify RMC ck_b b com_b) (dh_verify IPC [ck_t] [t] com_t));
    if negb ok then Err ArgInnerProductInvalid else
    do (proof, _) <- gipa_prove_with_aux (a, b) (ck_a, ck_b, [ck_t]);
    Ok proof.

  (** gipa.rs 355: [mul_helper(com_1, c) + com + mul_helper(com_2, c_inv)] *)
  Definition com_fold {O : carrier K} (c c_inv : K) (com_1 com com_2 : O) : O :=
    cadd (cadd (cscale c com_1) com) (cscale c_inv com_2).

  (** gipa.rs 326-360: the loop over [r_commitment_steps.iter().rev()]. *)
  Fixpoint gipa_challenges_loop (com : com3 OA OB OT) (r_transcript : list K)
      (steps : list (com3 OA OB OT * com3 OA OB OT)) : res (com3 OA OB OT * list K) :=
    match steps with
    | [] => Ok (com, r_transcript)
    | (com_1, com_2) :: steps =>
      do (c, c_inv) <- gipa_challenge fuel 0 (gipa_prev r_transcript) com_1 com_2;
      let '(com_a, com_b, com_t) := com in
      let '(a1, b1, t1) := com_1 in
      let '(a2, b2, t2) := com_2 in
      gipa_challenges_loop
        (com_fold c c_inv a1 com_a a2, com_fold c c_inv b1 com_b b2, com_fold c c_inv t1 com_t t2)
        (r_transcript ++ [c]) steps
    end.

  (** gipa.rs 315-363 [verify_recursive_challenge_transcript], [_compute_recursive_challenges] *)
  Definition gipa_recursive_challenges (com : com3 OA OB OT) (proof : gipa_proof MA MB OA OB OT)
    : res (com3 OA OB OT * list K) :=
    do (com, transcript) <- gipa_challenges_loop com [] (rev (gp_steps proof));
    Ok (com, rev transcript).

  (** gipa.rs 377-380, inner loop [for j in 0..2.pow(i) { v.push(v[j] * x) }]. *)
  Fixpoint push_scaled (x : K) (js : list nat) (v : list K) : res (list K) :=
    match js with
    | [] => Ok v
    | j :: js => do y <- index v j; push_scaled x js (v ++ [y *f x])
    end.

  (** gipa.rs 375-381: builds both exponent vectors. The overflow of [2_usize.pow(i)] for i >= 64 is
      not modelled here but in Words.v. *)
  Fixpoint ck_exponents (i : nat) (transcript : list K) (ea eb : list K) : res (list K * list K) :=
    match transcript with
    | [] => Ok (ea, eb)
    | c :: t =>
      do c_inv <- runwrap (finverse c);
      do ea <- push_scaled c_inv (seq 0 (2 ^ i)) ea;
      do eb <- push_scaled c (seq 0 (2 ^ i)) eb;
      ck_exponents (S i) t ea eb
    end.

  (** gipa.rs 384-389 / 391-396: multi-exponentiation starting from element 0. *)
  Definition ck_combine {M : module K} (ck : list M) (exps : list K) : res M :=
    do k0 <- index ck 0;
    do e0 <- index exps 0;
    do ks <- slice_from ck 1;
    do es <- slice_from exps 1;
    Ok (fold_left madd (zipw (fun g x => x *m g) ks es) (e0 *m k0)).

  (** gipa.rs 365-399 [_compute_final_commitment_keys] *)
  Definition gipa_final_keys (ck_a : list KA) (ck_b : list KB) (transcript : list K) : res (KA * KB) :=
    do _ <- rassert (is_power_of_two (length ck_a));
    do (ea, eb) <- ck_exponents 0 transcript [f1] [f1];
    do _ <- rassert (length ea =? length ck_a);
    do ka <- ck_combine ck_a ea;
    do kb <- ck_combine ck_b eb;
    Ok (ka, kb).

  (** gipa.rs 401-415 [_verify_base_commitment] *)
  Definition gipa_verify_base (ck_a_base : KA) (ck_b_base : KB) (ck_t : list KT)
      (base_com : com3 OA OB OT) (proof : gipa_proof MA MB OA OB OT) : res bool :=
    let '(com_a, com_b, com_t) := base_com in
    let '(a, b) := gp_base proof in
    do t <- ip [a] [b];
    rand_then (dh_verify LMC [ck_a_base] [a] com_a)
      (rand_then (dh_verify RMC [ck_b_base] [b] com_b) (dh_verify IPC ck_t [t] com_t)).

  (** gipa.rs 135-160 [verify] *)
  Definition gipa_verify (ck : list KA * list KB * KT) (com : com3 OA OB OT)
      (proof : gipa_proof MA MB OA OB OT) : res bool :=
    let '(ck_a, ck_b, ck_t) := ck in
    if negb (count_ones (length ck_a) =? 1) || negb (length ck_a =? length ck_b)
    then Err (ArgMessageLengthInvalid (length ck_a) (length ck_b)) else
    do (base_com, transcript) <- gipa_recursive_challenges com proof;
    do (ck_a_base, ck_b_base) <- gipa_final_keys ck_a ck_b transcript;
    gipa_verify_base ck_a_base ck_b_base [ck_t] base_com proof.
End Gipa.

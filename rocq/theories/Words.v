(** The [usize] arithmetic of the library with its overflows, for both kinds of builds.

    The model files use natural numbers.  Here the functions that compute with lengths, degrees, exponents and nonces are
    written again with words of [w] bits ([w] = 64 on the usual targets).  [Debug]: an overflow panics (overflow checks
    on); [Release]: it wraps around.  Divisions and comparisons cannot overflow.  Nothing limits the memory here. *)
Require Import List Arith Bool NArith ZArith.
Import ListNotations.
Require Import Verif.Outcome Verif.Algebra Verif.Rust Verif.Floats Verif.Commitments Verif.Gipa Verif.Poly Verif.Tipa
  Verif.PolyCommit Verif.Sipp.

Inductive build := Debug | Release.

(** Operators and methods of [usize]; [word m w x] is what the operation with exact result [x] returns. *)
Definition word (m : build) (w x : nat) : res nat :=
  if (N.of_nat x <? 2 ^ N.of_nat w)%N then Ok x else
  match m with Debug => Panic | Release => Ok (N.to_nat (N.of_nat x mod 2 ^ N.of_nat w)) end.
(** [a + b], [a * b] *)
Definition wadd m w a b := word m w (a + b).
Definition wmul m w a b := word m w (a * b).
(** [a - b] *)
Definition wsub (m : build) (w a b : nat) : res nat :=
  if b <=? a then Ok (a - b) else
  match m with Debug => Panic | Release => Ok (N.to_nat (2 ^ N.of_nat w + N.of_nat a - N.of_nat b)) end.
(** [2_usize.pow(i as u32)]; the cast keeps the low [v] bits ([v] = 32) *)
Definition wpow2 m w v i := word m w (2 ^ N.to_nat (N.of_nat i mod 2 ^ N.of_nat v)).
(** [i & (1 << k) != 0]: a shift by at least [w] panics (checks on) or shifts by [k mod w] *)
Definition wtest (m : build) (w i k : nat) : res bool :=
  if k <? w then Ok (Nat.testbit i k) else
  match m with Debug => Panic | Release => Ok (Nat.testbit i (k mod w)) end.
(** [n.next_power_of_two()]: an overflow panics or gives 0 *)
Definition wnext m w n := word m w (next_power_of_two n).

Section Words.
  Variables (m : build) (w v : nat).

  (** [counter_nonce += 1] in gipa.rs 235-258 and 330-353 *)
  Fixpoint gipa_challenge_w {K : field} {OA OB OT : carrier K} (D : bytes -> bytes) (fuel nonce : nat) (prev : K)
      (com_1 com_2 : com3 OA OB OT) : res (K * K) :=
    match fuel with
    | O => Loop
    | S fuel =>
      do first16 <- slice_to (D (gipa_hash_input nonce prev com_1 com_2)) 16;
      let c : K := f_ofN (from_be_bytes first16) in
      match finverse c with
      | Some c_inv => Ok (c_inv, c)
      | None => do nonce <- wadd m w nonce 1; gipa_challenge_w D fuel nonce prev com_1 com_2
      end
    end.

  (** [counter_nonce += 1] in tipa/mod.rs 195-209 and 258-272, structured_scalar_message.rs 238-251 and 289-302,
      groth16_aggregation.rs 105-116 and 173-184 *)
  Fixpoint rand_challenge_w {K : field} (D : bytes -> bytes) (fuel nonce : nat) (payload : bytes) : res K :=
    match fuel with
    | O => Loop
    | S fuel =>
      match f_rand (D (usize_be nonce ++ payload)) with
      | Some c => Ok c
      | None => do nonce <- wadd m w nonce 1; rand_challenge_w D fuel nonce payload
      end
    end.

  (** gipa.rs 375-381 *)
  Fixpoint ck_exponents_w {K : field} (i : nat) (transcript : list K) (ea eb : list K) : res (list K * list K) :=
    match transcript with
    | [] => Ok (ea, eb)
    | c :: t =>
      do c_inv <- runwrap (finverse c);
      do n <- wpow2 m w v i;
      do ea <- push_scaled c_inv (seq 0 n) ea;
      do eb <- push_scaled c (seq 0 n) eb;
      ck_exponents_w (S i) t ea eb
    end.

  (** gipa.rs 365-399 *)
  Definition gipa_final_keys_w {K : field} {KA KB : module K} (ck_a : list KA) (ck_b : list KB) (transcript : list K)
    : res (KA * KB) :=
    do _ <- rassert (is_power_of_two (length ck_a));
    do (ea, eb) <- ck_exponents_w 0 transcript [f1] [f1];
    do _ <- rassert (length ea =? length ck_a);
    do ka <- ck_combine ck_a ea;
    do kb <- ck_combine ck_b eb;
    Ok (ka, kb).

  (** gipa.rs 326-360 *)
  Fixpoint gipa_challenges_loop_w {K : field} {OA OB OT : carrier K} (D : bytes -> bytes) (fuel : nat)
      (com : com3 OA OB OT) (r_transcript : list K)
      (steps : list (com3 OA OB OT * com3 OA OB OT)) : res (com3 OA OB OT * list K) :=
    match steps with
    | [] => Ok (com, r_transcript)
    | (com_1, com_2) :: steps =>
      do (c, c_inv) <- gipa_challenge_w D fuel 0 (gipa_prev r_transcript) com_1 com_2;
      let '(com_a, com_b, com_t) := com in
      let '(a1, b1, t1) := com_1 in
      let '(a2, b2, t2) := com_2 in
      gipa_challenges_loop_w D fuel
        (com_fold c c_inv a1 com_a a2, com_fold c c_inv b1 com_b b2, com_fold c c_inv t1 com_t t2)
        (r_transcript ++ [c]) steps
    end.

  (** gipa.rs 135-160 [verify] *)
  Definition gipa_verify_w {R : Type} {K : field} {MA MB MT KA KB KT : module K} {OA OB OT : carrier K}
      (LMC : dhc R MA KA OA) (RMC : dhc R MB KB OB) (IPC : dhc R MT KT OT) (ip : list MA -> list MB -> res MT)
      (D : bytes -> bytes) (fuel : nat) (ck : list KA * list KB * KT) (com : com3 OA OB OT)
      (proof : gipa_proof MA MB OA OB OT) : res bool :=
    let '(ck_a, ck_b, ck_t) := ck in
    if negb (count_ones (length ck_a) =? 1) || negb (length ck_a =? length ck_b)
    then Err (ArgMessageLengthInvalid (length ck_a) (length ck_b)) else
    do (base_com, transcript) <- gipa_challenges_loop_w D fuel com [] (rev (gp_steps proof));
    do (ck_a_base, ck_b_base) <- gipa_final_keys_w ck_a ck_b (rev transcript);
    gipa_verify_base LMC RMC IPC ip ck_a_base ck_b_base [ck_t] base_com proof.

  (** tipa/mod.rs 408-415 *)
  Fixpoint coefficients_loop_w {K : field} (i : nat) (transcript : list K) (power_2_r : K)
      (coefficients : list K) : res (list K) :=
    match transcript with
    | [] => Ok coefficients
    | x :: t =>
      do n <- wpow2 m w v i;
      do coefficients <- push_scaled (x *f power_2_r) (seq 0 n) coefficients;
      coefficients_loop_w (S i) t (power_2_r *f power_2_r) coefficients
    end.
  (** tipa/mod.rs 407-422, with [coefficients.len() - 1] *)
  Definition poly_coefficients_from_transcript_w {K : field} (transcript : list K) (r_shift : K) : res (list K) :=
    do coefficients <- coefficients_loop_w 0 transcript r_shift [f1];
    do n <- wsub m w (length coefficients) 1;
    Ok (interleave coefficients (repeat f0 n)).

  (** tipa/mod.rs 150-164 and structured_scalar_message.rs 195-210 [setup] *)
  Definition tipa_setup_w {R : Type} (P : pairing) {MT KT : module (pK P)} {OT : carrier (pK P)} (IPC : dhc R MT KT OT)
      (rand_scalar : sampler R (pK P)) (rng : R) (size : nat) : res (srs P * KT * R) :=
    let (alpha, rng) := rand_scalar rng in
    let (beta, rng) := rand_scalar rng in
    let g := pr_g P in
    let h := pr_h P in
    do n <- wmul m w 2 size;
    do n <- wsub m w n 1;
    do ga <- structured_generators_scalar_power n g alpha;
    do hb <- structured_generators_scalar_power n h beta;
    do (kt, rng) <- dh_setup IPC rng 1;
    do kt <- runwrap (last_opt kt);
    Ok (mk_srs ga hb (beta *m g) (alpha *m h), kt, rng).

  (** poly_commit/mod.rs 292-298 and transparent.rs 221-227 *)
  Definition bivariate_degrees_w (threshold factor d : nat) : res (nat * nat) :=
    do n <- wadd m w d 1;
    do sqrt <- wnext m w (Z.to_nat (f64_ceil_as_usize (f64_sqrt (f64_of_Z (Z.of_nat n)))));
    let skew_factor := if threshold <=? sqrt then factor else sqrt / 2 in
    if skew_factor =? 0 then Panic else
    do x <- wsub m w (sqrt / skew_factor) 1;
    do p <- wmul m w sqrt skew_factor;
    do y <- wsub m w p 1;
    Ok (x, y).

  (** poly_commit/mod.rs 153-174 *)
  Definition bpc_setup_w {R : Type} (P : pairing) (rand_scalar : sampler R (pK P)) (rng : R) (x_degree y_degree : nat)
    : res (srs P * list (pG1 P) * R) :=
    let (alpha, rng) := rand_scalar rng in
    let (beta, rng) := rand_scalar rng in
    let g := pr_g P in
    let h := pr_h P in
    do n <- wadd m w y_degree 1;
    do kzg_srs <- structured_generators_scalar_power n g alpha;
    do k <- wmul m w 2 x_degree;
    do k <- wadd m w k 1;
    do hb <- structured_generators_scalar_power k h beta;
    Ok (mk_srs [g] hb (beta *m g) (alpha *m h), kzg_srs, rng).

  (** poly_commit/mod.rs 331-334 *)
  Definition upc_setup_w {R : Type} (P : pairing) (rand_scalar : sampler R (pK P)) (rng : R) (degree : nat)
    : res (srs P * list (pG1 P) * R) :=
    do (x_degree, y_degree) <- bivariate_degrees_w 32 16 degree;
    bpc_setup_w P rand_scalar rng x_degree y_degree.

  (** poly_commit/mod.rs 364-376: the point handed to the bivariate verifier; [pow(&[(y_degree + 1) as u64])] *)
  Definition upc_point_w {K : field} (max_degree : nat) (point : K) : res (K * K) :=
    do (_, y_degree) <- bivariate_degrees_w 32 16 max_degree;
    do n <- wadd m w y_degree 1;
    Ok (fpow point n, point).

  (** poly_commit/mod.rs 306-329 and transparent.rs 235-258 *)
  Definition bivariate_form_w {K : field} (degrees : nat * nat) (polynomial : list K) : res (bipoly K) :=
    let '(x_degree, y_degree) := degrees in
    do rows <- wadd m w x_degree 1;
    do cols <- wadd m w y_degree 1;
    do n <- wmul m w rows cols;
    take_rows rows cols (chain_cycle_take polynomial f0 n).

  (** sipp/src/lib.rs 164-169: [i & (1 << bit) != 0] for every [i] in [0..length] *)
  Fixpoint sipp_scale_pass_w {K : field} (bit : nat) (x : K) (i : nat) (s : list K) : res (list K) :=
    match s with
    | [] => Ok []
    | si :: s =>
      do b <- wtest m w i bit;
      do rest <- sipp_scale_pass_w bit x (S i) s;
      Ok ((if b then si *f x else si) :: rest)
    end.
  (** sipp/src/lib.rs 163-170: [proof_len - j - 1] *)
  Fixpoint sipp_s_loop_w {K : field} (j proof_len : nat) (xs : list K) (s : list K) : res (list K) :=
    match xs with
    | [] => Ok s
    | x :: xs =>
      do bit <- wsub m w proof_len j;
      do bit <- wsub m w bit 1;
      do s <- sipp_scale_pass_w bit x 0 s;
      sipp_s_loop_w (S j) proof_len xs s
    end.
End Words.

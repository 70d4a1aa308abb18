(** Property C121: overflows of [usize] arithmetic.  The functions of Words.v (words, debug and release builds) against
    those of the model (natural numbers). *)
Require Import List Arith NArith ZArith Lia Bool.
Import ListNotations.
Require Import Verif.Outcome Verif.Algebra Verif.Zp Verif.Rust Verif.Floats Verif.InnerProducts Verif.Commitments
  Verif.Gipa Verif.Poly Verif.Tipa Verif.PolyCommit Verif.Sipp Verif.Words
  Verif.Spec Verif.RustFacts Verif.SerFacts Verif.GipaFacts Verif.PolyFacts Verif.PcFacts Verif.PcDegrees Verif.PropsDegrees
  Verif.PropsBase Verif.PropsGipa.

(** [x] is a value of a [w]-bit word *)
Definition fits (w x : nat) : Prop := x < 2 ^ w.

Lemma fits_N w x : fits w x <-> (N.of_nat x < 2 ^ N.of_nat w)%N.
Proof. unfold fits. change 2%N with (N.of_nat 2). rewrite <- Nat2N.inj_pow. lia. Qed.

Lemma word_fits m w x : fits w x -> word m w x = Ok x.
Proof. intros H. unfold word. now rewrite (proj2 (N.ltb_lt _ _) (proj1 (fits_N _ _) H)). Qed.

Lemma word_over m w x : ~ fits w x -> word m w x = match m with Debug => Panic | Release => Ok (x mod 2 ^ w) end.
Proof.
  intros H. unfold word. rewrite (proj2 (N.ltb_ge _ _)).
  - destruct m; [reflexivity|]. do 2 f_equal. change 2%N with (N.of_nat 2). now rewrite <- Nat2N.inj_pow, <- Nat2N.inj_mod, Nat2N.id.
  - rewrite fits_N in H. lia.
Qed.

Lemma wsub_ok m w a b : b <= a -> wsub m w a b = Ok (a - b).
Proof. intros H. unfold wsub. now rewrite (proj2 (Nat.leb_le _ _) H). Qed.

(** ** Challenge loops: wrapping changes nothing, the nonce is hashed modulo 2^64 *)
Lemma be_bytes_mod k : forall n, be_bytes k (n mod 256 ^ N.of_nat k)%N = be_bytes k n.
Proof.
  induction k as [|k IH]; intros n; [reflexivity|]. cbn [be_bytes]. rewrite Nat2N.inj_succ, N.pow_succ_r'.
  assert (Hp : (256 ^ N.of_nat k <> 0)%N) by (apply N.pow_nonzero; lia).
  rewrite N.mod_mul_r by lia. set (q := (n / 256)%N).
  replace ((n mod 256 + 256 * (q mod 256 ^ N.of_nat k)) / 256)%N with (q mod 256 ^ N.of_nat k)%N.
  2:{ rewrite N.add_comm, N.mul_comm, N.div_add_l by lia. rewrite (N.div_small (n mod 256)) by (apply N.mod_lt; lia). lia. }
  replace ((n mod 256 + 256 * (q mod 256 ^ N.of_nat k)) mod 256)%N with (n mod 256)%N.
  2:{ rewrite N.mul_comm, N.mod_add by lia. now rewrite N.mod_mod by lia. }
  now rewrite IH.
Qed.

(** [w] stands for 64, so that 2^64 is never computed *)
Section Nonces.
  Variables (w : nat) (Hw : w = 64).

  Lemma usize_be_mod n : usize_be (n mod 2 ^ w) = usize_be n.
  Proof using Hw.
    unfold usize_be. rewrite Nat2N.inj_mod, Nat2N.inj_pow.
    replace (N.of_nat 2 ^ N.of_nat w)%N with (256 ^ N.of_nat 8)%N by (rewrite Hw; reflexivity).
    apply be_bytes_mod.
  Qed.

  (** nonces that are written with the same bytes *)
  Definition same_nonce (a b : nat) := usize_be a = usize_be b.

  Lemma same_nonce_S a b : same_nonce a b -> same_nonce (S a) (S b).
  Proof using Hw.
    unfold same_nonce. intros H. rewrite <- (usize_be_mod a), <- (usize_be_mod b) in H. rewrite <- (usize_be_mod (S a)), <- (usize_be_mod (S b)).
    assert (Hp : 2 ^ w <> 0) by (apply Nat.pow_nonzero; lia).
    assert (Hb : forall x, u64_bound (x mod 2 ^ w)).
    { intros x. unfold u64_bound. rewrite Nat2N.inj_mod, Nat2N.inj_pow. replace (2 ^ 64)%N with (N.of_nat 2 ^ N.of_nat w)%N by (rewrite Hw; reflexivity).
      apply N.mod_lt. apply N.pow_nonzero. discriminate. }
    apply usize_be_inj in H; [|apply Hb|apply Hb].
    replace (S a) with (1 + a) by lia. replace (S b) with (1 + b) by lia.
    rewrite (Nat.add_mod 1 a), (Nat.add_mod 1 b) by exact Hp. now rewrite H.
  Qed.

  (** one increment, in a release build or when there is no overflow *)
  Lemma wadd_nonce m n k : same_nonce n k -> m = Release \/ fits w (n + 1) ->
    exists n', wadd m w n 1 = Ok n' /\ same_nonce n' (S k) /\ (m = Release \/ n' = n + 1).
  Proof using Hw.
    intros Hs Hm. unfold wadd. destruct (lt_dec (n + 1) (2 ^ w)) as [Hl|Hl].
    - rewrite word_fits by exact Hl. exists (n + 1). split; [reflexivity|]. split; [|auto].
      replace (n + 1) with (S n) by lia. now apply same_nonce_S.
    - rewrite word_over by exact Hl. destruct Hm as [->|Hm]; [|contradiction]. eexists. split; [reflexivity|]. split; [|auto].
      unfold same_nonce. rewrite usize_be_mod. replace (n + 1) with (S n) by lia. now apply same_nonce_S.
  Qed.

  Variables (m : build) (D : bytes -> bytes).

  Lemma rand_challenge_w_from {K : field} payload : forall fuel n k, same_nonce n k -> m = Release \/ n + fuel < 2 ^ w ->
    rand_challenge_w (K := K) m w D fuel n payload = rand_challenge D fuel k payload.
  Proof using Hw.
    induction fuel as [|fuel IH]; intros n k Hs Hm; [reflexivity|]. cbn [rand_challenge_w rand_challenge].
    rewrite Hs. destruct f_rand; [reflexivity|].
    destruct (wadd_nonce m n k Hs) as [n' [-> [Hs' Hn]]]. { destruct Hm; [auto|right; unfold fits; lia]. }
    cbn [rbind]. apply IH; [exact Hs'|]. destruct Hm; [auto|]. destruct Hn; [auto|right; lia].
  Qed.

  Lemma gipa_challenge_w_from {K : field} {OA OB OT : carrier K} prev (c1 c2 : com3 OA OB OT) :
    forall fuel n k, same_nonce n k -> m = Release \/ n + fuel < 2 ^ w ->
    gipa_challenge_w m w D fuel n prev c1 c2 = gipa_challenge D fuel k prev c1 c2.
  Proof using Hw.
    induction fuel as [|fuel IH]; intros n k Hs Hm; [reflexivity|]. cbn [gipa_challenge_w gipa_challenge].
    replace (gipa_hash_input n prev c1 c2) with (gipa_hash_input k prev c1 c2).
    2:{ destruct c1 as [[? ?] ?], c2 as [[? ?] ?]. unfold gipa_hash_input. now rewrite Hs. }
    destruct slice_to; cbn [rbind]; try reflexivity. destruct finverse; [reflexivity|].
    destruct (wadd_nonce m n k Hs) as [n' [-> [Hs' Hn]]]. { destruct Hm; [auto|right; unfold fits; lia]. }
    cbn [rbind]. apply IH; [exact Hs'|]. destruct Hm; [auto|]. destruct Hn; [auto|right; lia].
  Qed.
End Nonces.

(** Both challenge loops, for 64-bit words: in a release build always as in the model (the counter wraps around, and only
    its residue is hashed), in a debug build unless 2^64 - 1 nonces fail. *)
Theorem C121_nonces w m (K : field) (D : bytes -> bytes) fuel : w = 64 -> m = Release \/ fits w fuel ->
  (forall payload, rand_challenge_w (K := K) m w D fuel 0 payload = rand_challenge D fuel 0 payload) /\
  (forall (OA OB OT : carrier K) prev (c1 c2 : com3 OA OB OT),
     gipa_challenge_w m w D fuel 0 prev c1 c2 = gipa_challenge D fuel 0 prev c1 c2).
Proof.
  intros Hw Hm. split; intros; [apply rand_challenge_w_from|apply gipa_challenge_w_from]; auto; reflexivity.
Qed.
Print Assumptions C121_nonces.

(** ** GIPA: exponents and verification *)
(** panics or returns a value with [Q] *)
Definition panics_or {A} (Q : A -> Prop) (r : res A) : Prop := r = Panic \/ exists a, r = Ok a /\ Q a.

Lemma panics_or_bind {A B} (Q : A -> Prop) (Q' : B -> Prop) (r : res A) f :
  panics_or Q r -> (forall a, Q a -> panics_or Q' (f a)) -> panics_or Q' (rbind r f).
Proof. intros [->|[a [-> H]]] Hf; [left; reflexivity|]. cbn [rbind]. auto. Qed.

Lemma panics_or_unwrap {A} (o : option A) : panics_or (fun _ => True) (runwrap o).
Proof. destruct o; [right; cbn; eauto|left; reflexivity]. Qed.

Section Exponents.
  Context {K : field}.

  Lemma push_scaled_panics_or (x : K) js : forall v,
    panics_or (fun v' => length v' = length v + length js) (push_scaled x js v).
  Proof.
    induction js as [|j js IH]; intros u; cbn [push_scaled length]; [right; eexists; split; [reflexivity|lia]|].
    eapply panics_or_bind; [unfold index; apply panics_or_unwrap|]. intros y _.
    destruct (IH (u ++ [y *f x])) as [->|[a [-> H]]]; [now left|]. right. eexists. split; [reflexivity|].
    rewrite H, app_length. cbn [length]. lia.
  Qed.

  Lemma word_panics_or m w x : panics_or (fun _ => True) (word m w x).
  Proof. unfold word. destruct N.ltb; [right; eauto|]. destruct m; [now left|right; eauto]. Qed.

  Lemma ck_exponents_w_grow m w v (t : list K) : forall i ea eb,
    panics_or (fun r => length ea <= length (fst r)) (ck_exponents_w m w v i t ea eb).
  Proof.
    induction t as [|c t IH]; intros i ea eb; cbn [ck_exponents_w]; [right; eexists; split; [reflexivity|cbn; lia]|].
    eapply panics_or_bind; [apply panics_or_unwrap|]. intros ci _.
    eapply panics_or_bind; [apply word_panics_or|]. intros n _.
    eapply panics_or_bind; [apply push_scaled_panics_or|]. intros ea' Ha. cbn beta in Ha.
    eapply panics_or_bind; [apply push_scaled_panics_or|]. intros eb' Hb. cbn beta in Hb.
    destruct (IH (S i) ea' eb') as [->|[r [-> H]]]; [now left|]. right. eexists. split; [reflexivity|]. lia.
  Qed.

  Lemma pow_small w v i : fits v w -> i <= w -> N.to_nat (N.of_nat i mod 2 ^ N.of_nat v) = i.
  Proof. intros Hv Hi. apply fits_N in Hv. rewrite N.mod_small by lia. apply Nat2N.id. Qed.

  Lemma wpow2_ok m w v i : fits v w -> i < w -> wpow2 m w v i = Ok (2 ^ i).
  Proof.
    intros Hv Hi. unfold wpow2. rewrite (pow_small w) by (auto; lia). apply word_fits. unfold fits. apply Nat.pow_lt_mono_r; lia.
  Qed.

  Lemma ck_exponents_w_short m w v : fits v w -> forall (t : list K) i ea eb, i + length t <= w ->
    ck_exponents_w m w v i t ea eb = ck_exponents i t ea eb.
  Proof.
    intros Hv. induction t as [|c t IH]; intros i ea eb Hi; [reflexivity|]. cbn [length] in Hi.
    cbn [ck_exponents_w ck_exponents]. rewrite wpow2_ok by (auto; lia).
    destruct runwrap; cbn [rbind]; try reflexivity. destruct (push_scaled a _ ea); cbn [rbind]; try reflexivity.
    destruct (push_scaled c _ eb); cbn [rbind]; try reflexivity. apply IH. lia.
  Qed.

  Lemma ck_exponents_w_long m w v : fits v w -> forall (t : list K) i ea eb, i <= w -> w < i + length t -> length ea = 2 ^ i ->
    panics_or (fun r => 2 ^ w <= length (fst r)) (ck_exponents_w m w v i t ea eb).
  Proof.
    intros Hv. induction t as [|c t IH]; intros i ea eb Hi Hl He; cbn [length] in Hl; [lia|].
    destruct (Nat.eq_dec i w) as [->|Hn].
    { destruct (ck_exponents_w_grow m w v (c :: t) w ea eb) as [->|[r [-> H]]]; [now left|]. right. eexists. split; [reflexivity|]. lia. }
    cbn [ck_exponents_w]. rewrite wpow2_ok by (auto; lia).
    eapply panics_or_bind; [apply panics_or_unwrap|]. intros ci _. cbn [rbind].
    eapply panics_or_bind; [apply push_scaled_panics_or|]. intros ea' Ha. cbn beta in Ha.
    eapply panics_or_bind; [apply push_scaled_panics_or|]. intros eb' _.
    apply IH; try lia. rewrite Ha, seq_length, He. cbn [Nat.pow]. lia.
  Qed.

  Lemma ck_combine_panics_or {M : module K} (ck : list M) e : panics_or (fun _ => True) (ck_combine ck e).
  Proof.
    unfold ck_combine, index, slice_from. destruct ck, e; cbn; try (now left). right. eauto.
  Qed.

  Lemma final_keys_panics_or {KA KB : module K} (ka : list KA) (kb : list KB) t : panics_or (fun _ => True) (gipa_final_keys ka kb t).
  Proof.
    unfold gipa_final_keys. eapply (panics_or_bind (fun _ => True)). { destruct is_power_of_two; [right; cbn; eauto|now left]. }
    intros _ _. eapply (panics_or_bind (fun _ => True)).
    { set (w := length t). assert (Hw : w < 2 ^ w) by (apply Nat.pow_gt_lin_r; lia).
      rewrite <- (ck_exponents_w_short Debug w w Hw) by lia.
      destruct (ck_exponents_w_grow Debug w w t 0 [f1] [f1]) as [->|[r [-> _]]]; [now left|right; eauto]. }
    intros [ea eb] _. eapply (panics_or_bind (fun _ => True)). { destruct Nat.eqb; [right; cbn; eauto|now left]. }
    intros _ _. eapply panics_or_bind; [apply ck_combine_panics_or|]. intros a _.
    eapply panics_or_bind; [apply ck_combine_panics_or|]. intros b _. right. eauto.
  Qed.

  (** the exponents of 64 and more rounds do not exist, the comparison with the length of the keys fails all the same *)
  Lemma final_keys_w {KA KB : module K} m w v (ka : list KA) (kb : list KB) t : fits v w -> fits w (length ka) ->
    gipa_final_keys_w m w v ka kb t = gipa_final_keys ka kb t.
  Proof.
    intros Hv Hf. destruct (le_lt_dec (length t) w) as [Hl|Hl].
    { unfold gipa_final_keys_w, gipa_final_keys. now rewrite ck_exponents_w_short by (auto; lia). }
    transitivity (@Panic (KA * KB)).
    - unfold gipa_final_keys_w. destruct is_power_of_two; [|reflexivity]. cbn [rassert rbind].
      destruct (ck_exponents_w_long m w v Hv t 0 [f1] [f1]) as [->|[[ea eb] [-> H]]]; try lia; [reflexivity|reflexivity|].
      cbn [rbind fst] in *. destruct (Nat.eqb_spec (length ea) (length ka)) as [E|E]; [|reflexivity]. unfold fits in Hf. lia.
    - destruct (final_keys_panics_or ka kb t) as [->|[r [E _]]]; [reflexivity|].
      apply final_keys_inv in E as [E _]. unfold fits in Hf.
      assert (2 ^ w <= 2 ^ length t) by (apply Nat.pow_le_mono_r; lia). lia.
  Qed.

  Lemma coefficients_loop_w_ok m w v : fits v w -> forall (t : list K) i r c, i + length t <= w ->
    coefficients_loop_w m w v i t r c = coefficients_loop i t r c.
  Proof.
    intros Hv. induction t as [|x t IH]; intros i r c Hi; [reflexivity|]. cbn [length] in Hi.
    cbn [coefficients_loop_w coefficients_loop]. rewrite wpow2_ok by (auto; lia). cbn [rbind].
    destruct push_scaled; cbn [rbind]; try reflexivity. apply IH. lia.
  Qed.

  Lemma coefficients_loop_grow (t : list K) : forall i r c, panics_or (fun c' => length c <= length c') (coefficients_loop i t r c).
  Proof.
    induction t as [|x t IH]; intros i r c; cbn [coefficients_loop]; [right; eexists; split; [reflexivity|lia]|].
    eapply panics_or_bind; [apply push_scaled_panics_or|]. intros c' Hc. cbn beta in Hc.
    destruct (IH (S i) (r *f r) c') as [->|[a [-> H]]]; [now left|]. right. eexists. split; [reflexivity|]. lia.
  Qed.

  (** the prover's polynomials: a transcript has one element per halving of a vector *)
  Theorem C121_coefficients m w v (t : list K) r : fits v w -> length t <= w ->
    poly_coefficients_from_transcript_w m w v t r = poly_coefficients_from_transcript t r.
  Proof.
    intros Hv Hl. unfold poly_coefficients_from_transcript_w, poly_coefficients_from_transcript.
    rewrite coefficients_loop_w_ok by (auto; lia).
    destruct (coefficients_loop_grow t 0 r [f1]) as [->|[c [-> H]]]; [reflexivity|]. cbn [rbind length] in *.
    now rewrite wsub_ok by lia.
  Qed.
End Exponents.
Print Assumptions C121_coefficients.

Section Gipa.
  Context {R : Type} {K : field} {MA MB MT KA KB KT : module K} {OA OB OT : carrier K}.
  Variables (LMC : dhc R MA KA OA) (RMC : dhc R MB KB OB) (IPC : dhc R MT KT OT).
  Variable ip : list MA -> list MB -> res MT.
  Variables (D : bytes -> bytes) (fuel : nat).

  Lemma challenges_loop_w w m : w = 64 -> m = Release \/ fits w fuel -> forall steps (com : com3 OA OB OT) t,
    gipa_challenges_loop_w m w D fuel com t steps = gipa_challenges_loop D fuel com t steps.
  Proof using.
    intros Hw Hm. induction steps as [|[c1 c2] steps IH]; intros com t; [reflexivity|].
    cbn [gipa_challenges_loop_w gipa_challenges_loop].
    rewrite (proj2 (C121_nonces w m K D fuel Hw Hm)).
    destruct gipa_challenge as [[c ci]| | |]; cbn [rbind]; try reflexivity.
    destruct com as [[? ?] ?], c1 as [[? ?] ?], c2 as [[? ?] ?]. apply IH.
  Qed.

  (** GIPA::verify with 64-bit words, for every proof with any number of rounds: keys must have fewer than 2^64 elements,
      as all vectors have. *)
  Theorem C121_gipa_verify w m v ka kb kt com (proof : gipa_proof MA MB OA OB OT) :
    w = 64 -> fits v w -> fits w (length ka) -> m = Release \/ fits w fuel ->
    gipa_verify_w m w v LMC RMC IPC ip D fuel (ka, kb, kt) com proof = gipa_verify LMC RMC IPC ip D fuel (ka, kb, kt) com proof.
  Proof using.
    intros Hw Hv Hf Hm. unfold gipa_verify_w, gipa_verify, gipa_recursive_challenges.
    destruct (_ || _)%bool; [reflexivity|]. rewrite challenges_loop_w by auto.
    destruct gipa_challenges_loop as [[bc t]| | |]; cbn [rbind]; try reflexivity. now rewrite final_keys_w by auto.
  Qed.
End Gipa.
Print Assumptions C121_gipa_verify.

(** ** Setup *)
Section Setup.
  Context {R : Type} {P : pairing} {MT KT : module (pK P)} {OT : carrier (pK P)}.
  Variables (IPC : dhc R MT KT OT) (rand_scalar : sampler R (pK P)).

  Lemma setup_w_n m w rng size k : 1 <= k -> rbind (wmul m w 2 size) (fun n => wsub m w n 1) = Ok (2 * k - 1) ->
    tipa_setup_w m w P IPC rand_scalar rng size = tipa_setup IPC rand_scalar rng k.
  Proof using.
    intros Hk H. unfold tipa_setup_w, tipa_setup. destruct (rand_scalar rng) as [alpha r1]. destruct (rand_scalar r1) as [beta r2].
    destruct (wmul m w 2 size) as [n| | |]; try discriminate H. cbn [rbind] in *. rewrite H. cbn [rbind].
    now rewrite (proj2 (Nat.ltb_lt 0 k)) by lia.
  Qed.

  (** [2 * size - 1] fits.  MISSING for the full statement: larger sizes (refuted below). *)
  Theorem C121_setup_partial m w rng size : 1 <= size -> fits w (2 * size) ->
    tipa_setup_w m w P IPC rand_scalar rng size = tipa_setup IPC rand_scalar rng size.
  Proof using.
    intros H1 Hf. apply setup_w_n; [exact H1|]. unfold wmul. rewrite word_fits by exact Hf. cbn [rbind]. apply wsub_ok. lia.
  Qed.

  (** otherwise a debug build panics *)
  Theorem C121_setup_debug w rng size : size = 0 \/ ~ fits w (2 * size) ->
    tipa_setup_w Debug w P IPC rand_scalar rng size = Panic.
  Proof using.
    intros H. unfold tipa_setup_w. destruct (rand_scalar rng) as [alpha r1]. destruct (rand_scalar r1) as [beta r2].
    destruct H as [->|H].
    - unfold wmul. rewrite word_fits; [reflexivity|]. unfold fits. pose proof (pow2_pos w). lia.
    - unfold wmul. now rewrite word_over by exact H.
  Qed.

  (** and a release build returns, without any error, the string for another size: 2^63 less (on 64 bits).  Size 2^63
      itself overflows twice and is right. *)
  Theorem C121_setup_release_refuted w rng size : fits (S w) size -> ~ fits (S w) (2 * size) ->
    tipa_setup_w Release (S w) P IPC rand_scalar rng size =
    tipa_setup IPC rand_scalar rng (if size =? 2 ^ w then size else size - 2 ^ w).
  Proof using.
    unfold fits. cbn [Nat.pow]. intros Hf Hn. pose proof (pow2_pos w) as Hp.
    assert (Hmod : (2 * size) mod 2 ^ S w = 2 * (size - 2 ^ w)).
    { cbn [Nat.pow]. symmetry. apply (Nat.mod_unique _ _ 1); lia. }
    assert (Hw : wmul Release (S w) 2 size = Ok (2 * (size - 2 ^ w))).
    { unfold wmul. rewrite word_over by (unfold fits; cbn [Nat.pow]; lia). now rewrite Hmod. }
    destruct (Nat.eqb_spec size (2 ^ w)) as [E|E].
    - apply setup_w_n; [lia|]. rewrite Hw. cbn [rbind]. rewrite E, Nat.sub_diag, Nat.mul_0_r. unfold wsub. cbn [Nat.leb].
      f_equal. apply Nat2N.inj. rewrite N2Nat.id. change 2%N with (N.of_nat 2). rewrite <- Nat2N.inj_pow. cbn [Nat.pow]. lia.
    - apply setup_w_n; [lia|]. rewrite Hw. cbn [rbind]. apply wsub_ok. lia.
  Qed.
End Setup.
Print Assumptions C121_setup_partial.
Print Assumptions C121_setup_debug.
Print Assumptions C121_setup_release_refuted.

(** ** Degrees *)
Lemma fits_Z w x : fits w x <-> (Z.of_nat x < 2 ^ Z.of_nat w)%Z.
Proof. unfold fits. change 2%Z with (Z.of_nat 2). rewrite <- Nat2Z.inj_pow. lia. Qed.

(** what the split of a degree below 2^64 - 1 looks like *)
Lemma degrees_small w thr fac d : w = 64 -> (thr, fac) = (32, 16) \/ (thr, fac) = (8, 4) -> 1 <= d -> fits w (d + 1) ->
  exists x y, bivariate_degrees thr fac d = Ok (x, y) /\ 1 <= x /\ fits w (2 * x + 1) /\ fits w (y + 1).
Proof.
  intros Hw Hf Hd Hfit. apply fits_Z in Hfit. rewrite Hw in Hfit. change (Z.of_nat 64) with 64%Z in Hfit.
  destruct (C37_exact_partial thr fac d Hf Hd) as [j [x [y [E [[a [Ha Hx]] [[b Hy] [Hxy [Hr [Hn _]]]]]]]]]; [lia|].
  exists x, y. split; [exact E|].
  assert (H4 : forall z, (0 <= z)%Z -> (4 ^ z = 2 ^ (2 * z))%Z) by (intros z Hz; rewrite Z.pow_mul_r by lia; reflexivity).
  assert (Hj : j <= 32).
  { destruct (le_lt_dec j 32) as [|Hj]; [assumption|exfalso].
    assert (Hlow : (4 ^ (Z.of_nat j - 1) < Z.of_nat d + 1)%Z).
    { assert (Hc : (4 ^ Z.of_nat j < Z.of_nat d + 1)%Z \/ (4 ^ (Z.of_nat j - 1) < Z.of_nat d + 1)%Z).
      { destruct (Z.lt_ge_cases (4 ^ (Z.of_nat j - 1)) (Z.of_nat d + 1)) as [H|H]; [now right|].
        left. apply Hr. destruct (Z.lt_ge_cases (4 ^ (Z.of_nat j - 1)) (Z.of_nat d + 1)) as [H'|H']; [lia|].
        exfalso. assert (~ rounding_loses (Z.of_nat d) -> False) by (intros X; specialize (Hn X); lia).
        assert (Hnr : ~ rounding_loses (Z.of_nat d)).
        { intros Hl. specialize (Hr Hl). assert (4 ^ (Z.of_nat j - 1) <= 4 ^ Z.of_nat j)%Z by (apply Z.pow_le_mono_r; lia). lia. }
        auto. }
      destruct Hc as [Hc|Hc]; [|exact Hc]. assert (4 ^ (Z.of_nat j - 1) <= 4 ^ Z.of_nat j)%Z by (apply Z.pow_le_mono_r; lia). lia. }
    rewrite H4 in Hlow by lia.
    assert (2 ^ 64 <= 2 ^ (2 * (Z.of_nat j - 1)))%Z by (apply Z.pow_le_mono_r; lia). lia. }
  assert (Hab : a + b <= 64).
  { apply (Nat.pow_le_mono_r_iff 2); [lia|]. rewrite Nat.pow_add_r, <- Hx, <- Hy, Hxy, <- Nat.pow_add_r.
    apply Nat.pow_le_mono_r; lia. }
  assert (Hle : x <= y).
  { unfold bivariate_degrees in E. destruct Nat.eqb eqn:Ek in E; [discriminate E|]. apply Nat.eqb_neq in Ek. injection E as <- <-.
    set (k := if thr <=? _ then fac else _) in *. set (s := next_power_of_two _). assert (s / k <= s) by (apply Nat.div_le_upper_bound; nia). nia. }
  assert (Hab' : a <= b) by (apply (Nat.pow_le_mono_r_iff 2); lia).
  assert (H2a : 2 <= 2 ^ a) by (change 2 with (2 ^ 1) at 1; apply Nat.pow_le_mono_r; lia).
  assert (Ha' : 2 * 2 ^ a <= 2 ^ w) by (rewrite <- Nat.pow_succ_r'; apply Nat.pow_le_mono_r; lia).
  assert (Hb' : 2 ^ b < 2 ^ w) by (apply Nat.pow_lt_mono_r; lia).
  unfold fits. split; [lia|]. split; lia.
Qed.

Lemma degrees_w_of m w thr fac d x y : fits w (d + 1) -> bivariate_degrees thr fac d = Ok (x, y) -> 1 <= x -> fits w (y + 1) ->
  bivariate_degrees_w m w thr fac d = Ok (x, y).
Proof.
  intros Hd E Hx Hy. unfold bivariate_degrees_w, bivariate_degrees in *. unfold wadd. rewrite word_fits by exact Hd. cbn [rbind].
  unfold wnext. set (s := next_power_of_two _) in *. cbv zeta in E.
  assert (Hs : fits w s).
  { destruct Nat.eqb eqn:Ek in E; [discriminate E|]. apply Nat.eqb_neq in Ek. injection E as <- <-. unfold fits in *.
    set (k := if thr <=? _ then fac else _) in *. clearbody k s. assert (s <= s * k) by (destruct k; [lia|rewrite Nat.mul_succ_r; lia]). lia. }
  rewrite word_fits by exact Hs. cbn [rbind]. cbv zeta.
  destruct Nat.eqb eqn:Ek; [discriminate E|]. apply Nat.eqb_neq in Ek. set (k := if thr <=? _ then fac else _) in *. injection E as <- <-.
  rewrite wsub_ok by lia. cbn [rbind]. unfold wmul. rewrite word_fits by (unfold fits in *; lia). cbn [rbind].
  rewrite wsub_ok; [reflexivity|]. assert (1 <= s / k) by lia. assert (s <> 0) by (intros ->; rewrite Nat.div_0_l in *; lia). nia.
Qed.

(** The split of every degree but usize::MAX, in both builds (also the panic for degree 0) *)
Theorem C121_degrees w m thr fac d : w = 64 -> (thr, fac) = (32, 16) \/ (thr, fac) = (8, 4) -> fits w (d + 1) ->
  bivariate_degrees_w m w thr fac d = bivariate_degrees thr fac d.
Proof.
  intros Hw Hf Hd. destruct (Nat.eq_dec d 0) as [->|H0].
  - assert (H1 : wadd m w 0 1 = Ok 1) by (apply word_fits; exact Hd).
    unfold bivariate_degrees_w, bivariate_degrees. rewrite H1. cbn [rbind Nat.add].
    set (c := Z.to_nat _). vm_compute in c. subst c.
    assert (H2 : wnext m w 1 = Ok 1) by (apply word_fits; exact Hd). rewrite H2. cbn [rbind].
    destruct Hf as [[= -> ->]|[= -> ->]]; reflexivity.
  - destruct (degrees_small w thr fac d Hw Hf) as [x [y [E [Hx [_ Hy]]]]]; [lia|exact Hd|].
    rewrite E. now apply degrees_w_of.
Qed.

(** usize::MAX: a panic in both builds (overflow, or division by the skew factor 0) *)
Theorem C121_degrees_max w m thr fac d : w = 64 -> (thr, fac) = (32, 16) \/ (thr, fac) = (8, 4) -> d + 1 = 2 ^ w ->
  bivariate_degrees_w m w thr fac d = Panic.
Proof.
  intros Hw Hf Hd. unfold bivariate_degrees_w, wadd. rewrite word_over by (unfold fits; lia). destruct m; [reflexivity|].
  rewrite Hd, Nat.mod_same by (apply Nat.pow_nonzero; lia). cbn [rbind].
  set (c := Z.to_nat _). vm_compute in c. subst c.
  assert (H2 : wnext Release w 0 = Ok 1). { apply word_fits. unfold fits. rewrite <- Hd. pose proof (pow2_pos w). destruct d; [|lia]. rewrite Hw in Hd. exfalso. revert Hd. apply Nat.lt_neq. apply Nat.pow_gt_1; lia. }
  rewrite H2. cbn [rbind]. destruct Hf as [[= -> ->]|[= -> ->]]; reflexivity.
Qed.
Print Assumptions C121_degrees.
Print Assumptions C121_degrees_max.

Section PolyCommit.
  Context {R : Type} {P : pairing}.
  Variable rand_scalar : sampler R (pK P).

  (** the setup of the bivariate commitment *)
  Theorem C121_bivariate_setup m w rng x y : fits w (2 * x + 1) -> fits w (y + 1) ->
    bpc_setup_w m w P rand_scalar rng x y = bpc_setup P rand_scalar rng x y.
  Proof using.
    intros Hx Hy. unfold bpc_setup_w, bpc_setup. destruct (rand_scalar rng) as [alpha r1]. destruct (rand_scalar r1) as [beta r2].
    unfold wadd, wmul. rewrite (word_fits m w (y + 1)) by exact Hy. cbn [rbind]. rewrite (word_fits m w (2 * x)) by (unfold fits in *; lia).
    cbn [rbind]. rewrite (word_fits m w (2 * x + 1)) by exact Hx. reflexivity.
  Qed.

  (** the univariate commitment: setup and the point of the verifier, for every degree but usize::MAX *)
  Theorem C121_univariate w m rng d (point : pK P) : w = 64 -> fits w (d + 1) ->
    upc_setup_w m w P rand_scalar rng d = upc_setup P rand_scalar rng d /\
    upc_point_w m w d point = rbind (bivariate_degrees 32 16 d) (fun xy => Ok (fpow point (snd xy + 1), point)).
  Proof using.
    intros Hw Hd. unfold upc_setup_w, upc_setup, upc_point_w. rewrite C121_degrees by auto.
    destruct (Nat.eq_dec d 0) as [->|H0].
    - replace (bivariate_degrees 32 16 0) with (@Panic (nat * nat)) by (symmetry; apply (bivariate_degrees_0 4); lia). split; reflexivity.
    - destruct (degrees_small w 32 16 d Hw) as [x [y [E [_ [Hx Hy]]]]]; [auto|lia|exact Hd|].
      rewrite E. cbn [rbind snd]. split; [now apply C121_bivariate_setup|]. unfold wadd. now rewrite word_fits by exact Hy.
  Qed.
End PolyCommit.
Print Assumptions C121_bivariate_setup.
Print Assumptions C121_univariate.

(** ** Coefficients of a univariate polynomial in rows *)
Lemma take_row_short {A} n : forall l : list A, length l < n -> take_row n l = Panic.
Proof.
  induction n as [|n IH]; intros l Hl; [lia|]. cbn [take_row]. destruct l as [|a l]; [reflexivity|]. cbn [hd_error runwrap rbind tl].
  cbn [length] in Hl. now rewrite IH by lia.
Qed.
Lemma take_row_rest {A} n : forall l r (l' : list A), take_row n l = Ok (r, l') -> length l = n + length l'.
Proof.
  induction n as [|n IH]; intros l r l' H; cbn [take_row] in H; [injection H as _ <-; reflexivity|].
  destruct l as [|a l]; [discriminate H|]. cbn [hd_error runwrap rbind tl] in H.
  apply rbind_ok in H as [[r1 l1] [H1 H]]. injection H as _ <-. apply IH in H1. cbn [length]. lia.
Qed.
Lemma take_rows_short {K : field} cols : forall rows (l : list K), length l < rows * cols -> take_rows rows cols l = Panic.
Proof.
  induction rows as [|rows IH]; intros l Hl; cbn [Nat.mul] in Hl; [lia|]. cbn [take_rows].
  destruct (le_lt_dec cols (length l)) as [Hc|Hc]; [|now rewrite take_row_short by lia].
  destruct (take_row cols l) as [[r l']| | |] eqn:E; cbn [rbind].
  - apply take_row_rest in E. now rewrite IH by lia.
  - rewrite (take_row_ok cols l Hc) in E. discriminate E.
  - reflexivity.
  - rewrite (take_row_ok cols l Hc) in E. discriminate E.
Qed.

Theorem C121_bivariate_form m w (K : field) x y (p : list K) : fits w (x + 1) -> fits w (y + 1) ->
  bivariate_form_w m w (x, y) p =
    if (x + 1) * (y + 1) <? 2 ^ w then bivariate_form (x, y) p else Panic.
Proof.
  intros Hx Hy. unfold bivariate_form_w, bivariate_form, wadd, wmul. rewrite !word_fits by assumption. cbn [rbind].
  destruct (Nat.ltb_spec ((x + 1) * (y + 1)) (2 ^ w)) as [Hl|Hl].
  - now rewrite word_fits by exact Hl.
  - rewrite word_over by (unfold fits; lia). destruct m; [reflexivity|]. cbn [rbind]. apply take_rows_short.
    pose proof (Nat.mod_upper_bound ((x + 1) * (y + 1)) (2 ^ w)) as Hm. pose proof (pow2_pos w).
    unfold chain_cycle_take. rewrite app_length, firstn_length, repeat_length. lia.
Qed.
Print Assumptions C121_bivariate_form.

(** ** SIPP *)
Section Sipp.
  Context {P : pairing}.
  Notation K := (pK P).

  Lemma scale_pass_w m w bit (x : K) : bit < w -> forall s i,
    sipp_scale_pass_w m w bit x i s = Ok (zipw (fun i si => if Nat.testbit i bit then si *f x else si) (seq i (length s)) s).
  Proof.
    intros Hb. induction s as [|a s IH]; intros i; [reflexivity|]. cbn [sipp_scale_pass_w length seq zipw]. unfold wtest.
    rewrite (proj2 (Nat.ltb_lt _ _) Hb). cbn [rbind]. now rewrite IH.
  Qed.

  (** the coefficients of the verifier: [proof_len] rounds, one challenge for each *)
  Theorem C121_sipp m w proof_len : proof_len <= w -> forall (xs : list K) j s, j + length xs <= proof_len ->
    sipp_s_loop_w m w j proof_len xs s = Ok (sipp_s_loop P j proof_len xs s).
  Proof.
    intros Hw. induction xs as [|x xs IH]; intros j s Hj; [reflexivity|]. cbn [length] in Hj. cbn [sipp_s_loop_w sipp_s_loop].
    rewrite (wsub_ok m w proof_len j) by lia. cbn [rbind]. rewrite wsub_ok by lia. cbn [rbind].
    rewrite scale_pass_w by lia. cbn [rbind]. apply IH. lia.
  Qed.
End Sipp.
Print Assumptions C121_sipp.

(** ** Runs *)
Lemma fits_32_64 : fits 32 64.
Proof. apply fits_N. reflexivity. Qed.
Lemma fits_64_small n : (N.of_nat n < 2 ^ 64)%N -> fits 64 n.
Proof. intros H. apply fits_N. exact H. Qed.

(** an honest GIPA proof for four values, in both builds on a 64-bit machine; and the hypotheses of the theorem *)
Definition ex121_verify m := gipa_verify_w m 64 32 (ex_L ex_env1) (ex_R ex_env1) ex_T (pairing_ip ZPair ex_env1) toy_digest 5.
Example C121_example_gipa :
  fits 32 64 /\ fits 64 (length ex_ka) /\ fits 64 5 /\
  rbind (ex_prove (ex_a, ex_b, pairing_sum ZPair ex_a ex_b) (ex_ka, ex_kb, tt) ex_com) (fun proof =>
    Ok (ex121_verify Debug (ex_ka, ex_kb, tt) ex_com proof, ex121_verify Release (ex_ka, ex_kb, tt) ex_com proof)) =
  Ok (Ok true, Ok true).
Proof. split; [exact fits_32_64|]. split; [now apply fits_64_small|]. split; [now apply fits_64_small|]. vm_compute. reflexivity. Qed.

(** two-bit words: three rounds are too many for a key with fewer than four elements, in both builds *)
Example C121_example_rounds :
  map (fun m => ck_exponents_w (K := ZP) m 2 3 0 [f1; f1; f1] [f1] [f1]) [Debug; Release] =
  [Panic; Ok (repeat f1 4, repeat f1 4)] /\
  map (fun m => gipa_final_keys_w m 2 3 (firstn 2 ex_ka) (firstn 2 ex_kb) [f1; f1; f1]) [Debug; Release] = [Panic; Panic].
Proof. split; vm_compute; reflexivity. Qed.

(** four-bit words: [TIPA::setup] for 9 elements panics or gives the string for one element *)
Definition ex121_setup m size := rbind (tipa_setup_w m 4 ZPair ex_T ex_rand 7%Z size) (fun '(s, _, _) =>
  Ok (length (g_alpha_powers s), length (h_beta_powers s))).
Example C121_example_setup :
  fits 4 9 /\ ~ fits 4 (2 * 9) /\
  map (ex121_setup Debug) [0; 1; 7; 8; 9] = [Panic; Ok (1, 1); Ok (13, 13); Panic; Panic] /\
  map (ex121_setup Release) [1; 7; 8; 9; 12] = [Ok (1, 1); Ok (13, 13); Ok (15, 15); Ok (1, 1); Ok (7, 7)].
Proof. unfold fits. cbn [Nat.pow Nat.mul Nat.add]. repeat split; try lia; vm_compute; reflexivity. Qed.

Definition gives_value {A} (r : res A) : bool := match r with Ok _ => true | _ => false end.
(** four-bit words: 4 x 4 coefficients are one too many *)
Example C121_example_form :
  fits 4 (3 + 1) /\ gives_value (bivariate_form (3, 3) [f1 : ZP]) = true /\
  map (fun m => gives_value (bivariate_form_w m 4 (3, 3) [f1 : ZP])) [Debug; Release] = [false; false] /\
  map (fun m => gives_value (bivariate_form_w m 4 (3, 2) [f1 : ZP])) [Debug; Release] = [true; true].
Proof. unfold fits. cbn [Nat.pow Nat.mul Nat.add]. repeat split; try lia; vm_compute; reflexivity. Qed.

(** degrees on a 64-bit machine *)
Example C121_example_degrees :
  fits 64 (1000 + 1) /\ map (fun m => bivariate_degrees_w m 64 32 16 1000) [Debug; Release] = [Ok (1, 511); Ok (1, 511)] /\
  map (fun m => bivariate_degrees_w m 64 8 4 100) [Debug; Release] = [Ok (3, 63); Ok (3, 63)] /\
  exists d, d + 1 = 2 ^ 64.
Proof.
  split; [now apply fits_64_small|]. split; [vm_compute; reflexivity|]. split; [vm_compute; reflexivity|].
  generalize 64. intros w. exists (2 ^ w - 1). pose proof (pow2_pos w). lia.
Qed.

(** SIPP: three challenges for eight elements *)
Example C121_example_sipp : let xs := map (fun z => f_ofN z : ZP) [2; 3; 5]%N in
  3 <= 64 /\ 0 + length xs <= 3 /\
  map (fun m => sipp_s_loop_w m 64 0 3 xs (repeat f1 8)) [Debug; Release] =
    repeat (Ok (map (fun z => f_ofN z : ZP) [1; 5; 3; 15; 2; 10; 6; 30]%N)) 2 /\
  sipp_s_loop_w Debug 2 0 3 xs (repeat f1 8) = Panic.
Proof. cbv zeta. cbn [map length]. repeat split; try lia; vm_compute; reflexivity. Qed.

(** Property C79: the number of threads and the shape of the parallel reductions do not change the outcome of the
    arguments, of the polynomial commitments, of Groth16 aggregation and of the SIPP verifier; for the SIPP prover and its
    pairing product they do change it when the lengths disagree. *)
Require Import List Arith NArith ZArith Lia Bool.
Import ListNotations.
Require Import Verif.Outcome Verif.Algebra Verif.Zp Verif.Rust Verif.InnerProducts Verif.Commitments
  Verif.Gipa Verif.Poly Verif.Tipa Verif.Ssm Verif.Floats Verif.PolyCommit Verif.Transparent Verif.Groth16 Verif.Rng
  Verif.Sipp Verif.Spec Verif.ListFacts Verif.RustFacts Verif.InnerProductFacts Verif.Schedule
  Verif.PropsBase Verif.PropsSipp Verif.PropsPcCommit.

Section Schedule.
  Context {R : Type} {P : pairing}.
  Notation K := (pK P).
  Notation G1 := (pG1 P).
  Notation G2 := (pG2 P).
  Variables E E' : penv.
  Hypothesis HE : 1 <= threads E.
  Hypothesis HE' : 1 <= threads E'.
  Variables (D : bytes -> bytes) (fuel : nat).
  Variables (rand_g1 : sampler R G1) (rand_g2 : sampler R G2).

  Lemma pairing_same : same_ip (pairing_ip P E) (pairing_ip P E').
  Proof using HE HE'. intros l r. now apply C01_schedule_independent. Qed.
  Lemma scalar_same (F : field) : same_ip (@scalar_ip F E) (@scalar_ip F E').
  Proof using.
    clear. intros l r. destruct (C02_scalar_outcome F E l r) as [[H ->]|[H ->]], (C02_scalar_outcome F E' l r) as [[H' ->]|[H' ->]];
      try contradiction; reflexivity.
  Qed.
  Lemma afgho1_same : same_commit (afgho_g1 P E rand_g2) (afgho_g1 P E' rand_g2).
  Proof using HE HE'. intros k m. apply pairing_same. Qed.
  Lemma afgho2_same : same_commit (afgho_g2 P E rand_g1) (afgho_g2 P E' rand_g1).
  Proof using HE HE'. intros k m. apply pairing_same. Qed.

  Notation A1 e := (afgho_g1 P e rand_g2).
  Notation A2 e := (afgho_g2 P e rand_g1).
  Notation PG := (pedersen (R := R) G1 rand_g1).
  Notation PG2 := (pedersen (R := R) G2 rand_g2).
  Notation IT := (identity (R := R) (pGT P)).
  Notation IG := (identity (R := R) G1).
  Notation IF := (identity (R := R) (fmod K)).
  Hint Resolve afgho1_same afgho2_same pairing_same scalar_same same_commit_refl same_ip_refl : sched.

  (** GIPA and TIPA with the pairing inner product *)
  Theorem C79_gipa_pairing values ck com com' proof :
    gipa_prove (A1 E) (A2 E) IT (pairing_ip P E) D fuel values ck com
      = gipa_prove (A1 E') (A2 E') IT (pairing_ip P E') D fuel values ck com /\
    gipa_verify (A1 E) (A2 E) IT (pairing_ip P E) D fuel ck com' proof
      = gipa_verify (A1 E') (A2 E') IT (pairing_ip P E') D fuel ck com' proof.
  Proof using HE HE'. split; [apply gipa_prove_same|apply gipa_verify_same]; auto with sched. Qed.

  (** GIPA with the multi-exponentiation and with the scalar inner product (tests of gipa.rs) *)
  Theorem C79_gipa_multiexp values ck com com' proof :
    gipa_prove (A1 E) (pedersen (R := R) G1 rand_g1) IG (multiexp_ip G1) D fuel values ck com
      = gipa_prove (A1 E') (pedersen (R := R) G1 rand_g1) IG (multiexp_ip G1) D fuel values ck com /\
    gipa_verify (A1 E) (pedersen (R := R) G1 rand_g1) IG (multiexp_ip G1) D fuel ck com' proof
      = gipa_verify (A1 E') (pedersen (R := R) G1 rand_g1) IG (multiexp_ip G1) D fuel ck com' proof.
  Proof using HE HE'. split; [apply gipa_prove_same|apply gipa_verify_same]; auto with sched. Qed.

  Theorem C79_gipa_scalar values ck com com' proof :
    gipa_prove PG2 PG IF (@scalar_ip K E) D fuel values ck com
      = gipa_prove PG2 PG IF (@scalar_ip K E') D fuel values ck com /\
    gipa_verify PG2 PG IF (@scalar_ip K E) D fuel ck com' proof
      = gipa_verify PG2 PG IF (@scalar_ip K E') D fuel ck com' proof.
  Proof using.
    clear HE HE'. split; [apply gipa_prove_same|apply gipa_verify_same]; try apply same_commit_refl; exact (scalar_same K).
  Qed.

  Theorem C79_tipa_pairing s v values ck kt com proof r :
    tipa_prove_with_srs_shift (A1 E) (A2 E) IT (pairing_ip P E) D fuel s values ck r
      = tipa_prove_with_srs_shift (A1 E') (A2 E') IT (pairing_ip P E') D fuel s values ck r /\
    tipa_verify_with_srs_shift (A1 E) (A2 E) IT (pairing_ip P E) D fuel v kt com proof r
      = tipa_verify_with_srs_shift (A1 E') (A2 E') IT (pairing_ip P E') D fuel v kt com proof r.
  Proof using HE HE'. split; [apply tipa_prove_shift_same|apply tipa_verify_shift_same]; auto with sched. Qed.

  Theorem C79_tipa_multiexp s v values ck kt com proof r :
    tipa_prove_with_srs_shift (A1 E) PG IG (multiexp_ip G1) D fuel s values ck r
      = tipa_prove_with_srs_shift (A1 E') PG IG (multiexp_ip G1) D fuel s values ck r /\
    tipa_verify_with_srs_shift (A1 E) PG IG (multiexp_ip G1) D fuel v kt com proof r
      = tipa_verify_with_srs_shift (A1 E') PG IG (multiexp_ip G1) D fuel v kt com proof r.
  Proof using HE HE'. split; [apply tipa_prove_shift_same|apply tipa_verify_shift_same]; auto with sched. Qed.

  Theorem C79_tipa_scalar s v values ck kt com proof r :
    tipa_prove_with_srs_shift PG2 PG IF (@scalar_ip K E) D fuel s values ck r
      = tipa_prove_with_srs_shift PG2 PG IF (@scalar_ip K E') D fuel s values ck r /\
    tipa_verify_with_srs_shift PG2 PG IF (@scalar_ip K E) D fuel v kt com proof r
      = tipa_verify_with_srs_shift PG2 PG IF (@scalar_ip K E') D fuel v kt com proof r.
  Proof using.
    clear HE HE'. split; [apply tipa_prove_shift_same|apply tipa_verify_shift_same]; try apply same_commit_refl; exact (scalar_same K).
  Qed.

  (** The arguments with a structured scalar *)
  Theorem C79_gssm_multiexp values ck com b proof :
    gssm_prove (A1 E) IG (multiexp_ip G1) D fuel values ck = gssm_prove (A1 E') IG (multiexp_ip G1) D fuel values ck /\
    gssm_verify (A1 E) IG (multiexp_ip G1) D fuel E ck com b proof
      = gssm_verify (A1 E') IG (multiexp_ip G1) D fuel E' ck com b proof.
  Proof using HE HE'. split; [apply gssm_prove_same|apply gssm_verify_same]; auto with sched. Qed.

  Theorem C79_gssm_scalar values ck com b proof :
    gssm_prove PG IF (@scalar_ip K E) D fuel values ck = gssm_prove PG IF (@scalar_ip K E') D fuel values ck /\
    gssm_verify PG IF (@scalar_ip K E) D fuel E ck com b proof
      = gssm_verify PG IF (@scalar_ip K E') D fuel E' ck com b proof.
  Proof using.
    clear HE HE'. split; [apply gssm_prove_same|apply gssm_verify_same]; try apply same_commit_refl; exact (scalar_same K).
  Qed.

  Theorem C79_tssm_multiexp s v values ck kt com b proof :
    tssm_prove (A1 E) IG (multiexp_ip G1) D fuel s values ck = tssm_prove (A1 E') IG (multiexp_ip G1) D fuel s values ck /\
    tssm_verify (A1 E) IG (multiexp_ip G1) D fuel E v kt com b proof
      = tssm_verify (A1 E') IG (multiexp_ip G1) D fuel E' v kt com b proof.
  Proof using HE HE'. split; [apply tssm_prove_same|apply tssm_verify_same]; auto with sched. Qed.

  (** The polynomial commitments *)
  Theorem C79_bivariate s p coms point v com eval proof :
    bpc_commit P E rand_g2 s p = bpc_commit P E' rand_g2 s p /\
    bpc_open P E D fuel rand_g2 s p coms point = bpc_open P E' D fuel rand_g2 s p coms point /\
    bpc_verify P E D fuel rand_g2 v com point eval proof = bpc_verify P E' D fuel rand_g2 v com point eval proof.
  Proof using HE HE'.
    destruct s as [srs ks], point as [x y]. split; [|split].
    - unfold bpc_commit. do 2 (apply rbind_ext; [reflexivity|intros ?]). apply rbind_ext; [apply afgho1_same|reflexivity].
    - unfold bpc_open. do 3 (apply rbind_ext; [reflexivity|intros ?]). apply rbind_ext; [|reflexivity].
      apply (proj1 (C79_tssm_multiexp srs v _ _ tt (com, nil) x (op_ip proof))).
    - unfold bpc_verify. apply rbind_ext; [|reflexivity]. apply tssm_verify_same; auto with sched.
  Qed.

  Theorem C79_univariate s p coms point v deg com eval proof :
    upc_commit P E rand_g2 s p = upc_commit P E' rand_g2 s p /\
    upc_open P E D fuel rand_g2 s p coms point = upc_open P E' D fuel rand_g2 s p coms point /\
    upc_verify P E D fuel rand_g2 v deg com point eval proof = upc_verify P E' D fuel rand_g2 v deg com point eval proof.
  Proof using HE HE'.
    split; [|split].
    - unfold upc_commit. do 2 (apply rbind_ext; [reflexivity|intros ?]). now apply (C79_bivariate s _ [] (f0, f0) v com f0 proof).
    - unfold upc_open. apply rbind_ext; [reflexivity|intros [dx dy]]. apply rbind_ext; [reflexivity|intros ?].
      now apply (C79_bivariate s _ coms _ v com f0 proof).
    - unfold upc_verify. apply rbind_ext; [reflexivity|intros [dx dy]]. now apply (C79_bivariate s [] [] _ v com eval proof).
  Qed.

  Theorem C79_transparent ck p coms point com eval proof :
    tbpc_commit P E rand_g1 rand_g2 ck p = tbpc_commit P E' rand_g1 rand_g2 ck p /\
    tbpc_open P E D fuel rand_g1 rand_g2 ck p coms point = tbpc_open P E' D fuel rand_g1 rand_g2 ck p coms point /\
    tbpc_verify P E D fuel rand_g1 rand_g2 ck com point eval proof
      = tbpc_verify P E' D fuel rand_g1 rand_g2 ck com point eval proof.
  Proof using HE HE'.
    destruct ck as [k1 k2], point as [x y]. split; [|split].
    - unfold tbpc_commit. do 2 (apply rbind_ext; [reflexivity|intros ?]). apply rbind_ext; [apply afgho1_same|reflexivity].
    - unfold tbpc_open. do 4 (apply rbind_ext; [reflexivity|intros ?]).
      apply rbind_ext; [apply gssm_prove_same; auto with sched|intros ?]. apply rbind_ext; [reflexivity|intros ?].
      apply rbind_ext; [apply gssm_prove_same; auto with sched; exact (scalar_same K)|reflexivity].
    - unfold tbpc_verify. apply rbind_ext; [apply gssm_verify_same; auto with sched|intros ?].
      apply rbind_ext; [apply gssm_verify_same; auto with sched; exact (scalar_same K)|reflexivity].
  Qed.

  Theorem C79_transparent_univariate ck p coms point com eval proof :
    tupc_commit P E rand_g1 rand_g2 ck p = tupc_commit P E' rand_g1 rand_g2 ck p /\
    tupc_open P E D fuel rand_g1 rand_g2 ck p coms point = tupc_open P E' D fuel rand_g1 rand_g2 ck p coms point /\
    tupc_verify P E D fuel rand_g1 rand_g2 ck com point eval proof
      = tupc_verify P E' D fuel rand_g1 rand_g2 ck com point eval proof.
  Proof using HE HE'.
    split; [|split].
    - unfold tupc_commit. do 2 (apply rbind_ext; [reflexivity|intros ?]). now apply (C79_transparent ck _ [] (f0, f0) com f0 proof).
    - unfold tupc_open. apply rbind_ext; [reflexivity|intros [dx dy]]. apply rbind_ext; [reflexivity|intros ?].
      now apply (C79_transparent ck _ coms _ com f0 proof).
    - unfold tupc_verify. apply rbind_ext; [reflexivity|intros [dx dy]]. now apply (C79_transparent ck [] [] _ com eval proof).
  Qed.

  (** Groth16 aggregation *)
  Lemma g16_ic_same bs inputs r_vec : forall i g, g16_ic_loop P E i bs inputs r_vec g = g16_ic_loop P E' i bs inputs r_vec g.
  Proof using.
    clear. induction bs as [|b bs IH]; intros; [reflexivity|]. cbn [g16_ic_loop]. apply rbind_ext; [reflexivity|intros col].
    rewrite (scalar_same K col r_vec). apply rbind_ext; [reflexivity|intros s]. apply IH.
  Qed.

  Theorem C79_groth16 s proofs v vk inputs proof :
    g16_aggregate P E D fuel rand_g1 rand_g2 s proofs = g16_aggregate P E' D fuel rand_g1 rand_g2 s proofs /\
    g16_verify P E D fuel rand_g1 rand_g2 v vk inputs proof = g16_verify P E' D fuel rand_g1 rand_g2 v vk inputs proof.
  Proof using HE HE'.
    split.
    - unfold g16_aggregate. destruct (get_commitment_keys s) as [k1 k2].
      do 3 (apply rbind_ext; [apply pairing_same|intros ?]). do 2 (apply rbind_ext; [reflexivity|intros ?]).
      apply rbind_ext; [apply pairing_same|intros ?]. do 2 (apply rbind_ext; [reflexivity|intros ?]).
      apply rbind_ext; [apply pairing_same|intros ?]. apply rbind_ext; [reflexivity|intros ?].
      apply rbind_ext; [apply tipa_prove_shift_same; auto with sched|intros ?].
      apply rbind_ext; [apply tssm_prove_same; auto with sched|reflexivity].
    - unfold g16_verify. apply rbind_ext; [reflexivity|intros r].
      apply rbind_ext; [apply tipa_verify_shift_same; auto with sched|intros ?].
      apply rbind_ext; [apply tssm_verify_same; auto with sched|intros ?]. apply rbind_ext; [|reflexivity].
      unfold g16_ppe. do 5 (apply rbind_ext; [reflexivity|intros ?]). apply rbind_ext; [apply g16_ic_same|reflexivity].
  Qed.
End Schedule.

Print Assumptions C79_gipa_pairing.
Print Assumptions C79_gipa_multiexp.
Print Assumptions C79_gipa_scalar.
Print Assumptions C79_tipa_pairing.
Print Assumptions C79_tipa_multiexp.
Print Assumptions C79_tipa_scalar.
Print Assumptions C79_gssm_multiexp.
Print Assumptions C79_gssm_scalar.
Print Assumptions C79_tssm_multiexp.
Print Assumptions C79_bivariate.
Print Assumptions C79_univariate.
Print Assumptions C79_transparent.
Print Assumptions C79_transparent_univariate.
Print Assumptions C79_groth16.

(** SIPP *)
Section Sipp.
  Context {P : pairing}.
  Notation K := (pK P).
  Notation G1 := (pG1 P).
  Notation G2 := (pG2 P).
  Variables E E' : penv.
  Variables (S : stream) (D : bytes -> bytes).

  Theorem C79_sipp_verify a b r v zs : sipp_verify P E S D a b r v zs = sipp_verify P E' S D a b r v zs.
  Proof using.
    unfold sipp_verify. do 4 (apply rbind_ext; [reflexivity|intros ?]). cbv zeta. now rewrite !par_reduce_msum.
  Qed.

  Lemma prove_loop_same : 1 <= threads E -> 1 <= threads E' -> forall n len a b rng acc,
    len = length a -> len = length b -> Nat.pow 2 (Nat.log2 len) = len ->
    sipp_prove_loop P E S D n len a b rng acc = sipp_prove_loop P E' S D n len a b rng acc.
  Proof using.
    intros HE HE'. induction n as [|n IH]; intros len a b rng acc Ha Hb Hp; [reflexivity|]. cbn [sipp_prove_loop].
    destruct (Nat.eqb_spec len 1) as [|Hn]; [reflexivity|].
    assert (Hl : exists h, len = h + h /\ Nat.pow 2 (Nat.log2 h) = h /\ 1 <= h).
    { destruct (Nat.log2 len) as [|k] eqn:Hk; [cbn in Hp; lia|]. exists (2 ^ k). cbn [Nat.pow] in Hp.
      rewrite Nat.log2_pow2 by lia. pose proof (Nat.pow_nonzero 2 k). lia. }
    destruct Hl as [h [Hl [Hh Hh1]]].
    replace (len / 2) with h by (rewrite Hl; replace (h + h) with (h * 2) by lia; now rewrite Nat.div_mul).
    unfold slice_to, slice_from.
    destruct (Nat.leb_spec h (length a)), (Nat.leb_spec h (length b)); try lia. cbn [rbind].
    rewrite (product_of_pairings_dot P E), (product_of_pairings_dot P E'), (product_of_pairings_dot P E), (product_of_pairings_dot P E')
      by (rewrite ?firstn_length, ?skipn_length; lia). cbn [rbind].
    destruct (sipp_challenge P S D rng _ _) as [x rng']. apply rbind_ext; [reflexivity|intros xi].
    apply IH; [| |exact Hh]; rewrite zipw_length, firstn_length, skipn_length; lia.
  Qed.

  (** With at least as many coefficients as group elements the prover's outcome does not depend on the schedule. *)
  Theorem C79_sipp_prove_partial a b r v : 1 <= threads E -> 1 <= threads E' -> length a <= length r ->
    sipp_prove P E S D a b r v = sipp_prove P E' S D a b r v.
  Proof using.
    intros HE HE' Hr. unfold sipp_prove. destruct (Nat.eqb_spec (length a) (length b)) as [Hab|]; [|reflexivity].
    destruct (Nat.eqb_spec (count_ones (length a)) 1) as [Hc|]; [|reflexivity]. cbn [rassert rbind].
    apply prove_loop_same; auto.
    - rewrite zipw_length. lia.
    - apply count_ones_pow2 in Hc as [k ->]. now rewrite Nat.log2_pow2 by lia.
  Qed.

  (** Fewer coefficients than group elements: 16 elements and 15 coefficients make two threads panic for every input, since the
      right half of [a] has seven elements, which are cut in chunks of 3, 3 and 1, against chunks of 3, 3 and 2 for [b]. *)
  Theorem C79_sipp_prove_two_threads_refuted a b r v :
    length a = 16 -> length b = 16 -> length r = 15 -> threads E = 2 -> sipp_prove P E S D a b r v = Panic.
  Proof using.
    intros Ha Hb Hr HE.
    assert (Hz : length (zipw (fun (a : G1) (r : K) => r *m a) a r) = 15) by (rewrite zipw_length; lia).
    unfold sipp_prove. rewrite Ha, Hb. cbn [Nat.eqb rassert rbind]. change (count_ones 16 =? 1) with true. cbn [rassert rbind].
    cbn [sipp_prove_loop Nat.eqb]. change (16 / 2) with 8. revert Hz. generalize (zipw (fun (a : G1) (r : K) => r *m a) a r). intros a' Hz.
    generalize (fs_from_seed S D (sipp_seed P a b r v)). intros rng.
    unfold slice_to, slice_from. rewrite Hz, Hb. cbn [Nat.leb rbind].
    assert (Hp : product_of_pairings P E (skipn 8 a') (firstn 8 b) = Panic).
    { do 15 (destruct a' as [|? a']; [discriminate|]). destruct a'; [|discriminate].
      do 16 (destruct b as [|? b]; [discriminate|]). destruct b; [|discriminate]. cbn [skipn firstn].
      unfold product_of_pairings, product_of_pairings_with_coeffs. cbn [length repeat zipw].
      unfold chunk_size. rewrite HE. change (2 <=? 7) with true. cbn iota. change (7 / 2) with 3. reflexivity. }
    now rewrite Hp.
  Qed.

  (** The pairing product itself on vectors of different lengths. *)
  Theorem C79_product_of_pairings_refuted x0 x1 y0 :
    (threads E = 1 -> product_of_pairings P E [x0; x1] [y0] = Panic) /\
    (threads E = 2 -> product_of_pairings P E [x0; x1] [y0] = Ok (pr_e P x0 y0)).
  Proof using.
    split; intros HE.
    - unfold product_of_pairings, product_of_pairings_with_coeffs. cbn [length repeat zipw]. unfold chunk_size. now rewrite HE.
    - transitivity (product_of_pairings P E [x0] [y0]).
      + unfold product_of_pairings, product_of_pairings_with_coeffs. cbn [length repeat zipw]. unfold chunk_size. rewrite HE. reflexivity.
      + rewrite product_of_pairings_dot by (cbn; lia). now rewrite dot_single.
  Qed.
End Sipp.

Print Assumptions C79_sipp_verify.
Print Assumptions C79_sipp_prove_partial.
Print Assumptions C79_sipp_prove_two_threads_refuted.
Print Assumptions C79_product_of_pairings_refuted.

(** ** Concrete cases *)
Definition sched2 : penv := {| threads := 2; shape := fun n => RNode (n / 2) RLeaf RLeaf |}.
Definition sched16 : list ZP := zl [3; 1; 4; 1; 5; 9; 2; 6; 5; 3; 5; 8; 9; 7; 9; 3]%Z.
Definition sched_ok {A} (x : res A) : bool := match x with Ok _ => true | _ => false end.

(** With one thread the same call returns a proof. *)
Example C79_example_one_thread :
  sched_ok (sipp_prove ZPair seq_env toy_stream toy_digest sched16 sched16 (firstn 15 sched16) (zq 7)) = true.
Proof. vm_compute. reflexivity. Qed.
Example C79_example_two_threads :
  sipp_prove ZPair sched2 toy_stream toy_digest sched16 sched16 (firstn 15 sched16) (zq 7) = Panic.
Proof. now apply C79_sipp_prove_two_threads_refuted. Qed.
(** Agreement on a run that succeeds and on one that ends in an error. *)
Example C79_example_same :
  pairing_ip ZPair sched2 (zl [2; 3; 4; 5; 6]%Z) (zl [7; 8; 9; 10; 11]%Z) = Ok (zq 190) /\
  pairing_ip ZPair seq_env (zl [2; 3; 4; 5; 6]%Z) (zl [7; 8; 9; 10; 11]%Z) = Ok (zq 190) /\
  pairing_ip ZPair sched2 (zl [2; 3]%Z) (zl [7]%Z) = pairing_ip ZPair seq_env (zl [2; 3]%Z) (zl [7]%Z).
Proof. split; [|split]; vm_compute; reflexivity. Qed.

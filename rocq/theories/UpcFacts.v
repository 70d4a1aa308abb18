(** The univariate wrapper of the trusted-setup commitment (C38, C39). *)
Require Import List Arith NArith ZArith Lia Bool Field.
Import ListNotations.
Require Import Verif.Outcome Verif.Algebra Verif.Rust Verif.Spec Verif.ListFacts Verif.RustFacts
  Verif.InnerProducts Verif.Commitments Verif.InnerProductFacts Verif.CommitFacts Verif.Gipa
  Verif.GipaFacts Verif.GipaComplete Verif.GipaTop Verif.Poly Verif.PolyFacts Verif.Tipa Verif.KeyFacts
  Verif.TipaFacts Verif.Ssm Verif.SsmFacts Verif.Floats Verif.FloatFacts Verif.PolyCommit Verif.PcFacts
  Verif.PcDegrees.

(** the degree split, in the form used below *)
Lemma degrees_split f d : 1 <= f -> 1 <= d -> (Z.of_nat d < 2 ^ 52)%Z ->
  exists k k' xd yd, bivariate_degrees (2 * 2 ^ f) (2 ^ f) d = Ok (xd, yd) /\
    xd + 1 = 2 ^ S k /\ yd + 1 = 2 ^ S k' /\ d + 1 <= (xd + 1) * (yd + 1).
Proof.
  intros Hf Hd Hlt. destruct (bivariate_degrees_ok f d Hf Hd Hlt) as [j [a [b [H [Ha [Hab [Hj [H1 _]]]]]]]].
  exists (a - 1), (b - 1), (2 ^ a - 1), (2 ^ b - 1).
  assert (Hp : forall i, 2 ^ i <> 0) by (intros; apply Nat.pow_nonzero; lia).
  assert (Ea : 2 ^ a - 1 + 1 = 2 ^ a) by (specialize (Hp a); lia).
  assert (Eb : 2 ^ b - 1 + 1 = 2 ^ b) by (specialize (Hp b); lia).
  rewrite Ea, Eb. split; [exact H|]. split; [f_equal; lia|]. split; [f_equal; lia|].
  rewrite <- Nat.pow_add_r, Hj. apply Nat2Z.inj_le. rewrite Nat2Z.inj_pow.
  replace (Z.of_nat (2 * j)) with (Z.of_nat j + Z.of_nat j)%Z by lia.
  rewrite Z.pow_add_r by lia. exact H1.
Qed.

Section Form.
  Context {K : field}.
  Add Field KfForm : (f_theory K).
  Notation ev := (@poly_evaluate K).

  Lemma wf_row_mono m m' (p : list K) : m <= m' -> wf_row m p -> wf_row m' p.
  Proof. intros H [d [H1 H2]]. exists d. split; [auto|lia]. Qed.

  Lemma ev_firstn_wf c (p : list K) z : wf_row c p -> ev (firstn c p) z = ev p z.
  Proof.
    intros H. rewrite <- (wf_row_ev_resize c p z H). unfold resize. rewrite ev_app, ev_repeat0. ring.
  Qed.

  Lemma bivariate_form_firstn xd yd (p : list K) :
    bivariate_form (xd, yd) (firstn ((xd + 1) * (yd + 1)) p) = bivariate_form (xd, yd) p.
  Proof.
    unfold bivariate_form. f_equal. rewrite !chain_take_resize. unfold resize.
    rewrite firstn_firstn, Nat.min_id, firstn_length. f_equal. f_equal. lia.
  Qed.

  Lemma bivariate_form_wf xd yd (p : list K) : exists bp, bivariate_form (xd, yd) p = Ok bp /\
    length bp <= xd + 1 /\ Forall (wf_row (yd + 1)) bp /\
    (wf_row ((xd + 1) * (yd + 1)) p -> forall z, bipoly_evaluate bp (fpow z (yd + 1), z) = ev p z).
  Proof.
    destruct (bivariate_form_ok xd yd p) as [bp [H1 [H2 [H3 H4]]]]. exists bp. repeat split; auto.
    - lia.
    - eapply Forall_impl; [|exact H3]. intros r [Hs Hl]. apply wf_row_stripped; auto. lia.
    - intros Hw z. now rewrite H4, ev_firstn_wf.
  Qed.
End Form.

Section Upc.
  Context {R : Type} {P : pairing}.
  Notation K := (pK P).
  Notation ev := (@poly_evaluate (pK P)).
  Variables (E E' : penv) (HE : 1 <= threads E) (HE' : 1 <= threads E').
  Variable D : bytes -> bytes.
  Variable fuel : nat.
  Variables rand_g2 rand_g2' : sampler R (pG2 P).

  Lemma parse_degrees_trap (alpha beta : K) xd yd :
    parse_degrees_srs P (trap_bsrs alpha beta xd yd) = Ok (xd, yd).
  Proof. clear HE HE'.
    unfold parse_degrees_srs, trap_bsrs. cbn [fst snd h_beta_powers].
    rewrite map_length, seq_length, kzg_powers_length.
    destruct (Nat.ltb_spec 0 (2 * xd + 1)); [|lia]. destruct (Nat.ltb_spec 0 (yd + 1)); [|lia].
    cbn [rassert rbind]. replace (2 * xd + 1 - 1) with (xd * 2) by lia. rewrite Nat.div_mul by lia.
    do 2 f_equal. lia.
  Qed.

  Lemma upc_setup_ok rand (rng : R) d : 1 <= d -> (Z.of_nat d < 2 ^ 52)%Z ->
    exists xd yd rng', bivariate_degrees 32 16 d = Ok (xd, yd) /\
      upc_setup P rand rng d =
      Ok (trap_bsrs (fst (rand rng)) (fst (rand (snd (rand rng)))) xd yd, rng').
  Proof. clear HE HE'.
    intros Hd Hlt. destruct (degrees_split 4 d ltac:(lia) Hd Hlt) as [k [k' [xd [yd [H _]]]]].
    change (2 * 2 ^ 4) with 32 in H. change (2 ^ 4) with 16 in H.
    destruct (bpc_setup_ok rand rng xd yd) as [rng' Hs].
    exists xd, yd, rng'. split; [exact H|]. unfold upc_setup. rewrite H. cbn [rbind]. exact Hs.
  Qed.

  (** completeness relative to a run of the challenge loops *)
  Lemma upc_complete_outcome (alpha beta : K) d xd yd (p : list K) (z : K) : digest16 D ->
    1 <= d -> (Z.of_nat d < 2 ^ 52)%Z -> bivariate_degrees 32 16 d = Ok (xd, yd) -> wf_row (d + 1) p ->
    exists com coms, upc_commit P E rand_g2 (trap_bsrs alpha beta xd yd) p = Ok (com, coms) /\
      (upc_open P E D fuel rand_g2 (trap_bsrs alpha beta xd yd) p coms z = Loop \/
       exists proof, upc_open P E D fuel rand_g2 (trap_bsrs alpha beta xd yd) p coms z = Ok proof /\
         upc_verify P E' D fuel rand_g2' (trap_vsrs alpha beta) d com z (ev p z) proof = Ok true).
  Proof.
    intros HD Hd Hlt Hdeg Hw.
    destruct (degrees_split 4 d ltac:(lia) Hd Hlt) as [k [k' [xd' [yd' [H [Hx [Hy Hcap]]]]]]].
    change (2 * 2 ^ 4) with 32 in H. change (2 ^ 4) with 16 in H.
    rewrite Hdeg in H. injection H as <- <-.
    destruct (bivariate_form_wf xd yd p) as [bp [Hbp [Hl [Hr He]]]].
    specialize (He (wf_row_mono _ _ _ Hcap Hw) z).
    unfold upc_commit, upc_open, upc_verify. rewrite parse_degrees_trap, Hdeg. cbn [rbind]. rewrite Hbp. cbn [rbind].
    rewrite (bpc_commit_ok E HE rand_g2 alpha beta xd yd bp Hl Hr).
    do 2 eexists. split; [reflexivity|].
    destruct (bpc_complete_outcome E E' HE HE' D fuel rand_g2 rand_g2' alpha beta k xd yd bp Hx Hl Hr
                (fpow z (yd + 1)) z HD) as [H|[pf [H V]]]; rewrite H; [now left|].
    right. exists pf. split; [reflexivity|]. rewrite <- He. exact V.
  Qed.

  Lemma upc_complete_live (alpha beta : K) d xd yd (p : list K) (z : K) :
    (forall prev (c1 c2 : com3 (mod_carrier (pGT P)) (mod_carrier (fmod K)) (identity_output (pG1 P))),
       exists c, gipa_challenge D fuel 0 prev c1 c2 = Ok c) ->
    (forall q, exists c : K, rand_challenge D fuel 0 q = Ok c) ->
    1 <= d -> (Z.of_nat d < 2 ^ 52)%Z -> bivariate_degrees 32 16 d = Ok (xd, yd) -> wf_row (d + 1) p ->
    exists com coms proof, upc_commit P E rand_g2 (trap_bsrs alpha beta xd yd) p = Ok (com, coms) /\
       upc_open P E D fuel rand_g2 (trap_bsrs alpha beta xd yd) p coms z = Ok proof /\
       upc_verify P E' D fuel rand_g2' (trap_vsrs alpha beta) d com z (ev p z) proof = Ok true.
  Proof.
    intros L1 L2 Hd Hlt Hdeg Hw.
    destruct (degrees_split 4 d ltac:(lia) Hd Hlt) as [k [k' [xd' [yd' [H [Hx [Hy Hcap]]]]]]].
    change (2 * 2 ^ 4) with 32 in H. change (2 ^ 4) with 16 in H.
    rewrite Hdeg in H. injection H as <- <-.
    destruct (bivariate_form_wf xd yd p) as [bp [Hbp [Hl [Hr He]]]].
    specialize (He (wf_row_mono _ _ _ Hcap Hw) z).
    unfold upc_commit, upc_open, upc_verify. rewrite parse_degrees_trap, Hdeg. cbn [rbind]. rewrite Hbp. cbn [rbind].
    rewrite (bpc_commit_ok E HE rand_g2 alpha beta xd yd bp Hl Hr).
    destruct (bpc_complete_live E E' HE HE' D fuel rand_g2 rand_g2' alpha beta k xd yd bp Hx Hl Hr
                (fpow z (yd + 1)) z L1 L2) as [pf [H V]].
    do 3 eexists. split; [reflexivity|]. split; [exact H|]. rewrite <- He. exact V.
  Qed.

  (** coefficients beyond the capacity are dropped *)
  Lemma upc_commit_firstn (alpha beta : K) xd yd p :
    upc_commit P E rand_g2 (trap_bsrs alpha beta xd yd) (firstn ((xd + 1) * (yd + 1)) p) =
    upc_commit P E rand_g2 (trap_bsrs alpha beta xd yd) p.
  Proof. clear HE HE'. unfold upc_commit. rewrite parse_degrees_trap. cbn [rbind]. now rewrite bivariate_form_firstn. Qed.

  Lemma upc_open_firstn (alpha beta : K) xd yd p coms z :
    upc_open P E D fuel rand_g2 (trap_bsrs alpha beta xd yd) (firstn ((xd + 1) * (yd + 1)) p) coms z =
    upc_open P E D fuel rand_g2 (trap_bsrs alpha beta xd yd) p coms z.
  Proof. clear HE HE'. unfold upc_open. rewrite parse_degrees_trap. cbn [rbind]. now rewrite bivariate_form_firstn. Qed.

  (** commit never fails, whatever the polynomial *)
  Lemma upc_commit_total (alpha beta : K) xd yd p :
    exists r, upc_commit P E rand_g2 (trap_bsrs alpha beta xd yd) p = Ok r.
  Proof. clear HE'.
    unfold upc_commit. rewrite parse_degrees_trap. cbn [rbind].
    destruct (bivariate_form_wf xd yd p) as [bp [Hbp [Hl [Hr _]]]]. rewrite Hbp. cbn [rbind].
    rewrite (bpc_commit_ok E HE rand_g2 alpha beta xd yd bp Hl Hr). eexists. reflexivity.
  Qed.

  Lemma upc_setup_0 rand (rng : R) : upc_setup P rand rng 0 = Panic.
  Proof. clear HE HE'.
    unfold upc_setup. change 32 with (2 * 2 ^ 4). change 16 with (2 ^ 4).
    rewrite bivariate_degrees_0 by lia. reflexivity.
  Qed.
End Upc.

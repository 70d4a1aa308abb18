(** Property C121, continued: the provers and verifiers with word arithmetic (WordsTop.v) against those of the model. *)
Require Import List Arith NArith ZArith Lia Bool.
Import ListNotations.
Require Import Verif.Outcome Verif.Algebra Verif.Zp Verif.Rust Verif.InnerProducts Verif.Commitments
  Verif.Gipa Verif.Poly Verif.Tipa Verif.Ssm Verif.Groth16 Verif.Words Verif.WordsTop
  Verif.Spec Verif.ListFacts Verif.RustFacts Verif.GipaFacts Verif.PropsBase Verif.PropsGipa Verif.PropsTipa Verif.PropsWords Verif.PropsGroth.

Lemma invert_all_length {K : field} (l l' : list K) : invert_all l = Ok l' -> length l' = length l.
Proof.
  unfold invert_all. revert l'. induction l as [|x l IH]; intros l' H; cbn [rmapM] in H; [now injection H as <-|].
  apply rbind_ok in H as [y [_ H]]. apply rbind_ok in H as [t [Ht H]]. injection H as <-. cbn [length]. f_equal. now apply IH.
Qed.

Lemma opening_w {K} {G : module K} m w v (powers : list G) t r c : fits v w -> length t <= w ->
  prove_ck_kzg_opening_w m w v powers t r c = prove_ck_kzg_opening powers t r c.
Proof. intros Hv Ht. unfold prove_ck_kzg_opening_w, prove_ck_kzg_opening. now rewrite C121_coefficients by auto. Qed.

Section Gipa.
  Context {R : Type} {K : field} {MA MB MT KA KB KT : module K} {OA OB OT : carrier K}.
  Variables (LMC : dhc R MA KA OA) (RMC : dhc R MB KB OB) (IPC : dhc R MT KT OT).
  Variable ip : list MA -> list MB -> res MT.
  Variables (D : bytes -> bytes) (fuel : nat) (m : build) (w : nat).
  Hypotheses (Hw : w = 64) (Hm : m = Release \/ fits w fuel).

  Lemma prove_loop_w : forall n a b ka kb kt st t,
    gipa_prove_loop_w m w LMC RMC IPC ip D fuel n a b ka kb kt st t = gipa_prove_loop LMC RMC IPC ip D fuel n a b ka kb kt st t.
  Proof using Hw Hm.
    induction n as [|n IH]; intros a b ka kb kt st t; cbn [gipa_prove_loop_w gipa_prove_loop]; [reflexivity|].
    destruct (length a =? 1); [reflexivity|]. cbv zeta.
    repeat match goal with |- rbind ?x _ = rbind ?x _ => destruct x; cbn [rbind]; [|reflexivity..] end.
    rewrite (proj2 (C121_nonces w m K D fuel Hw Hm)).
    destruct gipa_challenge as [[c ci]| | |]; cbn [rbind]; [|reflexivity..]. apply IH.
  Qed.

  Lemma prove_with_aux_w values ck :
    gipa_prove_with_aux_w m w LMC RMC IPC ip D fuel values ck = gipa_prove_with_aux LMC RMC IPC ip D fuel values ck.
  Proof using Hw Hm.
    destruct values as [a b], ck as [[ka kb] kt]. unfold gipa_prove_with_aux_w, gipa_prove_with_aux. now rewrite prove_loop_w.
  Qed.

  (** a round halves the vector *)
  Lemma prove_loop_rounds : forall n a b ka kb kt st t base ck st' t',
    gipa_prove_loop LMC RMC IPC ip D fuel n a b ka kb kt st t = Ok (base, ck, st', t') ->
    exists k, length t' = length t + k /\ 2 ^ k <= length a.
  Proof using. clear Hw Hm.
    induction n as [|n IH]; intros a b ka kb kt st t base ck st' t' H; cbn [gipa_prove_loop] in H.
    - destruct (Nat.eqb_spec (length a) 1) as [Ha|Ha]; [|discriminate H].
      apply rbind_ok in H as [? [_ H]]. apply rbind_ok in H as [? [_ H]]. apply rbind_ok in H as [? [_ H]]. apply rbind_ok in H as [? [_ H]].
      injection H as _ _ _ <-. exists 0. cbn [Nat.pow]. lia.
    - destruct (Nat.eqb_spec (length a) 1) as [Ha|Ha].
      + apply rbind_ok in H as [? [_ H]]. apply rbind_ok in H as [? [_ H]]. apply rbind_ok in H as [? [_ H]]. apply rbind_ok in H as [? [_ H]].
        injection H as _ _ _ <-. exists 0. cbn [Nat.pow]. lia.
      + cbv zeta in H. apply rbind_ok in H as [a1 [H1 H]]. apply rbind_ok in H as [a2 [H2 H]].
        do 8 (apply rbind_ok in H as [? [_ H]]). apply rbind_ok in H as [[c ci] [_ H]].
        apply IH in H as [k [Hk Hl]]. exists (S k). rewrite app_length in Hk. cbn [length] in Hk. split; [lia|].
        unfold slice_from, slice_to in H1, H2. destruct (_ <=? _) in H1; [|discriminate H1]. destruct (_ <=? _) in H2; [|discriminate H2].
        injection H1 as <-. injection H2 as <-. unfold rescale in Hl. rewrite zipw_length, skipn_length, firstn_length in Hl.
        pose proof (Nat.div_mod (length a) 2 ltac:(lia)). cbn [Nat.pow]. lia.
  Qed.

  Lemma prove_with_aux_rounds a b ck proof aux : fits w (length a) ->
    gipa_prove_with_aux LMC RMC IPC ip D fuel (a, b) ck = Ok (proof, aux) -> length (ga_transcript aux) <= w.
  Proof using. clear Hw Hm.
    intros Hf H. destruct ck as [[ka kb] kt]. unfold gipa_prove_with_aux in H. apply rbind_ok in H as [? [_ H]].
    apply rbind_ok in H as [[[[base ckb] st] t] [H H']]. injection H' as _ <-. cbn [ga_transcript]. rewrite rev_length.
    apply prove_loop_rounds in H as [k [Hk Hl]]. cbn [length Nat.add] in Hk. rewrite Hk. unfold fits in Hf.
    apply Nat.lt_le_incl. apply (Nat.pow_lt_mono_r_iff 2); lia.
  Qed.

  Lemma recursive_w com (proof : gipa_proof MA MB OA OB OT) :
    gipa_recursive_challenges_w m w D fuel com proof = gipa_recursive_challenges D fuel com proof.
  Proof using Hw Hm.
    unfold gipa_recursive_challenges_w, gipa_recursive_challenges. now rewrite challenges_loop_w by auto.
  Qed.

  (** GIPA's prover, for all inputs *)
  Theorem C121_gipa_prove values ck :
    gipa_prove_with_aux_w m w LMC RMC IPC ip D fuel values ck = gipa_prove_with_aux LMC RMC IPC ip D fuel values ck.
  Proof using Hw Hm. apply prove_with_aux_w. Qed.
End Gipa.
Print Assumptions C121_gipa_prove.

Ltac same := repeat match goal with
  | |- rbind ?x _ = rbind ?x _ => destruct x; cbn [rbind]; [|reflexivity..]
  | |- (let '(_, _) := ?p in _) = _ => destruct p
  end.

Section Top.
  Context {R : Type} {P : pairing}.
  Notation K := (pK P).
  Variables (D : bytes -> bytes) (fuel : nat) (E : penv) (m : build) (w v : nat).
  Hypotheses (Hw : w = 64) (Hv : fits v w) (Hm : m = Release \/ fits w fuel).

  (** TIPA: the prover for left vectors with fewer than 2^64 elements, the verifier for all proofs *)
  Theorem C121_tipa {MA MB MT KT : module (pK P)} {OA OB OT : carrier (pK P)} (LMC : dhc R MA (pG2 P) OA)
      (RMC : dhc R MB (pG1 P) OB) (IPC : dhc R MT KT OT) (ip : list MA -> list MB -> res MT) :
    (forall s a b ck r, fits w (length a) ->
       tipa_prove_w m w v D fuel LMC RMC IPC ip s (a, b) ck r = tipa_prove_with_srs_shift LMC RMC IPC ip D fuel s (a, b) ck r) /\
    (forall vs ck_t com proof r,
       tipa_verify_w m w D fuel LMC RMC IPC ip vs ck_t com proof r = tipa_verify_with_srs_shift LMC RMC IPC ip D fuel vs ck_t com proof r).
  Proof using Hw Hv Hm.
    split.
    - intros s a b [[ka kb] kt] r Ha. unfold tipa_prove_w, tipa_prove_with_srs_shift. rewrite prove_with_aux_w by auto.
      destruct gipa_prove_with_aux as [[proof aux]| | |] eqn:Ep; cbn [rbind]; [|reflexivity..].
      apply (prove_with_aux_rounds _ _ _ _ _ _ w) in Ep; [|exact Ha].
      destruct (ga_ck_base aux) as [cka ckb]. cbv zeta.
      destruct (invert_all (ga_transcript aux)) as [ti| | |] eqn:Ei; cbn [rbind]; [|reflexivity..]. apply invert_all_length in Ei.
      destruct (runwrap (finverse r)); cbn [rbind]; [|reflexivity..].
      destruct (runwrap (hd_error _)); cbn [rbind]; [|reflexivity..].
      rewrite (proj1 (C121_nonces w m K D fuel Hw Hm)). destruct rand_challenge; cbn [rbind]; [|reflexivity..].
      rewrite opening_w by (auto; lia). destruct prove_ck_kzg_opening; cbn [rbind]; [|reflexivity..].
      now rewrite opening_w by (auto; lia).
    - intros vs ck_t com proof r. unfold tipa_verify_w, tipa_verify_with_srs_shift. rewrite recursive_w by auto.
      destruct gipa_recursive_challenges as [[bc t]| | |]; cbn [rbind]; [|reflexivity..].
      destruct (invert_all t); cbn [rbind]; [|reflexivity..]. destruct (tp_final_ck proof) as [cka ckb], (tp_final_ck_proof proof) as [pa pb].
      destruct (runwrap (hd_error t)); cbn [rbind]; [|reflexivity..]. now rewrite (proj1 (C121_nonces w m K D fuel Hw Hm)).
  Qed.

  Theorem C121_ssm {MA MT KT : module (pK P)} {OA OT : carrier (pK P)} (LMC : dhc R MA (pG2 P) OA)
      (IPC : dhc R MT KT OT) (ip : list MA -> list (fmod (pK P)) -> res MT) :
    (forall s a b ck, fits w (length a) ->
       tssm_prove_w m w v D fuel LMC IPC ip s (a, b) ck = tssm_prove LMC IPC ip D fuel s (a, b) ck) /\
    (forall vs ck_t com b proof, tssm_verify_w m w D fuel E LMC IPC ip vs ck_t com b proof = tssm_verify LMC IPC ip D fuel E vs ck_t com b proof) /\
    (forall ka kt com b proof, fits w (length ka) ->
       gssm_verify_w m w v D fuel E LMC IPC ip (ka, kt) com b proof = gssm_verify LMC IPC ip D fuel E (ka, kt) com b proof).
  Proof using Hw Hv Hm.
    split; [|split].
    - intros s a b [ka kt] Ha. unfold tssm_prove_w, tssm_prove. rewrite prove_with_aux_w by auto.
      destruct gipa_prove_with_aux as [[proof aux]| | |] eqn:Ep; cbn [rbind]; [|reflexivity..].
      apply (prove_with_aux_rounds _ _ _ _ _ _ w) in Ep; [|exact Ha].
      destruct (ga_ck_base aux) as [cka ckb]. cbv zeta.
      destruct (invert_all (ga_transcript aux)) as [ti| | |] eqn:Ei; cbn [rbind]; [|reflexivity..]. apply invert_all_length in Ei.
      destruct (runwrap (hd_error _)); cbn [rbind]; [|reflexivity..].
      rewrite (proj1 (C121_nonces w m K D fuel Hw Hm)). destruct rand_challenge; cbn [rbind]; [|reflexivity..].
      now rewrite opening_w by (auto; lia).
    - intros vs ck_t com b proof. unfold tssm_verify_w, tssm_verify. rewrite recursive_w by auto.
      destruct gipa_recursive_challenges as [[bc t]| | |]; cbn [rbind]; [|reflexivity..].
      destruct (invert_all t); cbn [rbind]; [|reflexivity..]. cbv zeta.
      destruct (runwrap (hd_error t)); cbn [rbind]; [|reflexivity..]. now rewrite (proj1 (C121_nonces w m K D fuel Hw Hm)).
    - intros ka kt com b proof Ha. unfold gssm_verify_w, gssm_verify. rewrite recursive_w by auto.
      destruct gipa_recursive_challenges as [[bc t]| | |]; cbn [rbind]; [|reflexivity..]. now rewrite final_keys_w by auto.
  Qed.

  Variables (rand_g1 : sampler R (pG1 P)) (rand_g2 : sampler R (pG2 P)).

  (** Groth16 aggregation: fewer than 2^64 proofs, fewer than 2^64 - 1 public inputs in the first row *)
  Theorem C121_groth16 :
    (forall s proofs, fits w (length proofs) ->
       g16_aggregate_w m w v D fuel E rand_g1 rand_g2 s proofs = g16_aggregate P E D fuel rand_g1 rand_g2 s proofs) /\
    (forall vs vk inputs proof, (forall row, nth_error inputs 0 = Some row -> fits w (length row + 1)) ->
       g16_verify_w m w D fuel E rand_g1 rand_g2 vs vk inputs proof = g16_verify P E D fuel rand_g1 rand_g2 vs vk inputs proof).
  Proof using Hw Hv Hm.
    split.
    - intros s proofs Hf. unfold g16_aggregate_w, g16_aggregate. destruct (get_commitment_keys s) as [ck1 ck2]. cbv zeta.
      do 3 (destruct pairing_ip; cbn [rbind]; [|reflexivity..]).
      rewrite (proj1 (C121_nonces w m K D fuel Hw Hm)). destruct rand_challenge as [r| | |]; cbn [rbind]; [|reflexivity..].
      destruct structured_scalar_power as [rv| | |]; cbn [rbind]; [|reflexivity..].
      destruct pairing_ip; cbn [rbind]; [|reflexivity..]. destruct multiexp_ip; cbn [rbind]; [|reflexivity..].
      destruct rmapM as [ckr| | |]; cbn [rbind]; [|reflexivity..]. destruct pairing_ip; cbn [rbind]; [|reflexivity..].
      destruct rassert; cbn [rbind]; [|reflexivity..].
      assert (Hl : fits w (length (zipw (fun (a : pG1 P) (r : K) => r *m a) (map pf_a proofs) rv))).
      { unfold fits in *. rewrite zipw_length, map_length. lia. }
      rewrite (proj1 (C121_tipa _ _ _ _)) by exact Hl.
      destruct tipa_prove_with_srs_shift; cbn [rbind]; [|reflexivity..].
      rewrite (proj1 (C121_ssm _ _ _)) by (rewrite map_length; exact Hf). reflexivity.
    - intros vs vk inputs proof Hrow. unfold g16_verify_w, g16_verify.
      rewrite (proj1 (C121_nonces w m K D fuel Hw Hm)). destruct rand_challenge as [r| | |]; cbn [rbind]; [|reflexivity..].
      rewrite (proj2 (C121_tipa _ _ _ _)). destruct tipa_verify_with_srs_shift; cbn [rbind]; [|reflexivity..].
      rewrite (proj1 (proj2 (C121_ssm _ _ _))). destruct tssm_verify; cbn [rbind]; [|reflexivity..].
      f_equal. unfold g16_ppe_w, g16_ppe. destruct rdiv; cbn [rbind]; [|reflexivity..]. cbv zeta.
      unfold index at 1 3. destruct (nth_error inputs 0) as [row|]; cbn [runwrap rbind]; [|reflexivity].
      unfold wadd. now rewrite word_fits by auto.
  Qed.
End Top.
Print Assumptions C121_tipa.
Print Assumptions C121_ssm.
Print Assumptions C121_groth16.

(** *** Non-vacuity: two proofs aggregated and verified on a 64-bit machine, in both builds *)
Definition ex121_agg m inputs : res bool :=
  do (s, _) <- g16_setup ZPair ex_scalars 2%Z (length ex_pfs); do vs <- get_verifier_key s;
  do p <- g16_aggregate_w (P := ZPair) m 64 32 toy_digest 9 ex_env ex_rand ex_rand s ex_pfs;
  g16_verify_w (P := ZPair) m 64 toy_digest 9 ex_env1 ex_rand ex_rand vs ex_vk inputs p.
Example C121_example_groth16 :
  fits 32 64 /\ fits 64 9 /\ fits 64 (length ex_pfs) /\ (forall row, nth_error ex_inputs 0 = Some row -> fits 64 (length row + 1)) /\
  map (fun m => ex121_agg m ex_inputs) [Debug; Release] = [Ok true; Ok true] /\
  map (fun m => ex121_agg m [zl [3]%Z; zl [2]%Z]) [Debug; Release] = [Ok false; Ok false].
Proof.
  split; [exact fits_32_64|]. split; [now apply fits_64_small|]. split; [now apply fits_64_small|].
  split; [intros row H; injection H as <-; now apply fits_64_small|]. split; vm_compute; reflexivity.
Qed.

(** one-bit words: with two challenges the exponent [2^1] does not fit *)
Example C121_example_opening :
  let key n := repeat (f1 : fmod ZP) n in
  map (fun m => outcome (prove_ck_kzg_opening_w m 1 1 (key 7) [f1; f1] f1 (zq 5))) [Debug; Release] = [Panic; Panic] /\
  map (fun m => outcome (prove_ck_kzg_opening_w m 64 32 (key 7) [f1; f1] f1 (zq 5))) [Debug; Release] = [Ok tt; Ok tt] /\
  outcome (prove_ck_kzg_opening (key 7) [f1; f1] f1 (zq 5)) = Ok tt.
Proof. repeat split; vm_compute; reflexivity. Qed.

(** Property C121, continued: polynomial commitments and SIPP with word arithmetic (WordsPc.v) against the model. *)
Require Import List Arith NArith ZArith Lia Bool.
Import ListNotations.
Require Import Verif.Outcome Verif.Algebra Verif.Zp Verif.Rust Verif.InnerProducts Verif.Commitments
  Verif.Gipa Verif.Poly Verif.Tipa Verif.Ssm Verif.Floats Verif.PolyCommit Verif.Transparent Verif.Rng Verif.Sipp
  Verif.Words Verif.WordsTop Verif.WordsPc
  Verif.Spec Verif.ListFacts Verif.RustFacts Verif.GipaFacts Verif.SippFacts Verif.PropsBase Verif.PropsGipa Verif.PropsTipa
  Verif.PcDegrees Verif.PropsPoly Verif.PropsWords Verif.PropsWordsTop.
Require Verif.PropsSipp.

(** [(n - 1) + 1] is [n] without overflow checks *)
Lemma pred_succ_release w n : fits w n -> exists d, wsub Release w n 1 = Ok d /\ wadd Release w d 1 = Ok n.
Proof.
  intros Hf. unfold wsub, wadd. destruct (Nat.leb_spec 1 n) as [H1|H1].
  - exists (n - 1). split; [reflexivity|]. replace (n - 1 + 1) with n by lia. now apply word_fits.
  - assert (n = 0) as -> by lia. eexists. split; [reflexivity|].
    assert (Hx : N.to_nat (2 ^ N.of_nat w + N.of_nat 0 - N.of_nat 1) + 1 = 2 ^ w).
    { pose proof (pow2_pos w) as Hp. apply Nat2N.inj. rewrite Nat2N.inj_add, N2Nat.id, Nat2N.inj_pow.
      change (N.of_nat 2) with 2%N. change (N.of_nat 1) with 1%N. change (N.of_nat 0) with 0%N.
      assert (0 < 2 ^ N.of_nat w)%N by (apply N.neq_0_lt_0, N.pow_nonzero; discriminate). lia. }
    rewrite Hx, word_over by (unfold fits; lia). now rewrite Nat.mod_same by (apply Nat.pow_nonzero; lia).
Qed.

Lemma take_rows_0 {K : field} : forall rows (l : list K), take_rows rows 0 l = Ok (repeat [] rows).
Proof. induction rows as [|rows IH]; intros l; cbn [take_rows take_row repeat rbind]; [reflexivity|]. rewrite IH. reflexivity. Qed.

(** a row needs [cols] elements *)
Lemma take_row_out {A} : forall n (l : list A), take_row n l = Panic \/ exists x, take_row n l = Ok x.
Proof.
  induction n as [|n IH]; intros l; cbn [take_row]; [eauto|]. destruct l as [|a l]; cbn [hd_error runwrap rbind tl]; [now left|].
  destruct (IH l) as [->|[[r t] ->]]; cbn [rbind]; eauto.
Qed.
Lemma take_rows_out {K : field} rows : forall cols (l : list K), take_rows rows cols l = Panic \/ exists p, take_rows rows cols l = Ok p /\ length p = rows.
Proof.
  induction rows as [|rows IH]; intros cols l; cbn [take_rows]; [right; now exists []|].
  destruct (take_row_out cols l) as [->|[[r t] ->]]; [now left|]. cbn [rbind].
  destruct (IH cols t) as [->|[p [-> Hp]]]; [now left|]. right. cbn [rbind]. eexists. split; [reflexivity|]. cbn [length]. now rewrite Hp.
Qed.

Section Pc.
  Context {R : Type} {P : pairing}.
  Notation K := (pK P).
  Variables (D : bytes -> bytes) (fuel : nat) (E : penv) (m : build) (w v : nat).
  Variables (rand_g1 : sampler R (pG1 P)) (rand_g2 : sampler R (pG2 P)).
  Hypotheses (Hw : w = 64) (Hv : fits v w) (Hm : m = Release \/ fits w fuel).

  (** Commitments with a reference string: nonempty vectors, all coefficients can be counted *)
  Theorem C121_poly_commit :
    (forall s p coms pt, fits w (length coms) ->
       bpc_open_w m w v P E D fuel rand_g2 s p coms pt = bpc_open P E D fuel rand_g2 s p coms pt) /\
    (forall vs com pt ev proof,
       bpc_verify_w m w P E D fuel rand_g2 vs com pt ev proof = bpc_verify P E D fuel rand_g2 vs com pt ev proof) /\
    (forall s p, h_beta_powers (fst s) <> [] -> snd s <> [] ->
       fits w (((length (h_beta_powers (fst s)) - 1) / 2 + 1) * length (snd s)) ->
       upc_commit_w m w P E rand_g2 s p = upc_commit P E rand_g2 s p /\
       forall coms pt, fits w (length coms) ->
         upc_open_w m w v P E D fuel rand_g2 s p coms pt = upc_open P E D fuel rand_g2 s p coms pt) /\
    (forall vs d com pt ev proof, fits w (d + 1) ->
       upc_verify_w m w P E D fuel rand_g2 vs d com pt ev proof = upc_verify P E D fuel rand_g2 vs d com pt ev proof).
  Proof using Hw Hv Hm.
    assert (Ho : forall s p coms pt, fits w (length coms) ->
       bpc_open_w m w v P E D fuel rand_g2 s p coms pt = bpc_open P E D fuel rand_g2 s p coms pt).
    { intros [s kz] p coms [x y] Hc. unfold bpc_open_w, bpc_open. cbv zeta. destruct rassert; cbn [rbind]; [|reflexivity..].
      destruct y_eval_coefficients; cbn [rbind]; [|reflexivity..]. destruct (runwrap (msm kz _)); cbn [rbind]; [|reflexivity..].
      now rewrite (proj1 (C121_ssm (R := R) (P := P) D fuel E m w v Hw Hv Hm _ _ _)) by exact Hc. }
    assert (Hb : forall vs com pt ev proof,
       bpc_verify_w m w P E D fuel rand_g2 vs com pt ev proof = bpc_verify P E D fuel rand_g2 vs com pt ev proof).
    { intros vs com [x y] ev proof. unfold bpc_verify_w, bpc_verify.
      now rewrite (proj1 (proj2 (C121_ssm (R := R) (P := P) D fuel E m w v Hw Hv Hm _ _ _))). }
    split; [exact Ho|]. split; [exact Hb|]. split.
    - intros [s kz] p Hh Hk Hf. cbn [fst snd] in *.
      assert (Hh' : 0 < length (h_beta_powers s)) by (destruct (h_beta_powers s); [easy|cbn; lia]).
      assert (Hk' : 0 < length kz) by (destruct kz; [easy|cbn; lia]). clear Hh Hk.
      assert (Hd : parse_degrees_srs_w m w P (s, kz) = parse_degrees_srs P (s, kz) /\
                   parse_degrees_srs P (s, kz) = Ok ((length (h_beta_powers s) - 1) / 2, length kz - 1)).
      { unfold parse_degrees_srs_w, parse_degrees_srs. cbn [fst snd]. rewrite !wsub_ok by lia. cbn [rbind].
        rewrite (proj2 (Nat.ltb_lt _ _) Hh'), (proj2 (Nat.ltb_lt _ _) Hk'). auto. }
      destruct Hd as [Hd1 Hd2]. set (x := (length (h_beta_powers s) - 1) / 2) in *.
      assert (Hk1 : length kz - 1 + 1 = length kz) by lia.
      assert (Hform : bivariate_form_w m w (x, length kz - 1) p = bivariate_form (x, length kz - 1) p).
      { rewrite C121_bivariate_form; rewrite ?Hk1.
        - unfold fits in Hf. now rewrite (proj2 (Nat.ltb_lt _ _) Hf).
        - unfold fits in *. nia.
        - unfold fits in *. nia. }
      unfold upc_commit_w, upc_commit, upc_open_w, upc_open. rewrite Hd1, Hd2. cbn [rbind]. rewrite Hform. split; [reflexivity|].
      intros coms pt Hc. unfold wadd. rewrite word_fits by (rewrite Hk1; unfold fits in *; nia). cbn [rbind].
      destruct bivariate_form; cbn [rbind]; [|reflexivity..]. now apply Ho.
    - intros vs d com pt ev proof Hd. unfold upc_verify_w, upc_verify.
      rewrite (proj2 (C121_univariate (R := unit) (P := P) (fun r => (f0, r)) w m tt d pt Hw Hd)).
      destruct bivariate_degrees as [[x y]| | |]; cbn [rbind snd]; [|reflexivity..]. apply Hb.
  Qed.

  Lemma gssm_prove_same {MA MT KA KT : module (pK P)} {OA OT : carrier (pK P)} (LMC : dhc R MA KA OA)
      (IPC : dhc R MT KT OT) (ip : list MA -> list (fmod (pK P)) -> res MT) values ck :
    gssm_prove_w m w P D fuel LMC IPC ip values ck = gssm_prove LMC IPC ip D fuel values ck.
  Proof using Hw Hm. destruct ck as [ka kt]. unfold gssm_prove_w, gssm_prove. now rewrite prove_with_aux_w by auto. Qed.

  Lemma gssm_verify_same {MA MT KA KT : module (pK P)} {OA OT : carrier (pK P)} (LMC : dhc R MA KA OA)
      (IPC : dhc R MT KT OT) (ip : list MA -> list (fmod (pK P)) -> res MT) ka kt com b proof : fits w (length ka) ->
    gssm_verify_w m w v D fuel E LMC IPC ip (ka, kt) com b proof = gssm_verify LMC IPC ip D fuel E (ka, kt) com b proof.
  Proof using Hw Hv Hm.
    intros Ha. unfold gssm_verify_w, gssm_verify. rewrite recursive_w by auto.
    destruct gipa_recursive_challenges as [[bc t]| | |]; cbn [rbind]; [|reflexivity..]. now rewrite final_keys_w by auto.
  Qed.

  (** Transparent commitments *)
  Theorem C121_transparent :
    (forall ck p coms pt, tbpc_open_w m w P E D fuel rand_g1 rand_g2 ck p coms pt = tbpc_open P E D fuel rand_g1 rand_g2 ck p coms pt) /\
    (forall k1 k2 com pt ev proof, fits w (length k1) -> fits w (length k2) ->
       tbpc_verify_w m w v P E D fuel rand_g1 rand_g2 (k1, k2) com pt ev proof = tbpc_verify P E D fuel rand_g1 rand_g2 (k1, k2) com pt ev proof) /\
    (forall k1 k2, k1 <> [] -> k2 <> [] -> fits w (length k1 * length k2) ->
       (forall p, tupc_commit_w m w P E rand_g1 rand_g2 (k1, k2) p = tupc_commit P E rand_g1 rand_g2 (k1, k2) p) /\
       (forall p coms pt, tupc_open_w m w P E D fuel rand_g1 rand_g2 (k1, k2) p coms pt = tupc_open P E D fuel rand_g1 rand_g2 (k1, k2) p coms pt) /\
       (forall com pt ev proof, tupc_verify_w m w v P E D fuel rand_g1 rand_g2 (k1, k2) com pt ev proof =
          tupc_verify P E D fuel rand_g1 rand_g2 (k1, k2) com pt ev proof)) /\
    (forall rng d, fits w (d + 1) -> tupc_setup_w m w P E rand_g1 rand_g2 rng d = tupc_setup P E rand_g1 rand_g2 rng d).
  Proof using Hw Hv Hm.
    assert (Ho : forall ck p coms pt, tbpc_open_w m w P E D fuel rand_g1 rand_g2 ck p coms pt = tbpc_open P E D fuel rand_g1 rand_g2 ck p coms pt).
    { intros [k1 k2] p coms [x y]. unfold tbpc_open_w, tbpc_open. cbv zeta. destruct rassert; cbn [rbind]; [|reflexivity..].
      destruct (structured_scalar_power (length k2) x); cbn [rbind]; [|reflexivity..].
      destruct y_eval_coefficients; cbn [rbind]; [|reflexivity..]. destruct (dh_commit (pedersen (pG1 P) rand_g1) k1 _); cbn [rbind]; [|reflexivity..].
      rewrite gssm_prove_same. destruct gssm_prove; cbn [rbind]; [|reflexivity..].
      destruct (structured_scalar_power (length k1) y); cbn [rbind]; [|reflexivity..]. now rewrite gssm_prove_same. }
    assert (Hb : forall k1 k2 com pt ev proof, fits w (length k1) -> fits w (length k2) ->
       tbpc_verify_w m w v P E D fuel rand_g1 rand_g2 (k1, k2) com pt ev proof = tbpc_verify P E D fuel rand_g1 rand_g2 (k1, k2) com pt ev proof).
    { intros k1 k2 com [x y] ev proof H1 H2. unfold tbpc_verify_w, tbpc_verify. rewrite gssm_verify_same by exact H2.
      destruct gssm_verify; cbn [rbind]; [|reflexivity..]. now rewrite gssm_verify_same by exact H1. }
    split; [exact Ho|]. split; [exact Hb|]. split.
    - intros k1 k2 Hk1 Hk2 Hf.
      assert (L1 : 0 < length k1) by (destruct k1; [easy|cbn; lia]). assert (L2 : 0 < length k2) by (destruct k2; [easy|cbn; lia]). clear Hk1 Hk2.
      assert (F1 : fits w (length k1)) by (unfold fits in *; nia). assert (F2 : fits w (length k2)) by (unfold fits in *; nia).
      assert (Hd1 : parse_degrees_ck_w m w P (k1, k2) = Ok (length k2 - 1, length k1 - 1)).
      { unfold parse_degrees_ck_w. cbn [fst snd]. now rewrite !wsub_ok by lia. }
      assert (Hd2 : parse_degrees_ck P (k1, k2) = Ok (length k2 - 1, length k1 - 1)).
      { unfold parse_degrees_ck. cbn [fst snd]. now rewrite (proj2 (Nat.ltb_lt _ _) L1), (proj2 (Nat.ltb_lt _ _) L2). }
      assert (E1 : length k1 - 1 + 1 = length k1) by lia. assert (E2 : length k2 - 1 + 1 = length k2) by lia.
      assert (Hform : forall p : list K, bivariate_form_w m w (length k2 - 1, length k1 - 1) p = bivariate_form (length k2 - 1, length k1 - 1) p).
      { intros p. rewrite C121_bivariate_form; rewrite ?E1, ?E2; auto. unfold fits in Hf. rewrite Nat.mul_comm in Hf.
        now rewrite (proj2 (Nat.ltb_lt _ _) Hf). }
      assert (Hn : wadd m w (length k1 - 1) 1 = Ok (length k1 - 1 + 1)) by (apply word_fits; now rewrite E1).
      unfold tupc_commit_w, tupc_commit, tupc_open_w, tupc_open, tupc_verify_w, tupc_verify. rewrite Hd1, Hd2. cbn [rbind]. rewrite Hn. cbn [rbind].
      split; [|split]; intros; rewrite ?Hform; [reflexivity| |now apply Hb].
      destruct bivariate_form; cbn [rbind]; [|reflexivity..]. apply Ho.
    - intros rng d Hd. unfold tupc_setup_w, tupc_setup. rewrite C121_degrees by auto.
      destruct (Nat.eq_dec d 0) as [->|H0].
      + pose proof (bivariate_degrees_0 2 ltac:(auto)) as H0. change (2 * 2 ^ 2) with 8 in H0. change (2 ^ 2) with 4 in H0. rewrite H0. reflexivity.
      + destruct (degrees_small w 8 4 d Hw) as [x [y [Ed [_ [Hx Hy]]]]]; [auto|lia|exact Hd|].
        rewrite Ed. cbn [rbind]. unfold tbpc_setup_w, tbpc_setup, wadd. rewrite (word_fits m w (y + 1)) by exact Hy. cbn [rbind].
        rewrite (word_fits m w (x + 1)) by (unfold fits in *; lia). reflexivity.
  Qed.

  (** An empty key: univariate [commit] panics in a build with overflow checks; without them the number of rows or
      columns wraps around to 0 and every polynomial gets the commitment to the zero polynomial *)
  Theorem C121_empty_key_refuted k1 k2 p : k1 = [] \/ k2 = [] -> fits w (length k1) -> fits w (length k2) ->
    tupc_commit P E rand_g1 rand_g2 (k1, k2) p = Panic /\
    tupc_commit_w Debug w P E rand_g1 rand_g2 (k1, k2) p = Panic /\
    tupc_commit_w Release w P E rand_g1 rand_g2 (k1, k2) p = tbpc_commit P E rand_g1 rand_g2 (k1, k2) (repeat [] (length k2)).
  Proof using.
    clear Hw Hv Hm. intros Hk F1 F2. split; [|split].
    - unfold tupc_commit, parse_degrees_ck. cbn [fst snd]. destruct Hk as [->| ->]; [|reflexivity].
      destruct (0 <? length k2); reflexivity.
    - unfold tupc_commit_w, parse_degrees_ck_w. cbn [fst snd]. destruct Hk as [->| ->]; [|reflexivity].
      unfold wsub. destruct (1 <=? length k2); reflexivity.
    - destruct (pred_succ_release w _ F1) as [y [Hy Hy']]. destruct (pred_succ_release w _ F2) as [x [Hx Hx']].
      unfold tupc_commit_w, parse_degrees_ck_w, bivariate_form_w. cbn [fst snd]. rewrite Hx, Hy. cbn [rbind]. rewrite Hx', Hy'. cbn [rbind].
      assert (H0 : length k2 * length k1 = 0) by (destruct Hk as [->| ->]; cbn; lia). unfold wmul. rewrite H0.
      rewrite word_fits by (unfold fits; pose proof (pow2_pos w); lia). cbn [rbind].
      destruct Hk as [->| ->]; cbn [length]; [now rewrite take_rows_0|reflexivity].
  Qed.

  (** with a reference string it panics in both builds *)
  Theorem C121_empty_key_partial s kz p : h_beta_powers s = [] \/ kz = [] -> 1 <= w -> fits w (length (h_beta_powers s)) -> fits w (length kz) ->
    upc_commit P E rand_g2 (s, kz) p = Panic /\ forall m, upc_commit_w m w P E rand_g2 (s, kz) p = Panic.
  Proof using.
    clear Hw Hv Hm. intros Hk Hw1 Fh Fk. split.
    - unfold upc_commit, parse_degrees_srs. cbn [fst snd]. destruct Hk as [->| ->]; [reflexivity|].
      destruct (0 <? length (h_beta_powers s)); reflexivity.
    - intros [|]; unfold upc_commit_w, parse_degrees_srs_w; cbn [fst snd].
      + destruct Hk as [->| ->]; [reflexivity|]. unfold wsub. destruct (1 <=? length (h_beta_powers s)); reflexivity.
      + destruct (pred_succ_release w _ Fk) as [y [Hy Hy']]. rewrite Hy.
        assert (Hx : exists x, wsub Release w (length (h_beta_powers s)) 1 = Ok x /\ fits w (x / 2 + 1) /\
                     (x / 2 + 1 <= length (fst (get_commitment_keys s)) -> h_beta_powers s <> [])).
        { destruct (h_beta_powers s) as [|h hs] eqn:Eh.
          - destruct (pred_succ_release w 0) as [x [E1 _]]; [exact Fh|]. exists x. split; [exact E1|]. split.
            + unfold wsub in E1. cbn [Nat.leb] in E1. injection E1 as <-. rewrite N.add_0_r.
              assert (Hx : N.to_nat (2 ^ N.of_nat w - N.of_nat 1) + 1 = 2 ^ w).
              { apply Nat2N.inj. rewrite Nat2N.inj_add, N2Nat.id, Nat2N.inj_pow. change (N.of_nat 2) with 2%N. change (N.of_nat 1) with 1%N.
                assert (0 < 2 ^ N.of_nat w)%N by (apply N.neq_0_lt_0, N.pow_nonzero; discriminate). lia. }
              assert (2 <= 2 ^ w) by (replace w with (S (w - 1)) by lia; cbn [Nat.pow]; pose proof (pow2_pos (w - 1)); lia).
              unfold fits. set (x := N.to_nat _) in *. pose proof (Nat.div_le_mono x (x + 1) 2). pose proof (Nat.div_mod x 2). lia.
            + unfold get_commitment_keys. cbn [fst]. rewrite step_by2_length, Eh. cbn. lia.
          - exists (length hs). cbn [length] in *. split; [unfold wsub; cbn [Nat.leb]; do 2 f_equal; lia|]. split; [|easy].
            unfold fits in *. pose proof (Nat.div_le_upper_bound (length hs) 2 (length hs)). lia. }
        destruct Hx as [x [Hx [Hf Hn]]]. rewrite Hx. cbn [rbind]. unfold bivariate_form_w. unfold wadd at 1. rewrite word_fits by exact Hf.
        cbn [rbind]. rewrite Hy'. cbn [rbind]. destruct wmul as [n| | |] eqn:En; [|unfold wmul, word in En; destruct (_ <? _)%N; discriminate En..].
        cbn [rbind]. destruct (take_rows_out (x / 2 + 1) (length kz) (chain_cycle_take p f0 n)) as [->|[bp [-> Hb]]]; [reflexivity|]. cbn [rbind].
        unfold bpc_commit. cbv zeta. rewrite Hb. destruct (Nat.leb_spec (x / 2 + 1) (length (fst (get_commitment_keys s)))) as [Hl|Hl]; [|reflexivity].
        cbn [rassert rbind]. specialize (Hn Hl). destruct Hk as [Hk| ->]; [easy|].
        assert (Hc : exists q qs, chain_cycle_take bp [] (length (fst (get_commitment_keys s))) = q :: qs).
        { destruct (chain_cycle_take bp [] (length (fst (get_commitment_keys s)))) as [|q qs] eqn:Ec; [|eauto].
          apply (f_equal (@length _)) in Ec. unfold chain_cycle_take in Ec. rewrite app_length, firstn_length, repeat_length in Ec. cbn [length] in Ec. lia. }
        destruct Hc as [q [qs ->]]. cbn [rmapM]. unfold kzg_commit at 1.
        assert (Hd : poly_degree q = Panic \/ exists d, poly_degree q = Ok d).
        { unfold poly_degree. destruct (poly_is_zero q); [eauto|].
          destruct (match last_opt q with Some c => negb (feqb c f0) | None => false end); cbn [rassert rbind]; eauto. }
        destruct Hd as [->|[d ->]]; [reflexivity|]. cbn [rbind length]. rewrite (proj2 (Nat.leb_gt (d + 1) 0)) by lia. reflexivity.
  Qed.

  (** SIPP's verifier *)
  Theorem C121_sipp_verify S a b r value proof : fits w (length a) ->
    sipp_verify_w m w P E D S a b r value proof = sipp_verify P E S D a b r value proof.
  Proof using Hw.
    intros Hf. unfold sipp_verify_w, sipp_verify. cbv zeta.
    destruct (rassert (count_ones _ =? 1)); cbn [rbind]; [|reflexivity..].
    destruct (Nat.leb_spec 2 (length a)) as [H2|]; [|reflexivity]. cbn [rassert rbind].
    destruct (rassert (length a =? length b)); cbn [rbind]; [|reflexivity..].
    assert (Hl : Nat.log2 (length a) < w) by (apply Nat.log2_lt_pow2; [lia|exact Hf]).
    assert (H1 : 1 <= Nat.log2 (length a)) by (apply (Nat.log2_le_mono 2); exact H2).
    destruct (f32_eqb _ _) eqn:Hr; [|reflexivity]. cbn [rassert rbind].
    apply f32_rounds_eq in Hr; [|exact H1|rewrite Hw in Hl; lia].
    assert (Hc : forall g l, length (sipp_challenges P S D g l) = length l).
    { intros g l. revert g. induction l as [|[zl zr] l IH]; intros g; cbn [sipp_challenges length]; [reflexivity|].
      destruct sipp_challenge. cbn [length]. now rewrite IH. }
    rewrite C121_sipp by (rewrite ?Hc; lia). cbn [rbind]. rewrite C121_sipp by (rewrite ?map_length, ?Hc; lia). reflexivity.
  Qed.
End Pc.
Print Assumptions C121_poly_commit.
Print Assumptions C121_transparent.
Print Assumptions C121_sipp_verify.
Print Assumptions C121_empty_key_refuted.
Print Assumptions C121_empty_key_partial.

(** *** Non-vacuity: commitments and SIPP on a 64-bit machine, in both builds *)
Definition ex121_upc m (p : list Z) (z e : Z) : res (zp * bool) :=
  do (s, _) <- upc_setup_w m 64 ZPair ex_scalars 5%Z 3;
  do vs <- get_verifier_key (fst s);
  do (com, coms) <- upc_commit_w m 64 ZPair ex_env ex_rand s (zl p);
  do proof <- upc_open_w m 64 32 ZPair ex_env toy_digest 9 ex_rand s (zl p) coms (zq z);
  do ok <- upc_verify_w m 64 ZPair ex_env1 toy_digest 9 ex_rand vs 3 com (zq z) (zq e) proof;
  Ok (com, ok).
Definition ex121_tupc m (p : list Z) (z e : Z) : res (zp * bool) :=
  do (ck, _) <- tupc_setup_w m 64 ZPair ex_env ex_rand ex_rand 5%Z 3;
  do (com, coms) <- tupc_commit_w m 64 ZPair ex_env ex_rand ex_rand ck (zl p);
  do proof <- tupc_open_w m 64 ZPair ex_env toy_digest 9 ex_rand ex_rand ck (zl p) coms (zq z);
  do ok <- tupc_verify_w m 64 32 ZPair ex_env1 toy_digest 9 ex_rand ex_rand ck com (zq z) (zq e) proof;
  Ok (com, ok).
Example C121_example_poly_commit :
  fits 32 64 /\ fits 64 9 /\ fits 64 (3 + 1) /\
  map (fun m => ex121_upc m [1; 2; 3; 4]%Z 3 142) [Debug; Release] = repeat (Ok (zq 839, true)) 2 /\
  map (fun m => ex121_upc m [1; 2; 3; 4]%Z 3 143) [Debug; Release] = repeat (Ok (zq 839, false)) 2 /\
  map (fun m => ex121_tupc m [1; 2; 3; 4]%Z 3 142) [Debug; Release] = repeat (Ok (zq 431, true)) 2.
Proof.
  split; [exact fits_32_64|]. split; [now apply fits_64_small|]. split; [now apply fits_64_small|]. repeat split; vm_compute; reflexivity.
Qed.
Example C121_example_sipp_verify :
  fits 64 (length PropsSipp.ex_a) /\
  rbind (sipp_prove ZPair ex_env PropsSipp.toy_stream toy_digest PropsSipp.ex_a PropsSipp.ex_b PropsSipp.ex_r (zq 220)) (fun zs =>
    Ok (map (fun m => sipp_verify_w m 64 ZPair ex_env toy_digest PropsSipp.toy_stream PropsSipp.ex_a PropsSipp.ex_b PropsSipp.ex_r (zq 220) zs) [Debug; Release])) =
  Ok [Ok true; Ok true].
Proof. split; [now apply fits_64_small|vm_compute; reflexivity]. Qed.
(** an empty key: the polynomials 1 + 2x and 5 get the same commitment in a release build *)
Example C121_example_empty_key :
  map (fun m => tupc_commit_w m 8 ZPair ex_env ex_rand ex_rand ([], zl [7; 8]%Z) (zl [1; 2]%Z)) [Debug; Release] = [Panic; Ok (zq 0, [zq 0; zq 0])] /\
  map (fun m => tupc_commit_w m 8 ZPair ex_env ex_rand ex_rand ([], zl [7; 8]%Z) (zl [5]%Z)) [Debug; Release] = [Panic; Ok (zq 0, [zq 0; zq 0])] /\
  map (fun m => tupc_commit_w m 8 ZPair ex_env ex_rand ex_rand (zl [7; 8]%Z, []) (zl [5]%Z)) [Debug; Release] = [Panic; Ok (zq 0, [])].
Proof. repeat split; vm_compute; reflexivity. Qed.
(** with a reference string a panic *)
Example C121_example_empty_string :
  map (fun m => rbind (upc_setup ZPair ex_scalars 5%Z 3) (fun '(s, _) => outcome (upc_commit_w m 8 ZPair ex_env ex_rand (fst s, []) (zl [1; 2]%Z)))) [Debug; Release] =
    [Panic; Panic] /\
  map (fun m => rbind (upc_setup ZPair ex_scalars 5%Z 3) (fun '(s, _) => outcome (upc_commit_w m 8 ZPair ex_env ex_rand s (zl [1; 2]%Z)))) [Debug; Release] =
    [Ok tt; Ok tt].
Proof. split; vm_compute; reflexivity. Qed.

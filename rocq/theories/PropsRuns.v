(** C82: outcome of the benchmark and example programs without any assumption about the challenges. *)
Require Import List Arith NArith ZArith Lia Bool Field.
Import ListNotations.
Require Import Verif.Outcome Verif.Algebra Verif.Zp Verif.Rust Verif.InnerProducts Verif.Commitments
  Verif.Poly Verif.Gipa Verif.Tipa Verif.Ssm Verif.Floats Verif.PolyCommit Verif.Transparent Verif.Rng Verif.Sipp Verif.Groth16 Verif.Batch Verif.Bench Verif.GrothMain
  Verif.Spec Verif.ListFacts Verif.RustFacts Verif.InnerProductFacts Verif.CommitFacts
  Verif.GipaFacts Verif.GipaComplete Verif.GipaTop Verif.KeyFacts Verif.TipaFacts Verif.SsmFacts Verif.PolyFacts Verif.SerFacts Verif.SippFacts Verif.Groth16Facts
  Verif.PropsBase Verif.PropsGipa Verif.PropsTipa Verif.PropsSsm Verif.PropsPoly Verif.PropsSipp Verif.PropsGroth Verif.PropsBatch Verif.PropsBench
  Verif.PropsGrothMain Verif.PropsDegrees Verif.PropsUnivariate Verif.ZpBig Verif.Circuits Verif.CircuitFacts Verif.PropsCircuits.

(** [Loop]: some challenge loop needs more iterations than the model's bound. *)
Definition loops_or {A} (x : res A) (good : A -> Prop) : Prop := x = Loop \/ exists a, x = Ok a /\ good a.

Section GipaRun.
  Context {R : Type} {K : field} {MA MB MT KA KB KT : module K} {OA OB OT : carrier K}.
  Variables (D : bytes -> bytes) (fuel : nat).
  Context {XA XB XT : module K} (dA : XA -> OA) (dB : XB -> OB) (dT : XT -> OT).
  Context (fA : KA -> MA -> XA) (fB : KB -> MB -> XB) (fT : KT -> MT -> XT) (th : MA -> MB -> MT).
  Variables (LMC : dhc R MA KA OA) (RMC : dhc R MB KB OB) (IPC : dhc R MT KT OT).
  Variable ip : list MA -> list MB -> res MT.
  Hypothesis HD : digest16 D.
  Context (LA : lin_commit LMC dA fA) (LB : lin_commit RMC dB fB) (LT : ip_commit IPC dT fT) (LI : lin_ip ip th).
  Context (TA : setup_total LMC) (TB : setup_total RMC) (TT : setup_total IPC).

  Lemma bench_gipa_run rand_l rand_r rng k :
    loops_or (bench_gipa LMC RMC IPC ip D fuel rand_l rand_r rng (2 ^ k)) (fun x => fst x = true).
  Proof using All.
    unfold bench_gipa, loops_or. destruct (sample_pairs_length rand_l rand_r (2 ^ k) rng) as [Hl Hr].
    destruct (sample_pairs rand_l rand_r rng (2 ^ k)) as [[l r] rng1]. cbn [fst snd] in Hl, Hr.
    destruct (C08_gipa_setup R K MA MB MT KA KB KT OA OB OT LMC RMC IPC rng1 (2 ^ k) TA TB TT) as (ka & kb & kt & rng2 & -> & Hka & Hkb & _).
    cbn [ok_unwrap rbind].
    rewrite (lc_commit _ _ _ LA) by congruence. cbn [ok_unwrap rbind].
    rewrite (lc_commit _ _ _ LB) by congruence. cbn [ok_unwrap rbind].
    rewrite (li_ip _ _ LI) by congruence. cbn [ok_unwrap rbind].
    rewrite (ic_commit _ _ _ LT). cbn [ok_unwrap rbind].
    assert (HC : honest_com LMC RMC IPC ip ka kb kt l r (dot th l r) (dA (dot fA ka l)) (dB (dot fB kb r)) (dT (fT kt (dot th l r)))).
    { repeat split; [apply (lc_commit _ _ _ LA); congruence | apply (lc_commit _ _ _ LB); congruence
                    | apply (li_ip _ _ LI); congruence | apply (ic_commit _ _ _ LT)]. }
    destruct (C09_gipa_complete D fuel dA dB dT fA fB fT th LMC LMC RMC RMC IPC IPC ip ip HD LA LB LT LI LA LB LT LI
                k l r _ ka kb kt _ _ _ Hl Hr Hka Hkb HC) as [E1|[proof [E1 E2]]]; rewrite E1; cbn [ok_unwrap rbind]; [now left|].
    rewrite E2. cbn [ok_unwrap rbind]. right. eexists. split; reflexivity.
  Qed.
End GipaRun.

Section TipaRun.
  Context {R : Type} {P : pairing} {MA MB MT KT : module (pK P)} {OA OB OT : carrier (pK P)}.
  Notation K := (pK P).
  Variables (D : bytes -> bytes) (fuel : nat) (rand : sampler R (pK P)).
  Context {XA XB XT : module (pK P)} (dA : XA -> OA) (dB : XB -> OB) (dT : XT -> OT).
  Context (fA : pG2 P -> MA -> XA) (fB : pG1 P -> MB -> XB) (fT : KT -> MT -> XT) (th : MA -> MB -> MT).
  Variables (LMC : dhc R MA (pG2 P) OA) (RMC : dhc R MB (pG1 P) OB) (IPC : dhc R MT KT OT).
  Variable ip : list MA -> list MB -> res MT.
  Hypothesis HD : digest16 D.
  Context (LA : lin_commit LMC dA fA) (LB : lin_commit RMC dB fB) (LT : ip_commit IPC dT fT) (LI : lin_ip ip th).
  Context (TT : setup_total IPC).

  Lemma bench_tipa_run rand_l rand_r rng k :
    loops_or (bench_tipa LMC RMC IPC ip D fuel rand_l rand_r rand rng (2 ^ S k)) (fun x => fst x = true).
  Proof using All.
    unfold bench_tipa, loops_or. destruct (sample_pairs_length rand_l rand_r (2 ^ S k) rng) as [Hl Hr].
    destruct (sample_pairs rand_l rand_r rng (2 ^ S k)) as [[l r] rng1]. cbn [fst snd] in Hl, Hr.
    destruct (setup_total_ok rand IPC TT rng1 (2 ^ S k) (pow2_pos _)) as (s & kt & rng2 & ka & kb & v & Hs & Hk & Hka & Hkb & Hv).
    rewrite Hs. cbn [ok_unwrap rbind]. rewrite Hk, Hv. cbn [rbind].
    rewrite (lc_commit _ _ _ LA) by congruence. cbn [ok_unwrap rbind].
    rewrite (lc_commit _ _ _ LB) by congruence. cbn [ok_unwrap rbind].
    rewrite (li_ip _ _ LI) by congruence. cbn [ok_unwrap rbind].
    rewrite (ic_commit _ _ _ LT). cbn [ok_unwrap rbind].
    assert (HC : honest_com LMC RMC IPC ip ka kb kt l r (dot th l r) (dA (dot fA ka l)) (dB (dot fB kb r)) (dT (fT kt (dot th l r)))).
    { repeat split; [apply (lc_commit _ _ _ LA); congruence | apply (lc_commit _ _ _ LB); congruence
                    | apply (li_ip _ _ LI); congruence | apply (ic_commit _ _ _ LT)]. }
    destruct (C22_tipa_complete D fuel rand dA dB dT fA fB fT th LMC LMC RMC RMC IPC IPC ip ip HD LA LB LT LI LA LB LT LI
                rng1 k s kt kt rng2 ka kb v l r _ _ _ _ Hs Hk Hv Hl Hr HC) as [E1|[proof [E1 E2]]];
      rewrite E1; cbn [ok_unwrap rbind]; [now left|].
    rewrite E2. cbn [ok_unwrap rbind]. right. eexists. split; reflexivity.
  Qed.

  Lemma bench_shift_run rand_l rand_r rng k :
    let x := shift_scalar rand IPC rand_l rand_r rng (2 ^ S k) in
    let run := bench_tipa_srs_shift LMC RMC IPC ip D fuel rand_l rand_r rand rng (2 ^ S k) in
    (x <> f0 -> loops_or run (fun y => fst y = true)) /\ (x = f0 -> run = Panic).
  Proof using All.
    unfold bench_tipa_srs_shift, shift_scalar, loops_or. destruct (sample_pairs_length rand_l rand_r (2 ^ S k) rng) as [Hl Hr].
    destruct (sample_pairs rand_l rand_r rng (2 ^ S k)) as [[l r] rng1]. cbn [fst snd] in Hl, Hr |- *.
    destruct (setup_total_ok rand IPC TT rng1 (2 ^ S k) (pow2_pos _)) as (s & kt & rng2 & ka & kb & v & Hs & Hk & Hka & Hkb & Hv).
    rewrite Hs. cbn [ok_unwrap rbind]. rewrite Hk, Hv. cbn [rbind].
    rewrite (lc_commit _ _ _ LA) by congruence. cbn [ok_unwrap rbind].
    rewrite (lc_commit _ _ _ LB) by congruence. cbn [ok_unwrap rbind].
    destruct (rand rng2) as [x rng3]. cbn [fst].
    rewrite structured_scalar_power_spec, Nat.max_l by apply pow2_pos. cbn [rbind]. fold (powers (2 ^ S k) x).
    split; intros Hx.
    - rewrite (zipw_shift l x (2 ^ S k) Hl).
      match goal with |- context [rbind ?A _] => replace A with (Ok (shift_vec (finv x) ka)) by (symmetry; exact (inverse_shift ka x (2 ^ S k) Hx Hka)) end.
      cbn [rbind].
      assert (Hl' : length (shift_vec x l) = 2 ^ S k) by (unfold shift_vec; now rewrite map_length, seq_length).
      assert (Hk' : length (shift_vec (finv x) ka) = 2 ^ S k) by (unfold shift_vec; now rewrite map_length, seq_length).
      rewrite (li_ip _ _ LI) by congruence. cbn [ok_unwrap rbind].
      rewrite (ic_commit _ _ _ LT). cbn [ok_unwrap rbind].
      assert (HC : honest_com LMC RMC IPC ip (shift_vec (finv x) ka) kb kt (shift_vec x l) r (dot th (shift_vec x l) r)
                     (dA (dot fA ka l)) (dB (dot fB kb r)) (dT (fT kt (dot th (shift_vec x l) r)))).
      { repeat split; [rewrite (C23_shift_commitment dA fA LMC LA x ka l Hx) by congruence; apply (lc_commit _ _ _ LA); congruence
                      | apply (lc_commit _ _ _ LB); congruence
                      | apply (li_ip _ _ LI); congruence | apply (ic_commit _ _ _ LT)]. }
      destruct (C23_tipa_complete_shift D fuel rand dA dB dT fA fB fT th LMC LMC RMC RMC IPC IPC ip ip HD LA LB LT LI LA LB LT LI
                  rng1 k s kt kt rng2 x ka kb v Hs Hk Hv Hx (shift_vec x l) r _ _ _ _ Hl' Hr HC) as [E1|[proof [E1 E2]]];
        rewrite E1; cbn [ok_unwrap rbind]; [now left|].
      rewrite E2. cbn [ok_unwrap rbind]. right. eexists. split; reflexivity.
    - subst x. assert (2 <= 2 ^ S k) by (cbn [Nat.pow]; pose proof (pow2_pos k); lia).
      match goal with |- context [rbind ?A _] => replace A with (@Panic (list (pG2 P))) by (symmetry; now apply (inverse_zero ka (2 ^ S k))) end.
      reflexivity.
  Qed.
End TipaRun.

Section Mains.
  Context {R : Type} {P : pairing}.
  Notation K := (pK P).
  Variables (E : penv) (D : bytes -> bytes) (fuel : nat).
  Variables (rand : sampler R K) (r1 : sampler R (pG1 P)) (r2 : sampler R (pG2 P)).
  Hypothesis HE : 1 <= threads E.
  Hypothesis HD : digest16 D.

  Theorem C82_gipa (rng : R) (k : nat) :
    loops_or (gipa_main P E D fuel rand r1 r2 rng (2 ^ k)) (fun bs => bs = [true; true]).
  Proof using HE HD.
    destruct (C08_setups_total R K (pG1 P) P E r1 r1 r2) as [S1 [S2 [S3 S4]]].
    destruct (C08_setups_total R K (pGT P) P E (fun r => (m0, r)) r1 r2) as [_ [_ [_ S5]]].
    unfold gipa_main, loops_or.
    destruct (bench_gipa_run D fuel mid mid idout (phi_g1 P) (pr_e P) psi_id (pr_e P)
                (afgho_g1 P E r2) (afgho_g2 P E r1) (identity (pGT P)) (pairing_ip P E) HD
                (afgho_g1_law P E HE r2) (afgho_g2_law P E HE r1) (identity_law _) (pairing_ip_law P E HE) S2 S3 S5 r1 r2 rng k)
      as [->|[[b1 rng1] [-> Hb1]]]; cbn [rbind]; [now left|]. cbn [fst] in Hb1. subst b1.
    destruct (bench_gipa_run D fuel mid mid idout (phi_g1 P) smul psi_id smul
                (afgho_g1 P E r2) (pedersen (pG1 P) r1) (identity (pG1 P)) (multiexp_ip (pG1 P)) HD
                (afgho_g1_law P E HE r2) (pedersen_law _ r1) (identity_law _) (multiexp_ip_law _) S2 S1 S4 r1 rand rng1 k)
      as [->|[[b2 rng2] [-> Hb2]]]; cbn [rbind]; [now left|]. cbn [fst] in Hb2. subst b2. right. eauto.
  Qed.

  Lemma bench_ssm_run rng k :
    loops_or (bench_tipa_ssm (afgho_g1 P E r2) (identity (R := R) (pG1 P)) (multiexp_ip (pG1 P)) D fuel E r1 rand rng (2 ^ S k)) (fun x => fst x = true).
  Proof using HE HD.
    unfold bench_tipa_ssm, loops_or. pose proof (generators_length r1 (2 ^ S k) rng) as Hl.
    destruct (random_generators r1 rng (2 ^ S k)) as [l rng1]. cbn [fst] in Hl. destruct (rand rng1) as [b rng2].
    assert (Hb : structured_scalar_power (2 ^ S k) b = Ok (powers (2 ^ S k) b)).
    { rewrite structured_scalar_power_spec, Nat.max_l by apply pow2_pos. reflexivity. }
    rewrite Hb. cbn [rbind]. destruct (C08_setups_total R K (pG1 P) P E r1 r1 r2) as [_ [_ [_ S4]]].
    destruct (setup_total_ok rand (identity (pG1 P)) S4 rng2 (2 ^ S k) (pow2_pos _)) as (s & kt & rng3 & ka & kb & v & Hs & Hk & Hka & Hkb & Hv).
    unfold tssm_setup. rewrite Hs. cbn [ok_unwrap rbind]. rewrite Hk, Hv. cbn [rbind dh_commit afgho_g1 identity].
    rewrite C01_pairing_inner_product by (auto; congruence). cbn [ok_unwrap rbind].
    destruct (C02_multiexp_outcome _ _ l (powers (2 ^ S k) b)) as [[H _]|[_ Hm]].
    { exfalso. apply H. rewrite Hl. symmetry. apply powers_length. }
    match goal with |- context [rbind (ok_unwrap ?A) _] => replace A with (Ok (msm_sum l (powers (2 ^ S k) b))) by (symmetry; exact Hm) end.
    cbn [ok_unwrap rbind].
    assert (HC : honest_ssm (afgho_g1 P E r2) (identity (R := R) (pG1 P)) (multiexp_ip (pG1 P)) ka (kt : unitmod K) l (powers (2 ^ S k) b)
                   (pairing_sum P l ka : mod_carrier (pGT P)) ([msm_sum l (powers (2 ^ S k) b)] : identity_output (pG1 P))).
    { split; [cbn [dh_commit afgho_g1]; apply C01_pairing_inner_product; congruence|]. eexists. split; [exact Hm|reflexivity]. }
    destruct (C30_tssm_complete D fuel E rand mid idout (phi_g1 P) psi_id smul (afgho_g1 P E r2) (afgho_g1 P E r2)
           (identity (pG1 P)) (identity (pG1 P)) (multiexp_ip (pG1 P)) (multiexp_ip (pG1 P)) HD
           (afgho_g1_law P E HE r2) (identity_law _) (multiexp_ip_law _)
           (afgho_g1_law P E HE r2) (identity_law _) (multiexp_ip_law _)
           rng2 k s (kt : unitmod K) kt rng3 ka kb v b _ Hs Hk Hv Hb l _ _ Hl HC) as [E1|[proof [E1 E2]]].
    - match goal with |- context [rbind (ok_unwrap ?A) _] => replace A with (@Loop (tssm_proof P (pG1 P) (mod_carrier (pGT P)) (identity_output (pG1 P)))) by (symmetry; exact E1) end. now left.
    - match goal with |- context [rbind (ok_unwrap ?A) _] => replace A with (Ok proof) by (symmetry; exact E1) end. cbn [ok_unwrap rbind].
      match goal with |- context [rbind (ok_unwrap ?A) _] => replace A with (Ok true) by (symmetry; exact E2) end. cbn [ok_unwrap rbind].
      right. eexists. split; reflexivity.
  Qed.

  (** The third run unwraps the inverse of a random scalar. *)
  Theorem C82_tipa (rng : R) (k : nat) :
    let run := tipa_main P E D fuel rand r1 r2 rng (2 ^ S k) in
    loops_or run (fun bs => bs = [true; true; true; true]) \/ (run = Panic /\ exists rng', fst (rand rng') = f0).
  Proof using HE HD.
    destruct (C08_setups_total R K (pG1 P) P E r1 r1 r2) as [S1 [S2 [S3 S4]]].
    destruct (C08_setups_total R K (pGT P) P E (fun r => (m0, r)) r1 r2) as [_ [_ [_ S5]]].
    unfold tipa_main, loops_or.
    destruct (bench_tipa_run D fuel rand mid mid idout (phi_g1 P) (pr_e P) psi_id (pr_e P)
                (afgho_g1 P E r2) (afgho_g2 P E r1) (identity (pGT P)) (pairing_ip P E) HD
                (afgho_g1_law P E HE r2) (afgho_g2_law P E HE r1) (identity_law _) (pairing_ip_law P E HE) S5 r1 r2 rng k)
      as [->|[[b1 rng1] [-> Hb1]]]; cbn [rbind]; [now left; left|]. cbn [fst] in Hb1. subst b1.
    destruct (bench_tipa_run D fuel rand mid mid idout (phi_g1 P) smul psi_id smul
                (afgho_g1 P E r2) (pedersen (pG1 P) r1) (identity (pG1 P)) (multiexp_ip (pG1 P)) HD
                (afgho_g1_law P E HE r2) (pedersen_law _ r1) (identity_law _) (multiexp_ip_law _) S4 r1 rand rng1 k)
      as [->|[[b2 rng2] [-> Hb2]]]; cbn [rbind]; [now left; left|]. cbn [fst] in Hb2. subst b2.
    destruct (bench_shift_run D fuel rand mid mid idout (phi_g1 P) (pr_e P) psi_id (pr_e P)
                (afgho_g1 P E r2) (afgho_g2 P E r1) (identity (pGT P)) (pairing_ip P E) HD
                (afgho_g1_law P E HE r2) (afgho_g2_law P E HE r1) (identity_law _) (pairing_ip_law P E HE) S5 r1 r2 rng2 k) as [H1 H0].
    destruct (f_eq_dec K (shift_scalar rand (identity (R := R) (pGT P)) r1 r2 rng2 (2 ^ S k)) f0) as [Hz|Hz].
    - right. split; [rewrite (H0 Hz); reflexivity|]. unfold shift_scalar in Hz.
      destruct (setup_total_ok rand (identity (pGT P)) S5 (snd (sample_pairs r1 r2 rng2 (2 ^ S k))) (2 ^ S k) (pow2_pos _))
        as (s & kt & rng3 & ka & kb & v & Hs & _). rewrite Hs in Hz. eauto.
    - left. destruct (H1 Hz) as [->|[[b3 rng3] [-> Hb3]]]; cbn [rbind]; [now left|]. cbn [fst] in Hb3. subst b3.
      destruct (bench_ssm_run rng3 k) as [->|[[b4 rng4] [-> Hb4]]]; cbn [rbind]; [now left|]. cbn [fst] in Hb4. subst b4. right. eauto.
  Qed.

  Lemma pc_trials_run trial d : (forall p z, degree_below (d + 1) p -> loops_or (trial p z (poly_at p z)) (fun b => b = true)) ->
    forall n rng, loops_or (pc_trials P rand trial d n rng) (fun _ => True).
  Proof.
    clear. intros H n. induction n as [|n IH]; intros rng; [right; eexists; split; reflexivity|]. cbn [pc_trials].
    pose proof (poly_rand_below rand d rng) as Hp. destruct (poly_rand P rand d rng) as [p rng1]. cbn [fst] in Hp.
    destruct (rand rng1) as [z rng2]. rewrite ev_poly_at. destruct (H p z Hp) as [->|[b [-> ->]]]; cbn [ok_unwrap rbind rassert]; [now left|apply IH].
  Qed.

  (** Up to 31 data points: for 32 the degree 4^32 - 1 no longer fits 64 bits. *)
  Theorem C82_poly_commit (rng : R) (num_trials num_data_points : nat) : num_data_points <= 31 ->
    loops_or (poly_commit_main P E D fuel rand r1 r2 rng num_trials num_data_points) (fun _ => True).
  Proof using HE HD.
    intros Hn. unfold poly_commit_main.
    assert (H : forall d, In d (map (fun i => 4 ^ (i + 1) - 1) (seq 0 num_data_points)) ->
      1 <= d /\ (Z.of_nat d + 1 < 2 ^ 64)%Z /\ ~ rounding_loses (Z.of_nat d)).
    { intros d Hd. apply in_map_iff in Hd as [i [<- Hi]]. apply in_seq in Hi.
      assert (H4 : 4 <= 4 ^ (i + 1)) by (rewrite <- (Nat.pow_1_r 4) at 1; apply Nat.pow_le_mono_r; lia).
      assert (Ed : (Z.of_nat (4 ^ (i + 1) - 1) + 1 = 4 ^ Z.of_nat (i + 1))%Z).
      { rewrite Nat2Z.inj_sub by lia. rewrite Nat2Z.inj_pow. change (Z.of_nat 4) with 4%Z. change (Z.of_nat 1) with 1%Z. lia. }
      split; [lia|]. rewrite Ed. split.
      - change 4%Z with (2 ^ 2)%Z. rewrite <- Z.pow_mul_r by lia. apply Z.pow_lt_mono_r; lia.
      - intros [k [Hk [H1 H2]]]. rewrite Ed in H1, H2.
        assert (Hlt : (k < Z.of_nat (i + 1))%Z) by (apply (Z.pow_lt_mono_r_iff 4); lia).
        assert (H5 : (4 ^ (k + 1) <= 4 ^ Z.of_nat (i + 1))%Z) by (apply Z.pow_le_mono_r; lia).
        assert (H6 : (4 ^ (k - 26) <= 4 ^ k)%Z) by (apply Z.pow_le_mono_r; lia).
        assert (H7 : (0 < 4 ^ k)%Z) by (apply Z.pow_pos_nonneg; lia).
        rewrite Z.pow_add_r in H5 by lia. change (4 ^ 1)%Z with 4%Z in H5. lia. }
    revert H. generalize (map (fun i => 4 ^ (i + 1) - 1) (seq 0 num_data_points)). clear num_data_points Hn. intros l H.
    induction l as [|d l IH]; [right; eexists; split; reflexivity|]. cbn [poly_commit_loop]. destruct (H d (or_introl eq_refl)) as [H1 [H2 H3]].
    destruct (bench_kzg_ok rand rng d num_trials) as [? ->]. cbn [rbind].
    assert (Hi : loops_or (bench_ipa P E D fuel rand r2 rng d num_trials) (fun _ => True)).
    { unfold bench_ipa. destruct (upc_complete_wide (P := P) E E HE HE D fuel HD rand r2 r2 rng d H1 H2 H3) as (s & rng1 & v & -> & Hv & Hc).
      cbn [ok_unwrap rbind]. rewrite Hv. cbn [rbind]. apply pc_trials_run. intros p z Hp.
      destruct (Hc p z Hp) as (com & coms & -> & [E2|(proof & E2 & E3)]); cbn [rbind]; rewrite E2; cbn [rbind]; [now left|]. right. eauto. }
    destruct Hi as [->|[? [-> _]]]; cbn [rbind]; [now left|].
    assert (Ht : loops_or (bench_transparent_ipa P E D fuel rand r1 r2 rng d num_trials) (fun _ => True)).
    { unfold bench_transparent_ipa. destruct (C80_transparent_complete (P := P) E E HE HE D fuel HD r1 r1 r2 r2 rng d H1 H2 H3) as (ck & rng1 & -> & Hc).
      cbn [ok_unwrap rbind]. apply pc_trials_run. intros p z Hp.
      destruct (Hc p z Hp) as (com & coms & -> & [E2|(proof & E2 & E3)]); cbn [rbind]; rewrite E2; cbn [rbind]; [now left|].
      right. rewrite (proj2 (E3 _) eq_refl). eauto. }
    destruct Ht as [->|[? [-> _]]]; cbn [rbind]; [now left|].
    apply IH. intros d' Hd'. apply H. now right.
  Qed.
End Mains.
Print Assumptions C82_gipa.
Print Assumptions C82_tipa.
Print Assumptions C82_poly_commit.

(** ** The Groth16 programs *)
Section GrothRuns.
  Context {R : Type} {P : pairing}.
  Notation K := (pK P).
  Variables (E : penv) (D : bytes -> bytes) (fuel : nat).
  Variables (rs : sampler R (pK P)) (r1 : sampler R (pG1 P)) (r2 : sampler R (pG2 P)).
  Hypothesis HE : 1 <= threads E.
  Hypothesis HD : digest16 D.

  (** the challenge for the three commitments to the proofs *)
  Definition combination_challenge (s : srs P) (pfs : list (g16_proof P)) : res K :=
    let '(ck1, ck2) := get_commitment_keys s in
    rand_challenge D fuel 0 (mser (pairing_sum P (map pf_a pfs) ck1) ++ mser (pairing_sum P ck2 (map pf_b pfs)) ++ mser (pairing_sum P (map pf_c pfs) ck1)).

  (** outcome of a program by the challenge [c] *)
  Definition by_challenge (c : res K) (run : res unit) : Prop :=
    (c = Loop /\ run = Loop) \/
    exists r, c = Ok r /\ (r = f0 -> run = Panic) /\ (r = f1 -> run = Loop \/ run = Panic) /\
      (r <> f0 -> r <> f1 -> run = Loop \/ run = Ok tt).

  Definition agg_step (s : srs P) (v : vsrs P) vk inputs pfs : res unit :=
    do aggregate_proof <- ok_unwrap (g16_aggregate (R := R) P E D fuel r1 r2 s pfs);
    do result <- ok_unwrap (g16_verify (R := R) P E D fuel r1 r2 v vk inputs aggregate_proof);
    rassert result.

  Lemma agg_step_outcome rng rng' k s v vk inputs pfs :
    g16_setup P rs rng (2 ^ S k) = Ok (s, rng') -> get_verifier_key s = Ok v ->
    length pfs = 2 ^ S k -> rows_fit vk inputs -> Forall2 (g16_valid vk) inputs pfs ->
    by_challenge (combination_challenge s pfs) (agg_step s v vk inputs pfs).
  Proof using HE HD.
    intros Hs Hv Hn Hfit HV. unfold combination_challenge. destruct (get_commitment_keys s) as [ka kb] eqn:Hk.
    destruct (g16_key_lengths rs rng rng' k s ka kb Hs Hk) as [Lka Lkb].
    destruct (rand_challenge_outcome (K := K) D fuel 0 (mser (pairing_sum P (map pf_a pfs) ka) ++ mser (pairing_sum P kb (map pf_b pfs)) ++ mser (pairing_sum P (map pf_c pfs) ka))) as [Hr|[r Hr]]; rewrite Hr.
    - left. split; [reflexivity|]. unfold agg_step, g16_aggregate. rewrite Hk.
      rewrite !C01_pairing_inner_product by (rewrite ?map_length; congruence). cbn [rbind]. unfold g16_payload. rewrite Hr. reflexivity.
    - right. exists r. split; [reflexivity|]. unfold agg_step. split; [|split].
      + intros ->. rewrite (C44_aggregate_zero_refuted E D fuel rs r1 r2 HE rng rng' k s ka kb Hs Hk pfs Hn Hr). reflexivity.
      + intros H1. assert (H0 : r <> f0) by (rewrite H1; apply f1_neq_f0).
        destruct (C44_aggregate_partial E E D fuel rs r1 r2 HE HE HD rng rng' k s ka kb v Hs Hk Hv pfs Hn r Hr H0) as [Ha|[proof Ha]]; rewrite Ha; [now left|right].
        cbn [ok_unwrap rbind].
        now rewrite (C44_honest_one_refuted E E D fuel rs r1 r2 HE HE HD rng rng' k s ka kb v Hs Hk Hv pfs Hn r Hr H0 vk inputs proof H1 Ha).
      + intros H0 H1.
        destruct (C41_groth16_complete E E D fuel rs r1 r2 HE HE HD rng rng' k s ka kb v Hs Hk Hv pfs Hn r Hr H0 vk inputs H1 Hfit HV) as [Ha|[proof [Ha Hver]]];
          rewrite Ha; [now left|right]. cbn [ok_unwrap rbind]. rewrite Hver. reflexivity.
  Qed.

  (** *** The example *)
  Section Example_.
    Variable TS : snark R P (test_circuit P).
    (** the challenge for the proofs the program makes *)
    Definition example_challenge (num_inputs num_proofs : nat) (rng : R) : res K :=
      do (pk, rng) <- sn_setup TS (mk_test_circuit (repeat f0 num_inputs) f0 f0) rng;
      do (srs, rng) <- g16_setup P rs rng num_proofs;
      do (proofs, _, _) <- example_proofs P rs TS pk num_inputs num_proofs rng;
      combination_challenge srs proofs.

    Lemma example_run m k rng : snark_complete TS test_inputs test_sat test_like ->
      by_challenge (example_challenge m (2 ^ S k) rng) (g16_example_main P E D fuel rs r1 r2 TS m (2 ^ S k) rng).
    Proof using HE HD.
      intros HTS. unfold g16_example_main, example_challenge.
      destruct (HTS (mk_test_circuit (repeat f0 m) f0 f0) rng eq_refl) as (pk & rng1 & -> & Habc & Hpr). cbn [ok_unwrap rbind].
      unfold test_inputs in Habc. cbn [tc_inputs tc_sum] in Habc. rewrite app_length, repeat_length in Habc. cbn [length] in Habc.
      destruct (g16_setup_ok rs rng1 (2 ^ S k) (pow2_pos _)) as (s & rng2 & ka & kb & v & Hs & Hk & Hv). rewrite Hs. cbn [ok_unwrap rbind].
      assert (Hloop : forall n g, exists pfs sts g', example_proofs P rs TS pk m n g = Ok (pfs, sts, g') /\ length pfs = n /\
        Forall (fun row => length row + 1 = length (vk_gamma_abc_g1 (sn_vk TS pk))) sts /\ Forall2 (g16_valid (sn_vk TS pk)) sts pfs).
      { induction n as [|n IH]; intros g; [exists [], [], g; repeat split; constructor|].
        cbn [example_proofs]. unfold example_one. pose proof (generators_length rs m g) as Lx.
        destruct (random_generators rs g m) as [xs g1]. cbn [fst] in Lx. destruct (rs g1) as [w g2].
        set (c := mk_test_circuit xs w (w +f fold_left fadd xs f0)).
        destruct (Hpr c g2) as (Hlen & pf & g3 & -> & Hval).
        { unfold test_like. cbn. now rewrite repeat_length. }
        { unfold test_sat. cbn. now rewrite fold_left_right. }
        cbn [ok_unwrap rbind]. destruct (IH g3) as (pfs & sts & g' & -> & Hl & HF & HV). cbn [rbind].
        exists (pf :: pfs), ((xs ++ [w +f fold_left fadd xs f0]) :: sts), g'. split; [reflexivity|]. split; [cbn; lia|].
        split; constructor; auto. rewrite app_length. cbn. lia. }
      destruct (Hloop (2 ^ S k) rng2) as (pfs & sts & g' & -> & Hl & HF & HV). cbn [rbind].
      assert (Hfit : rows_fit (sn_vk TS pk) sts).
      { split; [|exact HF]. intros ->. inversion HV; subst. cbn [length] in Hl. pose proof (pow2_pos (S k)). lia. }
      pose proof (agg_step_outcome _ _ _ _ _ _ _ _ Hs Hv Hl Hfit HV) as H. unfold agg_step in H.
      rewrite Hv. exact H.
    Qed.

    Theorem C82_groth16_example m k rng :
      snark_complete TS (fun c => cs_instance (test_synth c)) (fun c => cs_satisfied (test_synth c)) (fun c0 c => cs_like (test_synth c0) (test_synth c)) ->
      by_challenge (example_challenge m (2 ^ S k) rng) (g16_example_main P E D fuel rs r1 r2 TS m (2 ^ S k) rng).
    Proof using HE HD. intros H. now apply example_run, test_snark_complete. Qed.
  End Example_.

  (** *** The benchmark *)
  Section Bench_.
    Variables (HI HO : Type) (rand_hash_input : sampler R HI) (hash : HI -> HO).
    Variables (default_input : HI) (default_output : HO) (to_fe : HO -> list K).
    Context {R0 : Type}.
    Variables (seed_from_u64 : N -> R0) (rand_u128 : sampler R0 N).
    Variable Q : pairing.
    Variable SS : snark R P (HI * HO).
    Variable SM : snark R P (list HI * list HO).
    Variable SA : snark R Q (list HO * list (g16_proof P) * g16_vk P).
    Variable pack : list HO -> list (pK Q).
    Definition bench_challenge (num_proofs : nat) (all : bool) (rng : R) : res K :=
      let (ins, rng) := random_generators rand_hash_input rng num_proofs in
      do (pk, rng) <- sn_setup SS (default_input, default_output) rng;
      do (proofs, rng) <- bench_proofs P HI HO SS pk all (combine ins (map hash ins)) rng;
      do (proofs, _, _) <- bench_copies P HI HO all num_proofs proofs ins (map hash ins);
      do (srs, _) <- g16_setup P rs rng num_proofs;
      combination_challenge srs proofs.

    Hypothesis HSS : snark_complete SS (fun c => to_fe (snd c)) (single_sat HI HO hash) (fun _ _ => True).
    Hypothesis HSM : snark_complete SM (fun c => flat_map to_fe (snd c)) (many_sat HI HO hash) (many_like HI HO).
    Hypothesis HSA : snark_complete SA (fun c => pack (fst (fst c))) (rec_sat HO to_fe) (rec_like HO to_fe).

    Notation bench := (g16_bench_main P E D fuel rs r1 r2 HI HO rand_hash_input hash default_input default_output to_fe
      seed_from_u64 rand_u128 Q SS SM SA pack).

    Lemma bench_run trials k rec all mono rng :
      (trials = 0 -> bench trials (2 ^ S k) rec all mono rng = Ok tt) /\
      (1 <= trials -> by_challenge (bench_challenge (2 ^ S k) all rng) (bench trials (2 ^ S k) rec all mono rng)).
    Proof using HE HD HSS HSM HSA.
      unfold g16_bench_main, bench_challenge. set (n := 2 ^ S k). assert (Hn : 0 < n) by apply pow2_pos.
      pose proof (generators_length rand_hash_input n rng) as Li. destruct (random_generators rand_hash_input rng n) as [ins g0]. cbn [fst] in Li.
      destruct (HSS (default_input, default_output) g0 I) as (pk & g1 & -> & Habc & Hpr). cbn [ok_unwrap rbind].
      set (vk := sn_vk SS pk) in *. cbn [snd] in Habc.
      assert (Hpr' : forall i g, exists pf g', sn_prove SS pk (i, hash i) g = Ok (pf, g') /\ g16_valid vk (to_fe (hash i)) pf /\
        length (to_fe (hash i)) + 1 = length (vk_gamma_abc_g1 vk)).
      { intros i g. destruct (Hpr (i, hash i) g I eq_refl) as (Hl & pf & g' & H1 & H2). cbn [snd] in *. exists pf, g'. rewrite Hl. auto. }
      assert (Hloop : exists proofs g2 proofs' ins' outs', bench_proofs P HI HO SS pk all (combine ins (map hash ins)) g1 = Ok (proofs, g2) /\
        bench_copies P HI HO all n proofs ins (map hash ins) = Ok (proofs', ins', outs') /\
        length proofs' = n /\ Forall2 (fun i o => o = hash i) ins' outs' /\
        Forall (fun row => length row + 1 = length (vk_gamma_abc_g1 vk)) (map to_fe outs') /\
        Forall2 (fun o pf => g16_valid vk (to_fe o) pf) outs' proofs').
      { unfold bench_copies. destruct all.
        - assert (H : forall l g, exists pfs g', bench_proofs P HI HO SS pk true (combine l (map hash l)) g = Ok (pfs, g') /\ length pfs = length l /\
            Forall2 (fun o pf => g16_valid vk (to_fe o) pf) (map hash l) pfs).
          { induction l as [|i l IH]; intros g; [exists [], g; repeat split; constructor|]. cbn [map combine bench_proofs].
            destruct (Hpr' i g) as (pf & g' & -> & Hv & _). cbn [ok_unwrap rbind]. destruct (IH g') as (pfs & g'' & -> & Hl & HF). cbn [rbind].
            exists (pf :: pfs), g''. repeat split; [cbn; lia|]. constructor; auto. }
          destruct (H ins g1) as (pfs & g2 & H1 & H2 & H3). exists pfs, g2, pfs, ins, (map hash ins). repeat split; auto; [congruence| |].
          + clear. induction ins; cbn; constructor; auto.
          + apply Forall_forall. intros row Hrow. apply in_map_iff in Hrow as [o [<- Ho]]. apply in_map_iff in Ho as [i [<- _]].
            destruct (Hpr' i g1) as (_ & _ & _ & _ & Hx). exact Hx.
        - clearbody n. destruct ins as [|i ins]; [cbn [length] in Li; lia|]. cbn [map combine bench_proofs].
          destruct (Hpr' i g1) as (pf & g' & -> & Hv & Hx). cbn [ok_unwrap rbind]. cbn [index nth_error runwrap rbind].
          exists [pf], g', (repeat pf n), (repeat i n), (repeat (hash i) n). repeat split.
          + apply repeat_length.
          + clear. induction n; cbn; constructor; auto.
          + apply Forall_forall. intros row Hrow. apply in_map_iff in Hrow as [o [<- Ho]]. apply repeat_spec in Ho. now subst o.
          + clear - Hv. induction n; cbn; constructor; auto. }
      destruct Hloop as (proofs & g2 & pfs & ins' & outs & -> & Hcp & Hl & Hio & HF & HV). cbn [rbind]. rewrite Hcp. cbn [rbind].
      assert (HV' : Forall2 (g16_valid vk) (map to_fe outs) pfs).
      { clear - HV. induction HV; cbn; constructor; auto. }
      assert (Hne : vk_gamma_abc_g1 vk <> []) by (destruct (vk_gamma_abc_g1 vk); [cbn in Habc; lia|discriminate]).
      rewrite (C62_batch_complete seed_from_u64 rand_u128 vk _ _ Hne HV'). cbn [rbind runwrap rassert].
      destruct (g16_setup_ok rs g2 n Hn) as (s & g3 & ka & kb & v & Hs & Hk & Hv). rewrite Hs. cbn [ok_unwrap rbind]. rewrite Hv. cbn [rbind].
      assert (Hfit : rows_fit vk (map to_fe outs)).
      { split; [|exact HF]. intros E0. rewrite E0 in HV'. inversion HV'; subst. cbn [length] in Hl. lia. }
      (* what follows the aggregation *)
      match goal with |- (_ -> (do _ <- _; ?T) = _) /\ _ => assert (Htail : T = Ok tt) end.
      { assert (Hrec : exists g4, (if rec then do (pka, rng0) <- ok_unwrap (sn_setup SA (outs, pfs, vk) g3);
                 bench_recursive P HO Q SA trials pka (outs, pfs, vk) (pack outs) rng0 else Ok g3) = Ok g4).
        { destruct rec; [|eauto]. assert (Hlk : rec_like HO to_fe (outs, pfs, vk) (outs, pfs, vk)).
          { split; [reflexivity|]. split; [exact (PropsGroth.Forall2_len HV)|]. apply Forall_forall. intros o Ho.
            eapply Forall_forall in HF; [exact HF|]. now apply in_map. }
          destruct (HSA (outs, pfs, vk) g3 Hlk) as (pka & g4 & -> & Ha & Hp). cbn [ok_unwrap rbind]. cbn [fst] in Ha.
          revert g4. induction trials as [|t IH]; intros g4; [cbn; eauto|]. cbn [bench_recursive].
          destruct (Hp (outs, pfs, vk) g4 Hlk HV) as (_ & pf & g5 & -> & Hvp). cbn [ok_unwrap rbind]. rewrite verify_one_valid by auto.
          cbn [rbind rassert]. apply IH. }
        destruct Hrec as [g4 ->]. cbn [rbind]. destruct mono; [|reflexivity].
        assert (Hlm : many_like HI HO (ins', outs) (ins', outs)) by (split; [reflexivity|exact (PropsGroth.Forall2_len Hio)]).
        destruct (HSM (ins', outs) g4 Hlm) as (pkm & g5 & -> & Ha & Hp). cbn [ok_unwrap rbind]. cbn [snd] in Ha.
        destruct (Hp (ins', outs) g5 Hlm Hio) as (_ & pf & g6 & -> & Hvp). cbn [ok_unwrap rbind]. rewrite verify_one_valid by auto. reflexivity. }
      rewrite Htail. clear Htail.
      pose proof (agg_step_outcome _ _ _ _ _ _ _ _ Hs Hv Hl Hfit HV') as Hst.
      assert (Hagg : forall t, bench_aggregate P E D fuel r1 r2 (S t) s v vk (map to_fe outs) pfs =
        do _ <- agg_step s v vk (map to_fe outs) pfs; bench_aggregate P E D fuel r1 r2 t s v vk (map to_fe outs) pfs).
      { intros t. unfold agg_step. cbn [bench_aggregate]. destruct (g16_aggregate P E D fuel r1 r2 s pfs); cbn [ok_unwrap rbind]; auto.
        destruct (g16_verify P E D fuel r1 r2 v vk (map to_fe outs) _); reflexivity. }
      split; [intros ->; reflexivity|]. intros Ht. destruct trials as [|t]; [lia|]. clear Ht.
      assert (Hall : match agg_step s v vk (map to_fe outs) pfs with
                     | Ok tt => bench_aggregate P E D fuel r1 r2 (S t) s v vk (map to_fe outs) pfs = Ok tt
                     | x => bench_aggregate P E D fuel r1 r2 (S t) s v vk (map to_fe outs) pfs = x end).
      { destruct (agg_step s v vk (map to_fe outs) pfs) as [[]| | |] eqn:Ea; try (rewrite Hagg; reflexivity).
        assert (Hi : forall t, bench_aggregate P E D fuel r1 r2 t s v vk (map to_fe outs) pfs = Ok tt); [|apply Hi].
        induction t0 as [|t0 IH]; [reflexivity|]. rewrite Hagg. exact IH. }
      assert (Heq : (do _ <- bench_aggregate P E D fuel r1 r2 (S t) s v vk (map to_fe outs) pfs; Ok tt) = agg_step s v vk (map to_fe outs) pfs).
      { destruct (agg_step s v vk (map to_fe outs) pfs) as [[]| | |]; rewrite Hall; reflexivity. }
      rewrite Heq. exact Hst.
    Qed.
  End Bench_.

  Context {Q : pairing} (F : prime_repr (pK P)) (G : prime_repr (pK Q)) (HF : prime_repr_ok F) (HG : prime_repr_ok G).
  Hypothesis HfF : 0 < fit_bytes F.
  Hypothesis HfG : 0 < fit_bytes G.
  Hypothesis Hel : element_bytes F = pr_bytes F.
  Variable blake : bytes -> bytes.
  Hypothesis Hblake : forall b, is_hash b -> is_hash (blake b).
  Variable rand_hash_input : sampler R b32.
  Variables (default_input default_output : b32).
  Context {R0 : Type}.
  Variables (seed_from_u64 : N -> R0) (rand_u128 : sampler R0 N).

  Theorem C82_groth16_bench (SS : snark R P (b32 * b32)) (SM : snark R P (list b32 * list b32))
      (SA : snark R Q (list b32 * list (g16_proof P) * g16_vk P)) :
    snark_complete SS (single_instance F) (single_satisfied F blake) (fun _ _ => True) ->
    snark_complete SM (many_instance F) (many_satisfied F blake) many_same ->
    snark_complete SA (agg_instance F G) (agg_satisfied F G) (agg_same F G) ->
    forall trials k rec all mono rng,
    let run := g16_bench_main P E D fuel rs r1 r2 b32 b32 rand_hash_input (blake32 blake Hblake) default_input default_output (hash_elements F)
      seed_from_u64 rand_u128 Q SS SM SA (hashes_packed F G) trials (2 ^ S k) rec all mono rng in
    (trials = 0 -> run = Ok tt) /\
    (1 <= trials -> by_challenge (bench_challenge b32 b32 rand_hash_input (blake32 blake Hblake) default_input default_output SS (2 ^ S k) all rng) run).
  Proof using HE HD HF HG HfF HfG Hel.
    intros HS HM HA trials k rec all mono rng. apply bench_run.
    - now apply (single_snark_complete F HF HfF blake Hblake).
    - now apply (many_snark_complete F HF HfF blake Hblake).
    - now apply (agg_snark_complete F G HF HG HfF HfG Hel).
  Qed.
End GrothRuns.
Print Assumptions C82_groth16_example.
Print Assumptions C82_groth16_bench.

(** ** The scaling example of SIPP *)
Section Scaling.
  Variable checks : bool.
  Context {R : Type} {P : pairing}.
  Notation K := (pK P).
  Variables (E : penv) (S : stream) (D : bytes -> bytes).
  Variables (sh1 : list (pG1 P) -> R -> list (pG1 P) * R) (sh2 : list (pG2 P) -> R -> list (pG2 P) * R).
  Variables (rand : sampler R K) (r1 : sampler R (pG1 P)) (r2 : sampler R (pG2 P)).
  Hypothesis HE : 1 <= threads E.
  Hypothesis Hs1 : forall l rng, length (fst (sh1 l rng)) = length l.
  Hypothesis Hs2 : forall l rng, length (fst (sh2 l rng)) = length l.

  (** for some statement of 2^k elements, 1 <= k <= m, the last challenge of some honest rounds is 0 *)
  Definition zero_challenge (r : list K) (m : nat) : Prop :=
    exists k a b xs, 1 <= k <= m /\ length a = 2 ^ k /\ length b = 2 ^ k /\ length xs < k /\ Forall (fun x => x <> f0) xs /\
      challenges_of P S D (sipp_seed P a b r (sipp_value P a b r)) (honest_elems (xs ++ [f0]) (scaled_by P r a) b) = xs ++ [f0].

  Lemma ipp_iters_run k m r n : 1 <= k <= m -> u64_bound (2 ^ k) -> 2 ^ k <= length r ->
    forall a b rng, length a = 2 ^ k -> length b = 2 ^ k ->
    (exists a' b' rng', ipp_iters P E S D sh1 sh2 r n a b rng = Ok (a', b', rng') /\ length a' = 2 ^ k /\ length b' = 2 ^ k) \/
    (ipp_iters P E S D sh1 sh2 r n a b rng = Panic /\ zero_challenge r m).
  Proof using HE Hs1 Hs2.
    intros Hk Hu Hr. induction n as [|n IH]; intros a b rng Ha Hb; [left; exists a, b, rng; auto|]. cbn [ipp_iters].
    pose proof (Hs1 a rng) as H1. destruct (sh1 a rng) as [a' rng1]. cbn [fst] in H1.
    pose proof (Hs2 b rng1) as H2. destruct (sh2 b rng1) as [b' rng2]. cbn [fst] in H2.
    rewrite C04_product_of_pairings_with_coeffs by (auto; lia). fold (sipp_value P a' b' r). cbn [rbind].
    destruct (C45_complete (E := E) (S := S) (D := D) k a' b' r E HE (proj1 Hk)) as [[zs [E1 E2]]|[E1 [xs Hx]]]; try lia; [now rewrite H1, Ha| |].
    - rewrite E1. cbn [rbind]. rewrite E2. cbn [rbind rassert]. apply IH; lia.
    - right. rewrite E1. split; [reflexivity|]. exists k, a', b', xs. repeat split; try apply Hx; lia.
  Qed.

  Lemma slice_run {A} (l : list A) n : n <= length l -> slice_to l n = Ok (firstn n l) /\ length (firstn n l) = n.
  Proof using. clear. intros H. unfold slice_to. rewrite (proj2 (Nat.leb_le _ _) H), firstn_length. split; [reflexivity|lia]. Qed.

  Lemma ipp_loop_run m r : m < 64 -> 2 ^ m <= length r ->
    forall sizes a b rng, Forall (fun i => 1 <= i <= m) sizes -> length a = 2 ^ m -> length b = 2 ^ m ->
    ipp_loop checks P E S D sh1 sh2 r sizes a b rng = Ok tt \/ (ipp_loop checks P E S D sh1 sh2 r sizes a b rng = Panic /\ zero_challenge r m).
  Proof using HE Hs1 Hs2.
    intros Hu Hr. induction sizes as [|i sizes IH]; intros a b rng HF Ha Hb; [now left|]. inversion HF as [|? ? [Hi1 Hi2] HF' E1]; subst.
    assert (Hle : 2 ^ i <= 2 ^ m) by (apply Nat.pow_le_mono_r; lia).
    cbn [ipp_loop]. rewrite shl_one_small by lia. cbn [rbind]. destruct (slice_run a (2 ^ i)) as [-> La]; [lia|]. cbn [rbind].
    destruct (slice_run b (2 ^ i)) as [-> Lb]; [lia|]. cbn [rbind].
    destruct (ipp_iters_run i m r (num_iters i)) with (a := firstn (2 ^ i) a) (b := firstn (2 ^ i) b) (rng := rng) as [(a' & b' & rng' & -> & La' & Lb')|[-> Hz]]; auto; try lia.
    { unfold u64_bound. rewrite Nat2N.inj_pow. change (N.of_nat 2) with 2%N. apply N.pow_lt_mono_r; lia. }
    cbn [rbind]. apply IH; auto; rewrite app_length, skipn_length; lia.
  Qed.

  Theorem C82_scaling rng lo hi : 1 <= lo -> hi < 31 ->
    let run := scaling_ipp checks P E S D sh1 sh2 rand r1 r2 rng lo hi in
    run = Ok tt \/ (run = Panic /\ exists r, zero_challenge (repeat r (2 ^ hi)) hi).
  Proof using HE Hs1 Hs2.
    intros Hlo Hhi. unfold scaling_ipp. destruct (r1 rng) as [g rng1]. destruct (r2 rng1) as [h rng2]. rewrite vec_len_small by auto. cbn [rbind]. destruct (rand rng2) as [r rng3]. cbv zeta.
    destruct (ipp_loop_run hi (repeat r (2 ^ hi))) with (sizes := seq lo (hi + 1 - lo)) (a := repeat (g +m g) (2 ^ hi)) (b := repeat (h +m h) (2 ^ hi)) (rng := rng3) as [H|[H Hz]]; auto; rewrite ?repeat_length; auto; try lia.
    - apply Forall_forall. intros i Hi. apply in_seq in Hi. lia.
    - right. eauto.
  Qed.

  (** a size for which the vectors are too short is never reached without a panic *)
  Lemma ipp_loop_short r n : length r = n -> forall sizes, (exists i, In i sizes /\ n < 2 ^ i) -> Forall (fun i => 1 <= i < 64) sizes ->
    forall a b rng, length a = n -> length b = n -> ipp_loop checks P E S D sh1 sh2 r sizes a b rng = Panic.
  Proof using HE Hs1 Hs2.
    intros Hr. induction sizes as [|i sizes IH]; intros [j [Hj Hn]] HF a b rng Ha Hb; [destruct Hj|].
    inversion HF as [|? ? Hi HF' E1]; subst x l. cbn [ipp_loop]. rewrite shl_one_small by lia. cbn [rbind].
    destruct (Nat.le_gt_cases (2 ^ i) n) as [Hle|Hgt].
    2: { unfold slice_to. now rewrite (proj2 (Nat.leb_gt _ _)) by lia. }
    destruct (slice_run a (2 ^ i)) as [-> La]; [lia|]. cbn [rbind]. destruct (slice_run b (2 ^ i)) as [-> Lb]; [lia|]. cbn [rbind].
    destruct (ipp_iters_run i i r (num_iters i)) with (a := firstn (2 ^ i) a) (b := firstn (2 ^ i) b) (rng := rng) as [(a' & b' & rng' & -> & La' & Lb')|[-> _]]; auto; try lia.
    { unfold u64_bound. rewrite Nat2N.inj_pow. change (N.of_nat 2) with 2%N. apply N.pow_lt_mono_r; lia. }
    cbn [rbind]. apply IH; auto; try (rewrite app_length, skipn_length; lia).
    destruct Hj as [->|Hj]; [lia|]. eauto.
  Qed.

  (** log_max from 31: the number of elements is computed as an i32, every run panics *)
  Theorem C65_large_refuted rng lo hi : 1 <= lo <= hi -> 31 <= hi < 64 -> scaling_ipp checks P E S D sh1 sh2 rand r1 r2 rng lo hi = Panic.
  Proof using HE Hs1 Hs2.
    intros Hlo Hhi. unfold scaling_ipp. destruct (r1 rng) as [g rng1]. destruct (r2 rng1) as [h rng2].
    destruct (vec_len_large checks hi Hhi) as [->|[n [-> Hn]]]; [reflexivity|]. cbn [rbind]. destruct (rand rng2) as [r rng3].
    apply (ipp_loop_short _ n); rewrite ?repeat_length; auto.
    - exists hi. split; [apply in_seq; lia|auto].
    - apply Forall_forall. intros i Hi. apply in_seq in Hi. lia.
  Qed.
End Scaling.
Print Assumptions C82_scaling.
Print Assumptions C65_large_refuted.

(** Runs with the toy hash; with a bound too small for the first challenge; with a trapdoor 0. *)
Example C82_example : gipa_main ZPair ex_env toy_digest 9 ex_scalars ex_scalars ex_scalars 2%Z 4 = Ok [true; true] /\
  gipa_main ZPair ex_env toy_digest 0 ex_scalars ex_scalars ex_scalars 2%Z 4 = Loop /\
  tipa_main ZPair ex_env toy_digest 0 ex_scalars ex_scalars ex_scalars 2%Z 2 = Loop /\
  poly_commit_main ZPair ex_env toy_digest 0 ex_scalars ex_scalars ex_scalars 2%Z 1 2 = Loop /\
  tipa_main ZPair ex_env toy_digest 9 (fun z => (zq 0, z)) ex_scalars ex_scalars 2%Z 2 = Panic.
Proof. vm_compute. repeat split; reflexivity. Qed.

(** The four outcomes of the programs for Groth16: digests for which the drawn scalar is 1, 0 or another value, and bound 0. *)
Definition ex_g16_run D fuel : res unit :=
  g16_example_main ZPair ex_env D fuel ex_scalars ex_scalars ex_scalars (toy_snark (test_inputs (P := ZPair))) 3 2 2%Z.
Definition ex_g16_challenge D fuel : res ZP :=
  example_challenge (P := ZPair) D fuel ex_scalars (toy_snark (test_inputs (P := ZPair))) 3 2 2%Z.
Definition ex_g16_run_bench D fuel : res unit :=
  g16_bench_main ZPair ex_env D fuel ex_scalars ex_scalars ex_scalars zp (list zp) ex_scalars ex_hash (zq 0) [zq 0; zq 0] (fun o => o)
    ex_seed ex_u128 ZPair (toy_snark (fun c => snd c)) (toy_snark (fun c => flat_map (fun o => o) (snd c))) (toy_snark (fun c => concat (fst (fst c))))
    (@concat zp) 2 2 true true true 2%Z.
Definition chal_is (c : res ZP) (n : Z) : bool := match c with Ok r => Z.eqb (zp_val r) n | _ => false end.
Example C82_example_groth16 :
  (chal_is (ex_g16_challenge one_draws 9) 1 = true /\ ex_g16_run one_draws 9 = Panic) /\
  (chal_is (ex_g16_challenge zero_draws 9) 0 = true /\ ex_g16_run zero_draws 9 = Panic) /\
  (chal_is (ex_g16_challenge toy_digest 9) 0 = false /\ chal_is (ex_g16_challenge toy_digest 9) 1 = false /\ ex_g16_run toy_digest 9 = Ok tt) /\
  (ex_g16_challenge toy_digest 0 = Loop /\ ex_g16_run toy_digest 0 = Loop).
Proof. vm_compute. repeat split; reflexivity. Qed.
Example C82_example_bench : ex_g16_run_bench one_draws 9 = Panic /\ ex_g16_run_bench zero_draws 9 = Panic /\
  ex_g16_run_bench toy_digest 9 = Ok tt /\ ex_g16_run_bench toy_digest 0 = Loop.
Proof. vm_compute. repeat split; reflexivity. Qed.

(** SIPP: a digest with nonzero challenges and one whose challenges are 0 *)
Definition ex_scaling D := scaling_ipp true ZPair ex_env toy_stream D (fun l (z : Z) => (rev l, z)) (fun l z => (l, z)) ex_scalars ex_scalars ex_scalars 2%Z 1 2.
Example C82_example_scaling : ex_scaling five_digest = Ok tt /\ ex_scaling (fun _ => repeat 0%N 32) = Panic.
Proof. vm_compute. split; reflexivity. Qed.

(** the bound of the command line that already fails, in both build profiles, with the smallest sizes *)
Example C65_example_large : forall checks, scaling_ipp checks ZPair ex_env toy_stream five_digest (fun l (z : Z) => (rev l, z)) (fun l z => (l, z)) ex_scalars ex_scalars ex_scalars 2%Z 1 31 = Panic.
Proof. intros []; vm_compute; reflexivity. Qed.

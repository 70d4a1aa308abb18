(** Properties C64, C65: the benchmark programs. *)
Require Import List Arith NArith ZArith Lia Bool Field.
Import ListNotations.
Require Import Verif.Outcome Verif.Algebra Verif.Zp Verif.Rust Verif.InnerProducts Verif.Commitments
  Verif.Poly Verif.Gipa Verif.Tipa Verif.Ssm Verif.Floats Verif.PolyCommit Verif.Transparent Verif.Rng Verif.Sipp Verif.Bench
  Verif.Spec Verif.ListFacts Verif.RustFacts Verif.InnerProductFacts Verif.CommitFacts
  Verif.GipaFacts Verif.GipaComplete Verif.GipaTop Verif.KeyFacts Verif.TipaFacts Verif.SsmFacts Verif.PolyFacts Verif.SerFacts Verif.SippFacts
  Verif.PropsBase Verif.PropsGipa Verif.PropsTipa Verif.PropsSsm Verif.PropsPoly Verif.PropsSipp Verif.PropsGroth.

Lemma sample_pairs_length {R A B} (rl : sampler R A) (rr : sampler R B) : forall n rng,
  length (fst (fst (sample_pairs rl rr rng n))) = n /\ length (snd (fst (sample_pairs rl rr rng n))) = n.
Proof.
  induction n as [|n IH]; intros rng; [split; reflexivity|]. cbn [sample_pairs].
  destruct (rl rng) as [x rng1]. destruct (rr rng1) as [y rng2]. specialize (IH rng2).
  destruct (sample_pairs rl rr rng2 n) as [[l r] rng3]. cbn [fst snd length] in *. lia.
Qed.
Lemma generators_length {R A} (rl : sampler R A) : forall n rng, length (fst (random_generators rl rng n)) = n.
Proof.
  induction n as [|n IH]; intros rng; [reflexivity|]. cbn [random_generators].
  destruct (rl rng) as [x rng1]. specialize (IH rng1). destruct (random_generators rl rng1 n). cbn [fst length] in *. lia.
Qed.

(** ** C64 *)
Section GipaBench.
  Context {R : Type} {K : field} {MA MB MT KA KB KT : module K} {OA OB OT : carrier K}.
  Variables (D : bytes -> bytes) (fuel : nat).
  Context {XA XB XT : module K} (dA : XA -> OA) (dB : XB -> OB) (dT : XT -> OT).
  Context (fA : KA -> MA -> XA) (fB : KB -> MB -> XB) (fT : KT -> MT -> XT) (th : MA -> MB -> MT).
  Variables (LMC : dhc R MA KA OA) (RMC : dhc R MB KB OB) (IPC : dhc R MT KT OT).
  Variable ip : list MA -> list MB -> res MT.
  Hypothesis HD : digest16 D.
  Context (LA : lin_commit LMC dA fA) (LB : lin_commit RMC dB fB) (LT : ip_commit IPC dT fT) (LI : lin_ip ip th).
  Context (TA : setup_total LMC) (TB : setup_total RMC) (TT : setup_total IPC).
  Hypothesis HL : rounds_end OA OB OT D fuel.

  Lemma bench_gipa_ok rand_l rand_r rng k : exists rng',
    bench_gipa LMC RMC IPC ip D fuel rand_l rand_r rng (2 ^ k) = Ok (true, rng').
  Proof using All.
    unfold bench_gipa. destruct (sample_pairs_length rand_l rand_r (2 ^ k) rng) as [Hl Hr].
    destruct (sample_pairs rand_l rand_r rng (2 ^ k)) as [[l r] rng1]. cbn [fst snd] in Hl, Hr.
    destruct (C08_gipa_setup R K MA MB MT KA KB KT OA OB OT LMC RMC IPC rng1 (2 ^ k) TA TB TT) as (ka & kb & kt & rng2 & -> & Hka & Hkb & _).
    cbn [ok_unwrap rbind].
    rewrite (lc_commit _ _ _ LA) by congruence. cbn [ok_unwrap rbind].
    rewrite (lc_commit _ _ _ LB) by congruence. cbn [ok_unwrap rbind].
    rewrite (li_ip _ _ LI) by congruence. cbn [ok_unwrap rbind].
    rewrite (ic_commit _ _ _ LT). cbn [ok_unwrap rbind].
    assert (HC : honest_com LMC RMC IPC ip ka kb kt l r (dot th l r) (dA (dot fA ka l)) (dB (dot fB kb r)) (dT (fT kt (dot th l r)))).
    { repeat split; [apply (lc_commit _ _ _ LA); congruence | apply (lc_commit _ _ _ LB); congruence
                    | apply (li_ip _ _ LI); congruence | apply (ic_commit _ _ _ LT)]. }
    destruct (C09_gipa_complete_live D fuel dA dB dT fA fB fT th LMC LMC RMC RMC IPC IPC ip ip HD LA LB LT LI LA LB LT LI
                k l r _ ka kb kt _ _ _ HL Hl Hr Hka Hkb HC) as [proof [E1 E2]].
    rewrite E1. cbn [ok_unwrap rbind]. rewrite E2. cbn [ok_unwrap rbind]. eauto.
  Qed.
End GipaBench.

Section TipaBench.
  Context {R : Type} {P : pairing} {MA MB MT KT : module (pK P)} {OA OB OT : carrier (pK P)}.
  Notation K := (pK P).
  Add Field KfBench : (f_theory (pK P)).
  Variables (D : bytes -> bytes) (fuel : nat) (rand : sampler R (pK P)).
  Context {XA XB XT : module (pK P)} (dA : XA -> OA) (dB : XB -> OB) (dT : XT -> OT).
  Context (fA : pG2 P -> MA -> XA) (fB : pG1 P -> MB -> XB) (fT : KT -> MT -> XT) (th : MA -> MB -> MT).
  Variables (LMC : dhc R MA (pG2 P) OA) (RMC : dhc R MB (pG1 P) OB) (IPC : dhc R MT KT OT).
  Variable ip : list MA -> list MB -> res MT.
  Hypothesis HD : digest16 D.
  Context (LA : lin_commit LMC dA fA) (LB : lin_commit RMC dB fB) (LT : ip_commit IPC dT fT) (LI : lin_ip ip th).
  Context (TT : setup_total IPC).
  Hypothesis HL : rounds_end OA OB OT D fuel.
  Hypothesis HL2 : draws_end K D fuel.

  Lemma setup_total_ok rng n : 0 < n -> exists s kt rng' ka kb v,
    tipa_setup IPC rand rng n = Ok (s, kt, rng') /\ get_commitment_keys s = (ka, kb) /\ length ka = n /\ length kb = n /\
    get_verifier_key s = Ok v.
  Proof using TT.
    clear LA LB LT LI HL HL2 HD. intros Hn. destruct (TT (snd (rand (snd (rand rng)))) 1) as [kts [rng' [Hi Hlen]]].
    destruct kts as [|kt [|? ?]]; try discriminate.
    destruct (C21_setup_succeeds IPC rand rng n kt rng' Hn Hi) as [s Hs].
    destruct (C21_setup_structure _ _ _ _ _ _ _ Hs) as [H0 Hst].
    destruct (C21_keys s _ _ _ H0 Hst) as [[ka [kb [E1 [E2 [E3 _]]]]] Hv].
    exists s, kt, rng', ka, kb. eexists. repeat split; eauto.
  Qed.

  Lemma bench_tipa_ok rand_l rand_r rng k : exists rng',
    bench_tipa LMC RMC IPC ip D fuel rand_l rand_r rand rng (2 ^ S k) = Ok (true, rng').
  Proof using All.
    unfold bench_tipa. destruct (sample_pairs_length rand_l rand_r (2 ^ S k) rng) as [Hl Hr].
    destruct (sample_pairs rand_l rand_r rng (2 ^ S k)) as [[l r] rng1]. cbn [fst snd] in Hl, Hr.
    destruct (setup_total_ok rng1 (2 ^ S k) (pow2_pos _)) as (s & kt & rng2 & ka & kb & v & Hs & Hk & Hka & Hkb & Hv).
    rewrite Hs. cbn [ok_unwrap rbind]. rewrite Hk, Hv. cbn [rbind].
    rewrite (lc_commit _ _ _ LA) by congruence. cbn [ok_unwrap rbind].
    rewrite (lc_commit _ _ _ LB) by congruence. cbn [ok_unwrap rbind].
    rewrite (li_ip _ _ LI) by congruence. cbn [ok_unwrap rbind].
    rewrite (ic_commit _ _ _ LT). cbn [ok_unwrap rbind].
    assert (HC : honest_com LMC RMC IPC ip ka kb kt l r (dot th l r) (dA (dot fA ka l)) (dB (dot fB kb r)) (dT (fT kt (dot th l r)))).
    { repeat split; [apply (lc_commit _ _ _ LA); congruence | apply (lc_commit _ _ _ LB); congruence
                    | apply (li_ip _ _ LI); congruence | apply (ic_commit _ _ _ LT)]. }
    destruct (C22_tipa_complete_live D fuel rand dA dB dT fA fB fT th LMC LMC RMC RMC IPC IPC ip ip HD LA LB LT LI LA LB LT LI
                rng1 k s kt kt rng2 ka kb v l r _ _ _ _ HL HL2 Hs Hk Hv Hl Hr HC) as [proof [E1 E2]].
    rewrite E1. cbn [ok_unwrap rbind]. rewrite E2. cbn [ok_unwrap rbind]. eauto.
  Qed.

  (** [v.inverse().unwrap()] in the shift benchmark: the scalar drawn after the setup must not be 0 *)
  Definition shift_scalar {A B} (rand_l : sampler R A) (rand_r : sampler R B) (rng : R) (n : nat) : K :=
    match tipa_setup IPC rand (snd (sample_pairs rand_l rand_r rng n)) n with
    | Ok (_, _, rng') => fst (rand rng')
    | _ => f0
    end.

  Lemma inverse_zero (l : list (pG2 P)) n : 2 <= n -> length l = n ->
    rmapM (fun p : pG2 P * K => do ri <- runwrap (finverse (snd p)); Ok (ri *m fst p)) (combine l (powers n f0)) = Panic.
  Proof.
    clear. intros Hn Hl. destruct l as [|g0 [|g1 l]]; cbn in Hl; try lia. subst n. unfold powers. cbn [length seq map combine rmapM fst snd].
    rewrite finverse_neq by (cbn; apply f1_neq_f0). cbn [runwrap rbind].
    replace (fpow f0 1) with (f0 : K).
    2: { cbn [fpow]. ring. }
    now rewrite finverse_0.
  Qed.

  Lemma bench_shift_ok rand_l rand_r rng k :
    (shift_scalar rand_l rand_r rng (2 ^ S k) <> f0 -> exists rng',
      bench_tipa_srs_shift LMC RMC IPC ip D fuel rand_l rand_r rand rng (2 ^ S k) = Ok (true, rng')) /\
    (shift_scalar rand_l rand_r rng (2 ^ S k) = f0 ->
      bench_tipa_srs_shift LMC RMC IPC ip D fuel rand_l rand_r rand rng (2 ^ S k) = Panic).
  Proof using All.
    unfold bench_tipa_srs_shift, shift_scalar. destruct (sample_pairs_length rand_l rand_r (2 ^ S k) rng) as [Hl Hr].
    destruct (sample_pairs rand_l rand_r rng (2 ^ S k)) as [[l r] rng1]. cbn [fst snd] in Hl, Hr |- *.
    destruct (setup_total_ok rng1 (2 ^ S k) (pow2_pos _)) as (s & kt & rng2 & ka & kb & v & Hs & Hk & Hka & Hkb & Hv).
    rewrite Hs. cbn [ok_unwrap rbind]. rewrite Hk, Hv. cbn [rbind].
    rewrite (lc_commit _ _ _ LA) by congruence. cbn [ok_unwrap rbind].
    rewrite (lc_commit _ _ _ LB) by congruence. cbn [ok_unwrap rbind].
    destruct (rand rng2) as [x rng3]. cbn [fst].
    rewrite structured_scalar_power_spec, Nat.max_l by apply pow2_pos. cbn [rbind]. fold (powers (2 ^ S k) x).
    split; intros Hx.
    - rewrite (zipw_shift l x (2 ^ S k) Hl).
      match goal with |- context [rbind ?A _] => replace A with (Ok (shift_vec (finv x) ka)) by (symmetry; exact (inverse_shift ka x (2 ^ S k) Hx Hka)) end.
      cbn [rbind].
      assert (Hl' : length (shift_vec x l) = 2 ^ S k) by (unfold shift_vec; now rewrite map_length, seq_length).
      assert (Hk' : length (shift_vec (finv x) ka) = 2 ^ S k) by (unfold shift_vec; now rewrite map_length, seq_length).
      rewrite (li_ip _ _ LI) by congruence. cbn [ok_unwrap rbind].
      rewrite (ic_commit _ _ _ LT). cbn [ok_unwrap rbind].
      assert (HC : honest_com LMC RMC IPC ip (shift_vec (finv x) ka) kb kt (shift_vec x l) r (dot th (shift_vec x l) r)
                     (dA (dot fA ka l)) (dB (dot fB kb r)) (dT (fT kt (dot th (shift_vec x l) r)))).
      { repeat split; [rewrite (C23_shift_commitment dA fA LMC LA x ka l Hx) by congruence; apply (lc_commit _ _ _ LA); congruence
                      | apply (lc_commit _ _ _ LB); congruence
                      | apply (li_ip _ _ LI); congruence | apply (ic_commit _ _ _ LT)]. }
      destruct (C23_tipa_complete_shift_live D fuel rand dA dB dT fA fB fT th LMC LMC RMC RMC IPC IPC ip ip HD LA LB LT LI LA LB LT LI
                  rng1 k s kt kt rng2 x ka kb v Hs Hk Hv Hx (shift_vec x l) r _ _ _ _ HL HL2 Hl' Hr HC) as [proof [E1 E2]].
      rewrite E1. cbn [ok_unwrap rbind]. rewrite E2. cbn [ok_unwrap rbind]. eauto.
    - subst x. assert (2 <= 2 ^ S k) by (cbn [Nat.pow]; pose proof (pow2_pos k); lia).
      match goal with |- context [rbind ?A _] => replace A with (@Panic (list (pG2 P))) by (symmetry; now apply (inverse_zero ka (2 ^ S k))) end.
      reflexivity.
  Qed.
End TipaBench.

Section Mains.
  Context {R : Type} {P : pairing}.
  Notation K := (pK P).
  Variables (E : penv) (D : bytes -> bytes) (fuel : nat).
  Variables (rand : sampler R K) (r1 : sampler R (pG1 P)) (r2 : sampler R (pG2 P)).
  Hypothesis HE : 1 <= threads E.

  Theorem C64_inner_products (rng : R) (n : nat) : exists l1 l2 l3 m1 m2 m3,
    length l1 = n /\ length l2 = n /\ length l3 = n /\ length m1 = n /\ length m2 = n /\ length m3 = n /\
    inner_products_main P E rand r1 r2 rng n = Ok (pairing_sum P l1 m1, msm_sum l2 m2, msm_sum l3 m3).
  Proof using HE.
    unfold inner_products_main, bench_inner_product.
    destruct (sample_pairs_length r1 r2 n rng) as [Hl Hr].
    destruct (sample_pairs r1 r2 rng n) as [[l1 m1] rng1]. cbn [fst snd] in Hl, Hr.
    rewrite C01_pairing_inner_product by (auto; congruence). cbn [ok_unwrap rbind].
    destruct (sample_pairs_length r1 rand n rng1) as [Hl2 Hr2].
    destruct (sample_pairs r1 rand rng1 n) as [[l2 m2] rng2]. cbn [fst snd] in Hl2, Hr2.
    destruct (C02_multiexp_outcome _ _ l2 m2) as [[H _]|[_ ->]]; [congruence|]. cbn [ok_unwrap rbind].
    destruct (sample_pairs_length r2 rand n rng2) as [Hl3 Hr3].
    destruct (sample_pairs r2 rand rng2 n) as [[l3 m3] rng3]. cbn [fst snd] in Hl3, Hr3.
    destruct (C02_multiexp_outcome _ _ l3 m3) as [[H _]|[_ ->]]; [congruence|]. cbn [ok_unwrap rbind].
    exists l1, l2, l3, m1, m2, m3. repeat split; auto.
  Qed.

  Hypothesis HD : digest16 D.

  Theorem C64_gipa (rng : R) (k : nat) :
    rounds_end (mod_carrier (pGT P)) (mod_carrier (pGT P)) (identity_output (pGT P)) D fuel ->
    rounds_end (mod_carrier (pGT P)) (mod_carrier (pG1 P)) (identity_output (pG1 P)) D fuel ->
    gipa_main P E D fuel rand r1 r2 rng (2 ^ k) = Ok [true; true].
  Proof using HE HD.
    intros HL1 HL2. destruct (C08_setups_total R K (pG1 P) P E r1 r1 r2) as [S1 [S2 [S3 S4]]].
    destruct (C08_setups_total R K (pGT P) P E (fun r => (m0, r)) r1 r2) as [_ [_ [_ S5]]].
    unfold gipa_main.
    destruct (bench_gipa_ok D fuel mid mid idout (phi_g1 P) (pr_e P) psi_id (pr_e P)
                (afgho_g1 P E r2) (afgho_g2 P E r1) (identity (pGT P)) (pairing_ip P E) HD
                (afgho_g1_law P E HE r2) (afgho_g2_law P E HE r1) (identity_law _) (pairing_ip_law P E HE) S2 S3 S5 HL1 r1 r2 rng k) as [rng1 ->].
    cbn [rbind].
    destruct (bench_gipa_ok D fuel mid mid idout (phi_g1 P) smul psi_id smul
                (afgho_g1 P E r2) (pedersen (pG1 P) r1) (identity (pG1 P)) (multiexp_ip (pG1 P)) HD
                (afgho_g1_law P E HE r2) (pedersen_law _ r1) (identity_law _) (multiexp_ip_law _) S2 S1 S4 HL2 r1 rand rng1 k) as [rng2 ->].
    reflexivity.
  Qed.

  Lemma bench_ssm_ok rng k : draws_end K D fuel ->
    rounds_end (mod_carrier (pGT P)) (mod_carrier (fmod K)) (identity_output (pG1 P)) D fuel -> exists rng',
    bench_tipa_ssm (afgho_g1 P E r2) (identity (R := R) (pG1 P)) (multiexp_ip (pG1 P)) D fuel E r1 rand rng (2 ^ S k) = Ok (true, rng').
  Proof using HE HD.
    intros HL2 HL. unfold bench_tipa_ssm. pose proof (generators_length r1 (2 ^ S k) rng) as Hl.
    destruct (random_generators r1 rng (2 ^ S k)) as [l rng1]. cbn [fst] in Hl. destruct (rand rng1) as [b rng2].
    assert (Hb : structured_scalar_power (2 ^ S k) b = Ok (powers (2 ^ S k) b)).
    { rewrite structured_scalar_power_spec, Nat.max_l by apply pow2_pos. reflexivity. }
    rewrite Hb. cbn [rbind]. destruct (C08_setups_total R K (pG1 P) P E r1 r1 r2) as [_ [_ [_ S4]]].
    destruct (setup_total_ok rand (identity (pG1 P)) S4 rng2 (2 ^ S k) (pow2_pos _)) as (s & kt & rng3 & ka & kb & v & Hs & Hk & Hka & Hkb & Hv).
    unfold tssm_setup. rewrite Hs. cbn [ok_unwrap rbind]. rewrite Hk, Hv. cbn [rbind dh_commit afgho_g1 identity].
    rewrite C01_pairing_inner_product by (auto; congruence). cbn [ok_unwrap rbind].
    destruct (C02_multiexp_outcome _ _ l (powers (2 ^ S k) b)) as [[H _]|[_ Hm]].
    { exfalso. apply H. rewrite Hl. symmetry. apply powers_length. }
    match goal with |- context [rbind (ok_unwrap ?A) _] => replace A with (Ok (msm_sum l (powers (2 ^ S k) b))) by (symmetry; exact Hm) end.
    cbn [ok_unwrap rbind].
    destruct (C30_multiexp_instance R P E E r2 rand D fuel rng2 k s kt rng3 ka kb v l b _ HE HE HD HL2 HL Hs Hk Hv Hl Hb) as [proof [E1 E2]].
    rewrite E1. cbn [ok_unwrap rbind].
    replace (msm_sum l (powers (2 ^ S k) b)) with (big (2 ^ S k) (fun i => fpow b i *m at_ l i)).
    { rewrite E2. cbn [ok_unwrap rbind]. eauto. }
    unfold msm_sum. rewrite Hl. apply big_ext. intros i Hi. f_equal. symmetry.
    exact (at_map_seq (M := fmod K) (fpow b) (2 ^ S k) i Hi).
  Qed.

  (** The third run unwraps the inverse of a random scalar. *)
  Theorem C64_tipa (rng : R) (k : nat) : draws_end K D fuel ->
    rounds_end (mod_carrier (pGT P)) (mod_carrier (pGT P)) (identity_output (pGT P)) D fuel ->
    rounds_end (mod_carrier (pGT P)) (mod_carrier (pG1 P)) (identity_output (pG1 P)) D fuel ->
    rounds_end (mod_carrier (pGT P)) (mod_carrier (fmod K)) (identity_output (pG1 P)) D fuel ->
    (tipa_main P E D fuel rand r1 r2 rng (2 ^ S k) = Ok [true; true; true; true] \/
     tipa_main P E D fuel rand r1 r2 rng (2 ^ S k) = Panic) /\
    ((forall rng, fst (rand rng) <> f0) -> tipa_main P E D fuel rand r1 r2 rng (2 ^ S k) = Ok [true; true; true; true]).
  Proof using HE HD.
    intros HL HL1 HL2 HL3. destruct (C08_setups_total R K (pG1 P) P E r1 r1 r2) as [S1 [S2 [S3 S4]]].
    destruct (C08_setups_total R K (pGT P) P E (fun r => (m0, r)) r1 r2) as [_ [_ [_ S5]]].
    unfold tipa_main.
    destruct (bench_tipa_ok D fuel rand mid mid idout (phi_g1 P) (pr_e P) psi_id (pr_e P)
                (afgho_g1 P E r2) (afgho_g2 P E r1) (identity (pGT P)) (pairing_ip P E) HD
                (afgho_g1_law P E HE r2) (afgho_g2_law P E HE r1) (identity_law _) (pairing_ip_law P E HE) S5 HL1 HL r1 r2 rng k) as [rng1 ->].
    cbn [rbind].
    destruct (bench_tipa_ok D fuel rand mid mid idout (phi_g1 P) smul psi_id smul
                (afgho_g1 P E r2) (pedersen (pG1 P) r1) (identity (pG1 P)) (multiexp_ip (pG1 P)) HD
                (afgho_g1_law P E HE r2) (pedersen_law _ r1) (identity_law _) (multiexp_ip_law _) S4 HL2 HL r1 rand rng1 k) as [rng2 ->].
    cbn [rbind].
    destruct (bench_shift_ok D fuel rand mid mid idout (phi_g1 P) (pr_e P) psi_id (pr_e P)
                (afgho_g1 P E r2) (afgho_g2 P E r1) (identity (pGT P)) (pairing_ip P E) HD
                (afgho_g1_law P E HE r2) (afgho_g2_law P E HE r1) (identity_law _) (pairing_ip_law P E HE) S5 HL1 HL r1 r2 rng2 k) as [H1 H0].
    destruct (f_eq_dec K (shift_scalar rand (identity (R := R) (pGT P)) r1 r2 rng2 (2 ^ S k)) f0) as [Hz|Hz].
    - split; [right; rewrite (H0 Hz); reflexivity|]. intros Hne. exfalso. unfold shift_scalar in Hz.
      destruct (setup_total_ok rand (identity (pGT P)) S5 (snd (sample_pairs r1 r2 rng2 (2 ^ S k))) (2 ^ S k) (pow2_pos _))
        as (s & kt & rng3 & ka & kb & v & Hs & _). rewrite Hs in Hz. now apply (Hne rng3).
    - destruct (H1 Hz) as [rng3 ->]. cbn [rbind].
      destruct (bench_ssm_ok rng3 k HL HL3) as [rng4 ->]. cbn [rbind]. auto.
  Qed.

  (** ** the polynomial commitment benchmark *)
  Lemma poly_rand_below d rng : degree_below (d + 1) (fst (poly_rand P rand d rng)).
  Proof.
    clear. unfold poly_rand. pose proof (generators_length rand (d + 1) rng) as Hl.
    destruct (random_generators rand rng (d + 1)) as [cs rng']. cbn [fst] in *. apply degree_below_wf. rewrite <- Hl.
    apply PcFacts.wf_row_stripped; [apply strip_stripped|lia|apply strip_length].
  Qed.

  Lemma pc_trials_ok trial d : (forall p z, degree_below (d + 1) p -> trial p z (poly_at p z) = Ok true) ->
    forall n rng, exists rng', pc_trials P rand trial d n rng = Ok rng'.
  Proof.
    clear. intros H n. induction n as [|n IH]; intros rng; [eexists; reflexivity|]. cbn [pc_trials].
    pose proof (poly_rand_below d rng) as Hp. destruct (poly_rand P rand d rng) as [p rng1]. cbn [fst] in Hp.
    destruct (rand rng1) as [z rng2]. rewrite ev_poly_at, H by auto. cbn [ok_unwrap rbind rassert]. apply IH.
  Qed.

  Lemma bench_kzg_ok rng d n : exists rng', bench_kzg P rand rng d n = Ok rng'.
  Proof.
    unfold bench_kzg. destruct (C32_kzg_complete (P := P) rand rng d) as (powers & v & rng1 & -> & H). cbn [ok_unwrap rbind].
    apply pc_trials_ok. intros p z Hp. destruct (H p z Hp) as (proof & -> & E2 & E3). cbn [rbind]. rewrite E2. exact E3.
  Qed.
  Lemma bench_ipa_ok rng d n : draws_end K D fuel ->
    rounds_end (mod_carrier (pGT P)) (mod_carrier (fmod K)) (identity_output (pG1 P)) D fuel ->
    1 <= d -> (Z.of_nat d < 2 ^ 52)%Z -> exists rng', bench_ipa P E D fuel rand r2 rng d n = Ok rng'.
  Proof using HE HD.
    intros HL2 HL Hd Hlt. unfold bench_ipa.
    destruct (C38_univariate_complete_live (P := P) E E HE HE D fuel rand r2 r2 rng d HL HL2 HD Hd Hlt) as (s & rng1 & v & -> & Hv & H).
    cbn [ok_unwrap rbind]. rewrite Hv. cbn [rbind].
    apply pc_trials_ok. intros p z Hp. destruct (H p z Hp) as (com & coms & proof & -> & E2 & E3). cbn [rbind]. rewrite E2. exact E3.
  Qed.
  Lemma bench_tipc_ok rng d n :
    rounds_end (mod_carrier (pGT P)) (mod_carrier (fmod K)) (identity_output (pG1 P)) D fuel ->
    rounds_end (mod_carrier (pG1 P)) (mod_carrier (fmod K)) (identity_output (fmod K)) D fuel ->
    1 <= d -> (Z.of_nat d < 2 ^ 52)%Z -> exists rng', bench_transparent_ipa P E D fuel rand r1 r2 rng d n = Ok rng'.
  Proof using HE HD.
    intros HL HL2 Hd Hlt. unfold bench_transparent_ipa.
    destruct (C40_univariate_complete_live (P := P) E E HE HE D fuel r1 r1 r2 r2 rng d HL HL2 HD Hd Hlt) as (ck & rng1 & -> & H).
    cbn [ok_unwrap rbind].
    apply pc_trials_ok. intros p z Hp. destruct (H p z Hp) as (com & coms & proof & -> & E2 & E3). cbn [rbind]. rewrite E2. exact E3.
  Qed.

  (** [num_data_points] below 27: degrees below 2^52 *)
  Theorem C64_poly_commit (rng : R) (num_trials num_data_points : nat) : num_data_points <= 26 ->
    draws_end K D fuel ->
    rounds_end (mod_carrier (pGT P)) (mod_carrier (fmod K)) (identity_output (pG1 P)) D fuel ->
    rounds_end (mod_carrier (pG1 P)) (mod_carrier (fmod K)) (identity_output (fmod K)) D fuel ->
    poly_commit_main P E D fuel rand r1 r2 rng num_trials num_data_points = Ok tt.
  Proof using HE HD.
    intros Hn HL HL1 HL2. unfold poly_commit_main.
    assert (H : forall d, In d (map (fun i => 4 ^ (i + 1) - 1) (seq 0 num_data_points)) -> 1 <= d /\ (Z.of_nat d < 2 ^ 52)%Z).
    { intros d Hd. apply in_map_iff in Hd as [i [<- Hi]]. apply in_seq in Hi.
      assert (H4 : 4 <= 4 ^ (i + 1)) by (rewrite <- (Nat.pow_1_r 4) at 1; apply Nat.pow_le_mono_r; lia).
      split; [lia|]. rewrite Nat2Z.inj_sub by lia. rewrite Nat2Z.inj_pow. change (Z.of_nat 4) with (2 ^ 2)%Z. rewrite <- Z.pow_mul_r by lia.
      assert ((2 ^ (2 * Z.of_nat (i + 1)) <= 2 ^ 52)%Z) by (apply Z.pow_le_mono_r; lia). lia. }
    revert H. generalize (map (fun i => 4 ^ (i + 1) - 1) (seq 0 num_data_points)). intros l H.
    induction l as [|d l IH]; [reflexivity|]. cbn [poly_commit_loop]. destruct (H d (or_introl eq_refl)) as [H1 H2].
    destruct (bench_kzg_ok rng d num_trials) as [? ->]. cbn [rbind].
    destruct (bench_ipa_ok rng d num_trials HL HL1 H1 H2) as [? ->]. cbn [rbind].
    destruct (bench_tipc_ok rng d num_trials HL1 HL2 H1 H2) as [? ->]. cbn [rbind].
    apply IH. intros d' Hd'. apply H. now right.
  Qed.
End Mains.
Print Assumptions C64_inner_products.
Print Assumptions C64_gipa.
Print Assumptions C64_tipa.
Print Assumptions C64_poly_commit.

(** ** C65: the scaling example of SIPP *)
Lemma shl_one_small checks bits i : i < bits -> shl_one checks bits i = Ok i.
Proof. intros H. unfold shl_one. now rewrite (proj2 (Nat.ltb_lt _ _) H). Qed.
Lemma vec_len_small checks hi : hi < 31 -> vec_len checks hi = Ok (2 ^ hi).
Proof. intros H. unfold vec_len. rewrite shl_one_small by lia. cbn [rbind]. now rewrite (proj2 (Nat.eqb_neq _ _)) by lia. Qed.
(** between 31 and 63 the vectors are too short, or the shift panics *)
Lemma vec_len_large checks hi : 31 <= hi < 64 -> vec_len checks hi = Panic \/ exists n, vec_len checks hi = Ok n /\ n < 2 ^ hi.
Proof.
  intros H. unfold vec_len, shl_one. destruct (Nat.ltb_spec hi 32).
  - right. replace hi with 31 by lia. exists 0. split; [reflexivity|]. apply pow2_pos.
  - destruct checks; [now left|]. right. cbn [rbind]. eexists. split; [reflexivity|].
    assert (hi mod 32 < 32) by (apply Nat.mod_upper_bound; lia).
    destruct (Nat.eqb_spec (hi mod 32) 31); [apply pow2_pos|]. apply Nat.pow_lt_mono_r; lia.
Qed.

Section Scaling.
  Variable checks : bool.
  Context {R : Type} {P : pairing}.
  Notation K := (pK P).
  Variables (E : penv) (S : stream) (D : bytes -> bytes).
  Variables (sh1 : list (pG1 P) -> R -> list (pG1 P) * R) (sh2 : list (pG2 P) -> R -> list (pG2 P) * R).
  Variables (rand : sampler R K) (r1 : sampler R (pG1 P)) (r2 : sampler R (pG2 P)).
  Hypothesis HE : 1 <= threads E.
  (** shuffling keeps the length *)
  Hypothesis Hs1 : forall l rng, length (fst (sh1 l rng)) = length l.
  Hypothesis Hs2 : forall l rng, length (fst (sh2 l rng)) = length l.
  (** no challenge is 0 *)
  Definition challenges_nonzero : Prop := forall seed zs, challenge_after P S D seed zs <> f0.

  Lemma ipp_iters_ok k r n : 1 <= k -> u64_bound (2 ^ k) -> challenges_nonzero -> 2 ^ k <= length r ->
    forall a b rng, length a = 2 ^ k -> length b = 2 ^ k -> exists a' b' rng',
    ipp_iters P E S D sh1 sh2 r n a b rng = Ok (a', b', rng') /\ length a' = 2 ^ k /\ length b' = 2 ^ k.
  Proof using HE Hs1 Hs2.
    intros Hk Hu Hc Hr. induction n as [|n IH]; intros a b rng Ha Hb; [exists a, b, rng; auto|]. cbn [ipp_iters].
    pose proof (Hs1 a rng) as H1. destruct (sh1 a rng) as [a' rng1]. cbn [fst] in H1.
    pose proof (Hs2 b rng1) as H2. destruct (sh2 b rng1) as [b' rng2]. cbn [fst] in H2.
    rewrite C04_product_of_pairings_with_coeffs by (auto; lia). fold (sipp_value P a' b' r). cbn [rbind].
    destruct (C45_complete (E := E) (S := S) (D := D) k a' b' r E HE Hk) as [[zs [E1 E2]]|[_ [xs [_ [_ Hx]]]]]; try lia; [now rewrite H1, Ha| |].
    - rewrite E1. cbn [rbind]. rewrite E2. cbn [rbind rassert]. apply IH; lia.
    - exfalso. unfold challenges_of in Hx. apply (f_equal (fun l => last l f1)) in Hx. rewrite last_last in Hx.
      revert Hx. generalize (honest_elems (xs ++ [f0]) (scaled_by P r a') b'). intros zs Hx.
      destruct (length zs) as [|m]; [cbn in Hx; now apply f1_neq_f0 in Hx|].
      rewrite seq_S, map_app in Hx. cbn [map] in Hx. rewrite last_last in Hx. exact (Hc _ _ Hx).
  Qed.

  Lemma slice_to_ok {A} (l : list A) n : n <= length l -> slice_to l n = Ok (firstn n l) /\ length (firstn n l) = n.
  Proof. intros H. unfold slice_to. rewrite (proj2 (Nat.leb_le _ _) H), firstn_length. split; [reflexivity|lia]. Qed.

  Lemma ipp_loop_ok m r : m < 64 -> challenges_nonzero -> 2 ^ m <= length r ->
    forall sizes a b rng, Forall (fun i => 1 <= i <= m) sizes -> length a = 2 ^ m -> length b = 2 ^ m ->
    ipp_loop checks P E S D sh1 sh2 r sizes a b rng = Ok tt.
  Proof using HE Hs1 Hs2.
    intros Hm Hc Hr. induction sizes as [|i sizes IH]; intros a b rng HF Ha Hb; [reflexivity|]. inversion HF as [|? ? [Hi1 Hi2] HF' E1]; subst.
    assert (Hle : 2 ^ i <= 2 ^ m) by (apply Nat.pow_le_mono_r; lia).
    cbn [ipp_loop]. rewrite shl_one_small by lia. cbn [rbind]. destruct (slice_to_ok a (2 ^ i)) as [-> La]; [lia|]. cbn [rbind].
    destruct (slice_to_ok b (2 ^ i)) as [-> Lb]; [lia|]. cbn [rbind].
    destruct (ipp_iters_ok i r (num_iters i)) with (a := firstn (2 ^ i) a) (b := firstn (2 ^ i) b) (rng := rng) as (a' & b' & rng' & -> & La' & Lb'); auto; try lia.
    { unfold u64_bound. rewrite Nat2N.inj_pow. change (N.of_nat 2) with 2%N. apply N.pow_lt_mono_r; lia. }
    cbn [rbind]. apply IH; auto; rewrite app_length, skipn_length; lia.
  Qed.

  Theorem C65_scaling_example_partial rng lo hi : 1 <= lo -> hi < 31 -> challenges_nonzero ->
    scaling_ipp checks P E S D sh1 sh2 rand r1 r2 rng lo hi = Ok tt.
  Proof using HE Hs1 Hs2.
    intros Hlo Hhi Hc. unfold scaling_ipp. destruct (r1 rng) as [g rng1]. destruct (r2 rng1) as [h rng2]. rewrite vec_len_small by auto. cbn [rbind]. destruct (rand rng2) as [r rng3].
    apply (ipp_loop_ok hi); auto; rewrite ?repeat_length; auto; try lia.
    - apply Forall_forall. intros i Hi. apply in_seq in Hi. lia.
  Qed.

  (** the smallest size is accepted on the command line but always panics *)
  Theorem C65_size_one_refuted rng hi : hi < 31 ->
    scaling_ipp checks P E S D sh1 sh2 rand r1 r2 rng 0 hi = Panic.
  Proof using HE Hs1 Hs2.
    intros Hhi. unfold scaling_ipp. destruct (r1 rng) as [g rng1]. destruct (r2 rng1) as [h rng2]. rewrite vec_len_small by auto. cbn [rbind]. destruct (rand rng2) as [r rng3].
    replace (hi + 1 - 0) with (Datatypes.S hi) by lia. cbn [seq ipp_loop]. rewrite shl_one_small by lia. cbn [rbind]. change (2 ^ 0) with 1.
    pose proof (pow2_pos hi) as Hp.
    destruct (slice_to_ok (repeat (g +m g) (2 ^ hi)) 1) as [-> La]; [rewrite repeat_length; lia|]. cbn [rbind].
    destruct (slice_to_ok (repeat (h +m h) (2 ^ hi)) 1) as [-> Lb]; [rewrite repeat_length; lia|]. cbn [rbind].
    change (num_iters 0) with 1. cbn [ipp_iters].
    pose proof (Hs1 (firstn 1 (repeat (g +m g) (2 ^ hi))) rng3) as H1. destruct (sh1 _ rng3) as [a' rng4]. cbn [fst] in H1.
    pose proof (Hs2 (firstn 1 (repeat (h +m h) (2 ^ hi))) rng4) as H2. destruct (sh2 _ rng4) as [b' rng5]. cbn [fst] in H2.
    rewrite C04_product_of_pairings_with_coeffs by (rewrite ?repeat_length; auto; lia). cbn [rbind].
    set (v := big _ _). destruct (sipp_prove P E S D a' b' (repeat r (2 ^ hi)) v) as [zs| | |] eqn:Ep.
    2, 4: exfalso; unfold sipp_prove in Ep; rewrite H1, H2, La, Lb in Ep; cbn in Ep; discriminate.
    - assert (Hu : u64_bound (length a')) by (unfold u64_bound; rewrite H1, La; reflexivity).
      cbn [rbind]. rewrite (proj2 (C48_verify_outcome (E := E) (S := S) (D := D) a' b' (repeat r (2 ^ hi)) v zs Hu)); [reflexivity|].
      intros (k & Hk & Ha & _). rewrite H1, La in Ha. destruct k; [lia|]. cbn [Nat.pow] in Ha. pose proof (pow2_pos k). lia.
    - reflexivity.
  Qed.
End Scaling.
Print Assumptions C65_scaling_example_partial.
Print Assumptions C65_size_one_refuted.

(** Runs: lengths 4 and 2 with the toy hash; degrees 3 and 15, 2 trials each; sizes 2 and 4. *)
Example C64_example_gipa : gipa_main ZPair ex_env toy_digest 9 ex_scalars ex_scalars ex_scalars 2%Z 4 = Ok [true; true].
Proof. vm_compute. reflexivity. Qed.
Example C64_example_tipa : tipa_main ZPair ex_env toy_digest 9 ex_scalars ex_scalars ex_scalars 2%Z 2 = Ok [true; true; true; true].
Proof. vm_compute. reflexivity. Qed.
Example C64_example_zero : tipa_main ZPair ex_env toy_digest 9 (fun z => (zq 0, z)) ex_scalars ex_scalars 2%Z 2 = Panic.
Proof. vm_compute. reflexivity. Qed.
Example C64_example_pc : poly_commit_main ZPair ex_env toy_digest 9 ex_scalars ex_scalars ex_scalars 2%Z 1 2 = Ok tt.
Proof. vm_compute. reflexivity. Qed.
Example C65_example : scaling_ipp true ZPair ex_env toy_stream five_digest (fun l (z : Z) => (rev l, z)) (fun l z => (l, z))
    ex_scalars ex_scalars ex_scalars 2%Z 1 2 = Ok tt /\
  challenges_nonzero (P := ZPair) toy_stream five_digest.
Proof.
  split; [vm_compute; reflexivity|]. intros seed zs. unfold challenge_after.
  destruct (map _ zs) as [|m l] using rev_ind; [|unfold hash_chain; rewrite fold_left_app]; vm_compute; discriminate.
Qed.
(** all hypotheses of the C64 theorems at once *)
Example C64_hypotheses : 1 <= threads ex_env /\ digest16 even_digest /\ draws_end ZP even_digest 1 /\
  rounds_end (mod_carrier ZM) (mod_carrier ZM) (identity_output ZM) even_digest 1 /\
  rounds_end (mod_carrier ZM) (mod_carrier (fmod ZP)) (identity_output ZM) even_digest 1 /\
  rounds_end (mod_carrier ZM) (mod_carrier (fmod ZP)) (identity_output (fmod ZP)) even_digest 1 /\
  (forall z, fst ((fun z : Z => (zq 7, z)) z) <> f0 :> ZP).
Proof.
  destruct ends_example as [H1 [H2 _]]. split; [cbn; lia|]. split; [exact H1|]. split; [exact H2|].
  split; [|split; [|split; [|intros z; cbn; discriminate]]];
    intros prev c1 c2; exists 0, (f_ofN (f := ZP) (from_be_bytes (repeat 1%N 16))); (split; [lia|]); vm_compute; reflexivity.
Qed.

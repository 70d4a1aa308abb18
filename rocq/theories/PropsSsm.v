(** Properties C29 - C31: inner product arguments with structured scalar messages. *)
Require Import List Arith NArith ZArith Lia Bool Field.
Import ListNotations.
Require Import Verif.Outcome Verif.Algebra Verif.Zp Verif.Rust Verif.InnerProducts Verif.Commitments
  Verif.Gipa Verif.Poly Verif.Tipa Verif.Ssm Verif.Spec Verif.ListFacts Verif.RustFacts
  Verif.InnerProductFacts Verif.CommitFacts Verif.GipaFacts Verif.GipaComplete Verif.GipaTop Verif.SerFacts
  Verif.PolyFacts Verif.KeyFacts Verif.TipaFacts Verif.SsmFacts Verif.PropsBase Verif.PropsGipa Verif.PropsTipa.

(** [(ca, ct)] is what the commit functions and the inner product return for left message a and right
    message 1, b, b^2, ... *)
Definition honest_ssm {R} {K : field} {MA MT KA KT : module K} {OA OT : carrier K}
    (LMC : dhc R MA KA OA) (IPC : dhc R MT KT OT) (ip : list MA -> list (fmod K) -> res MT)
    ka kt a (mb : list (fmod K)) (ca : OA) (ct : OT) : Prop :=
  dh_commit LMC ka a = Ok ca /\ exists t, ip a mb = Ok t /\ dh_commit IPC [kt] [t] = Ok ct.

Lemma ssp_powers {K : field} n (b : K) l : 0 < n -> structured_scalar_power n b = Ok l -> l = powers n b.
Proof. intros Hn. rewrite structured_scalar_power_spec, Nat.max_l by lia. intros [= <-]. reflexivity. Qed.

(** ** C29 *)
Section C29.
  Context {R : Type} {K : field} {MA MT KA KT : module K} {OA OT : carrier K}.
  Variables (D : bytes -> bytes) (fuel : nat) (E : penv).
  Context {XA XT : module K} (dA : XA -> OA) (dT : XT -> OT).
  Context (fA : KA -> MA -> XA) (fT : KT -> MT -> XT) (th : MA -> fmod K -> MT).
  Variables LMC LMC' : dhc R MA KA OA.
  Variables IPC IPC' : dhc R MT KT OT.
  Variables ip ip' : list MA -> list (fmod K) -> res MT.
  Hypothesis HD : digest16 D.
  Context (LA : lin_commit LMC dA fA) (LT : ip_commit IPC dT fT) (LI : lin_ip ip th).
  Context (LA' : lin_commit LMC' dA fA) (LT' : ip_commit IPC' dT fT) (LI' : lin_ip ip' th).

  Lemma honest_ssm_inv ka kt a mb ca ct : length ka = length a -> length a = length mb ->
    honest_ssm LMC IPC ip ka kt a mb ca ct -> (ca, ct) = (dA (dot fA ka a), dT (fT kt (dot th a mb))).
  Proof using LA LT LI.
    intros H1 H2 [E1 [t [E2 E3]]]. rewrite (lc_commit _ _ _ LA) in E1 by auto.
    rewrite (li_ip _ _ LI) in E2 by auto. injection E2 as <-. rewrite (ic_commit _ _ _ LT) in E3. congruence.
  Qed.

  (** the verifier gets the scalar b only *)
  Theorem C29_gssm_complete k (b : K) mb a ka kt ca ct :
    length a = 2 ^ k -> length ka = 2 ^ k -> structured_scalar_power (2 ^ k) b = Ok mb ->
    honest_ssm LMC IPC ip ka kt a mb ca ct ->
    gssm_prove LMC IPC ip D fuel (a, mb) (ka, kt) = Loop \/
    exists proof, gssm_prove LMC IPC ip D fuel (a, mb) (ka, kt) = Ok proof /\
      gssm_verify LMC' IPC' ip' D fuel E (ka, kt) (ca, ct) b proof = Ok true.
  Proof using All.
    intros Ha Hka Hb H. apply ssp_powers in Hb; [|apply pow2_pos]. subst mb.
    apply honest_ssm_inv in H; [|congruence|rewrite Ha; symmetry; apply powers_length]. rewrite H.
    eapply gssm_complete_outcome; eauto.
  Qed.

  Theorem C29_gssm_complete_live k (b : K) mb a ka kt ca ct :
    rounds_end OA (mod_carrier (fmod K)) OT D fuel ->
    length a = 2 ^ k -> length ka = 2 ^ k -> structured_scalar_power (2 ^ k) b = Ok mb ->
    honest_ssm LMC IPC ip ka kt a mb ca ct ->
    exists proof, gssm_prove LMC IPC ip D fuel (a, mb) (ka, kt) = Ok proof /\
      gssm_verify LMC' IPC' ip' D fuel E (ka, kt) (ca, ct) b proof = Ok true.
  Proof using All.
    intros HL Ha Hka Hb H. apply ssp_powers in Hb; [|apply pow2_pos]. subst mb.
    apply honest_ssm_inv in H; [|congruence|rewrite Ha; symmetry; apply powers_length]. rewrite H.
    eapply gssm_complete_live; eauto using rounds_end_live.
  Qed.
End C29.
Print Assumptions C29_gssm_complete.
Print Assumptions C29_gssm_complete_live.

Theorem C29_multiexp_instance R (P : pairing) (E E' : penv) (r2 : sampler R (pG2 P)) D fuel k
    (a : list (pG1 P)) (b : pK P) (ka : list (pG2 P)) (kt : unitmod (pK P)) mb :
  1 <= threads E -> 1 <= threads E' -> digest16 D ->
  rounds_end (mod_carrier (pGT P)) (mod_carrier (fmod (pK P))) (identity_output (pG1 P)) D fuel ->
  length a = 2 ^ k -> length ka = 2 ^ k -> structured_scalar_power (2 ^ k) b = Ok mb ->
  exists proof,
    gssm_prove (afgho_g1 P E r2) (identity (pG1 P)) (multiexp_ip (pG1 P)) D fuel (a, mb) (ka, kt) = Ok proof /\
    gssm_verify (afgho_g1 P E' r2) (identity (pG1 P)) (multiexp_ip (pG1 P)) D fuel E' (ka, kt)
      (pairing_sum P a ka : mod_carrier (pGT P),
       [big (2 ^ k) (fun i => fpow b i *m at_ a i)] : identity_output (pG1 P)) b proof = Ok true.
Proof.
  intros HE HE' HD HL Ha Hka Hb.
  refine (C29_gssm_complete_live D fuel E' mid idout (phi_g1 P) psi_id smul (afgho_g1 P E r2) (afgho_g1 P E' r2)
    (identity (pG1 P)) (identity (pG1 P)) (multiexp_ip (pG1 P)) (multiexp_ip (pG1 P)) HD
    (afgho_g1_law P E HE r2) (identity_law _) (multiexp_ip_law _)
    (afgho_g1_law P E' HE' r2) (identity_law _) (multiexp_ip_law _) k b mb a ka kt _ _ HL Ha Hka Hb _).
  apply ssp_powers in Hb; [|apply pow2_pos]. subst mb. split.
  - apply C01_pairing_inner_product; congruence.
  - exists (big (2 ^ k) (fun i => fpow b i *m at_ a i)). split; [|reflexivity].
    destruct (C02_multiexp_outcome _ _ a (powers (2 ^ k) b)) as [[H _]|[_ H]].
    + exfalso. apply H. rewrite Ha. symmetry. apply powers_length'.
    + etransitivity; [exact H|]. f_equal. unfold msm_sum. rewrite Ha. apply big_ext. intros i Hi.
      f_equal. exact (at_map_seq (M := fmod (pK P)) (fpow b) (2 ^ k) i Hi).
Qed.
Print Assumptions C29_multiexp_instance.

Definition ex_ssm_prove m k := gssm_prove (ex_L ex_env) ex_T (multiexp_ip ZM) toy_digest 9 m k.
Definition ex_ssm_verify k c b p := gssm_verify (ex_L ex_env1) ex_T (multiexp_ip ZM) toy_digest 9 ex_env1 k c b p.
Definition ex_ssm_run (b b' : zp) : res bool :=
  do mb <- structured_scalar_power (K := ZP) 4 b;
  do p <- ex_ssm_prove (ex_a, mb) (ex_ka, tt);
  ex_ssm_verify (ex_ka, tt)
    (pairing_sum ZPair ex_a ex_ka : mod_carrier ZM,
     [big (K := ZP) (M := ZM) 4 (fun i => fpow (K := ZP) b i *m at_ (K := ZP) ex_a i)] : identity_output ZM) b' p.
Example C29_example : ex_ssm_run (zq 5) (zq 5) = Ok true /\ ex_ssm_run (zq 5) (zq 6) = Ok false.
Proof. vm_compute. split; reflexivity. Qed.

(** ** C30 *)
Section C30.
  Context {R : Type} {P : pairing} {MA MT KT : module (pK P)} {OA OT : carrier (pK P)}.
  Notation K := (pK P).
  Variables (D : bytes -> bytes) (fuel : nat) (E : penv) (rand : sampler R (pK P)).
  Context {XA XT : module (pK P)} (dA : XA -> OA) (dT : XT -> OT).
  Context (fA : pG2 P -> MA -> XA) (fT : KT -> MT -> XT) (th : MA -> fmod (pK P) -> MT).
  Variables LMC LMC' : dhc R MA (pG2 P) OA.
  Variables IPC IPC' : dhc R MT KT OT.
  Variables ip ip' : list MA -> list (fmod (pK P)) -> res MT.
  Hypothesis HD : digest16 D.
  Context (LA : lin_commit LMC dA fA) (LT : ip_commit IPC dT fT) (LI : lin_ip ip th).
  Context (LA' : lin_commit LMC' dA fA) (LT' : ip_commit IPC' dT fT) (LI' : lin_ip ip' th).

  Section Run.
    Variables (rng : R) (k : nat) (s : srs P) (kt kt0 : KT) (rng' : R)
      (ka : list (pG2 P)) (kb : list (pG1 P)) (v : vsrs P) (b : K) (mb : list (fmod K)).
    Hypothesis Hs : tssm_setup IPC rand rng (2 ^ S k) = Ok (s, kt0, rng').
    Hypothesis Hk : get_commitment_keys s = (ka, kb).
    Hypothesis Hv : get_verifier_key s = Ok v.
    Hypothesis Hb : structured_scalar_power (2 ^ S k) b = Ok mb.

    Theorem C30_tssm_complete a ca ct :
      length a = 2 ^ S k -> honest_ssm LMC IPC ip ka kt a mb ca ct ->
      tssm_prove LMC IPC ip D fuel s (a, mb) (ka, kt) = Loop \/
      exists proof, tssm_prove LMC IPC ip D fuel s (a, mb) (ka, kt) = Ok proof /\
        tssm_verify LMC' IPC' ip' D fuel E v kt (ca, ct) b proof = Ok true.
    Proof using All.
      intros Ha H. apply ssp_powers in Hb; [|apply pow2_pos]. subst mb.
      unfold tssm_setup in Hs. apply tipa_setup_inv in Hs as [Hn ->].
      rewrite trap_keys in Hk. injection Hk as <- <-. rewrite trap_vkey in Hv by auto. injection Hv as <-.
      apply (honest_ssm_inv dA dT fA fT th LMC IPC ip LA LT LI) in H;
        [|rewrite key_vec_length; symmetry; exact Ha|rewrite Ha; symmetry; apply powers_length]. rewrite H.
      eapply tssm_complete_outcome; eauto.
    Qed.

    Theorem C30_tssm_complete_live a ca ct :
      rounds_end OA (mod_carrier (fmod K)) OT D fuel -> draws_end K D fuel ->
      length a = 2 ^ S k -> honest_ssm LMC IPC ip ka kt a mb ca ct ->
      exists proof, tssm_prove LMC IPC ip D fuel s (a, mb) (ka, kt) = Ok proof /\
        tssm_verify LMC' IPC' ip' D fuel E v kt (ca, ct) b proof = Ok true.
    Proof using All.
      intros HL HL2 Ha H. apply ssp_powers in Hb; [|apply pow2_pos]. subst mb.
      unfold tssm_setup in Hs. apply tipa_setup_inv in Hs as [Hn ->].
      rewrite trap_keys in Hk. injection Hk as <- <-. rewrite trap_vkey in Hv by auto. injection Hv as <-.
      apply (honest_ssm_inv dA dT fA fT th LMC IPC ip LA LT LI) in H;
        [|rewrite key_vec_length; symmetry; exact Ha|rewrite Ha; symmetry; apply powers_length]. rewrite H.
      eapply tssm_complete_live; eauto using rounds_end_live, draws_end_live.
    Qed.
  End Run.
End C30.
Print Assumptions C30_tssm_complete.
Print Assumptions C30_tssm_complete_live.

Theorem C30_multiexp_instance R (P : pairing) (E E' : penv) (r2 : sampler R (pG2 P)) (rand : sampler R (pK P))
    D fuel rng k s kt rng' ka kb v (a : list (pG1 P)) (b : pK P) mb :
  1 <= threads E -> 1 <= threads E' -> digest16 D -> draws_end (pK P) D fuel ->
  rounds_end (mod_carrier (pGT P)) (mod_carrier (fmod (pK P))) (identity_output (pG1 P)) D fuel ->
  tssm_setup (identity (pG1 P)) rand rng (2 ^ S k) = Ok (s, kt, rng') ->
  get_commitment_keys s = (ka, kb) -> get_verifier_key s = Ok v ->
  length a = 2 ^ S k -> structured_scalar_power (2 ^ S k) b = Ok mb ->
  exists proof,
    tssm_prove (afgho_g1 P E r2) (identity (pG1 P)) (multiexp_ip (pG1 P)) D fuel s (a, mb) (ka, kt) = Ok proof /\
    tssm_verify (afgho_g1 P E' r2) (identity (pG1 P)) (multiexp_ip (pG1 P)) D fuel E' v kt
      (pairing_sum P a ka : mod_carrier (pGT P),
       [big (2 ^ S k) (fun i => fpow b i *m at_ a i)] : identity_output (pG1 P)) b proof = Ok true.
Proof.
  intros HE HE' HD HL2 HL Hs Hk Hv Ha Hb.
  destruct (C21_setup_structure _ _ _ _ _ _ _ Hs) as [H0 Hst].
  destruct (C21_keys s _ _ _ H0 Hst) as [[ka' [kb' [E1 [E2 [E3 _]]]]] _].
  rewrite Hk in E1. injection E1 as <- <-.
  refine (C30_tssm_complete_live D fuel E' rand mid idout (phi_g1 P) psi_id smul (afgho_g1 P E r2) (afgho_g1 P E' r2)
    (identity (pG1 P)) (identity (pG1 P)) (multiexp_ip (pG1 P)) (multiexp_ip (pG1 P)) HD
    (afgho_g1_law P E HE r2) (identity_law _) (multiexp_ip_law _)
    (afgho_g1_law P E' HE' r2) (identity_law _) (multiexp_ip_law _)
    rng k s kt kt rng' ka kb v b mb Hs Hk Hv Hb a _ _ HL HL2 Ha _).
  apply ssp_powers in Hb; [|apply pow2_pos]. subst mb. split.
  - apply C01_pairing_inner_product; congruence.
  - exists (big (2 ^ S k) (fun i => fpow b i *m at_ a i)). split; [|reflexivity].
    destruct (C02_multiexp_outcome _ _ a (powers (2 ^ S k) b)) as [[H _]|[_ H]].
    + exfalso. apply H. rewrite Ha. symmetry. apply powers_length'.
    + etransitivity; [exact H|]. f_equal. unfold msm_sum. rewrite Ha. apply big_ext. intros i Hi.
      f_equal. exact (at_map_seq (M := fmod (pK P)) (fpow b) (2 ^ S k) i Hi).
Qed.
Print Assumptions C30_multiexp_instance.

Definition ex_tssm_run (b b' : zp) : res bool :=
  do s <- ex_srs 4; do v <- get_verifier_key s;
  let '(ka, _) := get_commitment_keys s in
  do mb <- structured_scalar_power (K := ZP) 4 b;
  do p <- tssm_prove (P := ZPair) (ex_L ex_env) ex_T (multiexp_ip ZM) toy_digest 9 s (ex_a, mb) (ka, tt);
  tssm_verify (P := ZPair) (ex_L ex_env1) ex_T (multiexp_ip ZM) toy_digest 9 ex_env1 v tt
    (pairing_sum ZPair ex_a ka : mod_carrier ZM,
     [big (K := ZP) (M := ZM) 4 (fun i => fpow (K := ZP) b i *m at_ (K := ZP) ex_a i)] : identity_output ZM) b' p.
Example C30_example : ex_tssm_run (zq 5) (zq 5) = Ok true /\ ex_tssm_run (zq 5) (zq 6) = Ok false.
Proof. vm_compute. split; reflexivity. Qed.

(** ** C31 *)
Section C31.
  Context {K : field}.
  Add Field KfC31 : (f_theory K).

  Theorem C31_final_scalar E (t : list K) b : Forall (fun x => x <> f0) t ->
    final_scalar E t b = Ok (fprod (length t) (fun j => f1 +f finv (fat t j) *f fpow b (2 ^ j))) /\
    final_scalar E t b = Ok (fbig (2 ^ length t) (fun i => subset_prod (map finv t) i *f fpow b i)).
  Proof.
    intros H. rewrite final_scalar_ok by auto. split; f_equal.
    - rewrite ev_subs, prod_terms, map_length. apply fprod_ext. intros j Hj. do 2 f_equal.
      unfold fat. rewrite (nth_indep _ f0 (finv f0)) by (rewrite map_length; auto). apply map_nth.
    - rewrite ev_poly_at. unfold poly_at. rewrite subs_length, map_length. apply fbig_ext. intros i Hi.
      rewrite subs_nth by (rewrite map_length; auto). reflexivity.
  Qed.

  (** a zero challenge has no inverse *)
  Theorem C31_zero_challenge E (t : list K) b : In f0 t -> final_scalar E t b = Panic.
  Proof.
    intros H. unfold final_scalar.
    assert (Hp : forall b, final_scalar_terms t b = Panic).
    { induction t as [|x t IH]; [destruct H|]. intros b'. cbn [final_scalar_terms].
      destruct (f_eq_dec _ x f0) as [->|Hx].
      - unfold finverse. rewrite (proj2 (feqb_spec K f0 f0)) by auto. reflexivity.
      - rewrite finverse_neq by auto. cbn [runwrap rbind]. destruct H as [H|H]; [contradiction|].
        rewrite IH by auto. reflexivity. }
    now rewrite Hp.
  Qed.
End C31.

(** It is the right-hand message left at the end of the prover's run on 1, b, b^2, ... *)
Theorem C31_is_prover_fold {R} {K : field} {MA MT KA KT : module K} {OA OT : carrier K}
    (LMC : dhc R MA KA OA) (IPC : dhc R MT KT OT) ip D fuel E k a (b : K) mb ka kt proof aux :
  length a = 2 ^ k -> length ka = 2 ^ k -> structured_scalar_power (2 ^ k) b = Ok mb ->
  gipa_prove_with_aux LMC (ssm_placeholder K) IPC ip D fuel (a, mb)
    (ka, repeat (tt : unitmod K) (2 ^ k), [kt]) = Ok (proof, aux) ->
  final_scalar E (ga_transcript aux) b = Ok (snd (gp_base proof)).
Proof.
  intros Ha Hka Hb Hp. apply ssp_powers in Hb; [|apply pow2_pos]. subst mb.
  assert (Hbl : length (powers (2 ^ k) b) = 2 ^ k) by apply powers_length.
  assert (Hkb : length (repeat (tt : unitmod K) (2 ^ k)) = 2 ^ k) by apply repeat_length.
  pose proof (prove_with_aux_inv D fuel LMC (ssm_placeholder K) IPC ip k a _ ka _ [kt] proof aux Ha Hbl Hka Hkb Hp)
    as [cs [Hch [Hk [Ht [_ [E2 _]]]]]].
  assert (Hnr : Forall (fun x => x <> f0) (rev cs)) by (apply Forall_rev; eapply chain_nonzero; eauto).
  pose proof (chain_length _ _ _ _ _ Hch) as Hl. rewrite rev_length in Hl.
  rewrite Ht, final_scalar_ok by auto. f_equal. rewrite E2.
  replace (2 ^ k) with (2 ^ length (map finv (rev cs))) by (rewrite map_length, rev_length; congruence).
  symmetry. apply dot_fold_powers.
Qed.
Print Assumptions C31_final_scalar.
Print Assumptions C31_zero_challenge.
Print Assumptions C31_is_prover_fold.

(** (1 + 3/2) (1 + 9/4) = (1 + 3/2 + 9/4 + 27/8) *)
Example C31_example :
  final_scalar (K := ZP) ex_env [zq 2; zq 4] (zq 3) = Ok (fdiv (f := ZP) (zq 65) (zq 8)).
Proof. vm_compute. reflexivity. Qed.

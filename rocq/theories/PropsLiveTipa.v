(** Property C100 for TIPA with the inner products of a multi-exponentiation and of scalars, and with a shifted reference string. *)
Require Import List Arith NArith ZArith Lia Bool.
Import ListNotations.
Require Import Verif.Outcome Verif.Algebra Verif.Zp Verif.Rust Verif.InnerProducts Verif.Commitments
  Verif.Gipa Verif.Poly Verif.Tipa Verif.Spec Verif.ListFacts
  Verif.RustFacts Verif.SerFacts Verif.InnerProductFacts Verif.CommitFacts Verif.GipaFacts Verif.GipaComplete Verif.GipaTop Verif.TipaFacts
  Verif.Searches Verif.PropsBase Verif.PropsGipa Verif.PropsTipa Verif.PropsSearches Verif.PropsLive.

Section C100.
  Context {R : Type} (P : pairing) (E E' : penv) (HE : 1 <= threads E) (HE' : 1 <= threads E').
  Context (rs : sampler R (pK P)) (r1 : sampler R (pG1 P)) (r2 : sampler R (pG2 P)).
  Notation K := (pK P).
  Notation c1 := (afgho_g1 P E r2).
  Notation c2 := (afgho_g2 P E r1).
  Notation c1' := (afgho_g1 P E' r2).
  Notation c2' := (afgho_g2 P E' r1).
  Notation p1 := (pedersen (pG1 P) r1).
  Notation p2 := (pedersen (pG2 P) r2).
  Notation it := (identity (R := R) (pGT P)).
  Notation ig := (identity (R := R) (pG1 P)).
  Notation is_ := (identity (R := R) (fmod (pK P))).
  Ltac qs := auto with quiet; intros ? ?; first [apply quiet_pairing_ip|apply quiet_multiexp_ip|apply quiet_scalar_ip].

  Theorem C100_tipa_multiexp rng k s kt rng' ka kb v (a : list (pG1 P)) (b : list K) :
    tipa_setup ig rs rng (2 ^ S k) = Ok (s, kt, rng') -> get_commitment_keys s = (ka, kb) -> get_verifier_key s = Ok v ->
    length a = 2 ^ S k -> length b = 2 ^ S k ->
    let com := (pairing_sum P a ka, msm_sum kb b, [msm_sum a b])
               : com3 (mod_carrier (pGT P)) (mod_carrier (pG1 P)) (identity_output (pG1 P)) in
    nearly_always (unusable K) (S k + 1) (fun D t =>
      do proof <- tipa_prove c1 p1 ig (multiexp_ip (pG1 P)) D t s (a, b) (ka, kb, kt);
      tipa_verify c1' p1 ig (multiexp_ip (pG1 P)) D t v kt com proof).
  Proof using HE HE'.
    intros Hs Hk Hv Ha Hb com. destruct (C21_setup_structure _ _ _ _ _ _ _ Hs) as [H0 Hst].
    destruct (C21_keys s _ _ _ H0 Hst) as [[ka' [kb' [E1 [E2 [E3 _]]]]] _]. rewrite Hk in E1. injection E1 as <- <-.
    apply complete_nearly_always.
    - unfold tipa_prove.
      assert (H := both_stuck _ _ (searching_tipa_prove c1 p1 ig (multiexp_ip (pG1 P)) ltac:(qs) ltac:(qs) ltac:(qs) ltac:(qs) s (a, b) (ka, kb, kt) f1)).
      cbn [fst snd] in H. rewrite Ha, Nat.log2_pow2 in H by apply Nat.le_0_l. exact H.
    - intros D t HD.
      refine (C22_tipa_complete D t rs mid mid idout (phi_g1 P) smul psi_id smul
           c1 c1' p1 p1 ig ig (multiexp_ip (pG1 P)) (multiexp_ip (pG1 P)) HD
           (afgho_g1_law P E HE r2) (pedersen_law _ r1) (identity_law _) (multiexp_ip_law _)
           (afgho_g1_law P E' HE' r2) (pedersen_law _ r1) (identity_law _) (multiexp_ip_law _)
           rng k s kt kt rng' ka kb v a (b : list (fmod (pK P))) (msm_sum a b) _ _ _ Hs Hk Hv Ha Hb _).
      repeat split; cbn [dh_commit afgho_g1 pedersen identity].
      + apply C01_pairing_inner_product; congruence.
      + destruct (C02_multiexp_outcome _ _ kb b) as [[H _]|[_ H]]; [congruence|exact H].
      + destruct (C02_multiexp_outcome _ _ a b) as [[H _]|[_ H]]; [congruence|exact H].
  Qed.

  Theorem C100_tipa_scalar rng k s kt rng' ka kb v (a b : list K) :
    tipa_setup is_ rs rng (2 ^ S k) = Ok (s, kt, rng') -> get_commitment_keys s = (ka, kb) -> get_verifier_key s = Ok v ->
    length a = 2 ^ S k -> length b = 2 ^ S k ->
    let com := (msm_sum ka a, msm_sum kb b, [scalar_sum a b])
               : com3 (mod_carrier (pG2 P)) (mod_carrier (pG1 P)) (identity_output (fmod K)) in
    nearly_always (unusable K) (S k + 1) (fun D t =>
      do proof <- tipa_prove p2 p1 is_ (scalar_ip E) D t s (a, b) (ka, kb, kt);
      tipa_verify p2 p1 is_ (scalar_ip E') D t v kt com proof).
  Proof using.
    intros Hs Hk Hv Ha Hb com. destruct (C21_setup_structure _ _ _ _ _ _ _ Hs) as [H0 Hst].
    destruct (C21_keys s _ _ _ H0 Hst) as [[ka' [kb' [E1 [E2 [E3 _]]]]] _]. rewrite Hk in E1. injection E1 as <- <-.
    apply complete_nearly_always.
    - unfold tipa_prove.
      assert (H := both_stuck _ _ (searching_tipa_prove p2 p1 is_ (scalar_ip E) ltac:(qs) ltac:(qs) ltac:(qs) ltac:(qs) s (a, b) (ka, kb, kt) f1)).
      assert (El : Nat.log2 (length a) = S k) by (rewrite Ha; apply Nat.log2_pow2, Nat.le_0_l). cbn [fst snd] in H. rewrite <- El. exact H.
    - intros D t HD.
      refine (C22_tipa_complete D t rs mid mid idout smul smul psi_id fmul'
           p2 p2 p1 p1 is_ is_ (scalar_ip E) (scalar_ip E') HD
           (pedersen_law _ r2) (pedersen_law _ r1) (identity_law _) (scalar_ip_law E)
           (pedersen_law _ r2) (pedersen_law _ r1) (identity_law _) (scalar_ip_law E')
           rng k s kt kt rng' ka kb v (a : list (fmod (pK P))) (b : list (fmod (pK P))) (scalar_sum a b) _ _ _ Hs Hk Hv Ha Hb _).
      repeat split; cbn [dh_commit pedersen identity].
      + destruct (C02_multiexp_outcome _ _ ka a) as [[He _]|[_ He]]; [congruence|exact He].
      + destruct (C02_multiexp_outcome _ _ kb b) as [[He _]|[_ He]]; [congruence|exact He].
      + destruct (C02_scalar_outcome _ E a b) as [[He _]|[_ He]]; [congruence|exact He].
  Qed.

  (** With a shift r, as Groth16 aggregation uses it: the key for the left messages is r^-i ka_i. *)
  Theorem C100_tipa_shift rng k s kt rng' ka kb v r (a : list (pG1 P)) (b : list (pG2 P)) : r <> f0 ->
    tipa_setup it rs rng (2 ^ S k) = Ok (s, kt, rng') -> get_commitment_keys s = (ka, kb) -> get_verifier_key s = Ok v ->
    length a = 2 ^ S k -> length b = 2 ^ S k ->
    let kr := shift_vec (finv r) ka in
    let com := (pairing_sum P a kr, pairing_sum P kb b, [pairing_sum P a b])
               : com3 (mod_carrier (pGT P)) (mod_carrier (pGT P)) (identity_output (pGT P)) in
    nearly_always (unusable K) (S k + 1) (fun D t =>
      do proof <- tipa_prove_with_srs_shift c1 c2 it (pairing_ip P E) D t s (a, b) (kr, kb, kt) r;
      tipa_verify_with_srs_shift c1' c2' it (pairing_ip P E') D t v kt com proof r).
  Proof using HE HE'.
    intros Hr Hs Hk Hv Ha Hb kr com. destruct (C21_setup_structure _ _ _ _ _ _ _ Hs) as [H0 Hst].
    destruct (C21_keys s _ _ _ H0 Hst) as [[ka' [kb' [E1 [E2 [E3 _]]]]] _]. rewrite Hk in E1. injection E1 as <- <-.
    assert (Hkr : length kr = 2 ^ S k) by (unfold kr, shift_vec; rewrite map_length, seq_length; exact E2).
    apply complete_nearly_always.
    - assert (H := both_stuck _ _ (searching_tipa_prove c1 c2 it (pairing_ip P E) ltac:(qs) ltac:(qs) ltac:(qs) ltac:(qs) s (a, b) (kr, kb, kt) r)).
      cbn [fst snd] in H. rewrite Ha, Nat.log2_pow2 in H by apply Nat.le_0_l. exact H.
    - intros D t HD. 
      refine (C23_tipa_complete_shift D t rs mid mid idout (phi_g1 P) (pr_e P) psi_id (pr_e P)
           c1 c1' c2 c2' it it (pairing_ip P E) (pairing_ip P E') HD
           (afgho_g1_law P E HE r2) (afgho_g2_law P E HE r1) (identity_law _) (pairing_ip_law P E HE)
           (afgho_g1_law P E' HE' r2) (afgho_g2_law P E' HE' r1) (identity_law _) (pairing_ip_law P E' HE')
           _ _ _ _ _ _ _ _ _ _ _ _ _ _ a b (pairing_sum P a b) _ _ _ Ha Hb _); eauto.
      repeat split; cbn [dh_commit afgho_g1 afgho_g2 identity]; apply C01_pairing_inner_product; congruence.
  Qed.
End C100.
Print Assumptions C100_tipa_multiexp.
Print Assumptions C100_tipa_scalar.
Print Assumptions C100_tipa_shift.

(** Four messages, shift 3: accepted with the hash function of the examples; with the shift 4 in the verifier it is not. *)
Definition ex100_shift_run (r' : Z) (D : bytes -> bytes) (t : nat) : res bool :=
  do s <- ex_srs 4; do v <- get_verifier_key s; let '(ka, kb) := get_commitment_keys s in
  let kr := shift_vec (K := ZP) (M := ZM) (finv (zq 3 : ZP)) ka in
  do proof <- tipa_prove_with_srs_shift (P := ZPair) (ex_L ex_env) (ex_R ex_env) ex_T (pairing_ip ZPair ex_env) D t s (ex_a, ex_b) (kr, kb, tt) (zq 3);
  tipa_verify_with_srs_shift (P := ZPair) (ex_L ex_env1) (ex_R ex_env1) ex_T (pairing_ip ZPair ex_env1) D t v tt
    (pairing_sum ZPair ex_a kr : mod_carrier ZM, pairing_sum ZPair kb ex_b : mod_carrier ZM, [pairing_sum ZPair ex_a ex_b] : identity_output ZM) proof (zq r').
Example C100_shift_example : ex100_shift_run 3 toy_digest 9 = Ok true /\ ex100_shift_run 4 toy_digest 9 = Ok false.
Proof. vm_compute. split; reflexivity. Qed.

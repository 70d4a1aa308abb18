(** Property C100: for all but a small share of hash functions honest runs end and are accepted. *)
Require Import List Arith NArith ZArith Lia Bool Permutation.
Import ListNotations.
Require Import Verif.Outcome Verif.Algebra Verif.Zp Verif.Rust Verif.InnerProducts Verif.Commitments
  Verif.Gipa Verif.Poly Verif.Tipa Verif.Ssm Verif.Floats Verif.PolyCommit Verif.Transparent Verif.Groth16 Verif.Spec Verif.ListFacts
  Verif.RustFacts Verif.SerFacts Verif.InnerProductFacts Verif.CommitFacts Verif.PolyFacts Verif.GipaFacts Verif.GipaComplete Verif.GipaTop Verif.TipaFacts Verif.SsmFacts
  Verif.Searches Verif.PropsBase Verif.PropsGipa Verif.PropsTipa Verif.PropsSsm Verif.PropsPoly Verif.PropsGroth Verif.PropsSearches.

(** [f D t] is a run with hash function D (the same for prover and verifier) in which every search gives up after t nonces.  Hash
    functions as in C99: any digests from Y on the queries X, the usable digests of D0 elsewhere. *)
Definition accepted (x : res bool) : bool := match x with Ok true => true | _ => false end.
Definition nearly_always (bad : bytes -> bool) (n : nat) (f : (bytes -> bytes) -> nat -> res bool) : Prop :=
  forall (X Y : list bytes) (D0 : bytes -> bytes) (t : nat), NoDup X -> (forall y, In y Y -> 16 <= length y) ->
    (forall q, 16 <= length (D0 q) /\ bad (D0 q) = false) -> (N.of_nat t <= 2 ^ 64)%N ->
    length (filter (fun D => negb (accepted (f D t))) (tables X Y D0)) * length Y ^ t <= n * length (filter bad Y) ^ t * length Y ^ length X.

Lemma filter_imp_length {A} (p q : A -> bool) l : (forall a, In a l -> p a = true -> q a = true) -> length (filter p l) <= length (filter q l).
Proof.
  induction l as [|a l IH]; intros H; [apply le_n|]. cbn [filter]. specialize (IH (fun x Hx => H x (in_cons _ _ _ Hx))).
  destruct (p a) eqn:E; [rewrite (H a (in_eq _ _) E); cbn [length]; now apply le_n_S|]. destruct (q a); cbn [length]; [apply Nat.le_le_succ_r|]; exact IH.
Qed.
Lemma tables_digest16 X Y D0 D : NoDup X -> (forall y, In y Y -> 16 <= length y) -> (forall q, 16 <= length (D0 q)) -> In D (tables X Y D0) -> digest16 D.
Proof.
  intros HX HY HD Hi q. destruct (in_dec bytes_dec q X) as [Hq|Hq]; [apply HY; exact (tables_in Y X D0 D q HX Hi Hq)|].
  rewrite (tables_out Y X D0 D q Hi Hq). apply HD.
Qed.
Lemma complete_nearly_always {A} bad n (prove : (bytes -> bytes) -> nat -> res A) (verify : (bytes -> bytes) -> nat -> A -> res bool) :
  rarely_stuck bad n prove ->
  (forall D t, digest16 D -> prove D t = Loop \/ exists proof, prove D t = Ok proof /\ verify D t proof = Ok true) ->
  nearly_always bad n (fun D t => do proof <- prove D t; verify D t proof).
Proof.
  intros Hp Hc X Y D0 t HX HY HD Ht. eapply Nat.le_trans; [|exact (Hp X Y D0 t HX HY HD Ht)]. apply Nat.mul_le_mono_r, filter_imp_length.
  intros D Hi Hn. assert (H16 := tables_digest16 X Y D0 D HX HY (fun q => proj1 (HD q)) Hi).
  destruct (Hc D t H16) as [E|[proof [E1 E2]]]; [now rewrite E|]. rewrite E1 in Hn. cbn [rbind] in Hn. rewrite E2 in Hn. discriminate.
Qed.

(** ** Challenges that exist but are 0 or 1 *)
Definition degenerate (K : field) (digest : bytes) : bool :=
  match f_rand (f := K) digest with Some c => feqb c f0 || feqb c f1 | None => false end.
Section Degenerate.
  Context {K : field} (Y : list bytes) (p : bytes).
  Notation B := (length Y).
  Notation b := (length (filter (no_element K) Y)).
  Notation d := (length (filter (degenerate K) Y)).
  Definition drawn_bad (fuel nonce : nat) (D : bytes -> bytes) : bool :=
    match rand_challenge (K := K) D fuel nonce p with Ok c => feqb c f0 || feqb c f1 | _ => false end.
  Lemma drawn_bad_respects fuel nonce : respects (drawn_bad fuel nonce).
  Proof.
    intros D D' H. unfold drawn_bad. rewrite !rand_challenge_search.
    rewrite (search_agree 0 ltac:(discriminate) D D' Random p fuel nonce) by (intros; apply H). reflexivity.
  Qed.
  Lemma cnt_zero X D0 Q : (forall D, In D (tables X Y D0) -> Q D = false) -> cnt Y X D0 Q = 0.
  Proof.
    unfold cnt. intros H. induction (tables X Y D0) as [|D l IH]; [reflexivity|]. cbn [filter]. rewrite (H D (in_eq _ _)). apply IH.
    intros D' H'. apply H. now right.
  Qed.
  Lemma drawn_bad_few fuel : forall nonce X D0, (N.of_nat (nonce + fuel) <= 2 ^ 64)%N -> NoDup X ->
    (forall i, nonce <= i < nonce + fuel -> no_element K (D0 (usize_be i ++ p)) = false /\ degenerate K (D0 (usize_be i ++ p)) = false) ->
    cnt Y X D0 (drawn_bad fuel nonce) * (B - b) <= d * B ^ length X.
  Proof.
    induction fuel as [|fuel IH]; intros nonce X D0 Hf HX HD; [rewrite cnt_zero by reflexivity; apply Nat.le_0_l|].
    set (q := usize_be nonce ++ p). destruct (in_dec bytes_dec q X) as [Hq|Hq].
    2:{ rewrite cnt_zero; [apply Nat.le_0_l|]. intros D Hi. unfold drawn_bad. cbn [rand_challenge]. fold q.
        rewrite (tables_out Y X D0 D q Hi Hq). destruct (HD nonce ltac:(lia)) as [H1 H2]. fold q in H1, H2.
        unfold no_element in H1. unfold degenerate in H2. destruct (f_rand (D0 q)); [exact H2|discriminate]. }
    destruct (in_split q X Hq) as [X1 [X2 ->]].
    assert (HP : Permutation (X1 ++ q :: X2) (q :: X1 ++ X2)) by (symmetry; apply Permutation_middle).
    assert (HN : NoDup (q :: X1 ++ X2)) by (eapply Permutation_NoDup; eauto).
    rewrite (cnt_perm Y _ (drawn_bad_respects _ _) _ _ HP HX), cnt_cons.
    inversion HN as [|? ? Hnq HN']. subst. set (X' := X1 ++ X2) in *. set (M := B ^ length X').
    assert (HL : B ^ length (X1 ++ q :: X2) = B * M) by (unfold M, X'; rewrite !app_length; cbn [length]; rewrite <- plus_n_Sm; reflexivity).
    assert (Hb : b <= B) by apply filter_le.
    assert (Hy : forall y, cnt Y X' (upd D0 q y) (drawn_bad (S fuel) nonce) * (B - b) <=
      (if no_element K y then d * M else if degenerate K y then M * (B - b) else 0)).
    { intros y. assert (HDq : forall D, In D (tables X' Y (upd D0 q y)) -> D q = y).
      { intros D Hi. rewrite (tables_out _ _ _ _ _ Hi Hnq). unfold upd. destruct (bytes_dec q q); congruence. }
      unfold no_element, degenerate. destruct (f_rand (f := K) y) as [c|] eqn:Ey.
      - destruct (feqb c f0 || feqb c f1) eqn:Ec.
        + apply Nat.mul_le_mono_r, cnt_le.
        + rewrite cnt_zero; [apply Nat.le_0_l|]. intros D Hi. unfold drawn_bad. cbn [rand_challenge]. fold q. now rewrite (HDq D Hi), Ey.
      - assert (E : cnt Y X' (upd D0 q y) (drawn_bad (S fuel) nonce) = cnt Y X' (upd D0 q y) (drawn_bad fuel (S nonce))).
        { unfold cnt. f_equal. apply filter_ext_in. intros D Hi. unfold drawn_bad. cbn [rand_challenge]. fold q. now rewrite (HDq D Hi), Ey. }
        rewrite E. apply IH; [lia|exact HN'|]. intros i Hi. unfold upd. destruct (bytes_dec (usize_be i ++ p) q) as [Eq|_]; [|apply HD; lia].
        exfalso. unfold q in Eq. apply nonce_split in Eq as [Eq _]. apply usize_be_inj in Eq; unfold u64_bound; lia. }
    rewrite lsum_mul. eapply Nat.le_trans; [apply (lsum_le _ (fun y => if no_element K y then d * M else if degenerate K y then M * (B - b) else 0)); intros y _; apply Hy|].
    assert (Hsum : forall dM Mb l, lsum (map (fun y => if no_element K y then dM else if degenerate K y then Mb else 0) l) <=
      length (filter (no_element K) l) * dM + length (filter (degenerate K) l) * Mb).
    { clear. intros dM Mb l. induction l as [|y l IHl]; [apply le_n|]. cbn [map lsum filter].
      destruct (no_element K y) eqn:E1, (degenerate K y) eqn:E2; cbn [length]; lia. }
    eapply Nat.le_trans; [apply Hsum|].
    apply (Nat.le_trans _ (d * (B * M))); [|apply Nat.mul_le_mono_l, Nat.eq_le_incl, eq_sym, HL]. clear HL. revert Hb. generalize b d B M. clear. intros b d B M Hb.
    destruct (Nat.le_exists_sub _ _ Hb) as [c [-> _]]. rewrite Nat.add_sub. apply Nat.eq_le_incl. ring.
  Qed.
End Degenerate.

Lemma share_sum (c l e g g' bt Bt BX n d : nat) : c <= l + e -> l * Bt <= n * bt * BX -> e * g' <= d * BX -> g <= g' ->
  c * (Bt * g) <= (n * bt * g + d * Bt) * BX.
Proof.
  intros H1 H2 H3 H4. assert (H5 : e * g <= d * BX) by (eapply Nat.le_trans; [apply Nat.mul_le_mono_l, H4|exact H3]).
  apply (Nat.mul_le_mono_r _ _ (Bt * g)) in H1. eapply Nat.le_trans; [exact H1|].
  rewrite Nat.mul_add_distr_r. replace (l * (Bt * g)) with (l * Bt * g) by ring. replace (e * (Bt * g)) with (e * g * Bt) by ring.
  apply (Nat.mul_le_mono_r _ _ g) in H2. apply (Nat.mul_le_mono_r _ _ Bt) in H5.
  eapply Nat.le_trans; [apply Nat.add_le_mono; [exact H2|exact H5]|]. apply Nat.eq_le_incl. ring.
Qed.

Section C100.
  Context {R : Type} (P : pairing) (E E' : penv) (HE : 1 <= threads E) (HE' : 1 <= threads E').
  Context (rs : sampler R (pK P)) (r1 r1' : sampler R (pG1 P)) (r2 r2' : sampler R (pG2 P)).
  Notation K := (pK P).
  Notation c1 := (afgho_g1 P E r2).
  Notation c2 := (afgho_g2 P E r1).
  Notation c1' := (afgho_g1 P E' r2).
  Notation c2' := (afgho_g2 P E' r1).
  Notation p1 := (pedersen (pG1 P) r1).
  Notation p2 := (pedersen (pG2 P) r2).
  Notation it := (identity (R := R) (pGT P)).
  Notation ig := (identity (R := R) (pG1 P)).
  Notation is_ := (identity (R := R) (fmod (pK P))).
  Ltac qs := auto with quiet; intros ? ?; first [apply quiet_pairing_ip|apply quiet_multiexp_ip|apply quiet_scalar_ip].

  Theorem C100_gipa_pairing k (a : list (pG1 P)) (b : list (pG2 P)) (ka : list (pG2 P)) (kb : list (pG1 P)) (kt : unitmod K) :
    length a = 2 ^ k -> length b = 2 ^ k -> length ka = 2 ^ k -> length kb = 2 ^ k ->
    let com := (pairing_sum P a ka, pairing_sum P kb b, [pairing_sum P a b])
               : com3 (mod_carrier (pGT P)) (mod_carrier (pGT P)) (identity_output (pGT P)) in
    nearly_always (no_inverse K) k (fun D t =>
      do proof <- gipa_prove c1 c2 it (pairing_ip P E) D t (a, b, pairing_sum P a b) (ka, kb, kt) com;
      gipa_verify c1' c2' it (pairing_ip P E') D t (ka, kb, kt) com proof).
  Proof using HE HE'.
    intros Ha Hb Hka Hkb com. apply complete_nearly_always.
    - assert (H := inv_stuck _ _ (searching_prove c1 c2 it (pairing_ip P E) ltac:(qs) ltac:(qs) ltac:(qs) ltac:(qs) (a, b, pairing_sum P a b) (ka, kb, kt) com)).
      cbn [fst snd] in H. rewrite Ha, Nat.log2_pow2 in H by apply Nat.le_0_l. exact H.
    - intros D t HD.
      refine (C09_gipa_complete D t mid mid idout (phi_g1 P) (pr_e P) psi_id (pr_e P)
           (afgho_g1 P E r2) (afgho_g1 P E' r2) (afgho_g2 P E r1) (afgho_g2 P E' r1)
           (identity (pGT P)) (identity (pGT P)) (pairing_ip P E) (pairing_ip P E') HD
           (afgho_g1_law P E HE r2) (afgho_g2_law P E HE r1) (identity_law _) (pairing_ip_law P E HE)
           (afgho_g1_law P E' HE' r2) (afgho_g2_law P E' HE' r1) (identity_law _) (pairing_ip_law P E' HE') k a b _ ka kb kt _ _ _ Ha Hb Hka Hkb _).
      repeat split; cbn [dh_commit afgho_g1 afgho_g2 identity]; apply C01_pairing_inner_product; congruence.
  Qed.
  Theorem C100_gipa_multiexp k (a : list (pG1 P)) (b : list K) (ka : list (pG2 P)) (kb : list (pG1 P)) (kt : unitmod K) :
    length a = 2 ^ k -> length b = 2 ^ k -> length ka = 2 ^ k -> length kb = 2 ^ k ->
    let com := (pairing_sum P a ka, msm_sum kb b, [msm_sum a b])
               : com3 (mod_carrier (pGT P)) (mod_carrier (pG1 P)) (identity_output (pG1 P)) in
    nearly_always (no_inverse K) k (fun D t =>
      do proof <- gipa_prove c1 p1 ig (multiexp_ip (pG1 P)) D t (a, b, msm_sum a b) (ka, kb, kt) com;
      gipa_verify c1' p1 ig (multiexp_ip (pG1 P)) D t (ka, kb, kt) com proof).
  Proof using HE HE'.
    intros Ha Hb Hka Hkb com. apply complete_nearly_always.
    - assert (H := inv_stuck _ _ (searching_prove c1 p1 ig (multiexp_ip (pG1 P)) ltac:(qs) ltac:(qs) ltac:(qs) ltac:(qs) (a, b, msm_sum a b) (ka, kb, kt) com)).
      cbn [fst snd] in H. rewrite Ha, Nat.log2_pow2 in H by apply Nat.le_0_l. exact H.
    - intros D t HD.
      refine (C09_gipa_complete D t mid mid idout (phi_g1 P) smul psi_id smul
           (afgho_g1 P E r2) (afgho_g1 P E' r2) (pedersen (pG1 P) r1) (pedersen (pG1 P) r1)
           (identity (pG1 P)) (identity (pG1 P)) (multiexp_ip (pG1 P)) (multiexp_ip (pG1 P)) HD
           (afgho_g1_law P E HE r2) (pedersen_law _ r1) (identity_law _) (multiexp_ip_law _)
           (afgho_g1_law P E' HE' r2) (pedersen_law _ r1) (identity_law _) (multiexp_ip_law _) k a b _ ka kb kt _ _ _ Ha Hb Hka Hkb _).
      repeat split; cbn [dh_commit afgho_g1 pedersen identity].
      + apply C01_pairing_inner_product; congruence.
      + destruct (C02_multiexp_outcome _ _ kb b) as [[H _]|[_ H]]; [congruence|exact H].
      + destruct (C02_multiexp_outcome _ _ a b) as [[H _]|[_ H]]; [congruence|exact H].
  Qed.

  Theorem C100_gipa_scalar k (a b : list K) (ka : list (pG1 P)) (kb : list (pG2 P)) (kt : unitmod K) :
    length a = 2 ^ k -> length b = 2 ^ k -> length ka = 2 ^ k -> length kb = 2 ^ k ->
    let com := (msm_sum ka a, msm_sum kb b, [scalar_sum a b])
               : com3 (mod_carrier (pG1 P)) (mod_carrier (pG2 P)) (identity_output (fmod K)) in
    nearly_always (no_inverse K) k (fun D t =>
      do proof <- gipa_prove p1 p2 is_ (scalar_ip E) D t (a, b, scalar_sum a b) (ka, kb, kt) com;
      gipa_verify p1 p2 is_ (scalar_ip E') D t (ka, kb, kt) com proof).
  Proof using.
    intros Ha Hb Hka Hkb com. apply complete_nearly_always.
    - assert (H := inv_stuck _ _ (searching_prove p1 p2 is_ (scalar_ip E) ltac:(qs) ltac:(qs) ltac:(qs) ltac:(qs) (a, b, scalar_sum a b) (ka, kb, kt) com)).
      assert (El : Nat.log2 (length a) = k) by (rewrite Ha; apply Nat.log2_pow2, Nat.le_0_l). cbn [fst snd] in H. rewrite <- El. exact H.
    - intros D t HD.
      refine (C09_gipa_complete D t mid mid idout smul smul psi_id fmul'
           p1 p1 p2 p2 is_ is_ (scalar_ip E) (scalar_ip E') HD
           (pedersen_law _ r1) (pedersen_law _ r2) (identity_law _) (scalar_ip_law E)
           (pedersen_law _ r1) (pedersen_law _ r2) (identity_law _) (scalar_ip_law E') k a b _ ka kb kt _ _ _ Ha Hb Hka Hkb _).
      repeat split; cbn [dh_commit pedersen identity].
      + destruct (C02_multiexp_outcome _ _ ka a) as [[He _]|[_ He]]; [congruence|exact He].
      + destruct (C02_multiexp_outcome _ _ kb b) as [[He _]|[_ He]]; [congruence|exact He].
      + destruct (C02_scalar_outcome _ E a b) as [[He _]|[_ He]]; [congruence|exact He].
  Qed.

  (** GIPA for a public scalar base *)
  Theorem C100_gipa_ssm k (a : list (pG1 P)) (b : K) (ka : list (pG2 P)) (kt : unitmod K) :
    length a = 2 ^ k -> length ka = 2 ^ k ->
    nearly_always (no_inverse K) k (fun D t =>
      do mb <- structured_scalar_power (2 ^ k) b;
      do proof <- gssm_prove c1 ig (multiexp_ip (pG1 P)) D t (a, mb) (ka, kt);
      gssm_verify c1' ig (multiexp_ip (pG1 P)) D t E' (ka, kt)
        (pairing_sum P a ka : mod_carrier (pGT P), [big (2 ^ k) (fun i => fpow b i *m at_ a i)] : identity_output (pG1 P)) b proof).
  Proof using HE HE'.
    intros Ha Hka. assert (Hb : structured_scalar_power (2 ^ k) b = Ok (powers (2 ^ k) b)).
    { rewrite structured_scalar_power_spec, Nat.max_l by apply pow2_pos. reflexivity. }
    rewrite Hb. cbn [rbind]. apply complete_nearly_always.
    - assert (H := inv_stuck _ _ (searching_gssm_prove c1 ig (multiexp_ip (pG1 P)) ltac:(qs) ltac:(qs) ltac:(qs) (a, powers (2 ^ k) b) (ka, kt))).
      cbn [fst snd] in H. rewrite Ha, Nat.log2_pow2 in H by apply Nat.le_0_l. exact H.
    - intros D t HD.
      refine (C29_gssm_complete D t E' mid idout (phi_g1 P) psi_id smul (afgho_g1 P E r2) (afgho_g1 P E' r2)
        (identity (pG1 P)) (identity (pG1 P)) (multiexp_ip (pG1 P)) (multiexp_ip (pG1 P)) HD
        (afgho_g1_law P E HE r2) (identity_law _) (multiexp_ip_law _)
        (afgho_g1_law P E' HE' r2) (identity_law _) (multiexp_ip_law _) k b (powers (2 ^ k) b) a ka kt _ _ Ha Hka Hb _).
      split; [apply C01_pairing_inner_product; congruence|].
      exists (big (2 ^ k) (fun i => fpow b i *m at_ a i)). split; [|reflexivity].
      destruct (C02_multiexp_outcome _ _ a (powers (2 ^ k) b)) as [[H _]|[_ H]].
      + exfalso. apply H. rewrite Ha. symmetry. apply powers_length'.
      + etransitivity; [exact H|]. f_equal. unfold msm_sum. rewrite Ha. apply big_ext. intros i Hi.
        f_equal. exact (at_map_seq (M := fmod (pK P)) (fpow b) (2 ^ k) i Hi).
  Qed.

  (** TIPA *)
  Theorem C100_tipa rng k s kt rng' ka kb v (a : list (pG1 P)) (b : list (pG2 P)) :
    tipa_setup it rs rng (2 ^ S k) = Ok (s, kt, rng') -> get_commitment_keys s = (ka, kb) -> get_verifier_key s = Ok v ->
    length a = 2 ^ S k -> length b = 2 ^ S k ->
    let com := (pairing_sum P a ka, pairing_sum P kb b, [pairing_sum P a b])
               : com3 (mod_carrier (pGT P)) (mod_carrier (pGT P)) (identity_output (pGT P)) in
    nearly_always (unusable K) (S k + 1) (fun D t =>
      do proof <- tipa_prove c1 c2 it (pairing_ip P E) D t s (a, b) (ka, kb, kt);
      tipa_verify c1' c2' it (pairing_ip P E') D t v kt com proof).
  Proof using HE HE'.
    intros Hs Hk Hv Ha Hb com. destruct (C21_setup_structure _ _ _ _ _ _ _ Hs) as [H0 Hst].
    destruct (C21_keys s _ _ _ H0 Hst) as [[ka' [kb' [E1 [E2 [E3 _]]]]] _]. rewrite Hk in E1. injection E1 as <- <-.
    apply complete_nearly_always.
    - unfold tipa_prove.
      assert (H := both_stuck _ _ (searching_tipa_prove c1 c2 it (pairing_ip P E) ltac:(qs) ltac:(qs) ltac:(qs) ltac:(qs) s (a, b) (ka, kb, kt) f1)).
      cbn [fst snd] in H. rewrite Ha, Nat.log2_pow2 in H by apply Nat.le_0_l. exact H.
    - intros D t HD.
      refine (C22_tipa_complete D t rs mid mid idout (phi_g1 P) (pr_e P) psi_id (pr_e P)
           (afgho_g1 P E r2) (afgho_g1 P E' r2) (afgho_g2 P E r1) (afgho_g2 P E' r1)
           (identity (pGT P)) (identity (pGT P)) (pairing_ip P E) (pairing_ip P E') HD
           (afgho_g1_law P E HE r2) (afgho_g2_law P E HE r1) (identity_law _) (pairing_ip_law P E HE)
           (afgho_g1_law P E' HE' r2) (afgho_g2_law P E' HE' r1) (identity_law _) (pairing_ip_law P E' HE')
           rng k s kt kt rng' ka kb v a b (pairing_sum P a b) _ _ _ Hs Hk Hv Ha Hb _).
      repeat split; cbn [dh_commit afgho_g1 afgho_g2 identity]; apply C01_pairing_inner_product; congruence.
  Qed.
  Theorem C100_tipa_ssm rng k s kt rng' ka kb v (a : list (pG1 P)) (b : K) :
    tssm_setup ig rs rng (2 ^ S k) = Ok (s, kt, rng') -> get_commitment_keys s = (ka, kb) -> get_verifier_key s = Ok v ->
    length a = 2 ^ S k ->
    nearly_always (unusable K) (S k + 1) (fun D t =>
      do mb <- structured_scalar_power (2 ^ S k) b;
      do proof <- tssm_prove c1 ig (multiexp_ip (pG1 P)) D t s (a, mb) (ka, kt);
      tssm_verify c1' ig (multiexp_ip (pG1 P)) D t E' v kt
        (pairing_sum P a ka : mod_carrier (pGT P), [big (2 ^ S k) (fun i => fpow b i *m at_ a i)] : identity_output (pG1 P)) b proof).
  Proof using HE HE'.
    intros Hs Hk Hv Ha. assert (Hb : structured_scalar_power (2 ^ S k) b = Ok (powers (2 ^ S k) b)).
    { rewrite structured_scalar_power_spec, Nat.max_l by apply pow2_pos. reflexivity. }
    rewrite Hb. cbn [rbind]. destruct (C21_setup_structure _ _ _ _ _ _ _ Hs) as [H0 Hst].
    destruct (C21_keys s _ _ _ H0 Hst) as [[ka' [kb' [E1 [E2 [E3 _]]]]] _]. rewrite Hk in E1. injection E1 as <- <-.
    apply complete_nearly_always.
    - assert (H := both_stuck _ _ (searching_tssm_prove c1 ig (multiexp_ip (pG1 P)) ltac:(qs) ltac:(qs) ltac:(qs) s (a, powers (2 ^ S k) b) (ka, kt))).
      cbn [fst snd] in H. rewrite Ha, Nat.log2_pow2 in H by apply Nat.le_0_l. exact H.
    - intros D t HD.
      refine (C30_tssm_complete D t E' rs mid idout (phi_g1 P) psi_id smul (afgho_g1 P E r2) (afgho_g1 P E' r2)
        (identity (pG1 P)) (identity (pG1 P)) (multiexp_ip (pG1 P)) (multiexp_ip (pG1 P)) HD
        (afgho_g1_law P E HE r2) (identity_law _) (multiexp_ip_law _)
        (afgho_g1_law P E' HE' r2) (identity_law _) (multiexp_ip_law _)
        rng k s kt kt rng' ka kb v b (powers (2 ^ S k) b) Hs Hk Hv Hb a _ _ Ha _).
      split; [apply C01_pairing_inner_product; congruence|].
      exists (big (2 ^ S k) (fun i => fpow b i *m at_ a i)). split; [|reflexivity].
      destruct (C02_multiexp_outcome _ _ a (powers (2 ^ S k) b)) as [[H _]|[_ H]].
      + exfalso. apply H. rewrite Ha. symmetry. apply powers_length'.
      + etransitivity; [exact H|]. f_equal. unfold msm_sum. rewrite Ha. apply big_ext. intros i Hi.
        f_equal. exact (at_map_seq (M := fmod (pK P)) (fpow b) (2 ^ S k) i Hi).
  Qed.

  (** Polynomial commitments *)
  Theorem C100_bivariate rng k xd yd s rng' v p x y com coms : xd + 1 = 2 ^ S k ->
    bpc_setup P rs rng xd yd = Ok (s, rng') -> get_verifier_key (fst s) = Ok v ->
    length p <= xd + 1 -> Forall (degree_below (yd + 1)) p -> bpc_commit P E r2 s p = Ok (com, coms) ->
    nearly_always (unusable K) (Nat.log2 (length coms) + 1) (fun D t =>
      do proof <- bpc_open P E D t r2 s p coms (x, y); bpc_verify P E' D t r2' v com (x, y) (bipoly_at p x y) proof).
  Proof using HE HE'.
    intros Hx Hs Hv Hl Hp Hc. apply complete_nearly_always; [apply both_stuck, searching_bpc_open|]. intros D t HD.
    destruct (C34_bivariate_complete E E' HE HE' D t rs r2 r2' rng k xd yd HD Hx) as [s0 [rng0 [v0 [Hs0 [Hv0 H]]]]].
    rewrite Hs0 in Hs. injection Hs as -> ->. rewrite Hv0 in Hv. injection Hv as ->.
    destruct (H p x y Hl Hp) as [com0 [coms0 [Hc0 H']]]. rewrite Hc0 in Hc. injection Hc as -> ->. exact H'.
  Qed.
  Theorem C100_univariate rng d s rng' v p z com coms : 1 <= d -> (Z.of_nat d < 2 ^ 52)%Z ->
    upc_setup P rs rng d = Ok (s, rng') -> get_verifier_key (fst s) = Ok v ->
    degree_below (d + 1) p -> upc_commit P E r2 s p = Ok (com, coms) ->
    nearly_always (unusable K) (Nat.log2 (length coms) + 1) (fun D t =>
      do proof <- upc_open P E D t r2 s p coms z; upc_verify P E' D t r2' v d com z (poly_at p z) proof).
  Proof using HE HE'.
    intros Hd Hd' Hs Hv Hp Hc. apply complete_nearly_always.
    { exact (proj1 (C99_univariate P E r2 s p coms z v d com z (poly_at p z) (mk_opening (mk_tssm_proof (mk_gipa_proof [] ((m0 : pG1 P), (f0 : fmod K))) m0 m0) m0 m0))). }
    intros D t HD.
    destruct (C38_univariate_complete E E' HE HE' D t rs r2 r2' rng d HD Hd Hd') as [s0 [rng0 [v0 [Hs0 [Hv0 H]]]]].
    rewrite Hs0 in Hs. injection Hs as -> ->. rewrite Hv0 in Hv. injection Hv as ->.
    destruct (H p z Hp) as [com0 [coms0 [Hc0 H']]]. rewrite Hc0 in Hc. injection Hc as -> ->. exact H'.
  Qed.
  Theorem C100_transparent (ck1 : list (pG1 P)) (ck2 : list (pG2 P)) k1 k2 p x y com coms :
    length ck1 = 2 ^ k1 -> length ck2 = 2 ^ k2 -> length p <= 2 ^ k2 -> Forall (fun row => length row <= 2 ^ k1) p ->
    tbpc_commit P E r1 r2 (ck1, ck2) p = Ok (com, coms) ->
    nearly_always (no_inverse K) (Nat.log2 (length coms) + k1) (fun D t =>
      do proof <- tbpc_open P E D t r1 r2 (ck1, ck2) p coms (x, y);
      tbpc_verify P E' D t r1' r2' (ck1, ck2) com (x, y) (bipoly_at p x y) proof).
  Proof using HE HE'.
    intros H1 H2 Hl Hp Hc. apply complete_nearly_always.
    - assert (H := inv_stuck _ _ (searching_tbpc_open P E r1 r2 (ck1, ck2) p coms (x, y))). cbn [fst] in H.
      rewrite H1, Nat.log2_pow2 in H by apply Nat.le_0_l. exact H.
    - intros D t HD. destruct (C40_bivariate_complete E E' HE HE' D t r1 r1' r2 r2' ck1 ck2 k1 k2 p x y HD H1 H2 Hl Hp) as [com0 [coms0 [Hc0 H']]].
      rewrite Hc0 in Hc. injection Hc as -> ->. exact H'.
  Qed.
  Theorem C100_transparent_univariate rng d ck rng' p z com coms : 1 <= d -> (Z.of_nat d < 2 ^ 52)%Z ->
    tupc_setup P E r1 r2 rng d = Ok (ck, rng') -> degree_below (d + 1) p -> tupc_commit P E r1 r2 ck p = Ok (com, coms) ->
    nearly_always (no_inverse K) (Nat.log2 (length coms) + Nat.log2 (length (fst ck))) (fun D t =>
      do proof <- tupc_open P E D t r1 r2 ck p coms z; tupc_verify P E' D t r1' r2' ck com z (poly_at p z) proof).
  Proof using HE HE'.
    intros Hd Hd' Hs Hp Hc. apply complete_nearly_always.
    { exact (proj1 (C99_transparent_univariate P E r1 r2 ck p coms z com z (poly_at p z)
        (mk_t_opening (mk_gipa_proof [] ((m0 : pG1 P), (f0 : fmod K))) m0 (mk_gipa_proof [] ((f0 : fmod K), (f0 : fmod K)))))). }
    intros D t HD. destruct (C40_univariate_complete E E' HE HE' D t r1 r1' r2 r2' rng d HD Hd Hd') as [ck0 [rng0 [Hs0 H]]].
    rewrite Hs0 in Hs. injection Hs as -> ->.
    destruct (H p z Hp) as [com0 [coms0 [Hc0 H']]]. rewrite Hc0 in Hc. injection Hc as -> ->. exact H'.
  Qed.

  (** Groth16 aggregation: also the batching challenge must not be 0 or 1 *)
  Theorem C100_groth16 rng k s rng' ka kb v pfs vk inputs X Y D0 t :
    g16_setup P rs rng (2 ^ S k) = Ok (s, rng') -> get_commitment_keys s = (ka, kb) -> get_verifier_key s = Ok v ->
    length pfs = 2 ^ S k -> rows_fit vk inputs -> Forall2 (g16_valid vk) inputs pfs ->
    NoDup X -> (forall y, In y Y -> 16 <= length y) ->
    (forall q, 16 <= length (D0 q) /\ unusable K (D0 q) = false /\ degenerate K (D0 q) = false) -> (N.of_nat t <= 2 ^ 64)%N ->
    let b := length (filter (unusable K) Y) in
    let d := length (filter (degenerate K) Y) in
    length (filter (fun D => negb (accepted (do proof <- g16_aggregate P E D t r1 r2 s pfs; g16_verify P E' D t r1 r2 v vk inputs proof))) (tables X Y D0))
      * (length Y ^ t * (length Y - b)) <= ((2 * S k + 3) * b ^ t * (length Y - b) + d * length Y ^ t) * length Y ^ length X.
  Proof using HE HE'.
    intros Hs Hk Hv Hn Hfit HV HX HY HD Ht b d.
    set (f := fun D => do proof <- g16_aggregate P E D t r1 r2 s pfs; g16_verify P E' D t r1 r2 v vk inputs proof).
    set (pay := mser (pairing_sum P (map pf_a pfs) ka) ++ mser (pairing_sum P kb (map pf_b pfs)) ++ mser (pairing_sum P (map pf_c pfs) ka)).
    assert (Hloop := proj1 (C99_groth16 P E r1 r2 s pfs v vk inputs
      (mk_agg_proof m0 m0 m0 m0 m0 (mk_tipa_proof (mk_gipa_proof [] ((m0 : pG1 P), (m0 : pG2 P))) (m0, m0) (m0, m0))
        (mk_tssm_proof (mk_gipa_proof [] ((m0 : pG1 P), (f0 : fmod K))) m0 m0)))
      X Y D0 t HX HY (fun q => conj (proj1 (HD q)) (proj1 (proj2 (HD q)))) Ht).
    rewrite Hn, Nat.log2_pow2 in Hloop by apply Nat.le_0_l. fold b in Hloop.
    assert (Hdeg : cnt Y X D0 (drawn_bad (K := K) pay t 0) * (length Y - length (filter (no_element K) Y)) <= d * length Y ^ length X).
    { apply drawn_bad_few; [exact Ht|exact HX|]. intros i _. destruct (HD (usize_be i ++ pay)) as [_ [H1 H2]]. split; [|exact H2].
      unfold unusable in H1. apply orb_false_iff in H1. tauto. }
    assert (Hbb : length (filter (no_element K) Y) <= b).
    { apply filter_imp_length. intros y _ Hy. unfold unusable. rewrite Hy. apply orb_true_r. }
    assert (Hor : length (filter (fun D => negb (accepted (f D))) (tables X Y D0)) <=
      length (filter (fun D => still_running (g16_aggregate P E D t r1 r2 s pfs)) (tables X Y D0)) + cnt Y X D0 (drawn_bad (K := K) pay t 0)).
    { assert (Hi : forall D, In D (tables X Y D0) -> negb (accepted (f D)) = true ->
        still_running (g16_aggregate P E D t r1 r2 s pfs) = true \/ drawn_bad (K := K) pay t 0 D = true).
      { intros D Hi Hna. assert (H16 := tables_digest16 X Y D0 D HX HY (fun q => proj1 (HD q)) Hi). unfold drawn_bad.
        destruct (rand_challenge D t 0 pay) as [r| | |] eqn:Er.
        - destruct (feqb r f0 || feqb r f1) eqn:Ed; [now right|left]. apply orb_false_iff in Ed as [E0 E1].
          assert (Hr0 : r <> f0) by (intros ->; rewrite (proj2 (feqb_spec K f0 f0)) in E0 by reflexivity; discriminate).
          assert (Hr1 : r <> f1) by (intros ->; rewrite (proj2 (feqb_spec K f1 f1)) in E1 by reflexivity; discriminate).
          destruct (C41_groth16_complete E E' D t rs r1 r2 HE HE' H16 rng rng' k s ka kb v Hs Hk Hv pfs Hn r Er Hr0 vk inputs Hr1 Hfit HV) as [E2|[proof [E2 E3]]].
          + now rewrite E2.
          + exfalso. unfold f in Hna. rewrite E2 in Hna. cbn [rbind] in Hna. rewrite E3 in Hna. discriminate.
        - exfalso. rewrite rand_challenge_search in Er. destruct (search D t 0 Random pay); discriminate.
        - exfalso. rewrite rand_challenge_search in Er. destruct (search D t 0 Random pay); discriminate.
        - left. unfold g16_aggregate. rewrite Hk.
          destruct (g16_key_lengths rs rng rng' k s ka kb Hs Hk) as [Lka Lkb].
          rewrite !C01_pairing_inner_product by (rewrite ?map_length; congruence). cbn [rbind]. unfold g16_payload. fold pay. rewrite Er. reflexivity. }
      unfold cnt. revert Hi. generalize (tables X Y D0). induction l as [|D l IHl]; intros Hi; [apply le_n|].
      specialize (IHl (fun D' H => Hi D' (in_cons _ _ _ H))). specialize (Hi D (in_eq _ _)). cbn [filter].
      destruct (negb (accepted (f D))); [|destruct (still_running _), (drawn_bad _ _ _ D); cbn [length]; lia].
      destruct (Hi eq_refl) as [-> | ->]; cbn [length]; [destruct (drawn_bad pay t 0 D)|destruct (still_running (g16_aggregate P E D t r1 r2 s pfs))]; cbn [length]; lia. }
    assert (Hbb' : length Y - b <= length Y - length (filter (no_element K) Y)) by lia.
    exact (share_sum _ _ _ _ _ _ _ _ _ _ Hor Hloop Hdeg Hbb').
  Qed.
End C100.
Print Assumptions C100_gipa_pairing.
Print Assumptions C100_gipa_multiexp.
Print Assumptions C100_gipa_scalar.
Print Assumptions C100_gipa_ssm.
Print Assumptions C100_tipa.
Print Assumptions C100_tipa_ssm.
Print Assumptions C100_bivariate.
Print Assumptions C100_univariate.
Print Assumptions C100_transparent.
Print Assumptions C100_transparent_univariate.
Print Assumptions C100_groth16.

(** An honest run of one round, digests 0 and 7 for the first two nonces: fails after two nonces for one of the four functions. *)
Definition ex100_a : list ZM := zl [3; 1]%Z.
Definition ex100_b : list ZM := zl [5; 9]%Z.
Definition ex100_ka : list ZM := zl [11; 12]%Z.
Definition ex100_kb : list ZM := zl [21; 22]%Z.
Definition ex100_com : com3 (mod_carrier ZM) (mod_carrier ZM) (identity_output ZM) :=
  (pairing_sum ZPair ex100_a ex100_ka, pairing_sum ZPair ex100_kb ex100_b, [pairing_sum ZPair ex100_a ex100_b]).
Definition ex100_prove D t := gipa_prove (ex_L ex_env) (ex_R ex_env) ex_T (pairing_ip ZPair ex_env) D t
  (ex100_a, ex100_b, pairing_sum ZPair ex100_a ex100_b) (ex100_ka, ex100_kb, tt) ex100_com.
Definition ex100_run D t := do proof <- ex100_prove D t;
  gipa_verify (ex_L ex_env1) (ex_R ex_env1) ex_T (pairing_ip ZPair ex_env1) D t (ex100_ka, ex100_kb, tt) ex100_com proof.
Definition ex100_X : list bytes :=
  match ex100_prove toy_digest 5 with
  | Ok p => flat_map (fun c => map (fun i => gipa_hash_input (K := ZP) i (zq 0) (fst c) (snd c)) [0; 1]) (gp_steps p)
  | _ => []
  end.
Example C100_example : length ex100_X = 2 /\ length (filter (no_inverse ZP) ex99_Y) = 1 /\ length (tables ex100_X ex99_Y ex99_D0) = 4 /\
  length (filter (fun D => negb (accepted (ex100_run D 2))) (tables ex100_X ex99_Y ex99_D0)) = 1 /\
  length (filter (fun D => negb (accepted (ex100_run D 1))) (tables ex100_X ex99_Y ex99_D0)) = 2 /\
  nearly_always (no_inverse ZP) 1 ex100_run.
Proof.
  do 5 (split; [vm_compute; reflexivity|]).
  exact (C100_gipa_pairing ZPair ex_env ex_env1 ltac:(cbn; lia) ltac:(cbn; lia) ex_rand ex_rand 1 ex100_a ex100_b ex100_ka ex100_kb tt eq_refl eq_refl eq_refl eq_refl).
Qed.
(** An aggregation of two valid proofs; digests without element, with element 1, and with element 9 for the batching challenge. *)
Definition ex100_gY : list bytes := [repeat 7%N 16; repeat 0%N 15 ++ [1%N]; repeat 0%N 15 ++ [9%N]].
Definition ex100_grun D t :=
  do (s, _) <- g16_setup ZPair ex_scalars 2%Z 2; do v <- get_verifier_key s;
  do p <- g16_aggregate ZPair ex_env D t ex_rand ex_rand s ex_pfs; g16_verify ZPair ex_env1 D t ex_rand ex_rand v ex_vk ex_inputs p.
Example C100_example_groth16 : length ex99_gX = 1 /\ length (filter (unusable ZP) ex100_gY) = 1 /\ length (filter (degenerate ZP) ex100_gY) = 1 /\
  unusable ZP (ex99_D0 []) = false /\ degenerate ZP (ex99_D0 []) = false /\
  length (filter (fun D => negb (accepted (ex100_grun D 2))) (tables ex99_gX ex100_gY ex99_D0)) = 1 /\
  length (filter (fun D => negb (accepted (ex100_grun D 1))) (tables ex99_gX ex100_gY ex99_D0)) = 2.
Proof. vm_compute. repeat split. Qed.

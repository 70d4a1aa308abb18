(** Property C112: one reference string serves all smaller sizes. The first 2n-1 powers of a reference string for m elements are a
    reference string for n elements with the same verifier key, and zeros at the end of the vectors change no commitment. *)
Require Import List Arith NArith ZArith Lia Bool Field.
Import ListNotations.
Require Import Verif.Outcome Verif.Algebra Verif.Zp Verif.Rust Verif.InnerProducts Verif.Commitments
  Verif.Gipa Verif.Poly Verif.Tipa Verif.Ssm Verif.Spec Verif.ListFacts Verif.RustFacts Verif.InnerProductFacts Verif.CommitFacts
  Verif.GipaFacts Verif.GipaComplete Verif.GipaTop Verif.PolyFacts Verif.KeyFacts Verif.TipaFacts Verif.SsmFacts
  Verif.PropsBase Verif.PropsGipa Verif.PropsTipa Verif.PropsSsm.

(** The first powers of a reference string: what a user keeps who needs only [n] elements. *)
Definition shortened {P : pairing} (n : nat) (s : srs P) : srs P :=
  mk_srs (firstn (2 * n - 1) (g_alpha_powers s)) (firstn (2 * n - 1) (h_beta_powers s)) (srs_g_beta s) (srs_h_alpha s).

(** A vector followed by zeros up to [m] elements. *)
Definition zeros_to {K : field} {M : module K} (m : nat) (l : list M) : list M := l ++ repeat m0 (m - length l).

Lemma zeros_to_length {K : field} {M : module K} m (l : list M) : length l <= m -> length (zeros_to m l) = m.
Proof. intros H. unfold zeros_to. rewrite app_length, repeat_length. lia. Qed.

Lemma firstn_map_seq {A} (f : nat -> A) n m : n <= m -> firstn n (map f (seq 0 m)) = map f (seq 0 n).
Proof.
  intros H. rewrite firstn_map. f_equal. replace m with (n + (m - n)) by lia. rewrite seq_app, firstn_app, seq_length.
  rewrite Nat.sub_diag. cbn [firstn]. rewrite app_nil_r. apply firstn_all2. rewrite seq_length. lia.
Qed.

Section Shortened.
  Context {R : Type} {P : pairing} {MT KT : module (pK P)} {OT : carrier (pK P)}.
  Variables (rand : sampler R (pK P)) (IPC : dhc R MT KT OT).

  Lemma shortened_trap alpha beta n m : n <= m -> shortened n (trap_srs (P := P) alpha beta m) = trap_srs alpha beta n.
  Proof.
    intros H. unfold shortened, trap_srs. cbn [g_alpha_powers h_beta_powers srs_g_beta srs_h_alpha].
    rewrite !firstn_map_seq by lia. reflexivity.
  Qed.

  Theorem C112_shortened_srs rng n m s kt rng' ka kb v :
    tipa_setup IPC rand rng m = Ok (s, kt, rng') -> 0 < n -> n <= m ->
    get_commitment_keys s = (ka, kb) -> get_verifier_key s = Ok v ->
    tipa_setup IPC rand rng n = Ok (shortened n s, kt, rng') /\
    get_commitment_keys (shortened n s) = (firstn n ka, firstn n kb) /\
    get_verifier_key (shortened n s) = Ok v.
  Proof.
    intros Hs Hn Hm Hk Hv. pose proof (tipa_setup_inv _ _ _ _ _ _ _ Hs) as [H0 E].
    assert (En : shortened n s = trap_srs (fst (rand rng)) (fst (rand (snd (rand rng)))) n)
      by (rewrite E; now apply shortened_trap).
    split; [|split].
    - rewrite En. clear - Hs Hn H0. unfold tipa_setup in *. destruct (rand rng) as [alpha rng1]. cbn [fst snd].
      destruct (rand rng1) as [beta rng2]. cbn [fst].
      destruct (Nat.ltb_spec 0 m); [|lia]. destruct (Nat.ltb_spec 0 n); [|lia]. cbn [rassert rbind] in *.
      rewrite !structured_generators_ok in * by lia. cbn [rbind] in *.
      destruct (dh_setup IPC rng2 1) as [[ks rng3]| | |]; cbn [rbind] in *; try discriminate.
      destruct (runwrap (last_opt ks)) as [kt'| | |]; cbn [rbind] in *; try discriminate.
      injection Hs as _ -> ->. reflexivity.
    - rewrite En, trap_keys. rewrite E, trap_keys in Hk. injection Hk as <- <-. unfold key_vec.
      rewrite !firstn_map_seq by lia. reflexivity.
    - rewrite En, trap_vkey by exact Hn. rewrite E, trap_vkey in Hv by exact H0. exact Hv.
  Qed.
End Shortened.
Print Assumptions C112_shortened_srs.

(** ** Zeros at the end change no sum *)
Section Zeros.
  Context {K : field} {X : module K}.

  Lemma big_zeros (n m : nat) (f g : nat -> X) : n <= m ->
    (forall i, i < n -> f i = g i) -> (forall i, n <= i -> f i = m0) -> big m f = big n g.
  Proof.
    intros H H1 H2. replace m with (n + (m - n)) by lia. rewrite big_split.
    rewrite (big_ext (m - n) _ (fun _ => m0)) by (intros; apply H2; lia). rewrite big_0, madd_0_r.
    apply big_ext. exact H1.
  Qed.

  Lemma at_zeros_lt {M : module K} m (l : list M) i : i < length l -> at_ (zeros_to m l) i = at_ l i.
  Proof. intros H. unfold at_, zeros_to. now rewrite app_nth1. Qed.
  Lemma at_zeros_ge {M : module K} m (l : list M) i : length l <= i -> at_ (zeros_to m l) i = m0.
  Proof. intros H. unfold at_, zeros_to. rewrite app_nth2 by exact H. apply nth_repeat. Qed.
  Lemma at_first {M : module K} n (l : list M) i : i < n -> at_ (firstn n l) i = at_ l i.
  Proof.
    unfold at_. revert l i. induction n as [|n IH]; intros [|x l] i Hi; try lia; cbn [firstn]; [reflexivity|].
    destruct i as [|i]; [reflexivity|]. cbn [nth]. apply IH. lia.
  Qed.
End Zeros.

Section Sums.
  Context {P : pairing}.
  Notation K := (pK P).
  Lemma e_0_l x : pr_e P m0 x = m0.
  Proof. apply (bil_0_l (pr_e P)). apply pr_e_bilinear. Qed.
  Lemma e_0_r x : pr_e P x m0 = m0.
  Proof. apply (bil_0_r (pr_e P)). apply pr_e_bilinear. Qed.

  Lemma pairing_sum_zeros_l m (a : list (pG1 P)) k : length a <= m ->
    pairing_sum P (zeros_to m a) k = pairing_sum P a (firstn (length a) k).
  Proof.
    intros H. unfold pairing_sum. rewrite zeros_to_length by exact H. apply big_zeros; [exact H| |]; intros i Hi.
    - now rewrite at_zeros_lt, at_first.
    - rewrite at_zeros_ge by exact Hi. apply e_0_l.
  Qed.
  Lemma pairing_sum_zeros_r m k (b : list (pG2 P)) : length k = m -> length b <= m ->
    pairing_sum P k (zeros_to m b) = pairing_sum P (firstn (length b) k) b.
  Proof.
    intros Hk H. unfold pairing_sum. rewrite firstn_length_le, Hk by lia. apply big_zeros; [exact H| |]; intros i Hi.
    - now rewrite at_zeros_lt, at_first.
    - rewrite at_zeros_ge by exact Hi. apply e_0_r.
  Qed.
  Lemma pairing_sum_zeros m (a : list (pG1 P)) (b : list (pG2 P)) : length a = length b -> length a <= m ->
    pairing_sum P (zeros_to m a) (zeros_to m b) = pairing_sum P a b.
  Proof.
    intros Hab H. unfold pairing_sum. rewrite zeros_to_length by exact H. apply big_zeros; [exact H| |]; intros i Hi.
    - rewrite !at_zeros_lt by lia. reflexivity.
    - rewrite at_zeros_ge by exact Hi. apply e_0_l.
  Qed.

  Context {M : module K}.
  Lemma fat_zeros_lt m (l : list K) i : i < length l -> fat (zeros_to (M := fmod K) m l) i = fat l i.
  Proof. exact (at_zeros_lt (M := fmod K) m l i). Qed.
  Lemma fat_zeros_ge m (l : list K) i : length l <= i -> fat (zeros_to (M := fmod K) m l) i = f0.
  Proof. exact (at_zeros_ge (M := fmod K) m l i). Qed.
  Lemma msm_zeros_key m (k : list M) (b : list K) : length k = m -> length b <= m ->
    msm_sum k (zeros_to (M := fmod K) m b) = msm_sum (firstn (length b) k) b.
  Proof.
    intros Hk H. unfold msm_sum. rewrite firstn_length_le, Hk by lia. apply big_zeros; [exact H| |]; intros i Hi.
    - rewrite fat_zeros_lt, at_first by exact Hi. reflexivity.
    - rewrite fat_zeros_ge by exact Hi. apply mscale_0_l.
  Qed.
  Lemma msm_zeros m (a : list M) (b : list K) : length a = length b -> length a <= m ->
    msm_sum (zeros_to m a) (zeros_to (M := fmod K) m b) = msm_sum a b.
  Proof.
    intros Hab H. unfold msm_sum. rewrite zeros_to_length by exact H. apply big_zeros; [exact H| |]; intros i Hi.
    - rewrite fat_zeros_lt, at_zeros_lt by lia. reflexivity.
    - rewrite at_zeros_ge by exact Hi. apply mscale_0_r.
  Qed.
  Lemma power_sum_zeros m (a : list M) (x : K) : length a <= m ->
    big m (fun i => fpow x i *m at_ (zeros_to m a) i) = big (length a) (fun i => fpow x i *m at_ a i).
  Proof.
    intros H. apply big_zeros; [exact H| |]; intros i Hi.
    - now rewrite at_zeros_lt.
    - rewrite at_zeros_ge by exact Hi. apply mscale_0_r.
  Qed.
End Sums.
Lemma scalar_zeros {K : field} m (a b : list K) : length a = length b -> length a <= m ->
  scalar_sum (zeros_to (M := fmod K) m a) (zeros_to (M := fmod K) m b) = scalar_sum a b.
Proof.
  intros Hab H. unfold scalar_sum. rewrite !fbig_big, (zeros_to_length (M := fmod K)) by exact H.
  apply (big_zeros (X := fmod K)); [exact H| |]; intros i Hi.
  - pose proof (at_zeros_lt (M := fmod K) m a i Hi) as E1.
    pose proof (at_zeros_lt (M := fmod K) m b i (eq_ind _ (fun z => i < z) Hi _ Hab)) as E2.
    unfold fat, at_ in *. cbn in *. now rewrite E1, E2.
  - pose proof (at_zeros_ge (M := fmod K) m a i Hi) as E1. unfold fat, at_ in *. cbn in *. rewrite E1.
    exact (mscale_0_l K (fmod K) _).
Qed.

(** ** Proofs of both sizes for the same commitments *)
Lemma keys_lengths {R} {P : pairing} {MT KT : module (pK P)} {OT : carrier (pK P)} (rand : sampler R (pK P))
    (IPC : dhc R MT KT OT) rng m s kt rng' ka kb :
  tipa_setup IPC rand rng m = Ok (s, kt, rng') -> get_commitment_keys s = (ka, kb) -> length ka = m /\ length kb = m.
Proof.
  intros Hs Hk. apply tipa_setup_inv in Hs as [_ ->]. rewrite trap_keys in Hk. injection Hk as <- <-.
  now rewrite !key_vec_length.
Qed.

Section Both.
  Variables (R : Type) (P : pairing) (E E' : penv) (r1 : sampler R (pG1 P)) (r2 : sampler R (pG2 P)) (rand : sampler R (pK P)).
  Variables (D : bytes -> bytes) (fuel : nat).
  Hypotheses (HE : 1 <= threads E) (HE' : 1 <= threads E') (HD : digest16 D) (HL2 : draws_end (pK P) D fuel).

  Theorem C112_pairing rng j k s kt rng' ka kb v (a : list (pG1 P)) (b : list (pG2 P)) :
    rounds_end (mod_carrier (pGT P)) (mod_carrier (pGT P)) (identity_output (pGT P)) D fuel ->
    tipa_setup (identity (pGT P)) rand rng (2 ^ S k) = Ok (s, kt, rng') ->
    get_commitment_keys s = (ka, kb) -> get_verifier_key s = Ok v ->
    j <= k -> length a = 2 ^ S j -> length b = 2 ^ S j ->
    let n := 2 ^ S j in let m := 2 ^ S k in
    let ca := pairing_sum P a (firstn n ka) in
    let cb := pairing_sum P (firstn n kb) b in
    let t := pairing_sum P a b in
    let a' := zeros_to m a in
    let b' := zeros_to m b in
    let com := (ca, cb, [t]) : com3 (mod_carrier (pGT P)) (mod_carrier (pGT P)) (identity_output (pGT P)) in
    honest_com (afgho_g1 P E r2) (afgho_g2 P E r1) (identity (pGT P)) (pairing_ip P E) (firstn n ka) (firstn n kb) kt a b t ca cb [t] /\
    honest_com (afgho_g1 P E r2) (afgho_g2 P E r1) (identity (pGT P)) (pairing_ip P E) ka kb kt a' b' t ca cb [t] /\
    exists p q,
      tipa_prove (afgho_g1 P E r2) (afgho_g2 P E r1) (identity (pGT P)) (pairing_ip P E) D fuel (shortened n s) (a, b) (firstn n ka, firstn n kb, kt) = Ok p /\
      tipa_prove (afgho_g1 P E r2) (afgho_g2 P E r1) (identity (pGT P)) (pairing_ip P E) D fuel s (a', b') (ka, kb, kt) = Ok q /\
      tipa_verify (afgho_g1 P E' r2) (afgho_g2 P E' r1) (identity (pGT P)) (pairing_ip P E') D fuel v kt com p = Ok true /\
      tipa_verify (afgho_g1 P E' r2) (afgho_g2 P E' r1) (identity (pGT P)) (pairing_ip P E') D fuel v kt com q = Ok true.
  Proof using All.
    intros HL Hs Hk Hv Hj Ha Hb n m ca cb t a' b' com. assert (Hnm : n <= m) by (apply Nat.pow_le_mono_r; lia).
    assert (Hn0 : 0 < n) by apply pow2_pos.
    destruct (C112_shortened_srs rand _ rng n m s kt rng' ka kb v Hs Hn0 Hnm Hk Hv) as (Hs1 & Hk1 & Hv1).
    destruct (keys_lengths rand _ rng m s kt rng' ka kb Hs Hk) as [La Lb].
    assert (Hfa : length (firstn n ka) = n) by (apply firstn_length_le; rewrite La; exact Hnm).
    assert (Hfb : length (firstn n kb) = n) by (apply firstn_length_le; rewrite Lb; exact Hnm).
    assert (Ha0 : length a <= m) by (rewrite Ha; exact Hnm).
    assert (Hb0 : length b <= m) by (rewrite Hb; exact Hnm).
    assert (Han : length a = n) by exact Ha.
    assert (Hbn : length b = n) by exact Hb.
    assert (Hab : length a = length b) by (rewrite Hb; exact Ha).
    assert (Ha' : length a' = m) by exact (zeros_to_length (M := (pG1 P)) m a Ha0).
    assert (Hb' : length b' = m) by exact (zeros_to_length (M := (pG2 P)) m b Hb0).
    assert (Ea : pairing_sum P a' ka = ca) by (subst a' ca; unfold n; rewrite <- Ha; now apply pairing_sum_zeros_l).
    assert (Eb : pairing_sum P kb b' = cb) by (subst b' cb; unfold n; rewrite <- Hb; now apply pairing_sum_zeros_r).
    assert (Et : pairing_sum P a' b' = t) by (subst a' b' t; now apply pairing_sum_zeros).
    destruct (C22_pairing_instance R P E E' r1 r2 rand D fuel rng j (shortened n s) kt rng' _ _ v a b HE HE' HD HL2 HL Hs1 Hk1 Hv1 Ha Hb) as (p & Hp1 & Hp2).
    destruct (C22_pairing_instance R P E E' r1 r2 rand D fuel rng k s kt rng' ka kb v a' b' HE HE' HD HL2 HL Hs Hk Hv Ha' Hb') as (q & Hq1 & Hq2).
    fold n in Hp1, Hp2.
    split; [|split].
    - repeat split; cbn [dh_commit afgho_g1 afgho_g2 identity]; apply C01_pairing_inner_product; congruence.
    - rewrite <- Ea, <- Eb, <- Et. repeat split; cbn [dh_commit afgho_g1 afgho_g2 identity]; apply C01_pairing_inner_product; congruence.
    - exists p, q. split; [exact Hp1|]. split; [exact Hq1|]. split; [exact Hp2|].
      rewrite Ea, Eb, Et in Hq2. exact Hq2.
  Qed.

  Theorem C112_multiexp rng j k s kt rng' ka kb v (a : list (pG1 P)) (b : list (pK P)) :
    rounds_end (mod_carrier (pGT P)) (mod_carrier (pG1 P)) (identity_output (pG1 P)) D fuel ->
    tipa_setup (identity (pG1 P)) rand rng (2 ^ S k) = Ok (s, kt, rng') ->
    get_commitment_keys s = (ka, kb) -> get_verifier_key s = Ok v ->
    j <= k -> length a = 2 ^ S j -> length b = 2 ^ S j ->
    let n := 2 ^ S j in let m := 2 ^ S k in
    let ca := pairing_sum P a (firstn n ka) in
    let cb := msm_sum (firstn n kb) b in
    let t := msm_sum a b in
    let a' := zeros_to m a in
    let b' := (zeros_to (M := fmod (pK P)) m b : list (pK P)) in
    let com := (ca, cb, [t]) : com3 (mod_carrier (pGT P)) (mod_carrier (pG1 P)) (identity_output (pG1 P)) in
    honest_com (afgho_g1 P E r2) (pedersen (pG1 P) r1) (identity (pG1 P)) (multiexp_ip (pG1 P)) (firstn n ka) (firstn n kb) kt a b t ca cb [t] /\
    honest_com (afgho_g1 P E r2) (pedersen (pG1 P) r1) (identity (pG1 P)) (multiexp_ip (pG1 P)) ka kb kt a' b' t ca cb [t] /\
    exists p q,
      tipa_prove (afgho_g1 P E r2) (pedersen (pG1 P) r1) (identity (pG1 P)) (multiexp_ip (pG1 P)) D fuel (shortened n s) (a, b) (firstn n ka, firstn n kb, kt) = Ok p /\
      tipa_prove (afgho_g1 P E r2) (pedersen (pG1 P) r1) (identity (pG1 P)) (multiexp_ip (pG1 P)) D fuel s (a', b') (ka, kb, kt) = Ok q /\
      tipa_verify (afgho_g1 P E' r2) (pedersen (pG1 P) r1) (identity (pG1 P)) (multiexp_ip (pG1 P)) D fuel v kt com p = Ok true /\
      tipa_verify (afgho_g1 P E' r2) (pedersen (pG1 P) r1) (identity (pG1 P)) (multiexp_ip (pG1 P)) D fuel v kt com q = Ok true.
  Proof using All.
    intros HL Hs Hk Hv Hj Ha Hb n m ca cb t a' b' com. assert (Hnm : n <= m) by (apply Nat.pow_le_mono_r; lia).
    assert (Hn0 : 0 < n) by apply pow2_pos.
    destruct (C112_shortened_srs rand _ rng n m s kt rng' ka kb v Hs Hn0 Hnm Hk Hv) as (Hs1 & Hk1 & Hv1).
    destruct (keys_lengths rand _ rng m s kt rng' ka kb Hs Hk) as [La Lb].
    assert (Hfa : length (firstn n ka) = n) by (apply firstn_length_le; rewrite La; exact Hnm).
    assert (Hfb : length (firstn n kb) = n) by (apply firstn_length_le; rewrite Lb; exact Hnm).
    assert (Ha0 : length a <= m) by (rewrite Ha; exact Hnm).
    assert (Hb0 : length b <= m) by (rewrite Hb; exact Hnm).
    assert (Han : length a = n) by exact Ha.
    assert (Hbn : length b = n) by exact Hb.
    assert (Hab : length a = length b) by (rewrite Hb; exact Ha).
    assert (Ha' : length a' = m) by exact (zeros_to_length (M := (pG1 P)) m a Ha0).
    assert (Hb' : length b' = m) by exact (zeros_to_length (M := fmod (pK P)) m b Hb0).
    assert (Ea : pairing_sum P a' ka = ca) by (subst a' ca; unfold n; rewrite <- Ha; now apply pairing_sum_zeros_l).
    assert (Eb : msm_sum kb b' = cb) by (subst b' cb; unfold n; rewrite <- Hb; now apply msm_zeros_key).
    assert (Et : msm_sum a' b' = t) by (subst a' b' t; now apply msm_zeros).
    destruct (C22_multiexp_instance R P E E' r1 r2 rand D fuel rng j (shortened n s) kt rng' _ _ v a b HE HE' HD HL2 HL Hs1 Hk1 Hv1 Ha Hb) as (p & Hp1 & Hp2).
    destruct (C22_multiexp_instance R P E E' r1 r2 rand D fuel rng k s kt rng' ka kb v a' b' HE HE' HD HL2 HL Hs Hk Hv Ha' Hb') as (q & Hq1 & Hq2).
    fold n in Hp1, Hp2.
    split; [|split].
    - repeat split; cbn [dh_commit afgho_g1 pedersen identity];
        [apply C01_pairing_inner_product; congruence| |].
      + destruct (C02_multiexp_outcome _ _ (firstn n kb) b) as [[H _]|[_ H]]; [congruence|exact H].
      + destruct (C02_multiexp_outcome _ _ a b) as [[H _]|[_ H]]; [congruence|exact H].
    - rewrite <- Ea, <- Eb, <- Et. repeat split; cbn [dh_commit afgho_g1 pedersen identity];
        [apply C01_pairing_inner_product; congruence| |].
      + destruct (C02_multiexp_outcome _ _ kb b') as [[H _]|[_ H]]; [congruence|exact H].
      + destruct (C02_multiexp_outcome _ _ a' b') as [[H _]|[_ H]]; [congruence|exact H].
    - exists p, q. split; [exact Hp1|]. split; [exact Hq1|]. split; [exact Hp2|].
      rewrite Ea, Eb, Et in Hq2. exact Hq2.
  Qed.

  Theorem C112_scalar rng j k s kt rng' ka kb v (a : list (pK P)) (b : list (pK P)) :
    rounds_end (mod_carrier (pG2 P)) (mod_carrier (pG1 P)) (identity_output (fmod (pK P))) D fuel ->
    tipa_setup (identity (fmod (pK P))) rand rng (2 ^ S k) = Ok (s, kt, rng') ->
    get_commitment_keys s = (ka, kb) -> get_verifier_key s = Ok v ->
    j <= k -> length a = 2 ^ S j -> length b = 2 ^ S j ->
    let n := 2 ^ S j in let m := 2 ^ S k in
    let ca := msm_sum (firstn n ka) a in
    let cb := msm_sum (firstn n kb) b in
    let t := scalar_sum a b in
    let a' := (zeros_to (M := fmod (pK P)) m a : list (pK P)) in
    let b' := (zeros_to (M := fmod (pK P)) m b : list (pK P)) in
    let com := (ca, cb, [t]) : com3 (mod_carrier (pG2 P)) (mod_carrier (pG1 P)) (identity_output (fmod (pK P))) in
    honest_com (pedersen (pG2 P) r2) (pedersen (pG1 P) r1) (identity (fmod (pK P))) (scalar_ip E) (firstn n ka) (firstn n kb) kt a b t ca cb [t] /\
    honest_com (pedersen (pG2 P) r2) (pedersen (pG1 P) r1) (identity (fmod (pK P))) (scalar_ip E) ka kb kt a' b' t ca cb [t] /\
    exists p q,
      tipa_prove (pedersen (pG2 P) r2) (pedersen (pG1 P) r1) (identity (fmod (pK P))) (scalar_ip E) D fuel (shortened n s) (a, b) (firstn n ka, firstn n kb, kt) = Ok p /\
      tipa_prove (pedersen (pG2 P) r2) (pedersen (pG1 P) r1) (identity (fmod (pK P))) (scalar_ip E) D fuel s (a', b') (ka, kb, kt) = Ok q /\
      tipa_verify (pedersen (pG2 P) r2) (pedersen (pG1 P) r1) (identity (fmod (pK P))) (scalar_ip E') D fuel v kt com p = Ok true /\
      tipa_verify (pedersen (pG2 P) r2) (pedersen (pG1 P) r1) (identity (fmod (pK P))) (scalar_ip E') D fuel v kt com q = Ok true.
  Proof using HD HL2.
    clear HE HE'. intros HL Hs Hk Hv Hj Ha Hb n m ca cb t a' b' com. assert (Hnm : n <= m) by (apply Nat.pow_le_mono_r; lia).
    assert (Hn0 : 0 < n) by apply pow2_pos.
    destruct (C112_shortened_srs rand _ rng n m s kt rng' ka kb v Hs Hn0 Hnm Hk Hv) as (Hs1 & Hk1 & Hv1).
    destruct (keys_lengths rand _ rng m s kt rng' ka kb Hs Hk) as [La Lb].
    assert (Hfa : length (firstn n ka) = n) by (apply firstn_length_le; rewrite La; exact Hnm).
    assert (Hfb : length (firstn n kb) = n) by (apply firstn_length_le; rewrite Lb; exact Hnm).
    assert (Ha0 : length a <= m) by (rewrite Ha; exact Hnm).
    assert (Hb0 : length b <= m) by (rewrite Hb; exact Hnm).
    assert (Han : length a = n) by exact Ha.
    assert (Hbn : length b = n) by exact Hb.
    assert (Hab : length a = length b) by (rewrite Hb; exact Ha).
    assert (Ha' : length a' = m) by exact (zeros_to_length (M := fmod (pK P)) m a Ha0).
    assert (Hb' : length b' = m) by exact (zeros_to_length (M := fmod (pK P)) m b Hb0).
    assert (Ea : msm_sum ka a' = ca) by (subst a' ca; unfold n; rewrite <- Ha; now apply msm_zeros_key).
    assert (Eb : msm_sum kb b' = cb) by (subst b' cb; unfold n; rewrite <- Hb; now apply msm_zeros_key).
    assert (Et : scalar_sum a' b' = t) by (subst a' b' t; now apply scalar_zeros).
    destruct (C22_scalar_instance R P E E' r1 r2 rand D fuel rng j (shortened n s) kt rng' _ _ v a b HD HL2 HL Hs1 Hk1 Hv1 Ha Hb) as (p & Hp1 & Hp2).
    destruct (C22_scalar_instance R P E E' r1 r2 rand D fuel rng k s kt rng' ka kb v a' b' HD HL2 HL Hs Hk Hv Ha' Hb') as (q & Hq1 & Hq2).
    fold n in Hp1, Hp2.
    split; [|split].
    - repeat split; cbn [dh_commit pedersen identity].
      + destruct (C02_multiexp_outcome _ _ (firstn n ka) a) as [[H _]|[_ H]]; [congruence|exact H].
      + destruct (C02_multiexp_outcome _ _ (firstn n kb) b) as [[H _]|[_ H]]; [congruence|exact H].
      + destruct (C02_scalar_outcome _ E a b) as [[H _]|[_ H]]; [congruence|exact H].
    - rewrite <- Ea, <- Eb, <- Et. repeat split; cbn [dh_commit pedersen identity].
      + destruct (C02_multiexp_outcome _ _ ka a') as [[H _]|[_ H]]; [congruence|exact H].
      + destruct (C02_multiexp_outcome _ _ kb b') as [[H _]|[_ H]]; [congruence|exact H].
      + destruct (C02_scalar_outcome _ E a' b') as [[H _]|[_ H]]; [congruence|exact H].
    - exists p, q. split; [exact Hp1|]. split; [exact Hq1|]. split; [exact Hp2|].
      rewrite Ea, Eb, Et in Hq2. exact Hq2.
  Qed.

  Theorem C112_ssm rng j k s kt rng' ka kb v (a : list (pG1 P)) (x : pK P) mb mb' :
    rounds_end (mod_carrier (pGT P)) (mod_carrier (fmod (pK P))) (identity_output (pG1 P)) D fuel ->
    tssm_setup (identity (pG1 P)) rand rng (2 ^ S k) = Ok (s, kt, rng') ->
    get_commitment_keys s = (ka, kb) -> get_verifier_key s = Ok v ->
    j <= k -> length a = 2 ^ S j ->
    structured_scalar_power (2 ^ S j) x = Ok mb -> structured_scalar_power (2 ^ S k) x = Ok mb' ->
    let n := 2 ^ S j in let m := 2 ^ S k in
    let a' := zeros_to m a in
    let com := (pairing_sum P a (firstn n ka), [big n (fun i => fpow x i *m at_ a i)])
               : mod_carrier (pGT P) * identity_output (pG1 P) in
    exists p q,
      tssm_prove (afgho_g1 P E r2) (identity (pG1 P)) (multiexp_ip (pG1 P)) D fuel (shortened n s) (a, mb) (firstn n ka, kt) = Ok p /\
      tssm_prove (afgho_g1 P E r2) (identity (pG1 P)) (multiexp_ip (pG1 P)) D fuel s (a', mb') (ka, kt) = Ok q /\
      tssm_verify (afgho_g1 P E' r2) (identity (pG1 P)) (multiexp_ip (pG1 P)) D fuel E' v kt com x p = Ok true /\
      tssm_verify (afgho_g1 P E' r2) (identity (pG1 P)) (multiexp_ip (pG1 P)) D fuel E' v kt com x q = Ok true.
  Proof using All.
    intros HL Hs Hk Hv Hj Ha Hb Hb' n m a' com. assert (Hnm : n <= m) by (apply Nat.pow_le_mono_r; lia).
    assert (Hn0 : 0 < n) by apply pow2_pos.
    destruct (C112_shortened_srs rand _ rng n m s kt rng' ka kb v Hs Hn0 Hnm Hk Hv) as (Hs1 & Hk1 & Hv1).
    assert (Ha0 : length a <= m) by (rewrite Ha; exact Hnm).
    assert (Ha' : length a' = m) by (apply zeros_to_length; exact Ha0).
    destruct (C30_multiexp_instance R P E E' r2 rand D fuel rng j (shortened n s) kt rng' _ _ v a x mb HE HE' HD HL2 HL Hs1 Hk1 Hv1 Ha Hb)
      as (p & Hp1 & Hp2).
    destruct (C30_multiexp_instance R P E E' r2 rand D fuel rng k s kt rng' ka kb v a' x mb' HE HE' HD HL2 HL Hs Hk Hv Ha' Hb')
      as (q & Hq1 & Hq2).
    exists p, q. split; [exact Hp1|]. split; [exact Hq1|]. split; [exact Hp2|].
    subst a'. rewrite pairing_sum_zeros_l, Ha in Hq2 by exact Ha0. fold m n in Hq2.
    rewrite power_sum_zeros, Ha in Hq2 by exact Ha0. exact Hq2.
  Qed.
End Both.
Print Assumptions C112_pairing.
Print Assumptions C112_multiexp.
Print Assumptions C112_scalar.
Print Assumptions C112_ssm.

(** Two elements with a reference string for four: both proofs are accepted for the same commitments by one verifier key; the
    longer vector with a non-zero third element has other commitments. *)
Definition ex_padding (third : zp) : res (bool * bool) :=
  do s <- ex_srs 4; do v <- get_verifier_key s;
  let a := zl [3; 1]%Z in let b := zl [5; 9]%Z in
  let '(ka, kb) := get_commitment_keys s in
  let com := (pairing_sum ZPair a (firstn 2 ka), pairing_sum ZPair (firstn 2 kb) b, [pairing_sum ZPair a b])
             : com3 (mod_carrier ZM) (mod_carrier ZM) (identity_output ZM) in
  do p <- ex_tprove (shortened 2 s) (a, b) (firstn 2 ka, firstn 2 kb, tt) f1;
  do q <- ex_tprove s (a ++ [third; zq 0], b ++ [zq 0; zq 0]) (ka, kb, tt) f1;
  do x <- ex_tverify v tt com p f1;
  do y <- ex_tverify v tt com q f1;
  Ok (x, y).
Example C112_example : ex_padding (zq 0) = Ok (true, true) /\ ex_padding (zq 7) = Ok (true, false).
Proof. vm_compute. split; reflexivity. Qed.

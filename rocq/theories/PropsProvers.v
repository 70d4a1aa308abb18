(** Property C87: for which inputs the argument provers return a proof. *)
Require Import List Arith NArith ZArith Lia Bool Field.
Import ListNotations.
Require Import Verif.Outcome Verif.Algebra Verif.Zp Verif.Rust Verif.InnerProducts Verif.Commitments
  Verif.Poly Verif.Gipa Verif.Tipa Verif.Ssm Verif.Groth16 Verif.Spec Verif.ListFacts Verif.RustFacts
  Verif.InnerProductFacts Verif.CommitFacts Verif.GipaFacts Verif.GipaComplete Verif.GipaTop Verif.SerFacts
  Verif.PolyFacts Verif.KeyFacts Verif.TipaFacts Verif.SsmFacts
  Verif.PropsBase Verif.PropsGipa Verif.PropsTipa Verif.PropsSsm Verif.PropsGroth.

(** ** Specification *)
(** fewer than half as many elements as the first message vector (none at all, if that has one) *)
Definition short (n l : nat) : Prop := l < Nat.max 1 (n / 2).
(** the sizes for which GIPA makes a proof: one power of two for all vectors, or one value and
    non-empty vectors *)
Definition sizes_fit (na nb nka nkb : nat) : Prop :=
  (exists k, na = 2 ^ k /\ nb = 2 ^ k /\ nka = 2 ^ k /\ nkb = 2 ^ k) \/
  (na = 1 /\ 1 <= nb /\ 1 <= nka /\ 1 <= nkb).
(** a commitment scheme that refuses vectors of different lengths *)
Definition checks_lengths {R K} {M Ky : module K} {O : carrier K} (C : dhc R M Ky O) : Prop :=
  forall ks ms, length ks <> length ms -> exists l r, dh_commit C ks ms = Err (IPMessageLengthInvalid l r) /\ l <> r.
(** one that commits to anything *)
Definition accepts_all {R K} {M Ky : module K} {O : carrier K} (C : dhc R M Ky O) : Prop :=
  forall ks ms, exists o, dh_commit C ks ms = Ok o.

Lemma afgho_g1_checks {R} P E rand : checks_lengths (R := R) (afgho_g1 P E rand).
Proof. intros ks ms H. exists (length ms), (length ks). split; [|congruence]. cbn. apply pairing_ip_err. congruence. Qed.
Lemma afgho_g2_checks {R} P E rand : checks_lengths (R := R) (afgho_g2 P E rand).
Proof. intros ks ms H. exists (length ks), (length ms). split; [|exact H]. cbn. now apply pairing_ip_err. Qed.
Lemma pedersen_checks {R K} (G : module K) rand : checks_lengths (R := R) (pedersen G rand).
Proof. intros ks ms H. exists (length ks), (length ms). split; [|exact H]. cbn. now apply multiexp_ip_err. Qed.
Lemma placeholder_accepts {R} (K : field) : accepts_all (R := R) (ssm_placeholder K).
Proof. intros ks ms. eexists. reflexivity. Qed.

(** inner products that name the two lengths *)
Definition ip_checks {K} {A B C : module K} (ip : list A -> list B -> res C) : Prop :=
  forall l r, length l <> length r -> ip l r = Err (IPMessageLengthInvalid (length l) (length r)).
Lemma pairing_ip_checks P E : ip_checks (pairing_ip P E).
Proof. intros l r H. now apply pairing_ip_err. Qed.
Lemma multiexp_ip_checks {K} (G : module K) : ip_checks (B := fmod K) (multiexp_ip G).
Proof. intros l r H. now apply multiexp_ip_err. Qed.

Lemma slice_to_in {A} (l : list A) n : n <= length l -> slice_to l n = Ok (firstn n l).
Proof. intros H. unfold slice_to. now rewrite (proj2 (Nat.leb_le _ _) H). Qed.
Lemma slice_from_in {A} (l : list A) n : n <= length l -> slice_from l n = Ok (skipn n l).
Proof. intros H. unfold slice_from. now rewrite (proj2 (Nat.leb_le _ _) H). Qed.
Lemma slice_to_out {A} (l : list A) n : length l < n -> slice_to l n = Panic.
Proof. intros H. unfold slice_to. destruct (Nat.leb_spec n (length l)); [lia|reflexivity]. Qed.
Lemma slice_from_out {A} (l : list A) n : length l < n -> slice_from l n = Panic.
Proof. intros H. unfold slice_from. destruct (Nat.leb_spec n (length l)); [lia|reflexivity]. Qed.

Lemma pow2_cases n : (exists k, n = 2 ^ k) \/ (forall k, n <> 2 ^ k).
Proof.
  destruct (is_power_of_two n) eqn:E.
  - left. now apply is_power_of_two_spec.
  - right. intros k ->. rewrite is_power_of_two_pow2 in E. discriminate.
Qed.
Lemma pow2_S_half k : 2 ^ S k = 2 ^ k + 2 ^ k. Proof. cbn [Nat.pow]. lia. Qed.
Lemma short_S k l : short (2 ^ S k) l <-> l < 2 ^ k.
Proof. unfold short. rewrite pow2_half. pose proof (pow2_pos k). rewrite Nat.max_r by lia. reflexivity. Qed.

Section Gipa.
  Context {R : Type} {K : field} {MA MB MT KA KB KT : module K} {OA OB OT : carrier K}.
  Variables (D : bytes -> bytes) (fuel : nat).
  Context {XA XB XT : module K} (dA : XA -> OA) (dB : XB -> OB) (dT : XT -> OT).
  Context (fA : KA -> MA -> XA) (fB : KB -> MB -> XB) (fT : KT -> MT -> XT) (th : MA -> MB -> MT).
  Variables (LMC : dhc R MA KA OA) (RMC : dhc R MB KB OB) (IPC : dhc R MT KT OT).
  Variable ip : list MA -> list MB -> res MT.
  Notation aux := (gipa_prove_with_aux LMC RMC IPC ip D fuel).

  Theorem C87_gipa_panics a b ka kb kt :
    (forall k, length a <> 2 ^ k) \/ short (length a) (length b) \/ short (length a) (length ka) \/ short (length a) (length kb) ->
    aux (a, b) (ka, kb, kt) = Panic.
  Proof.
    intros H. unfold gipa_prove_with_aux. destruct (pow2_cases (length a)) as [[k Hk]|Hk].
    2:{ destruct (is_power_of_two (length a)) eqn:E; [|reflexivity].
        apply is_power_of_two_spec in E as [k E]. now apply Hk in E. }
    rewrite Hk, is_power_of_two_pow2 in *. cbn [rassert rbind].
    destruct H as [H|H]; [now elim (H k)|].
    destruct k as [|k].
    - cbn [Nat.pow gipa_prove_loop] in *. rewrite Hk. cbn [Nat.eqb].
      apply list_1 in Hk as [x ->]. unfold short in H. change (Nat.max 1 (1 / 2)) with 1 in H.
      cbn [index nth_error runwrap rbind]. unfold index. cbn [nth_error runwrap rbind].
      destruct b as [|y b]; [reflexivity|]. destruct ka as [|z ka]; [reflexivity|]. destruct kb as [|w kb]; [reflexivity|].
      cbn [length] in H. lia.
    - rewrite !short_S in H. pose proof (pow2_pos k) as Hp.
      assert (Hn : exists n, 2 ^ S k = S n) by (exists (2 ^ S k - 1); rewrite pow2_S_half; lia).
      destruct Hn as [n En]. rewrite En. cbn [gipa_prove_loop]. rewrite Hk.
      destruct (Nat.eqb_spec (2 ^ S k) 1) as [E1|_]; [rewrite pow2_S_half in E1; lia|]. rewrite pow2_half.
      rewrite slice_from_in, slice_to_in by (rewrite Hk, pow2_S_half; lia). cbn [rbind].
      destruct (Nat.lt_ge_cases (length ka) (2 ^ k)) as [L|L]; [now rewrite slice_to_out|].
      rewrite slice_to_in, slice_from_in by lia. cbn [rbind].
      destruct (Nat.lt_ge_cases (length b) (2 ^ k)) as [L2|L2]; [now rewrite slice_to_out|].
      rewrite slice_to_in, slice_from_in by lia. cbn [rbind].
      rewrite slice_from_out by lia. reflexivity.
  Qed.

  Context (LA : lin_commit LMC dA fA) (LB : lin_commit RMC dB fB) (LT : ip_commit IPC dT fT) (LI : lin_ip ip th).

  Theorem C87_gipa_refuses k a b ka kb kt :
    checks_lengths LMC -> ip_checks ip -> checks_lengths RMC \/ (accepts_all RMC /\ length kb = length b) ->
    length a = 2 ^ S k ->
    ~ short (2 ^ S k) (length b) -> ~ short (2 ^ S k) (length ka) -> ~ short (2 ^ S k) (length kb) ->
    ~ (length b = 2 ^ S k /\ length ka = 2 ^ S k /\ length kb = 2 ^ S k) ->
    exists l r, aux (a, b) (ka, kb, [kt]) = Err (IPMessageLengthInvalid l r) /\ l <> r.
  Proof using LA LB LT LI.
    intros CA CI CB Ha Nb Nka Nkb Hne. rewrite short_S in *. apply Nat.nlt_ge in Nb, Nka, Nkb.
    pose proof (pow2_pos k) as Hp. pose proof (pow2_S_half k) as Eh.
    assert (Hn : exists n, 2 ^ S k = S n) by (exists (2 ^ S k - 1); lia). destruct Hn as [n En].
    unfold gipa_prove_with_aux. rewrite Ha, is_power_of_two_pow2. cbn [rassert rbind]. rewrite En.
    cbn [gipa_prove_loop]. rewrite Ha. destruct (Nat.eqb_spec (2 ^ S k) 1) as [E1|_]; [lia|]. rewrite pow2_half.
    rewrite slice_from_in, slice_to_in by lia. cbn [rbind].
    rewrite slice_to_in, slice_from_in by lia. cbn [rbind].
    rewrite slice_to_in, slice_from_in by lia. cbn [rbind].
    rewrite slice_from_in, slice_to_in by lia. cbn [rbind].
    unfold gipa_commit3.
    rewrite (lc_commit _ _ _ LA) by (rewrite firstn_length, skipn_length; lia). cbn [rbind].
    assert (Hs : forall o1 : res OB, dh_commit RMC (skipn (2 ^ k) kb) (firstn (2 ^ k) b) = o1 ->
      (exists o, o1 = Ok o) \/ exists l r, o1 = Err (IPMessageLengthInvalid l r) /\ l <> r).
    { intros o1 <-. destruct (Nat.eq_dec (length (skipn (2 ^ k) kb)) (length (firstn (2 ^ k) b))) as [L|L].
      - left. eexists. now apply (lc_commit _ _ _ LB).
      - destruct CB as [CB|[CB _]]; [right; now apply CB|left; apply CB]. }
    destruct (Hs _ eq_refl) as [[o1 E1]|[l [r [E1 Hlr]]]]; rewrite E1; cbn [rbind]; [|eauto].
    rewrite (li_ip _ _ LI) by (rewrite firstn_length, skipn_length; lia). cbn [rbind].
    rewrite (ic_commit _ _ _ LT). cbn [rbind].
    destruct (Nat.eq_dec (length ka) (2 ^ S k)) as [Lk|Lk].
    2:{ destruct (CA (skipn (2 ^ k) ka) (firstn (2 ^ k) a)) as [l [r [E2 Hlr]]].
        { rewrite firstn_length, skipn_length. lia. }
        rewrite E2. cbn [rbind]. eauto. }
    rewrite (lc_commit _ _ _ LA) by (rewrite firstn_length, skipn_length; lia). cbn [rbind].
    assert (Hb : length b <> 2 ^ S k).
    { intros Lb. apply Hne. repeat split; auto. destruct CB as [CB|[_ CB]]; [|congruence].
      destruct (Nat.eq_dec (length kb) (2 ^ S k)) as [|Lkb]; [assumption|]. exfalso.
      destruct (CB (skipn (2 ^ k) kb) (firstn (2 ^ k) b)) as [l [r [E3 _]]]; [|congruence].
      rewrite firstn_length, skipn_length. lia. }
    assert (Hs2 : (exists o, dh_commit RMC (firstn (2 ^ k) kb) (skipn (2 ^ k) b) = Ok o) \/
      exists l r, dh_commit RMC (firstn (2 ^ k) kb) (skipn (2 ^ k) b) = Err (IPMessageLengthInvalid l r) /\ l <> r).
    { destruct (Nat.eq_dec (length (firstn (2 ^ k) kb)) (length (skipn (2 ^ k) b))) as [L|L].
      - left. eexists. now apply (lc_commit _ _ _ LB).
      - destruct CB as [CB|[CB _]]; [right; now apply CB|left; apply CB]. }
    destruct Hs2 as [[o2 E2]|[l [r [E2 Hlr]]]]; rewrite E2; cbn [rbind]; [|eauto].
    rewrite CI by (rewrite firstn_length, skipn_length; lia). cbn [rbind].
    do 2 eexists. split; [reflexivity|]. rewrite firstn_length, skipn_length. lia.
  Qed.

  Lemma gipa_size1 x a b ka kb kt y z : aux ([x], a :: b) (y :: ka, z :: kb, kt) = Ok (mk_gipa_proof [] (x, a), mk_gipa_aux [] (y, z)).
  Proof. reflexivity. Qed.

  Theorem C87_gipa_proves a b ka kb kt : digest16 D -> sizes_fit (length a) (length b) (length ka) (length kb) ->
    aux (a, b) (ka, kb, [kt]) = Loop \/ exists proof x, aux (a, b) (ka, kb, [kt]) = Ok (proof, x).
  Proof using LA LB LT LI.
    intros HD [[k [Ha [Hb [Hka Hkb]]]]|[Ha [Hb [Hka Hkb]]]].
    - eapply (prove_with_aux_outcome D fuel dA dB dT fA fB fT th LMC RMC IPC ip LA LB LT LI k); auto.
    - apply list_1 in Ha as [x ->]. destruct b as [|y b]; [cbn in Hb; lia|]. destruct ka as [|z ka]; [cbn in Hka; lia|].
      destruct kb as [|w kb]; [cbn in Hkb; lia|]. right. rewrite gipa_size1. eauto.
  Qed.

  (** the three theorems cover all sizes *)
  Lemma sizes_cases n nb nka nkb :
    ((forall k, n <> 2 ^ k) \/ short n nb \/ short n nka \/ short n nkb) \/ sizes_fit n nb nka nkb \/
    exists k, n = 2 ^ S k /\ ~ short (2 ^ S k) nb /\ ~ short (2 ^ S k) nka /\ ~ short (2 ^ S k) nkb /\
      ~ (nb = 2 ^ S k /\ nka = 2 ^ S k /\ nkb = 2 ^ S k).
  Proof.
    clear. destruct (pow2_cases n) as [[[|k] ->]|H]; [| |now left; left].
    - unfold short. change (Nat.max 1 (2 ^ 0 / 2)) with 1.
      destruct (Nat.eq_dec nb 0); [left; right; left; lia|]. destruct (Nat.eq_dec nka 0); [left; right; right; left; lia|].
      destruct (Nat.eq_dec nkb 0); [left; right; right; right; lia|].
      right. left. right. cbn [Nat.pow]. lia.
    - destruct (Nat.lt_ge_cases nb (2 ^ k)) as [H1|H1]; [left; right; left; now apply short_S|].
      destruct (Nat.lt_ge_cases nka (2 ^ k)) as [H2|H2]; [left; right; right; left; now apply short_S|].
      destruct (Nat.lt_ge_cases nkb (2 ^ k)) as [H3|H3]; [left; right; right; right; now apply short_S|].
      right. rewrite <- Nat.nlt_ge, <- short_S in H1, H2, H3.
      destruct (Nat.eq_dec nb (2 ^ S k)) as [E1|E1]; [|right; exists k; tauto].
      destruct (Nat.eq_dec nka (2 ^ S k)) as [E2|E2]; [|right; exists k; tauto].
      destruct (Nat.eq_dec nkb (2 ^ S k)) as [E3|E3]; [|right; exists k; tauto].
      left. left. exists (S k). auto.
  Qed.

  Lemma aux_not_fit a b ka kb kt :
    checks_lengths LMC -> ip_checks ip -> checks_lengths RMC \/ (accepts_all RMC /\ length kb = length b) ->
    ~ sizes_fit (length a) (length b) (length ka) (length kb) ->
    aux (a, b) (ka, kb, [kt]) = Panic \/ exists e, aux (a, b) (ka, kb, [kt]) = Err e.
  Proof using LA LB LT LI.
    intros CA CI CB Hn. destruct (sizes_cases (length a) (length b) (length ka) (length kb)) as [H|[H|[k [H1 [H2 [H3 [H4 H5]]]]]]].
    - left. now apply C87_gipa_panics.
    - contradiction.
    - right. destruct (C87_gipa_refuses k a b ka kb kt CA CI CB H1 H2 H3 H4 H5) as [l [r [E _]]]. eauto.
  Qed.

  Theorem C87_gipa_iff a b ka kb kt : digest16 D -> rounds_end OA OB OT D fuel ->
    checks_lengths LMC -> ip_checks ip -> checks_lengths RMC \/ (accepts_all RMC /\ length kb = length b) ->
    (exists proof x, aux (a, b) (ka, kb, [kt]) = Ok (proof, x)) <-> sizes_fit (length a) (length b) (length ka) (length kb).
  Proof using LA LB LT LI.
    intros HD HL CA CI CB. split.
    - intros [p [x H]]. destruct (sizes_cases (length a) (length b) (length ka) (length kb)) as [H0|[H0|[k [H1 [H2 [H3 [H4 H5]]]]]]]; auto.
      + rewrite C87_gipa_panics in H by auto. discriminate.
      + destruct (C87_gipa_refuses k a b ka kb kt CA CI CB H1 H2 H3 H4 H5) as [l [r [E _]]]. congruence.
    - intros [[k [Ha [Hb [Hka Hkb]]]]|[Ha [Hb [Hka Hkb]]]].
      + eapply (prove_with_aux_live D fuel dA dB dT fA fB fT th LMC RMC IPC ip LA LB LT LI k); auto.
        now apply rounds_end_live.
      + apply list_1 in Ha as [x ->]. destruct b as [|y b]; [cbn in Hb; lia|]. destruct ka as [|z ka]; [cbn in Hka; lia|].
        destruct kb as [|w kb]; [cbn in Hkb; lia|]. rewrite gipa_size1. eauto.
  Qed.
End Gipa.
Print Assumptions C87_gipa_panics.
Print Assumptions C87_gipa_refuses.
Print Assumptions C87_gipa_proves.
Print Assumptions C87_gipa_iff.

(** ** Opening the folded commitment key *)
Lemma opening_outcome {K : field} {G : module K} (srs : list G) t (r c : K) : Forall (fun x => x <> f0) t -> r <> f0 ->
  (length srs = 2 * 2 ^ length t - 1 -> exists o, prove_ck_kzg_opening srs t r c = Ok o) /\
  (length srs <> 2 * 2 ^ length t - 1 -> prove_ck_kzg_opening srs t r c = Panic).
Proof.
  intros Ht Hr. unfold prove_ck_kzg_opening.
  destruct (poly_coefficients_from_transcript t r) as [l| | |] eqn:El;
    try (rewrite key_coefficients_ok in El; discriminate).
  destruct (key_coefficients_stripped t r l Ht Hr El) as [Hs Hl].
  assert (Hf : from_coefficients l = l) by exact Hs. cbn [rbind]. rewrite !Hf, Hl. split; intros Hn.
  - rewrite Hn, Nat.eqb_refl. cbn [rassert rbind].
    destruct (poly_div_linear (poly_sub l (from_coefficients [poly_eval_product_form t c r])) c) as [q [Hq _]]; [apply poly_sub_stripped|].
    rewrite Hq. cbn [rbind]. eexists. apply multiexp_ip_dot. now rewrite resize_length.
  - apply Nat.eqb_neq in Hn. now rewrite Hn.
Qed.

Lemma two_pow_S k : 2 * 2 ^ S k - 1 = 2 ^ S (S k) - 1.
Proof. reflexivity. Qed.

Section Tipa.
  Context {R : Type} {P : pairing} {MA MB MT KT : module (pK P)} {OA OB OT : carrier (pK P)}.
  Notation K := (pK P).
  Variables (D : bytes -> bytes) (fuel : nat).
  Context {XA XB XT : module (pK P)} (dA : XA -> OA) (dB : XB -> OB) (dT : XT -> OT).
  Context (fA : pG2 P -> MA -> XA) (fB : pG1 P -> MB -> XB) (fT : KT -> MT -> XT) (th : MA -> MB -> MT).
  Variables (LMC : dhc R MA (pG2 P) OA) (RMC : dhc R MB (pG1 P) OB) (IPC : dhc R MT KT OT).
  Variable ip : list MA -> list MB -> res MT.
  Context (LA : lin_commit LMC dA fA) (LB : lin_commit RMC dB fB) (LT : ip_commit IPC dT fT) (LI : lin_ip ip th).
  Hypothesis HD : digest16 D.
  Hypothesis CA : checks_lengths LMC.
  Hypothesis CB : checks_lengths RMC.
  Hypothesis CI : ip_checks ip.
  Notation prove := (tipa_prove_with_srs_shift LMC RMC IPC ip D fuel).

  (** what TIPA needs: the same number 2, 4, 8, ... of everything *)
  Definition tipa_sizes (k : nat) (a : list MA) (b : list MB) (ka : list (pG2 P)) (kb : list (pG1 P)) : Prop :=
    length a = 2 ^ S k /\ length b = 2 ^ S k /\ length ka = 2 ^ S k /\ length kb = 2 ^ S k.
  Definition srs_sizes (k : nat) (s : srs P) : Prop :=
    length (h_beta_powers s) = 2 ^ S (S k) - 1 /\ length (g_alpha_powers s) = 2 ^ S (S k) - 1.

  Lemma tipa_given_gipa k s a b ka kb kt r proof x : tipa_sizes k a b ka kb ->
    gipa_prove_with_aux LMC RMC IPC ip D fuel (a, b) (ka, kb, [kt]) = Ok (proof, x) ->
    (r = f0 -> prove s (a, b) (ka, kb, kt) r = Panic) /\
    (r <> f0 -> exists payload,
      (rand_challenge (K := K) D fuel 0 payload = Loop -> prove s (a, b) (ka, kb, kt) r = Loop) /\
      forall c : K, rand_challenge D fuel 0 payload = Ok c ->
        (srs_sizes k s -> exists p, prove s (a, b) (ka, kb, kt) r = Ok p) /\
        (~ srs_sizes k s -> prove s (a, b) (ka, kb, kt) r = Panic)).
  Proof using.
    clear HD CA CB CI LA LB LT LI.
    intros [Ha [Hb [Hka Hkb]]] Hp.
    destruct (prove_with_aux_inv D fuel LMC RMC IPC ip (S k) a b ka kb [kt] proof x Ha Hb Hka Hkb Hp)
      as [cs [Hch [Hlen [Htr _]]]].
    assert (Hnz := chain_nonzero _ _ _ _ _ Hch).
    assert (Hlcs := chain_length _ _ _ _ _ Hch). rewrite rev_length, Hlen in Hlcs.
    assert (Hnr : Forall (fun x => x <> f0) (rev cs)) by now apply Forall_rev.
    assert (Hlr : length (rev cs) = S k) by now rewrite rev_length.
    destruct (rev_chain_hd cs k Hlcs) as [t0 Ht0].
    assert (Hni : Forall (fun x => x <> f0) (map finv (rev cs))) by now apply map_finv_neq0.
    assert (Hli : length (map finv (rev cs)) = S k) by now rewrite map_length.
    unfold tipa_prove_with_srs_shift. rewrite Hp. cbn [rbind].
    destruct (ga_ck_base x) as [fa fb]. rewrite Htr, invert_all_ok by auto. cbn [rbind].
    split; intros Hr.
    - subst r. now rewrite finverse_0.
    - rewrite finverse_neq by auto. cbn [runwrap rbind]. rewrite Ht0. cbn [runwrap rbind].
      eexists. split; [intros ->; reflexivity|]. intros c ->. cbn [rbind].
      destruct (opening_outcome (h_beta_powers s) (map finv (rev cs)) (finv r) c Hni (finv_neq0 K r Hr)) as [O1 P1].
      destruct (opening_outcome (g_alpha_powers s) (rev cs) f1 c Hnr (f1_neq_f0 K)) as [O2 P2].
      rewrite Hli, two_pow_S in O1, P1. rewrite Hlr, two_pow_S in O2, P2. split.
      + intros [S1 S2]. destruct (O1 S1) as [o1 ->]. destruct (O2 S2) as [o2 ->]. cbn [rbind]. eauto.
      + intros Hs. destruct (Nat.eq_dec (length (h_beta_powers s)) (2 ^ S (S k) - 1)) as [S1|S1].
        * destruct (O1 S1) as [o1 ->]. cbn [rbind]. rewrite P2; [reflexivity|]. intros S2. now apply Hs.
        * now rewrite P1.
  Qed.

  (** well-formed inputs: a proof, or the search for a challenge goes on *)
  Theorem C87_tipa_proves k s a b ka kb kt r : tipa_sizes k a b ka kb -> srs_sizes k s -> r <> f0 ->
    prove s (a, b) (ka, kb, kt) r = Loop \/ exists p, prove s (a, b) (ka, kb, kt) r = Ok p.
  Proof using LA LB LT LI HD.
    intros Hs Hss Hr. pose proof Hs as [Ha [Hb [Hka Hkb]]].
    destruct (prove_with_aux_outcome D fuel dA dB dT fA fB fT th LMC RMC IPC ip LA LB LT LI (S k) a b ka kb kt)
      as [H|[proof [x H]]]; auto.
    - left. unfold tipa_prove_with_srs_shift. rewrite H. reflexivity.
    - destruct (tipa_given_gipa k s a b ka kb kt r proof x Hs H) as [_ HN]. destruct (HN Hr) as [pl [HL HO]].
      destruct (rand_challenge_outcome (K := K) D fuel 0 pl) as [E|[c E]]; [left; auto|right]. now apply (HO c E).
  Qed.

  (** every other input: no proof; and only a well-sized input can start a search *)
  Lemma tipa_sizes_of_run s a b ka kb kt r :
    (prove s (a, b) (ka, kb, kt) r = Loop \/ exists p, prove s (a, b) (ka, kb, kt) r = Ok p) ->
    exists k, tipa_sizes k a b ka kb.
  Proof using LA LB LT LI CA CB CI.
    intros H.
    destruct (sizes_cases (length a) (length b) (length ka) (length kb)) as [H0|[[[[|k] [Ha [Hb [Hka Hkb]]]]|[Ha [Hb [Hka Hkb]]]]|[k [H1 [H2 [H3 [H4 H5]]]]]]].
    - exfalso. unfold tipa_prove_with_srs_shift in H. rewrite C87_gipa_panics in H by auto. destruct H as [H|[p H]]; discriminate.
    - exfalso. apply list_1 in Ha as [x ->]. apply list_1 in Hb as [y ->]. apply list_1 in Hka as [z ->]. apply list_1 in Hkb as [w ->].
      unfold tipa_prove_with_srs_shift in H. rewrite gipa_size1 in H. cbn [rbind ga_ck_base ga_transcript invert_all rmapM] in H.
      destruct (finverse r); destruct H as [H|[p H]]; discriminate.
    - exists k. repeat split; auto.
    - exfalso. apply list_1 in Ha as [x ->]. destruct b as [|y b]; [cbn in Hb; lia|]. destruct ka as [|z ka]; [cbn in Hka; lia|].
      destruct kb as [|w kb]; [cbn in Hkb; lia|].
      unfold tipa_prove_with_srs_shift in H. rewrite gipa_size1 in H. cbn [rbind ga_ck_base ga_transcript invert_all rmapM] in H.
      destruct (finverse r); destruct H as [H|[p H]]; discriminate.
    - exfalso. destruct (C87_gipa_refuses D fuel dA dB dT fA fB fT th LMC RMC IPC ip LA LB LT LI k a b ka kb kt CA CI (or_introl CB) H1 H2 H3 H4 H5) as [l [rr [E _]]].
      unfold tipa_prove_with_srs_shift in H. rewrite E in H. destruct H as [H|[p H]]; discriminate.
  Qed.

  Theorem C87_tipa_ok s a b ka kb kt r p : prove s (a, b) (ka, kb, kt) r = Ok p ->
    r <> f0 /\ exists k, tipa_sizes k a b ka kb /\ srs_sizes k s.
  Proof using LA LB LT LI CA CB CI.
    intros H. destruct (tipa_sizes_of_run s a b ka kb kt r (or_intror (ex_intro _ p H))) as [k Hk].
    destruct (gipa_prove_with_aux LMC RMC IPC ip D fuel (a, b) (ka, kb, [kt])) as [[proof x]| | |] eqn:E;
      try (unfold tipa_prove_with_srs_shift in H; rewrite E in H; discriminate).
    destruct (tipa_given_gipa k s a b ka kb kt r proof x Hk E) as [H0 H1].
    destruct (f_eq_dec K r f0) as [->|Hr]; [rewrite H0 in H by auto; discriminate|]. split; [exact Hr|].
    exists k. split; [exact Hk|]. destruct (H1 Hr) as [pl [HL HO]].
    destruct (rand_challenge_outcome (K := K) D fuel 0 pl) as [Ec|[c Ec]]; [rewrite HL in H by auto; discriminate|].
    destruct (HO c Ec) as [_ HN].
    destruct (Nat.eq_dec (length (h_beta_powers s)) (2 ^ S (S k) - 1)) as [S1|S1]; [|rewrite HN in H by (intros [? ?]; auto); discriminate].
    destruct (Nat.eq_dec (length (g_alpha_powers s)) (2 ^ S (S k) - 1)) as [S2|S2]; [|rewrite HN in H by (intros [? ?]; auto); discriminate].
    now split.
  Qed.

  Theorem C87_tipa_loop s a b ka kb kt r : prove s (a, b) (ka, kb, kt) r = Loop -> exists k, tipa_sizes k a b ka kb.
  Proof using LA LB LT LI CA CB CI. intros H. apply (tipa_sizes_of_run s a b ka kb kt r). now left. Qed.

  Theorem C87_tipa_iff s a b ka kb kt r : rounds_end OA OB OT D fuel -> draws_end K D fuel ->
    (exists p, prove s (a, b) (ka, kb, kt) r = Ok p) <-> r <> f0 /\ exists k, tipa_sizes k a b ka kb /\ srs_sizes k s.
  Proof using LA LB LT LI CA CB CI HD.
    intros HL1 HL2. split.
    - intros [p H]. now apply (C87_tipa_ok s a b ka kb kt r p).
    - intros [Hr [k [Hk Hs]]]. pose proof Hk as [Ha [Hb [Hka Hkb]]].
      destruct (prove_with_aux_live D fuel dA dB dT fA fB fT th LMC RMC IPC ip LA LB LT LI (S k) a b ka kb kt)
        as [proof [x H]]; auto; [now apply rounds_end_live|].
      destruct (tipa_given_gipa k s a b ka kb kt r proof x Hk H) as [_ HN]. destruct (HN Hr) as [pl [_ HO]].
      destruct (draws_end_live K D fuel HL2 pl) as [c E]. now apply (HO c E).
  Qed.
End Tipa.
Print Assumptions C87_tipa_proves.
Print Assumptions C87_tipa_ok.
Print Assumptions C87_tipa_loop.
Print Assumptions C87_tipa_iff.

(** ** Provers for a public scalar base *)
Section Gssm.
  Context {R : Type} {K : field} {MA MT KA KT : module K} {OA OT : carrier K}.
  Variables (D : bytes -> bytes) (fuel : nat).
  Context {XA XT : module K} (dA : XA -> OA) (dT : XT -> OT).
  Context (fA : KA -> MA -> XA) (fT : KT -> MT -> XT) (th : MA -> fmod K -> MT).
  Variables (LMC : dhc R MA KA OA) (IPC : dhc R MT KT OT).
  Variable ip : list MA -> list (fmod K) -> res MT.
  Context (LA : lin_commit LMC dA fA) (LT : ip_commit IPC dT fT) (LI : lin_ip ip th).
  Hypothesis HD : digest16 D.
  Hypothesis CA : checks_lengths LMC.
  Hypothesis CI : ip_checks ip.
  Notation RMC := (ssm_placeholder (R := R) K).
  Notation fB := (fun (_ : unitmod K) (_ : fmod K) => (m0 : fmod K)).
  Notation OB := (mod_carrier (fmod K)).

  Lemma placeholder_ok (b : list (fmod K)) :
    checks_lengths RMC \/ (accepts_all RMC /\ length (repeat (tt : unitmod K) (length b)) = length b).
  Proof using. right. split; [apply placeholder_accepts|apply repeat_length]. Qed.

  Theorem C87_gssm_ends a b ka kt : 
    (sizes_fit (length a) (length b) (length ka) (length b) ->
      gssm_prove LMC IPC ip D fuel (a, b) (ka, kt) = Loop \/ exists p, gssm_prove LMC IPC ip D fuel (a, b) (ka, kt) = Ok p) /\
    (~ sizes_fit (length a) (length b) (length ka) (length b) ->
      gssm_prove LMC IPC ip D fuel (a, b) (ka, kt) = Panic \/ exists e, gssm_prove LMC IPC ip D fuel (a, b) (ka, kt) = Err e).
  Proof using LA LT LI HD CA CI.
    unfold gssm_prove. cbn [snd]. pose proof (placeholder_ok b) as CB. pose proof (repeat_length (tt : unitmod K) (length b)) as HL. split; intros H.
    - destruct (C87_gipa_proves D fuel dA mid dT fA fB fT th LMC RMC IPC ip LA (ssm_placeholder_law K) LT LI a b ka
        (repeat (tt : unitmod K) (length b)) kt HD) as [E|[p [x E]]]; [now rewrite HL| |]; rewrite E; cbn [rbind]; eauto.
    - destruct (aux_not_fit D fuel dA mid dT fA fB fT th LMC RMC IPC ip LA (ssm_placeholder_law K) LT LI a b ka
        (repeat (tt : unitmod K) (length b)) kt CA CI CB) as [E|[e E]]; [now rewrite HL| |]; rewrite E; cbn [rbind]; eauto.
  Qed.

  Theorem C87_gssm_iff a b ka kt : rounds_end OA OB OT D fuel ->
    (exists p, gssm_prove LMC IPC ip D fuel (a, b) (ka, kt) = Ok p) <->
    sizes_fit (length a) (length b) (length ka) (length b).
  Proof using LA LT LI HD CA CI.
    intros HL. pose proof (repeat_length (tt : unitmod K) (length b)) as HR.
    pose proof (C87_gipa_iff D fuel dA mid dT fA fB fT th LMC RMC IPC ip LA (ssm_placeholder_law K) LT LI a b ka
        (repeat (tt : unitmod K) (length b)) kt HD HL CA CI (placeholder_ok b)) as H. rewrite HR in H. rewrite <- H.
    unfold gssm_prove. cbn [snd]. split.
    - intros [p E]. apply rbind_ok in E as [[p' x] [E _]]. eauto.
    - intros [p [x E]]. rewrite E. cbn [rbind]. eauto.
  Qed.
End Gssm.
Print Assumptions C87_gssm_ends.
Print Assumptions C87_gssm_iff.

Section Tssm.
  Context {R : Type} {P : pairing} {MA MT KT : module (pK P)} {OA OT : carrier (pK P)}.
  Notation K := (pK P).
  Variables (D : bytes -> bytes) (fuel : nat).
  Context {XA XT : module (pK P)} (dA : XA -> OA) (dT : XT -> OT).
  Context (fA : pG2 P -> MA -> XA) (fT : KT -> MT -> XT) (th : MA -> fmod K -> MT).
  Variables (LMC : dhc R MA (pG2 P) OA) (IPC : dhc R MT KT OT).
  Variable ip : list MA -> list (fmod K) -> res MT.
  Context (LA : lin_commit LMC dA fA) (LT : ip_commit IPC dT fT) (LI : lin_ip ip th).
  Hypothesis HD : digest16 D.
  Hypothesis CA : checks_lengths LMC.
  Hypothesis CI : ip_checks ip.
  Notation RMC := (ssm_placeholder (R := R) K).
  Notation fB := (fun (_ : unitmod K) (_ : fmod K) => (m0 : fmod K)).
  Notation OB := (mod_carrier (fmod K)).
  Notation prove := (tssm_prove LMC IPC ip D fuel).

  Definition tssm_sizes (k : nat) (a : list MA) (b : list (fmod K)) (ka : list (pG2 P)) : Prop :=
    length a = 2 ^ S k /\ length b = 2 ^ S k /\ length ka = 2 ^ S k.

  Lemma tssm_given_gipa k s a b ka kt proof x : tssm_sizes k a b ka ->
    gipa_prove_with_aux LMC RMC IPC ip D fuel (a, b) (ka, repeat (tt : unitmod K) (length b), [kt]) = Ok (proof, x) ->
    exists payload,
      (rand_challenge (K := K) D fuel 0 payload = Loop -> prove s (a, b) (ka, kt) = Loop) /\
      forall c : K, rand_challenge D fuel 0 payload = Ok c ->
        (length (h_beta_powers s) = 2 ^ S (S k) - 1 -> exists p, prove s (a, b) (ka, kt) = Ok p) /\
        (length (h_beta_powers s) <> 2 ^ S (S k) - 1 -> prove s (a, b) (ka, kt) = Panic).
  Proof using.
    clear HD CA CI LA LT LI.
    intros [Ha [Hb Hka]] Hp.
    destruct (prove_with_aux_inv D fuel LMC RMC IPC ip (S k) a b ka _ [kt] proof x Ha Hb Hka (eq_trans (repeat_length _ _) Hb) Hp)
      as [cs [Hch [Hlen [Htr _]]]].
    assert (Hnz := chain_nonzero _ _ _ _ _ Hch).
    assert (Hlcs := chain_length _ _ _ _ _ Hch). rewrite rev_length, Hlen in Hlcs.
    assert (Hnr : Forall (fun x => x <> f0) (rev cs)) by now apply Forall_rev.
    assert (Hlr : length (rev cs) = S k) by now rewrite rev_length.
    destruct (rev_chain_hd cs k Hlcs) as [t0 Ht0].
    assert (Hni : Forall (fun x => x <> f0) (map finv (rev cs))) by now apply map_finv_neq0.
    assert (Hli : length (map finv (rev cs)) = S k) by now rewrite map_length.
    unfold tssm_prove. cbn [snd]. rewrite Hp. cbn [rbind].
    destruct (ga_ck_base x) as [fa fb]. rewrite Htr, invert_all_ok by auto. cbn [rbind].
    rewrite Ht0. cbn [runwrap rbind].
    eexists. split; [intros ->; reflexivity|]. intros c ->. cbn [rbind].
    destruct (opening_outcome (h_beta_powers s) (map finv (rev cs)) f1 c Hni (f1_neq_f0 K)) as [O1 P1].
    rewrite Hli, two_pow_S in O1, P1. split; intros H1.
    - destruct (O1 H1) as [o ->]. cbn [rbind]. eauto.
    - now rewrite P1.
  Qed.

  Theorem C87_tssm_proves k s a b ka kt : tssm_sizes k a b ka -> length (h_beta_powers s) = 2 ^ S (S k) - 1 ->
    prove s (a, b) (ka, kt) = Loop \/ exists p, prove s (a, b) (ka, kt) = Ok p.
  Proof using LA LT LI HD.
    intros Hs Hss. pose proof Hs as [Ha [Hb Hka]].
    destruct (prove_with_aux_outcome D fuel dA mid dT fA fB fT th LMC RMC IPC ip LA (ssm_placeholder_law K) LT LI (S k) a b ka
       (repeat (tt : unitmod K) (length b)) kt HD Ha Hb Hka (eq_trans (repeat_length _ _) Hb))
      as [H|[proof [x H]]].
    - left. unfold tssm_prove. cbn [snd]. rewrite H. reflexivity.
    - destruct (tssm_given_gipa k s a b ka kt proof x Hs H) as [pl [HL HO]].
      destruct (rand_challenge_outcome (K := K) D fuel 0 pl) as [E|[c E]]; [left; auto|right]. now apply (HO c E).
  Qed.

  Lemma tssm_sizes_of_run s a b ka kt :
    (prove s (a, b) (ka, kt) = Loop \/ exists p, prove s (a, b) (ka, kt) = Ok p) -> exists k, tssm_sizes k a b ka.
  Proof using LA LT LI CA CI.
    intros H. pose proof (repeat_length (tt : unitmod K) (length b)) as HR.
    unfold tssm_prove in H. cbn [snd] in H.
    destruct (sizes_cases (length a) (length b) (length ka) (length b)) as [H0|[[[[|k] [Ha [Hb [Hka _]]]]|[Ha [Hb [Hka _]]]]|[k [H1 [H2 [H3 [H4 H5]]]]]]].
    - exfalso. rewrite C87_gipa_panics in H by (rewrite HR; auto). destruct H as [H|[p H]]; discriminate.
    - exfalso. apply list_1 in Ha as [x ->]. apply list_1 in Hb as [y ->]. apply list_1 in Hka as [z ->].
      cbn [length repeat] in H. rewrite gipa_size1 in H. destruct H as [H|[p H]]; discriminate.
    - exists k. repeat split; auto.
    - exfalso. apply list_1 in Ha as [x ->]. destruct b as [|y b]; [cbn in Hb; lia|]. destruct ka as [|z ka]; [cbn in Hka; lia|].
      cbn [length repeat] in H. rewrite gipa_size1 in H. destruct H as [H|[p H]]; discriminate.
    - exfalso. destruct (C87_gipa_refuses D fuel dA mid dT fA fB fT th LMC RMC IPC ip LA (ssm_placeholder_law K) LT LI k a b ka
        (repeat (tt : unitmod K) (length b)) kt CA CI (placeholder_ok b)) as [l [rr [E _]]]; rewrite ?HR; auto.
      rewrite E in H. destruct H as [H|[p H]]; discriminate.
  Qed.

  Theorem C87_tssm_ok s a b ka kt p : prove s (a, b) (ka, kt) = Ok p ->
    exists k, tssm_sizes k a b ka /\ length (h_beta_powers s) = 2 ^ S (S k) - 1.
  Proof using LA LT LI CA CI.
    intros H. destruct (tssm_sizes_of_run s a b ka kt (or_intror (ex_intro _ p H))) as [k Hk].
    destruct (gipa_prove_with_aux LMC RMC IPC ip D fuel (a, b) (ka, repeat (tt : unitmod K) (length b), [kt])) as [[proof x]| | |] eqn:E;
      try (unfold tssm_prove in H; cbn [snd] in H; rewrite E in H; discriminate).
    exists k. split; [exact Hk|]. destruct (tssm_given_gipa k s a b ka kt proof x Hk E) as [pl [HL HO]].
    destruct (rand_challenge_outcome (K := K) D fuel 0 pl) as [Ec|[c Ec]]; [rewrite HL in H by auto; discriminate|].
    destruct (HO c Ec) as [_ HN].
    destruct (Nat.eq_dec (length (h_beta_powers s)) (2 ^ S (S k) - 1)) as [S1|S1]; [exact S1|rewrite HN in H by auto; discriminate].
  Qed.

  Theorem C87_tssm_loop s a b ka kt : prove s (a, b) (ka, kt) = Loop -> exists k, tssm_sizes k a b ka.
  Proof using LA LT LI CA CI. intros H. apply (tssm_sizes_of_run s a b ka kt). now left. Qed.

  Theorem C87_tssm_iff s a b ka kt : rounds_end OA OB OT D fuel -> draws_end K D fuel ->
    (exists p, prove s (a, b) (ka, kt) = Ok p) <->
    exists k, tssm_sizes k a b ka /\ length (h_beta_powers s) = 2 ^ S (S k) - 1.
  Proof using LA LT LI CA CI HD.
    intros HL1 HL2. split.
    - intros [p H]. now apply (C87_tssm_ok s a b ka kt p).
    - intros [k [Hk Hs]]. pose proof Hk as [Ha [Hb Hka]].
      destruct (prove_with_aux_live D fuel dA mid dT fA fB fT th LMC RMC IPC ip LA (ssm_placeholder_law K) LT LI (S k) a b ka
       (repeat (tt : unitmod K) (length b)) kt (rounds_end_live D fuel HD HL1) Ha Hb Hka (eq_trans (repeat_length _ _) Hb))
        as [proof [x H]].
      destruct (tssm_given_gipa k s a b ka kt proof x Hk H) as [pl [_ HO]].
      destruct (draws_end_live K D fuel HL2 pl) as [c E]. now apply (HO c E).
  Qed.
End Tssm.
Print Assumptions C87_tssm_proves.
Print Assumptions C87_tssm_ok.
Print Assumptions C87_tssm_loop.
Print Assumptions C87_tssm_iff.

(** ** Groth16 aggregation, for any reference string *)
Section Groth.
  Context {R : Type} (P : pairing) (E : penv) (HE : 1 <= threads E) (D : bytes -> bytes) (fuel : nat).
  Notation K := (pK P).
  Variables (r1 : sampler R (pG1 P)) (r2 : sampler R (pG2 P)).
  Add Field KfProv : (f_theory (pK P)).
  Hypothesis HD : digest16 D.
  Notation aggregate := (g16_aggregate (R := R) P E D fuel r1 r2).

  (** the three commitments: to the A's, B's and C's of the proofs under every second power *)
  Definition sum_a (s : srs P) (pfs : list (g16_proof P)) : pGT P :=
    big (length pfs) (fun i => pr_e P (at_ (map pf_a pfs) i) (at_ (h_beta_powers s) (2 * i))).
  Definition sum_b (s : srs P) (pfs : list (g16_proof P)) : pGT P :=
    big (length pfs) (fun i => pr_e P (at_ (g_alpha_powers s) (2 * i)) (at_ (map pf_b pfs) i)).
  Definition sum_c (s : srs P) (pfs : list (g16_proof P)) : pGT P :=
    big (length pfs) (fun i => pr_e P (at_ (map pf_c pfs) i) (at_ (h_beta_powers s) (2 * i))).
  Definition drawn_challenge (s : srs P) (pfs : list (g16_proof P)) : res K :=
    rand_challenge D fuel 0 (mser (sum_a s pfs) ++ mser (sum_b s pfs) ++ mser (sum_c s pfs)).

  Theorem C87_groth16_ok s pfs p : aggregate s pfs = Ok p ->
    exists k, length pfs = 2 ^ S k /\ srs_sizes k s.
  Proof using HE.
    intros H. unfold g16_aggregate in H.
    destruct (get_commitment_keys s) as [ka kb].
    do 4 (apply rbind_ok in H as [? [_ H]]). apply rbind_ok in H as [rv [_ H]]. do 5 (apply rbind_ok in H as [? [_ H]]).
    apply rbind_ok in H as [pr [H _]].
    apply (C87_tipa_ok D fuel mid mid idout (phi_g1 P) (pr_e P) psi_id (pr_e P)
      (afgho_g1 P E r2) (afgho_g2 P E r1) (identity (R := R) (pGT P)) (pairing_ip P E)
      (afgho_g1_law P E HE r2) (afgho_g2_law P E HE r1) (identity_law _) (pairing_ip_law P E HE)
      (afgho_g1_checks P E r2) (afgho_g2_checks P E r1) (pairing_ip_checks P E)) in H.
    destruct H as [_ [k [[_ [Hb _]] Hs]]]. exists k. rewrite map_length in Hb. auto.
  Qed.

  Section Sized.
    Variables (k : nat) (s : srs P) (pfs : list (g16_proof P)).
    Hypothesis Hn : length pfs = 2 ^ S k.
    Hypothesis Hs : srs_sizes k s.
    Let ka := step_by2 (h_beta_powers s).
    Let kb := step_by2 (g_alpha_powers s).

    Lemma half_size l : l = 2 ^ S (S k) - 1 -> (l + 1) / 2 = 2 ^ S k.
    Proof using. clear; intros ->. pose proof (pow2_pos (S (S k))). replace (2 ^ S (S k) - 1 + 1) with (2 ^ S (S k)) by lia. apply pow2_half. Qed.
    Lemma key_sizes : length ka = 2 ^ S k /\ length kb = 2 ^ S k.
    Proof using Hs. destruct Hs as [H1 H2]. unfold ka, kb. rewrite !step_by2_length. split; now apply half_size. Qed.

    Lemma agg_head :
      aggregate s pfs =
      (do r <- drawn_challenge s pfs;
       do r_vec <- structured_scalar_power (length pfs) r;
       let a_r := zipw (fun a r => r *m a) (map pf_a pfs) r_vec in
       do ip_ab <- pairing_ip P E a_r (map pf_b pfs);
       do agg_c <- multiexp_ip (pG1 P) (map pf_c pfs) r_vec;
       do ck_1_r <- rmapM (fun p => do ri <- runwrap (finverse (snd p)); Ok (ri *m fst p)) (combine ka r_vec);
       do com_a' <- pairing_ip P E a_r ck_1_r;
       do _ <- rassert (meqb (sum_a s pfs) com_a');
       do p1 <- tipa_prove_with_srs_shift (afgho_g1 P E r2) (afgho_g2 P E r1) (identity (R := R) (pGT P)) (pairing_ip P E) D fuel s
                  (a_r, map pf_b pfs) (ck_1_r, kb, (tt : unitmod K)) r;
       do p2 <- tssm_prove (afgho_g1 P E r2) (identity (R := R) (pG1 P)) (multiexp_ip (pG1 P)) D fuel s
                  (map pf_c pfs, r_vec) (ka, (tt : unitmod K));
       Ok (mk_agg_proof (sum_a s pfs) (sum_b s pfs) (sum_c s pfs) ip_ab agg_c p1 p2)).
    Proof using HE Hn Hs.
      destruct key_sizes as [Lka Lkb]. unfold g16_aggregate. cbn [get_commitment_keys].
      unfold get_commitment_keys. fold ka kb.
      rewrite !C01_pairing_inner_product by (rewrite ?map_length; congruence). cbn [rbind].
      assert (Ea : pairing_sum P (map pf_a pfs) ka = sum_a s pfs).
      { unfold pairing_sum, sum_a. rewrite map_length. apply big_ext. intros i _. f_equal. unfold at_, ka. apply step_by2_nth. }
      assert (Eb : pairing_sum P kb (map pf_b pfs) = sum_b s pfs).
      { unfold pairing_sum, sum_b. rewrite Lkb, <- Hn. apply big_ext. intros i _. f_equal. unfold at_, kb. apply step_by2_nth. }
      assert (Ec : pairing_sum P (map pf_c pfs) ka = sum_c s pfs).
      { unfold pairing_sum, sum_c. rewrite map_length. apply big_ext. intros i _. f_equal. unfold at_, ka. apply step_by2_nth. }
      rewrite Ea, Eb, Ec. reflexivity.
    Qed.

    Lemma agg_tail r : drawn_challenge s pfs = Ok r -> r <> f0 -> exists ip_ab agg_c,
      aggregate s pfs =
      (do p1 <- tipa_prove_with_srs_shift (afgho_g1 P E r2) (afgho_g2 P E r1) (identity (R := R) (pGT P)) (pairing_ip P E) D fuel s
                  (shift_vec r (map pf_a pfs), map pf_b pfs) (shift_vec (finv r) ka, kb, (tt : unitmod K)) r;
       do p2 <- tssm_prove (afgho_g1 P E r2) (identity (R := R) (pG1 P)) (multiexp_ip (pG1 P)) D fuel s
                  (map pf_c pfs, powers (2 ^ S k) r) (ka, (tt : unitmod K));
       Ok (mk_agg_proof (sum_a s pfs) (sum_b s pfs) (sum_c s pfs) ip_ab agg_c p1 p2)).
    Proof using HE Hn Hs.
      intros Hc Hr. rewrite agg_head, Hc. destruct key_sizes as [Lka Lkb]. cbn [rbind].
      assert (La : length (map pf_a pfs) = 2 ^ S k) by (now rewrite map_length).
      assert (Lb : length (map pf_b pfs) = 2 ^ S k) by (now rewrite map_length).
      assert (Lc : length (map pf_c pfs) = 2 ^ S k) by (now rewrite map_length).
      rewrite structured_scalar_power_spec, Nat.max_l by (rewrite Hn; apply pow2_pos). cbn [rbind]. fold (powers (length pfs) r).
      rewrite Hn, zipw_shift by auto. cbv zeta.
      match goal with |- context [rmapM ?f ?l] => replace (rmapM f l) with (Ok (shift_vec (finv r) ka)) by (symmetry; exact (inverse_shift (P := P) ka r (2 ^ S k) Hr Lka)) end.
      assert (Lsa : length (shift_vec r (map pf_a pfs)) = 2 ^ S k) by (unfold shift_vec; now rewrite map_length, seq_length).
      assert (Lsk : length (shift_vec (finv r) ka) = 2 ^ S k) by (unfold shift_vec; now rewrite map_length, seq_length).
      cbv zeta. rewrite C01_pairing_inner_product by congruence. cbn [rbind].
      destruct (C02_multiexp_outcome _ _ (map pf_c pfs) (powers (2 ^ S k) r)) as [[H _]|[_ H]].
      { exfalso. apply H. rewrite Lc. symmetry. apply powers_length. }
      rewrite H. cbn [rbind].
      pose proof (C23_shift_commitment mid (phi_g1 P) (afgho_g1 P E r2) (afgho_g1_law P E HE r2) r ka (map pf_a pfs) Hr ltac:(congruence)) as HS.
      cbn [dh_commit afgho_g1] in HS. rewrite HS.
      rewrite C01_pairing_inner_product by congruence. cbn [rbind].
      assert (Ea : pairing_sum P (map pf_a pfs) ka = sum_a s pfs).
      { unfold pairing_sum, sum_a. rewrite map_length. apply big_ext. intros i _. f_equal. unfold at_, ka. apply step_by2_nth. }
      rewrite Ea, meqb_refl. cbn [rassert rbind]. eauto.
    Qed.

    Lemma agg_zero : drawn_challenge s pfs = Ok f0 -> aggregate s pfs = Panic.
    Proof using HE Hn Hs.
      intros Hc. rewrite agg_head, Hc. destruct key_sizes as [Lka Lkb]. cbn [rbind].
      assert (La : length (map pf_a pfs) = 2 ^ S k) by (now rewrite map_length).
      assert (Lb : length (map pf_b pfs) = 2 ^ S k) by (now rewrite map_length).
      assert (Lc : length (map pf_c pfs) = 2 ^ S k) by (now rewrite map_length).
      rewrite structured_scalar_power_spec, Nat.max_l by (rewrite Hn; apply pow2_pos). cbn [rbind]. fold (powers (K := K) (length pfs) f0).
      rewrite Hn, zipw_shift by auto.
      assert (Lsa : length (shift_vec f0 (map pf_a pfs)) = 2 ^ S k) by (unfold shift_vec; now rewrite map_length, seq_length).
      cbv zeta. rewrite C01_pairing_inner_product by congruence. cbn [rbind].
      destruct (C02_multiexp_outcome _ _ (map pf_c pfs) (powers (2 ^ S k) f0)) as [[H _]|[_ H]].
      { exfalso. apply H. rewrite Lc. symmetry. apply powers_length. }
      rewrite H. cbn [rbind].
      assert (Hn2 : exists m, 2 ^ S k = S (S m)).
      { exists (2 ^ S k - 2). cbn [Nat.pow]. pose proof (pow2_pos k). lia. }
      destruct Hn2 as [m Hm]. rewrite Hm in Lka |- *. destruct ka as [|g0 [|g1 gs]]; [discriminate|discriminate|].
      unfold powers. cbn [seq map fpow combine rmapM fst snd].
      rewrite finverse_neq by apply f1_neq_f0. cbn [runwrap rbind].
      replace (f0 *f f1 : K) with (f0 : K) by ring. rewrite finverse_0. reflexivity.
    Qed.

    Lemma parts_sizes r : tipa_sizes k (shift_vec r (map pf_a pfs)) (map pf_b pfs) (shift_vec (finv r) ka) kb /\
      tssm_sizes k (map pf_c pfs) (powers (2 ^ S k) r) ka.
    Proof using Hn Hs.
      destruct key_sizes as [Lka Lkb]. unfold tipa_sizes, tssm_sizes, shift_vec. rewrite !map_length, !seq_length.
      repeat split; auto. apply powers_length.
    Qed.

    Theorem C87_groth16_outcome :
      (drawn_challenge s pfs = Loop -> aggregate s pfs = Loop) /\
      (drawn_challenge s pfs = Ok f0 -> aggregate s pfs = Panic) /\
      (forall r, drawn_challenge s pfs = Ok r -> r <> f0 ->
        aggregate s pfs = Loop \/ exists p, aggregate s pfs = Ok p).
    Proof using HE HD Hn Hs.
      split; [|split; [apply agg_zero|]].
      - intros H. rewrite agg_head, H. reflexivity.
      - intros r Hc Hr. destruct (agg_tail r Hc Hr) as [x [y ->]]. destruct (parts_sizes r) as [Z1 Z2].
        destruct (C87_tipa_proves D fuel mid mid idout (phi_g1 P) (pr_e P) psi_id (pr_e P)
          (afgho_g1 P E r2) (afgho_g2 P E r1) (identity (R := R) (pGT P)) (pairing_ip P E)
          (afgho_g1_law P E HE r2) (afgho_g2_law P E HE r1) (identity_law _) (pairing_ip_law P E HE) HD k s _ _ _ _ (tt : unitmod K) r Z1 Hs Hr)
          as [H|[p1 H]]; rewrite H; [now left|]. cbn [rbind].
        destruct (C87_tssm_proves D fuel mid idout (phi_g1 P) psi_id smul (afgho_g1 P E r2) (identity (R := R) (pG1 P)) (multiexp_ip (pG1 P))
          (afgho_g1_law P E HE r2) (identity_law _) (multiexp_ip_law _) HD k s _ _ _ (tt : unitmod K) Z2 (proj1 Hs)) as [H2|[p2 H2]]; rewrite H2; [now left|].
        right. cbn [rbind]. eauto.
    Qed.

    Theorem C87_groth16_live :
      draws_end K D fuel ->
      rounds_end (mod_carrier (pGT P)) (mod_carrier (pGT P)) (identity_output (pGT P)) D fuel ->
      rounds_end (mod_carrier (pGT P)) (mod_carrier (fmod K)) (identity_output (pG1 P)) D fuel ->
      ((exists p, aggregate s pfs = Ok p) <-> drawn_challenge s pfs <> Ok f0).
    Proof using HE HD Hn Hs.
      intros L0 L1 L2. split.
      - intros [p H] H0. rewrite agg_zero in H by auto. discriminate.
      - intros H0. destruct (draws_end_live K D fuel L0 (mser (sum_a s pfs) ++ mser (sum_b s pfs) ++ mser (sum_c s pfs))) as [r Hc].
        change (drawn_challenge s pfs = Ok r) in Hc. assert (Hr : r <> f0) by congruence.
        destruct (agg_tail r Hc Hr) as [x [y ->]]. destruct (parts_sizes r) as [Z1 Z2].
        destruct (proj2 (C87_tipa_iff D fuel mid mid idout (phi_g1 P) (pr_e P) psi_id (pr_e P)
          (afgho_g1 P E r2) (afgho_g2 P E r1) (identity (R := R) (pGT P)) (pairing_ip P E)
          (afgho_g1_law P E HE r2) (afgho_g2_law P E HE r1) (identity_law _) (pairing_ip_law P E HE) HD
          (afgho_g1_checks P E r2) (afgho_g2_checks P E r1) (pairing_ip_checks P E) s _ _ _ _ (tt : unitmod K) r L1 L0)
          (conj Hr (ex_intro _ k (conj Z1 Hs)))) as [p1 H1]. rewrite H1. cbn [rbind].
        destruct (proj2 (C87_tssm_iff D fuel mid idout (phi_g1 P) psi_id smul (afgho_g1 P E r2) (identity (R := R) (pG1 P)) (multiexp_ip (pG1 P))
          (afgho_g1_law P E HE r2) (identity_law _) (multiexp_ip_law _) HD (afgho_g1_checks P E r2) (multiexp_ip_checks _) s _ _ _ (tt : unitmod K) L2 L0)
          (ex_intro _ k (conj Z2 (proj1 Hs)))) as [p2 H2]. rewrite H2. cbn [rbind]. eauto.
    Qed.
  End Sized.
End Groth.
Print Assumptions C87_groth16_ok.
Print Assumptions C87_groth16_outcome.
Print Assumptions C87_groth16_live.

(** ** Runs over the toy pairing *)
Definition ex_aux v k := outcome (gipa_prove_with_aux (ex_L ex_env) (ex_R ex_env) ex_T (pairing_ip ZPair ex_env) toy_digest 9 v k).
Definition ex_three : list ZM := zl [1; 2; 3]%Z.
Definition ex_two : list ZM := zl [1; 2]%Z.
(** three values; four values and one of the second message; four and three; one value and longer vectors; well-formed *)
Example C87_gipa_example :
  ex_aux (ex_three, ex_three) (ex_three, ex_three, [tt]) = Panic /\
  ex_aux (PropsGipa.ex_a, zl [1]%Z) (ex_ka, ex_kb, [tt]) = Panic /\
  ex_aux (PropsGipa.ex_a, ex_three) (ex_ka, ex_kb, [tt]) = Err (IPMessageLengthInvalid 2 1) /\
  ex_aux (PropsGipa.ex_a, PropsGipa.ex_b) (ex_ka, ex_three, [tt]) = Err (IPMessageLengthInvalid 1 2) /\
  ex_aux (zl [1]%Z, ex_three) (ex_two, ex_three, [tt]) = Ok tt /\
  ex_aux (PropsGipa.ex_a, PropsGipa.ex_b) (ex_ka, ex_kb, [tt]) = Ok tt.
Proof. vm_compute. repeat split; reflexivity. Qed.
Example C87_gipa_example_sizes : sizes_fit 4 4 4 4 /\ sizes_fit 1 3 2 3 /\ short 4 1 /\ ~ short 4 3 /\
  checks_lengths (ex_L ex_env) /\ checks_lengths (ex_R ex_env) /\ ip_checks (pairing_ip ZPair ex_env).
Proof.
  split; [left; exists 2; auto|]. split; [right; lia|]. unfold short. cbn. split; [lia|]. split; [lia|].
  split; [exact (afgho_g1_checks ZPair ex_env ex_rand)|]. split; [exact (afgho_g2_checks ZPair ex_env ex_rand)|exact (pairing_ip_checks ZPair ex_env)].
Qed.

(** reference string for 4 values: used with shift 7, with shift 0, for 2 values, for 1 value *)
Definition ex_shifted (n : nat) (r : zp) (l : list ZM) : res unit :=
  do s <- ex_srs 4; let '(ka, kb) := get_commitment_keys s in
  outcome (ex_tprove s (firstn n l, firstn n PropsGipa.ex_b) (firstn n ka, firstn n kb, tt) r).
Example C87_tipa_example :
  ex_shifted 4 (zq 7) PropsGipa.ex_a = Ok tt /\ ex_shifted 4 (zq 0) PropsGipa.ex_a = Panic /\
  ex_shifted 2 (zq 7) PropsGipa.ex_a = Panic /\ ex_shifted 1 (zq 7) PropsGipa.ex_a = Panic /\
  ex_shifted 4 (zq 7) ex_two = Err (IPMessageLengthInvalid 3 1).
Proof. vm_compute. repeat split; reflexivity. Qed.

Definition ex_ssm_sizes (n m l : nat) : res unit :=
  do mb <- structured_scalar_power (K := ZP) m (zq 3);
  outcome (ex_ssm_prove (firstn n PropsGipa.ex_a, mb) (firstn l ex_ka, tt)).
Example C87_gssm_example : ex_ssm_sizes 4 4 4 = Ok tt /\ ex_ssm_sizes 1 4 2 = Ok tt /\ ex_ssm_sizes 3 3 3 = Panic /\
  ex_ssm_sizes 4 3 4 = Err (IPMessageLengthInvalid 2 1).
Proof. vm_compute. repeat split; reflexivity. Qed.
Definition ex_tssm_sizes (n m : nat) : res unit :=
  do s <- ex_srs 4; let '(ka, _) := get_commitment_keys s in
  do mb <- structured_scalar_power (K := ZP) m (zq 3);
  outcome (tssm_prove (P := ZPair) (ex_L ex_env) ex_T (multiexp_ip ZM) toy_digest 9 s (firstn n PropsGipa.ex_a, mb) (ka, tt)).
Example C87_tssm_example : ex_tssm_sizes 4 4 = Ok tt /\ ex_tssm_sizes 2 2 = Err (IPMessageLengthInvalid 1 3) /\ ex_tssm_sizes 1 1 = Panic.
Proof. vm_compute. repeat split; reflexivity. Qed.

(** two proofs with the reference string for two and for four proofs *)
Definition ex_agg_sizes (n : nat) (pfs : list (g16_proof ZPair)) : res unit :=
  do s <- ex_srs n; outcome (g16_aggregate ZPair ex_env toy_digest 9 ex_rand ex_rand s pfs).
Example C87_groth16_example : ex_agg_sizes 2 ex_pfs = Ok tt /\ ex_agg_sizes 4 ex_pfs = Err (IPMessageLengthInvalid 2 4) /\
  ex_agg_sizes 2 (firstn 1 ex_pfs) = Err (IPMessageLengthInvalid 1 2) /\
  (do s <- ex_srs 2; Ok (length (h_beta_powers s), length (g_alpha_powers s))) = Ok (3, 3) /\
  (do s <- ex_srs 2; drawn_challenge ZPair toy_digest 9 s ex_pfs) = Ok (zq 66).
Proof. vm_compute. repeat split; reflexivity. Qed.

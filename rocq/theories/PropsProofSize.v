(** Property C86: honest proofs can be written and read back; their size in bytes. *)
Require Import List Arith NArith ZArith Lia Bool.
Import ListNotations.
Require Import Verif.Outcome Verif.Algebra Verif.Zp Verif.Rust Verif.InnerProducts Verif.Commitments
  Verif.Poly Verif.Gipa Verif.Tipa Verif.Ssm Verif.Floats Verif.PolyCommit Verif.Transparent Verif.Groth16 Verif.Wire Verif.Spec Verif.ListFacts Verif.RustFacts
  Verif.InnerProductFacts Verif.CommitFacts Verif.GipaFacts Verif.SerFacts
  Verif.PropsBase Verif.PropsGipa Verif.PropsTipa Verif.PropsSsm Verif.PropsPoly Verif.PropsGroth Verif.PropsWire Verif.PropsCost.

(** the encoding of every element of [dom] has [n] bytes *)
Definition sized {A} (c : codec A) (dom : A -> Prop) (n : nat) : Prop := forall a, dom a -> length (enc c a) = n.
Definition outputs {R K} {M Ky : module K} {O : carrier K} (C : dhc R M Ky O) (dom : O -> Prop) : Prop :=
  forall ks ms o, dh_commit C ks ms = Ok o -> dom o.
(** commitments to one value, as used for the inner product *)
Definition outputs1 {R K} {M Ky : module K} {O : carrier K} (C : dhc R M Ky O) (dom : O -> Prop) : Prop :=
  forall ks m o, dh_commit C ks [m] = Ok o -> dom o.

Lemma fixed_sized {A} (c : codec A) dom n : fixed_size c n -> sized c dom n.
Proof. intros H a _. apply H. Qed.

(** a vector that contains one element *)
Definition one_element {K} {T : module K} (o : identity_output T) : Prop := length o = 1.
Lemma identity_outputs1 {R K} (T : module K) : outputs1 (identity (R := R) T) one_element.
Proof. intros ks m o H. unfold identity in H. cbn [dh_commit] in H. injection H as <-. reflexivity. Qed.
Lemma identity_sized {K} {T : module K} (c : codec T) n : fixed_size c n -> sized (codec_identity_output c) one_element (8 + n).
Proof. intros H o Ho. unfold one_element in Ho. transitivity (8 + length (o : list T) * n); [exact (size_vec c n o H)|]. replace (length (o : list T)) with 1 by (symmetry; exact Ho). lia. Qed.
Lemma identity_roundtrip {K} {T : module K} (c : codec T) : roundtrip c always -> roundtrip (codec_identity_output c) one_element.
Proof. intros H o rest Ho. apply C67_identity_output; auto. rewrite Ho. unfold u64_bound. lia. Qed.

Section Gipa.
  Context {R : Type} {K : field} {MA MB MT KA KB KT : module K} {OA OB OT : carrier K}.
  Variables (LMC : dhc R MA KA OA) (RMC : dhc R MB KB OB) (IPC : dhc R MT KT OT).
  Variables (ip : list MA -> list MB -> res MT) (D : bytes -> bytes) (fuel : nat).
  Variables (dA : OA -> Prop) (dB : OB -> Prop) (dT : OT -> Prop).
  Hypothesis HA : outputs LMC dA.
  Hypothesis HB : outputs RMC dB.
  Hypothesis HT : outputs1 IPC dT.
  Definition step_dom (s : com3 OA OB OT * com3 OA OB OT) : Prop := com3_dom dA dB dT (fst s) /\ com3_dom dA dB dT (snd s).

  Lemma commit3_dom ka ma kb mb kt c : gipa_commit3 LMC RMC IPC ip ka ma kb mb kt = Ok c -> com3_dom dA dB dT c.
  Proof using HA HB HT.
    intros H. unfold gipa_commit3 in H. apply rbind_ok in H as [a [H1 H]]. apply rbind_ok in H as [b [H2 H]].
    apply rbind_ok in H as [v [_ H]]. apply rbind_ok in H as [t [H3 H]]. injection H as <-.
    repeat split; [eapply HA|eapply HB|eapply HT]; eassumption.
  Qed.
  Lemma prove_loop_dom : forall n a b ka kb kt st tr m c st' tr', Forall step_dom st ->
    gipa_prove_loop LMC RMC IPC ip D fuel n a b ka kb kt st tr = Ok (m, c, st', tr') -> Forall step_dom st'.
  Proof using HA HB HT.
    induction n as [|n IH]; intros a b ka kb kt st tr m c st' tr' Hst H; cbn [gipa_prove_loop] in H; destruct (length a =? 1).
    - do 4 (apply rbind_ok in H as [? [_ H]]). injection H as _ _ <- _. exact Hst.
    - discriminate.
    - do 4 (apply rbind_ok in H as [? [_ H]]). injection H as _ _ <- _. exact Hst.
    - cbv zeta in H. do 8 (apply rbind_ok in H as [? [_ H]]). apply rbind_ok in H as [c1 [H1 H]]. apply rbind_ok in H as [c2 [H2 H]].
      apply rbind_ok in H as [[cc cci] [_ H]]. eapply IH; [|exact H]. apply Forall_app. split; [exact Hst|].
      constructor; [|constructor]. split; cbn [fst snd]; eapply commit3_dom; eassumption.
  Qed.
  Lemma prove_aux_dom k a b ck proof aux : length a = 2 ^ k -> u64_bound k ->
    gipa_prove_with_aux LMC RMC IPC ip D fuel (a, b) ck = Ok (proof, aux) -> gipa_dom dA dB dT proof.
  Proof using HA HB HT.
    intros Ha Hk H. split; [erewrite prove_aux_rounds by eassumption; exact Hk|].
    destruct ck as [[ka kb] kt]. unfold gipa_prove_with_aux in H. apply rbind_ok in H as [? [_ H]].
    apply rbind_ok in H as [[[[m c] st] tr] [H1 H]]. injection H as <- _. cbn [gp_steps].
    apply prove_loop_dom in H1; [|constructor]. intros c1 c2 Hin. apply in_rev in Hin. rewrite Forall_forall in H1.
    exact (H1 _ Hin).
  Qed.

  Variables (cMA : codec MA) (cMB : codec MB) (cOA : codec OA) (cOB : codec OB) (cOT : codec OT).
  Variables (sA sB oA oB oT : nat).
  Hypothesis SA : fixed_size cMA sA.
  Hypothesis SB : fixed_size cMB sB.
  Hypothesis SOA : sized cOA dA oA.
  Hypothesis SOB : sized cOB dB oB.
  Hypothesis SOT : sized cOT dT oT.
  Definition gipa_bytes (k : nat) : nat := 8 + k * (2 * (oA + oB + oT)) + sA + sB.

  Lemma size_dom (p : gipa_proof MA MB OA OB OT) : gipa_dom dA dB dT p ->
    length (enc (codec_gipa cMA cMB cOA cOB cOT) p) = gipa_bytes (length (gp_steps p)).
  Proof using SA SB SOA SOB SOT.
    clear HA HB HT. destruct p as [steps [a b]]. intros [_ Hs]. cbn [gp_steps] in *.
    change (length (ser_list (enc (codec_pair (codec_com3 cOA cOB cOT) (codec_com3 cOA cOB cOT))) steps
      ++ enc cMA a ++ enc cMB b) = gipa_bytes (length steps)).
    rewrite !app_length, SA, SB. unfold gipa_bytes.
    cut (length (ser_list (enc (codec_pair (codec_com3 cOA cOB cOT) (codec_com3 cOA cOB cOT))) steps) = 8 + length steps * (2 * (oA + oB + oT))); [lia|].
    unfold ser_list. rewrite app_length.
    assert (H8 : length (u64_le (length steps)) = 8) by (unfold u64_le; now rewrite rev_length, be_bytes_length). rewrite H8. f_equal.
    assert (Hs' : forall s, In s steps -> com3_dom dA dB dT (fst s) /\ com3_dom dA dB dT (snd s)) by (intros [c1 c2] Hin; exact (Hs c1 c2 Hin)).
    clear Hs H8. induction steps as [|[[[x1 x2] x3] [[y1 y2] y3]] steps IH]; [reflexivity|].
    cbn [map concat flat_map length]. rewrite app_length, IH by (intros s Hin; apply Hs'; now right).
    destruct (Hs' _ (or_introl eq_refl)) as [(A1 & A2 & A3) (B1 & B2 & B3)].
    cbn [enc codec_pair codec_com3 fst snd]. rewrite !app_length.
    rewrite (SOA x1), (SOB x2), (SOT x3), (SOA y1), (SOB y2), (SOT y3) by assumption. lia.
  Qed.
End Gipa.

(** ** Specification: a value takes [n] bytes, and a reader of these bytes gets the value back and leaves what follows *)
Definition sent {A} (c : codec A) (n : nat) (a : A) : Prop :=
  length (enc c a) = n /\ forall rest, dec c (enc c a ++ rest) = Some (a, rest).
(** a codec whose every value takes [n] bytes and can be read back *)
Definition good_codec {A} (c : codec A) (n : nat) : Prop := forall a, sent c n a.

Lemma good_roundtrip {A} (c : codec A) n dom : good_codec c n -> roundtrip c dom.
Proof. intros H a rest _. apply H. Qed.
Lemma good_fixed {A} (c : codec A) n : good_codec c n -> fixed_size c n.
Proof. intros H a. apply H. Qed.
Lemma good_sized {A} (c : codec A) n dom : good_codec c n -> sized c dom n.
Proof. intros H a _. apply H. Qed.
#[local] Hint Resolve good_roundtrip good_fixed good_sized : good.


Section Gipa86.
  Context {R : Type} {K : field} {MA MB MT KA KB KT : module K} {OA OB OT : carrier K}.
  Variables (LMC : dhc R MA KA OA) (RMC : dhc R MB KB OB) (IPC : dhc R MT KT OT).
  Variables (ip : list MA -> list MB -> res MT) (D : bytes -> bytes) (fuel : nat).
  Variables (cMA : codec MA) (cMB : codec MB) (cOA : codec OA) (cOB : codec OB) (cOT : codec OT).
  Variables (sA sB oA oB oT : nat).

  Lemma aux_sent k a b ck proof aux :
    good_codec cMA sA -> good_codec cMB sB -> good_codec cOA oA -> good_codec cOB oB ->
    (forall ks m o, dh_commit IPC ks [m] = Ok o -> sent cOT oT o) ->
    length a = 2 ^ k -> u64_bound k ->
    gipa_prove_with_aux LMC RMC IPC ip D fuel (a, b) ck = Ok (proof, aux) ->
    gipa_dom (fun _ => True) (fun _ => True) (sent cOT oT) proof /\
    length (enc (codec_gipa cMA cMB cOA cOB cOT) proof) = 8 + k * (2 * (oA + oB + oT)) + sA + sB.
  Proof.
    intros GA GB GOA GOB GT Ha Hk H.
    assert (Hd : gipa_dom (fun _ => True) (fun _ => True) (sent cOT oT) proof).
    { eapply (prove_aux_dom LMC RMC IPC ip D fuel (fun _ => True) (fun _ => True) (sent cOT oT)); [now intros ? ? ?|now intros ? ? ?|exact GT|exact Ha|exact Hk|exact H]. }
    split; [exact Hd|]. rewrite <- (prove_aux_rounds LMC RMC IPC ip D fuel k a b ck proof aux Ha H).
    apply (size_dom (fun _ => True) (fun _ => True) (sent cOT oT)); eauto with good. now intros o [Ho _].
  Qed.
  Lemma dom_read (proof : gipa_proof MA MB OA OB OT) rest :
    good_codec cMA sA -> good_codec cMB sB -> good_codec cOA oA -> good_codec cOB oB ->
    gipa_dom (fun _ => True) (fun _ => True) (sent cOT oT) proof ->
    dec (codec_gipa cMA cMB cOA cOB cOT) (enc (codec_gipa cMA cMB cOA cOB cOT) proof ++ rest) = Some (proof, rest).
  Proof.
    intros GA GB GOA GOB Hd. eapply C67_gipa_roundtrip; [eauto with good ..|exact Hd]. now intros o r [_ Ho].
  Qed.

  (** ** GIPA: any commitment schemes.  [oT] is the size of a commitment to one value. *)
  Theorem C86_gipa k a b t ck com proof :
    good_codec cMA sA -> good_codec cMB sB -> good_codec cOA oA -> good_codec cOB oB ->
    (forall ks m o, dh_commit IPC ks [m] = Ok o -> sent cOT oT o) ->
    length a = 2 ^ k -> u64_bound k ->
    gipa_prove LMC RMC IPC ip D fuel (a, b, t) ck com = Ok proof ->
    sent (codec_gipa cMA cMB cOA cOB cOT) (8 + k * (2 * (oA + oB + oT)) + sA + sB) proof.
  Proof.
    intros GA GB GOA GOB GT Ha Hk H. unfold gipa_prove in H. destruct ck as [[ka kb] kt]. destruct com as [[c1 c2] c3].
    apply rbind_ok in H as [v [_ H]]. destruct (negb (meqb v t)); [discriminate|]. destruct (negb (count_ones (length a) =? 1)); [discriminate|].
    apply rbind_ok in H as [ok [_ H]]. destruct (negb ok); [discriminate|]. apply rbind_ok in H as [[p aux] [H1 H]]. injection H as ->.
    destruct (aux_sent k a b _ proof aux GA GB GOA GOB GT Ha Hk H1) as [Hd Hs]. split; [exact Hs|]. intros rest. now apply dom_read.
  Qed.
End Gipa86.

(** ** TIPA and its variants with a structured scalar message *)
Theorem C86_tipa {R} {P : pairing} {MA MB MT KT : module (pK P)} {OA OB OT : carrier (pK P)}
    (LMC : dhc R MA (pG2 P) OA) (RMC : dhc R MB (pG1 P) OB) (IPC : dhc R MT KT OT) ip D fuel
    (cG1 : codec (pG1 P)) (cG2 : codec (pG2 P)) (cMA : codec MA) (cMB : codec MB) (cOA : codec OA) (cOB : codec OB) (cOT : codec OT)
    g1 g2 sA sB oA oB oT k s a b ck r proof :
  good_codec cG1 g1 -> good_codec cG2 g2 ->
  good_codec cMA sA -> good_codec cMB sB -> good_codec cOA oA -> good_codec cOB oB ->
  (forall ks m o, dh_commit IPC ks [m] = Ok o -> sent cOT oT o) ->
  length a = 2 ^ k -> u64_bound k ->
  tipa_prove_with_srs_shift LMC RMC IPC ip D fuel s (a, b) ck r = Ok proof ->
  sent (codec_tipa cG1 cG2 cMA cMB cOA cOB cOT) (8 + k * (2 * (oA + oB + oT)) + sA + sB + 2 * (g1 + g2)) proof.
Proof.
  intros G1 G2 GA GB GOA GOB GT Ha Hk H. destruct ck as [[ka kb] kt]. unfold tipa_prove_with_srs_shift in H.
  apply rbind_ok in H as [[p aux] [H1 H]]. destruct (ga_ck_base aux) as [f2 f1']. cbv zeta in H.
  do 6 (apply rbind_ok in H as [? [_ H]]). injection H as <-.
  destruct (aux_sent LMC RMC IPC ip D fuel cMA cMB cOA cOB cOT sA sB oA oB oT k a b _ p aux GA GB GOA GOB GT Ha Hk H1) as [Hd Hs]. split.
  - unfold codec_tipa. cbn [enc codec_iso codec_pair fst snd tp_gipa tp_final_ck tp_final_ck_proof]. rewrite !app_length.
    etransitivity; [|apply f_equal2 with (f := Nat.add); [exact Hs|reflexivity]].
    cbn [enc codec_gipa codec_iso codec_pair fst snd]. rewrite !app_length.
    rewrite !(good_fixed cG1 g1 G1), !(good_fixed cG2 g2 G2). lia.
  - intros rest. eapply C67_tipa_roundtrip; [eauto with good ..|exact Hd]. now intros o q [_ Ho].
Qed.

Theorem C86_gssm {R} {K : field} {MA MT KA KT : module K} {OA OT : carrier K}
    (LMC : dhc R MA KA OA) (IPC : dhc R MT KT OT) ip D fuel
    (cF : codec K) (cMA : codec MA) (cOA : codec OA) (cOT : codec OT) sF sA oA oT k a b ck proof :
  good_codec cF sF -> good_codec cMA sA -> good_codec cOA oA ->
  (forall ks m o, dh_commit IPC ks [m] = Ok o -> sent cOT oT o) ->
  length a = 2 ^ k -> u64_bound k ->
  gssm_prove LMC IPC ip D fuel (a, b) ck = Ok proof ->
  sent (codec_gipa (MA := MA) (MB := fmod K) (OA := OA) (OB := mod_carrier (fmod K)) (OT := OT) cMA cF cOA cF cOT)
    (8 + k * (2 * (oA + sF + oT)) + sA + sF) proof.
Proof.
  intros GF GA GOA GT Ha Hk H. destruct ck as [ka kt]. unfold gssm_prove in H. apply rbind_ok in H as [[p aux] [H1 H]]. injection H as ->.
  destruct (aux_sent LMC (ssm_placeholder K) IPC ip D fuel cMA (cF : codec (fmod K)) cOA (cF : codec (mod_carrier (fmod K))) cOT sA sF oA sF oT
    k a b _ proof aux GA GF GOA GF GT Ha Hk H1) as [Hd Hs]. split; [exact Hs|]. intros rest.
  exact (dom_read (cMA) (cF : codec (fmod K)) cOA (cF : codec (mod_carrier (fmod K))) cOT sA sF oA sF oT proof rest GA GF GOA GF Hd).
Qed.

Theorem C86_tssm {R} {P : pairing} {MA MT KT : module (pK P)} {OA OT : carrier (pK P)}
    (LMC : dhc R MA (pG2 P) OA) (IPC : dhc R MT KT OT) ip D fuel
    (cF : codec (pK P)) (cG2 : codec (pG2 P)) (cMA : codec MA) (cOA : codec OA) (cOT : codec OT) sF g2 sA oA oT k s a b ck proof :
  good_codec cF sF -> good_codec cG2 g2 -> good_codec cMA sA -> good_codec cOA oA ->
  (forall ks m o, dh_commit IPC ks [m] = Ok o -> sent cOT oT o) ->
  length a = 2 ^ k -> u64_bound k ->
  tssm_prove LMC IPC ip D fuel s (a, b) ck = Ok proof ->
  sent (codec_tssm cF cG2 cMA cOA cOT) (8 + k * (2 * (oA + sF + oT)) + sA + sF + 2 * g2) proof.
Proof.
  intros GF G2 GA GOA GT Ha Hk H. destruct ck as [ka kt]. unfold tssm_prove in H. apply rbind_ok in H as [[p aux] [H1 H]].
  destruct (ga_ck_base aux) as [f2 ?]. cbv zeta in H. do 4 (apply rbind_ok in H as [? [_ H]]). injection H as <-.
  destruct (aux_sent LMC (ssm_placeholder (pK P)) IPC ip D fuel cMA (cF : codec (fmod (pK P))) cOA (cF : codec (mod_carrier (fmod (pK P)))) cOT sA sF oA sF oT
    k a b _ p aux GA GF GOA GF GT Ha Hk H1) as [Hd Hs]. split.
  - unfold codec_tssm. cbn [enc codec_iso codec_pair fst snd ts_gipa ts_final_ck ts_final_ck_proof]. rewrite !app_length.
    transitivity (8 + k * (2 * (oA + sF + oT)) + sA + sF + g2 + g2); [|lia]. rewrite !(good_fixed cG2 g2 G2).
    do 2 (apply f_equal2; [|reflexivity]). exact Hs.
  - intros rest. eapply (C67_tssm_roundtrip cF cG2 cMA cOA cOT always (sent cOT oT)); [eauto with good ..|exact Hd]. now intros o q [_ Ho].
Qed.

Lemma identity_sent {R K} {T : module K} (c : codec T) n ks m o : good_codec c n -> dh_commit (identity (R := R) T) ks [m] = Ok o ->
  sent (codec_identity_output c) (8 + n) o.
Proof.
  intros G H. assert (Ho : one_element o) by (eapply identity_outputs1; exact H). split.
  - apply identity_sized; [now apply good_fixed|exact Ho].
  - intros rest. apply (identity_roundtrip c); [eauto with good|exact Ho].
Qed.

(** ** The proofs inside the application proofs: [f], [g1], [g2], [gt] are the sizes of a scalar and of elements of the three groups *)
Section Applications.
  Context {R : Type} (P : pairing) (E : penv) (D : bytes -> bytes) (fuel : nat).
  Variables (rand_g1 : sampler R (pG1 P)) (rand_g2 : sampler R (pG2 P)).
  Variables (cF : codec (pK P)) (cG1 : codec (pG1 P)) (cG2 : codec (pG2 P)) (cGT : codec (pGT P)) (f g1 g2 gt : nat).
  Hypothesis GF : good_codec cF f.
  Hypothesis G1 : good_codec cG1 g1.
  Hypothesis G2 : good_codec cG2 g2.
  Hypothesis GT : good_codec cGT gt.
  Definition codec_pairing_tipa : codec (tipa_proof P (pG1 P) (pG2 P) (mod_carrier (pGT P)) (mod_carrier (pGT P)) (identity_output (pGT P))) :=
    codec_tipa (OA := mod_carrier (pGT P)) (OB := mod_carrier (pGT P)) cG1 cG2 cG1 cG2 cGT cGT (codec_identity_output cGT).
  Definition codec_multiexp_tssm : codec (tssm_proof P (pG1 P) (mod_carrier (pGT P)) (identity_output (pG1 P))) :=
    codec_tssm (OA := mod_carrier (pGT P)) cF cG2 cG1 cGT (codec_identity_output cG1).
  Definition codec_multiexp_gssm : codec (gssm_proof (pG1 P) (mod_carrier (pGT P)) (identity_output (pG1 P))) :=
    codec_gipa (MA := pG1 P) (MB := fmod (pK P)) (OA := mod_carrier (pGT P)) (OB := mod_carrier (fmod (pK P))) (OT := identity_output (pG1 P))
      cG1 cF cGT cF (codec_identity_output cG1).
  Definition codec_scalar_gssm : codec (gssm_proof (fmod (pK P)) (mod_carrier (pG1 P)) (identity_output (fmod (pK P)))) :=
    codec_gipa (MA := fmod (pK P)) (MB := fmod (pK P)) (OA := mod_carrier (pG1 P)) (OB := mod_carrier (fmod (pK P))) (OT := identity_output (fmod (pK P)))
      cF cF cG1 cF (codec_identity_output (T := fmod (pK P)) cF).

  (** the two proofs in an aggregate of 2^k Groth16 proofs; together they take [k * (6 gt + 2 g1 + 2 f + 32) + 4 g1 + 5 g2 + f + 16] bytes *)
  Theorem C86_groth16 k s proofs proof : length proofs = 2 ^ k -> u64_bound k ->
    g16_aggregate P E D fuel rand_g1 rand_g2 s proofs = Ok proof ->
    sent codec_pairing_tipa (8 + k * (2 * (gt + gt + (8 + gt))) + g1 + g2 + 2 * (g1 + g2)) (ag_tipa_ab proof) /\
    sent codec_multiexp_tssm (8 + k * (2 * (gt + f + (8 + g1))) + g1 + f + 2 * g2) (ag_tipa_c proof).
  Proof using GF G1 G2 GT.
    intros Hn Hk H. unfold g16_aggregate in H. cbv zeta in H. destruct (get_commitment_keys s) as [k1 k2].
    do 4 (apply rbind_ok in H as [? [_ H]]). apply rbind_ok in H as [rv [Hrv H]].
    do 5 (apply rbind_ok in H as [? [_ H]]). apply rbind_ok in H as [pab [H1 H]]. apply rbind_ok in H as [pc [H2 H]].
    injection H as <-. cbn [ag_tipa_ab ag_tipa_c]. split.
    - eapply (C86_tipa (afgho_g1 P E rand_g2) (afgho_g2 P E rand_g1) (identity (R := R) (pGT P))); try eassumption.
      + intros ks m o. now apply identity_sent.
      + rewrite PolyFacts.structured_scalar_power_spec in Hrv. injection Hrv as <-.
        rewrite zipw_length, !map_length, seq_length, Hn. pose proof (pow2_pos k). lia.
    - eapply (C86_tssm (afgho_g1 P E rand_g2) (identity (R := R) (pG1 P))); try eassumption.
      + intros ks m o. now apply identity_sent.
      + now rewrite map_length.
  Qed.

  (** the proof inside an opening of a polynomial committed to in 2^k rows *)
  Theorem C86_poly_commit k s p comms point proof : length comms = 2 ^ k -> u64_bound k ->
    bpc_open P E D fuel rand_g2 s p comms point = Ok proof ->
    sent codec_multiexp_tssm (8 + k * (2 * (gt + f + (8 + g1))) + g1 + f + 2 * g2) (op_ip proof).
  Proof using GF G1 G2 GT.
    intros Hn Hk H. unfold bpc_open in H. destruct point as [x y]. destruct s as [s1 s2]. cbv zeta in H.
    do 3 (apply rbind_ok in H as [? [_ H]]). apply rbind_ok in H as [pc [H2 H]]. apply rbind_ok in H as [? [_ H]].
    injection H as <-. cbn [op_ip]. eapply (C86_tssm (afgho_g1 P E rand_g2) (identity (R := R) (pG1 P))); try eassumption.
    intros ks m o. now apply identity_sent.
  Qed.

  (** the two proofs inside an opening of the transparent scheme, for 2^k rows and 2^l columns *)
  Theorem C86_transparent k l ck p comms point proof : length comms = 2 ^ k -> length (fst ck) = 2 ^ l -> u64_bound k -> u64_bound l ->
    tbpc_open P E D fuel rand_g1 rand_g2 ck p comms point = Ok proof ->
    sent codec_multiexp_gssm (8 + k * (2 * (gt + f + (8 + g1))) + g1 + f) (to_second proof) /\
    sent codec_scalar_gssm (8 + l * (2 * (g1 + f + (8 + f))) + f + f) (to_first proof).
  Proof using GF G1 G2 GT.
    intros Hn Hl Hk Hk' H. unfold tbpc_open in H. destruct point as [x y]. destruct ck as [k1 k2]. cbv zeta in H. cbn [fst] in Hl.
    do 2 (apply rbind_ok in H as [? [_ H]]). apply rbind_ok in H as [yc [Hy H]]. apply rbind_ok in H as [? [_ H]].
    apply rbind_ok in H as [p2 [H2 H]]. apply rbind_ok in H as [? [_ H]]. apply rbind_ok in H as [p1 [H1 H]].
    injection H as <-. cbn [to_second to_first]. split.
    - eapply (C86_gssm (afgho_g1 P E rand_g2) (identity (R := R) (pG1 P))); try eassumption.
      intros ks m o. now apply identity_sent.
    - eapply (C86_gssm (pedersen (pG1 P) rand_g1) (identity (R := R) (fmod (pK P)))); try eassumption.
      + intros ks m o. now apply identity_sent.
      + apply rmapM_ok_length in Hy. rewrite seq_length in Hy. etransitivity; [exact Hy|exact Hl].
  Qed.
End Applications.
Print Assumptions C86_gipa.
Print Assumptions C86_tipa.
Print Assumptions C86_gssm.
Print Assumptions C86_tssm.
Print Assumptions C86_groth16.
Print Assumptions C86_poly_commit.
Print Assumptions C86_transparent.

(** ** Examples: one byte per element *)
Example C86_codec_example : good_codec zp_codec 1.
Proof. intros a. split; [apply C67_codec_example|]. intros rest. now apply C67_codec_example. Qed.
(** an aggregate of two Groth16 proofs, whose two argument proofs are sent over the wire and verified by the receiver *)
Example C86_groth16_example :
  (do (p, v) <- PropsGroth.ex_agg toy_digest PropsGroth.ex_pfs;
   let i := enc (codec_pairing_tipa ZPair zp_codec zp_codec zp_codec) (ag_tipa_ab p)
            ++ enc (codec_multiexp_tssm ZPair zp_codec zp_codec zp_codec zp_codec) (ag_tipa_c p) in
   do (ab, i1) <- runwrap (dec (codec_pairing_tipa ZPair zp_codec zp_codec zp_codec) i);
   do (c, i2) <- runwrap (dec (codec_multiexp_tssm ZPair zp_codec zp_codec zp_codec zp_codec) i1);
   do ok <- PropsGroth.ex_gverify toy_digest PropsGroth.ex_inputs
              (mk_agg_proof (ag_com_a p) (ag_com_b p) (ag_com_c p) (ag_ip_ab p) (ag_agg_c p) ab c, v);
   Ok (length i, i2, ok))
  = Ok ((8 + 1 * (2 * (1 + 1 + (8 + 1))) + 1 + 1 + 2 * (1 + 1)) + (8 + 1 * (2 * (1 + 1 + (8 + 1))) + 1 + 1 + 2 * 1), [], true).
Proof. vm_compute. reflexivity. Qed.
(** an opening of a polynomial in four rows *)
Example C86_poly_commit_example :
  (do (s, _) <- bpc_setup ZPair ex_scalars 5%Z 3 1;
   do (com, coms) <- bpc_commit ZPair ex_env ex_rand s [zl [3; 4]; zl [5; 6]; []]%Z;
   do proof <- bpc_open ZPair ex_env toy_digest 9 ex_rand s [zl [3; 4]; zl [5; 6]; []]%Z coms (zq 2, zq 10);
   Ok (length coms, length (enc (codec_multiexp_tssm ZPair zp_codec zp_codec zp_codec zp_codec) (op_ip proof))))
  = Ok (2 ^ 2, 8 + 2 * (2 * (1 + 1 + (8 + 1))) + 1 + 1 + 2 * 1).
Proof. vm_compute. reflexivity. Qed.
(** an opening of the transparent scheme for four rows of two coefficients *)
Example C86_transparent_example :
  (do (k1, k2, _) <- tbpc_setup ZPair ex_env ex_rand ex_rand 5%Z 3 1;
   do (com, coms) <- tbpc_commit ZPair ex_env ex_rand ex_rand (k1, k2) [zl [3; 4]; zl [5; 6]; []]%Z;
   do proof <- tbpc_open ZPair ex_env toy_digest 9 ex_rand ex_rand (k1, k2) [zl [3; 4]; zl [5; 6]; []]%Z coms (zq 2, zq 10);
   Ok (length coms, length k1, length (enc (codec_multiexp_gssm ZPair zp_codec zp_codec zp_codec) (to_second proof)),
       length (enc (codec_scalar_gssm ZPair zp_codec zp_codec) (to_first proof))))
  = Ok (2 ^ 2, 2 ^ 1, 8 + 2 * (2 * (1 + 1 + (8 + 1))) + 1 + 1, 8 + 1 * (2 * (1 + 1 + (8 + 1))) + 1 + 1).
Proof. vm_compute. reflexivity. Qed.

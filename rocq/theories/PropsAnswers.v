(** Property C89: which proofs each verifier answers, for every key, statement and proof. *)
Require Import List Arith NArith ZArith Lia Bool Field.
Import ListNotations.
Require Import Verif.Outcome Verif.Algebra Verif.Zp Verif.Rust Verif.InnerProducts Verif.Commitments
  Verif.Gipa Verif.Poly Verif.Tipa Verif.Ssm Verif.Floats Verif.PolyCommit Verif.Transparent Verif.Groth16 Verif.Spec Verif.ListFacts
  Verif.RustFacts Verif.InnerProductFacts Verif.CommitFacts Verif.GipaFacts Verif.GipaComplete Verif.GipaTop Verif.GipaAttack
  Verif.SerFacts Verif.PolyFacts Verif.KeyFacts Verif.TipaFacts Verif.SsmFacts Verif.FloatFacts Verif.PcFacts Verif.PcDegrees
  Verif.UpcFacts Verif.TransparentFacts Verif.VerifyFacts Verif.Groth16Facts
  Verif.PropsBase Verif.PropsGipa Verif.PropsTipa Verif.PropsSsm Verif.PropsPoly Verif.PropsGroth Verif.PropsVerify
  Verif.PropsPcVerify Verif.PropsGrothVerify.

(** [x] is answered when [good] holds and panics otherwise, unless a search for a challenge goes on.  No errors. *)
Definition answered_iff (x : res bool) (good : Prop) : Prop :=
  (good -> x = Loop \/ exists b, x = Ok b) /\ (~ good -> x = Loop \/ x = Panic).

Lemma answered_when x good : answered_iff x good -> (exists b, x = Ok b) -> ~ ~ good.
Proof. intros [_ H] [b ->] Hn. destruct (H Hn); discriminate. Qed.

Lemma answered_bind x f p q : answered_iff x p -> (forall b, answered_iff (f b) q) -> answered_iff (rbind x f) (p /\ q).
Proof.
  intros [H1 H2] Hf. split.
  - intros [Hp Hq]. destruct (H1 Hp) as [->|[b ->]]; [now left|]. cbn [rbind]. now apply Hf.
  - intros Hn. destruct x as [b|e| |]; cbn [rbind]; auto.
    + apply Hf. intros Hq. destruct (H2 (fun Hp => Hn (conj Hp Hq))); discriminate.
    + exfalso. assert (Hp : ~ p) by (intros Hp; destruct (H1 Hp) as [|[b]]; discriminate). destruct (H2 Hp); discriminate.
Qed.
Lemma answered_ok b : answered_iff (Ok b) True.
Proof. split; [eauto|tauto]. Qed.
Lemma answered_iff_eq x p q : (p <-> q) -> answered_iff x p -> answered_iff x q.
Proof. unfold answered_iff. tauto. Qed.

Section Laws.
  Context {R : Type} {K : field}.
  Context {MA MB MT KA KB KT : module K} {OA OB OT : carrier K}.
  Variables (D : bytes -> bytes) (fuel : nat).

  Lemma final_keys_panic (ka : list KA) (kb : list KB) (t : list K) : Forall (fun c => c <> f0) t ->
    length ka <> 2 ^ length t -> gipa_final_keys ka kb t = Panic.
  Proof.
    intros Hn Hl. unfold gipa_final_keys. destruct (is_power_of_two (length ka)) eqn:Ep; [|reflexivity].
    cbn [rassert rbind]. rewrite ck_exponents_ok by auto. cbn [rbind].
    rewrite subs_from_length, map_length. cbn [length]. rewrite Nat.mul_1_l.
    destruct (Nat.eqb_spec (2 ^ length t) (length ka)); [congruence|]. reflexivity.
  Qed.

  Context {XA XB XT : module K} (dA : XA -> OA) (dB : XB -> OB) (dT : XT -> OT).
  Context (fA : KA -> MA -> XA) (fB : KB -> MB -> XB) (fT : KT -> MT -> XT) (th : MA -> MB -> MT).
  Variables (LMC : dhc R MA KA OA) (RMC : dhc R MB KB OB) (IPC : dhc R MT KT OT).
  Variable ip : list MA -> list MB -> res MT.
  Context (LA : lin_commit LMC dA fA) (LB : lin_commit RMC dB fB) (LT : ip_commit IPC dT fT) (LI : lin_ip ip th).

  Lemma gipa_answers k ka kb kt com (proof : gipa_proof MA MB OA OB OT) : digest16 D ->
    length ka = 2 ^ k -> length kb = 2 ^ k ->
    answered_iff (gipa_verify LMC RMC IPC ip D fuel (ka, kb, kt) com proof) (length (gp_steps proof) = k).
  Proof.
    intros HD Ha Hb.
    destruct (recursive_challenges_outcome D fuel com proof HD) as [H|[cs Hch]].
    - assert (E : gipa_verify LMC RMC IPC ip D fuel (ka, kb, kt) com proof = Loop); [|split; auto].
      unfold gipa_verify. rewrite Ha, Hb, Nat.eqb_refl.
      replace (count_ones (2 ^ k) =? 1) with true by (symmetry; apply Nat.eqb_eq, count_ones_pow2; eauto).
      cbn [negb orb]. now rewrite H.
    - split; intros Hk; right.
      + subst k. exact (gipa_verify_total D fuel dA dB dT fA fB fT th LMC RMC IPC ip LA LB LT LI ka kb kt com proof cs Ha Hb Hch).
      + exact (gipa_verify_wrong_rounds D fuel LMC RMC IPC ip k ka kb kt com proof cs Ha Hb Hk Hch).
  Qed.
End Laws.

Section SsmLaws.
  Context {R : Type} {K : field} {MA MT KA KT : module K} {OA OT : carrier K}.
  Variables (D : bytes -> bytes) (fuel : nat) (E : penv).
  Context {XA XT : module K} (dA : XA -> OA) (dT : XT -> OT).
  Context (fA : KA -> MA -> XA) (fT : KT -> MT -> XT) (th : MA -> fmod K -> MT).
  Variables (LMC : dhc R MA KA OA) (IPC : dhc R MT KT OT) (ip : list MA -> list (fmod K) -> res MT).
  Context (LA : lin_commit LMC dA fA) (LT : ip_commit IPC dT fT) (LI : lin_ip ip th).

  Lemma gssm_answers ka kt com b (proof : gssm_proof MA OA OT) : digest16 D ->
    answered_iff (gssm_verify LMC IPC ip D fuel E (ka, kt) com b proof) (length ka = 2 ^ length (gp_steps proof)).
  Proof.
    intros HD. pose proof (ssm_placeholder_law (R := R) K) as LB.
    destruct (recursive_challenges_outcome D fuel (fst com, (f0 : mod_carrier (fmod K)), snd com) proof HD) as [H|[cs Hch]].
    { assert (E0 : gssm_verify LMC IPC ip D fuel E (ka, kt) com b proof = Loop); [|split; auto]. unfold gssm_verify. now rewrite H. }
    assert (Hnr : Forall (fun x => x <> f0) (rev cs)) by (apply Forall_rev; eapply chain_nonzero; eauto).
    assert (Hlr : length (rev cs) = length (gp_steps proof)) by (rewrite rev_length, (chain_length _ _ _ _ _ Hch); apply rev_length).
    split; intros Hk; right; unfold gssm_verify; rewrite (recursive_challenges_chain D fuel _ proof cs Hch); cbn [rbind].
    - rewrite final_keys_ok; [|now rewrite Hlr| |auto].
      2:{ rewrite Hk. pose proof (pow2_pos (length (gp_steps proof))). destruct (2 ^ _); [lia|discriminate]. }
      cbn [rbind].
      match goal with |- context [gipa_verify_base LMC ?B IPC ip ?x ?y [kt] ?c proof] =>
        destruct (verify_base_total dA mid dT fA _ fT th LMC B IPC ip LA LB LT LI x y kt c proof) as [v0 ->] end.
      cbn [rbind]. rewrite final_scalar_ok by auto. cbn [rbind cfold].
      rewrite (lin_ip_single ip th) by auto. cbn [rbind]. unfold rand_then, dh_verify.
      rewrite (lc_single LMC dA fA) by auto. rewrite (ic_commit _ _ _ LT). cbn [rbind]. destruct (ceqb _ _); cbn [rbind]; eauto.
    - rewrite final_keys_panic by (rewrite ?Hlr; auto). reflexivity.
  Qed.
End SsmLaws.

(** ** KZG answers everything *)
Theorem C89_kzg (P : pairing) (v : vsrs P) com z e proof : exists b, kzg_verify v com z e proof = Ok b.
Proof. eexists. reflexivity. Qed.
Print Assumptions C89_kzg.

Section C89.
  Context {R : Type} {P : pairing}.
  Notation K := (pK P).
  Variables (E : penv) (HE : 1 <= threads E) (D : bytes -> bytes) (fuel : nat) (HD : digest16 D).
  Variables (r1 : sampler R (pG1 P)) (r2 : sampler R (pG2 P)).

  (** ** GIPA, in the three instantiations: one round per halving of the keys *)
  Definition gipa_answer_spec (na nb rounds : nat) (x : res bool) : Prop :=
    (na <> nb \/ (forall k, na <> 2 ^ k) -> x = Err (ArgMessageLengthInvalid na nb)) /\
    (forall k, na = 2 ^ k -> nb = 2 ^ k -> answered_iff x (rounds = k)).

  Theorem C89_gipa_pairing ka kb (kt : unitmod K) com proof :
    gipa_answer_spec (length ka) (length kb) (length (gp_steps proof))
      (gipa_verify (afgho_g1 P E r2) (afgho_g2 P E r1) (identity (pGT P)) (pairing_ip P E) D fuel (ka, kb, kt) com proof).
  Proof using HE HD.
    split; [apply C11_malformed_keys|]. intros k Ha Hb.
    apply (gipa_answers D fuel mid mid idout (phi_g1 P) (pr_e P) psi_id (pr_e P)); auto.
    - now apply afgho_g1_law.
    - now apply afgho_g2_law.
    - apply identity_law.
    - now apply pairing_ip_law.
  Qed.
  Theorem C89_gipa_multiexp ka kb (kt : unitmod K) com proof :
    gipa_answer_spec (length ka) (length kb) (length (gp_steps proof))
      (gipa_verify (afgho_g1 P E r2) (pedersen (pG1 P) r1) (identity (pG1 P)) (multiexp_ip (pG1 P)) D fuel (ka, kb, kt) com proof).
  Proof using HE HD.
    split; [apply C11_malformed_keys|]. intros k Ha Hb.
    apply (gipa_answers D fuel mid mid idout (phi_g1 P) smul psi_id smul); auto.
    - now apply afgho_g1_law.
    - apply pedersen_law.
    - apply identity_law.
    - apply multiexp_ip_law.
  Qed.
  Theorem C89_gipa_scalar ka kb (kt : unitmod K) com proof :
    gipa_answer_spec (length ka) (length kb) (length (gp_steps proof))
      (gipa_verify (pedersen (pG1 P) r1) (pedersen (pG2 P) r2) (identity (fmod K)) (scalar_ip E) D fuel (ka, kb, kt) com proof).
  Proof using HD.
    split; [apply C11_malformed_keys|]. intros k Ha Hb.
    apply (gipa_answers D fuel mid mid idout smul smul psi_id fmul'); auto.
    - apply pedersen_law.
    - apply pedersen_law.
    - apply identity_law.
    - apply scalar_ip_law.
  Qed.

  (** ** Public scalar base, no key compression *)
  Theorem C89_gssm_multiexp ka (kt : unitmod K) com b proof :
    answered_iff (gssm_verify (afgho_g1 P E r2) (identity (pG1 P)) (multiexp_ip (pG1 P)) D fuel E (ka, kt) com b proof)
      (length ka = 2 ^ length (gp_steps proof)).
  Proof using HE HD.
    apply (gssm_answers D fuel E mid idout (phi_g1 P) psi_id smul); auto.
    - now apply afgho_g1_law.
    - apply identity_law.
    - apply multiexp_ip_law.
  Qed.
  Theorem C89_gssm_scalar ka (kt : unitmod K) com b proof :
    answered_iff (gssm_verify (pedersen (pG1 P) r1) (identity (fmod K)) (@scalar_ip K E) D fuel E (ka, kt) com b proof)
      (length ka = 2 ^ length (gp_steps proof)).
  Proof using HD.
    apply (gssm_answers D fuel E mid idout smul psi_id fmul'); auto.
    - apply pedersen_law.
    - apply identity_law.
    - apply scalar_ip_law.
  Qed.

  (** ** TIPA: at least one round, and the shift is not 0 *)
  Notation tverify := (tipa_verify_with_srs_shift (afgho_g1 P E r2) (afgho_g2 P E r1) (identity (pGT P)) (pairing_ip P E) D fuel).
  Theorem C89_tipa v (kt : unitmod K) com proof r :
    answered_iff (tverify v kt com proof r) (gp_steps (tp_gipa proof) <> [] /\ r <> f0).
  Proof using HE HD.
    split; [intros [H1 H2]; now apply C57_tipa_partial|]. intros Hn.
    destruct (gp_steps (tp_gipa proof)) as [|st0 sts] eqn:Est; [right; now apply C57_tipa_no_rounds_refuted|].
    destruct (f_eq_dec K r f0) as [->|Hr]; [|exfalso; apply Hn; split; [discriminate|exact Hr]].
    destruct (recursive_challenges_outcome D fuel com (tp_gipa proof) HD) as [H|[cs Hch]].
    { left. unfold tipa_verify_with_srs_shift. now rewrite H. }
    pose proof (chain_length _ _ _ _ _ Hch) as Hcl. rewrite rev_length, Est in Hcl.
    destruct (rev_chain_hd cs (length sts)) as [c0 Hc0]; [exact Hcl|].
    unfold tipa_verify_with_srs_shift. rewrite (recursive_challenges_chain D fuel com _ cs Hch). cbn [rbind].
    rewrite invert_all_ok by (apply Forall_rev; eapply chain_nonzero; eauto). cbn [rbind].
    destruct (tp_final_ck proof) as [fa fb], (tp_final_ck_proof proof) as [oa ob]. rewrite Hc0. cbn [runwrap rbind].
    destruct (rand_challenge_outcome (K := K) D fuel 0 (tipa_kzg_payload c0 fa fb)) as [->|[c ->]]; cbn [rbind]; [now left|].
    right. rewrite finverse_0. reflexivity.
  Qed.

  Notation sverify := (tssm_verify (afgho_g1 P E r2) (identity (pG1 P)) (multiexp_ip (pG1 P)) D fuel E).
  Theorem C89_tssm v (kt : unitmod K) com b proof :
    answered_iff (sverify v kt com b proof) (gp_steps (ts_gipa proof) <> []).
  Proof using HE HD.
    split; [intros H; now apply C57_tssm_partial|]. intros Hn.
    right. apply C57_tssm_no_rounds_refuted. destruct (gp_steps (ts_gipa proof)); [reflexivity|]. exfalso. apply Hn. discriminate.
  Qed.

  (** ** Polynomial commitments *)
  Theorem C89_bivariate v com pt e proof :
    answered_iff (bpc_verify P E D fuel r2 v com pt e proof) (gp_steps (ts_gipa (op_ip proof)) <> []).
  Proof using HE HD.
    destruct pt as [x y]. unfold bpc_verify.
    apply (answered_iff_eq _ (gp_steps (ts_gipa (op_ip proof)) <> [] /\ True)); [tauto|].
    apply answered_bind; [exact (C89_tssm v tt _ x (op_ip proof))|]. intros b. apply answered_ok.
  Qed.
  (** [max_degree] is passed by the caller; 0 panics (C37) *)
  Theorem C89_univariate v d com z e proof : (Z.of_nat d < 2 ^ 52)%Z ->
    answered_iff (upc_verify P E D fuel r2 v d com z e proof) (1 <= d /\ gp_steps (ts_gipa (op_ip proof)) <> []).
  Proof using HE HD.
    intros Hlt. unfold upc_verify. destruct d as [|d].
    - pose proof (bivariate_degrees_0 4 ltac:(lia)) as H. change (2 * 2 ^ 4) with 32 in H. change (2 ^ 4) with 16 in H. rewrite H.
      split; [lia|auto].
    - destruct (degrees_split 4 (S d) ltac:(lia) ltac:(lia) Hlt) as [k [k' [xd [yd [H _]]]]].
      change (2 * 2 ^ 4) with 32 in H. change (2 ^ 4) with 16 in H. rewrite H. cbn [rbind].
      eapply answered_iff_eq; [|apply C89_bivariate]. split; [intros ?; split; [lia|assumption]|tauto].
  Qed.
  Theorem C89_transparent ck1 ck2 com pt e proof :
    answered_iff (tbpc_verify P E D fuel r1 r2 (ck1, ck2) com pt e proof)
      (length ck2 = 2 ^ length (gp_steps (to_second proof)) /\ length ck1 = 2 ^ length (gp_steps (to_first proof))).
  Proof using HE HD.
    destruct pt as [x y]. unfold tbpc_verify.
    apply answered_bind; [exact (C89_gssm_multiexp ck2 tt _ x (to_second proof))|]. intros b.
    apply (answered_iff_eq _ (length ck1 = 2 ^ length (gp_steps (to_first proof)) /\ True)); [tauto|].
    apply answered_bind; [exact (C89_gssm_scalar ck1 tt _ y (to_first proof))|]. intros b'. apply answered_ok.
  Qed.
  Theorem C89_transparent_univariate ck1 ck2 com z e proof :
    answered_iff (tupc_verify P E D fuel r1 r2 (ck1, ck2) com z e proof)
      (length ck2 = 2 ^ length (gp_steps (to_second proof)) /\ length ck1 = 2 ^ length (gp_steps (to_first proof))).
  Proof using HE HD.
    unfold tupc_verify, parse_degrees_ck. cbn [fst snd].
    pose proof (pow2_pos (length (gp_steps (to_second proof)))) as H2. pose proof (pow2_pos (length (gp_steps (to_first proof)))) as H1.
    destruct ck2 as [|k2 ck2]; [split; [cbn [length]; lia|auto]|]. destruct ck1 as [|k1 ck1]; [split; [cbn [length]; lia|auto]|].
    cbn [length Nat.ltb Nat.leb rassert rbind]. apply (C89_transparent (k1 :: ck1) (k2 :: ck2)).
  Qed.

  (** ** Aggregated Groth16 proofs *)
  Theorem C89_groth16 v (vk : g16_vk P) inputs (proof : agg_proof P) :
    answered_iff (g16_verify P E D fuel r1 r2 v vk inputs proof)
      ((forall r : K, drawn D fuel (mser (ag_com_a proof) ++ mser (ag_com_b proof) ++ mser (ag_com_c proof)) r -> r <> f0 /\ r <> f1) /\
       gp_steps (tp_gipa (ag_tipa_ab proof)) <> [] /\ gp_steps (ts_gipa (ag_tipa_c proof)) <> [] /\ rows_usable vk inputs).
  Proof using HE HD.
    unfold g16_verify, g16_payload.
    destruct (rand_challenge_outcome (K := K) D fuel 0 (mser (ag_com_a proof) ++ mser (ag_com_b proof) ++ mser (ag_com_c proof))) as [H|[r Hr]].
    { rewrite H. split; auto. }
    rewrite Hr. cbn [rbind]. apply drawn_iff in Hr.
    apply (answered_iff_eq _ ((gp_steps (tp_gipa (ag_tipa_ab proof)) <> [] /\ r <> f0) /\
      (gp_steps (ts_gipa (ag_tipa_c proof)) <> [] /\ ((r <> f1 /\ rows_usable vk inputs) /\ True)))).
    { split.
      - intros [[H1 H2] [H3 [[H4 H5] _]]]. split; [|auto]. intros r' Hr'.
        assert (r' = r) as -> by (apply drawn_iff in Hr, Hr'; congruence). auto.
      - intros [H1 [H2 [H3 H4]]]. destruct (H1 r Hr). auto 10. }
    apply answered_bind; [exact (C89_tipa v tt _ (ag_tipa_ab proof) r)|]. intros b1.
    apply answered_bind; [exact (C89_tssm v tt _ r (ag_tipa_c proof))|]. intros b2.
    apply answered_bind; [|intros b3; apply answered_ok].
    destruct (f_eq_dec K r f1) as [->|H1]; [rewrite ppe_one; split; [tauto|auto]|].
    destruct (rows_usable_dec vk inputs) as [Hu|Hm].
    - split; [|tauto]. intros _. right. destruct Hu as [Hne [H0 HF]]. rewrite ppe_spec; eauto.
      eapply Forall_impl; [|exact HF]. cbn. intros. lia.
    - rewrite ppe_malformed by auto. split; [|auto]. intros [_ [Hne [H0 HF]]]. exfalso.
      destruct Hm as [Hm|[Hm|Hm]]; [contradiction|contradiction|].
      apply Exists_exists in Hm as [row [Hin Hm]]. rewrite Forall_forall in HF. specialize (HF row Hin). lia.
  Qed.
End C89.
Print Assumptions C89_gipa_pairing.
Print Assumptions C89_gipa_multiexp.
Print Assumptions C89_gipa_scalar.
Print Assumptions C89_gssm_multiexp.
Print Assumptions C89_gssm_scalar.
Print Assumptions C89_tipa.
Print Assumptions C89_tssm.
Print Assumptions C89_bivariate.
Print Assumptions C89_univariate.
Print Assumptions C89_transparent.
Print Assumptions C89_transparent_univariate.
Print Assumptions C89_groth16.

(** ** Every kind of answer, for aggregates (C60 and C88 have accepted and rejected ones) and for GIPA *)
(** no rounds in the first or second argument, no rows, a first row of the wrong length, a short second row *)
Definition ex_norounds_ab (p : agg_proof ZPair) : agg_proof ZPair :=
  mk_agg_proof (P := ZPair) (ag_com_a p) (ag_com_b p) (ag_com_c p) (ag_ip_ab p) (ag_agg_c p)
    (mk_tipa_proof (P := ZPair) (mk_gipa_proof [] (gp_base (tp_gipa (ag_tipa_ab p)))) (tp_final_ck (ag_tipa_ab p)) (tp_final_ck_proof (ag_tipa_ab p))) (ag_tipa_c p).
Definition ex_norounds_c (p : agg_proof ZPair) : agg_proof ZPair :=
  mk_agg_proof (P := ZPair) (ag_com_a p) (ag_com_b p) (ag_com_c p) (ag_ip_ab p) (ag_agg_c p) (ag_tipa_ab p)
    (mk_tssm_proof (P := ZPair) (mk_gipa_proof [] (gp_base (ts_gipa (ag_tipa_c p)))) (ts_final_ck (ag_tipa_c p)) (ts_final_ck_proof (ag_tipa_c p))).
Definition ex_rows inputs : res bool := do pv <- ex_agg toy_digest ex_pfs; ex_gverify toy_digest inputs pv.
Example C89_groth16_example :
  PropsGrothVerify.ex_gtamper ex_norounds_ab = Panic /\ PropsGrothVerify.ex_gtamper ex_norounds_c = Panic /\
  ex_rows [] = Panic /\ ex_rows [zl [1; 2; 3]%Z; zl [1]%Z] = Panic /\ ex_rows [zl [3]%Z; []] = Panic /\
  ex_rows ex_inputs = Ok true /\ ex_rows [zl [3]%Z; zl [2; 77; 5]%Z] = Ok false.
Proof. vm_compute. repeat split; reflexivity. Qed.

Definition ex_gipa_keys (ka kb : list zp) (f : list (com3 (mod_carrier ZM) (mod_carrier ZM) (identity_output ZM) * com3 (mod_carrier ZM) (mod_carrier ZM) (identity_output ZM)) ->
    list (com3 (mod_carrier ZM) (mod_carrier ZM) (identity_output ZM) * com3 (mod_carrier ZM) (mod_carrier ZM) (identity_output ZM))) : res bool :=
  let c := ((zq 1 : ZM), (zq 2 : ZM), ([zq 3] : list ZM)) : com3 (mod_carrier ZM) (mod_carrier ZM) (identity_output ZM) in
  ex_verify (ka, kb, tt) c (mk_gipa_proof (MA := ZM) (MB := ZM) (f [(c, c)]) (zq 5 : ZM, zq 6 : ZM)).
Example C89_gipa_example :
  ex_gipa_keys (zl [1; 2]%Z) (zl [1; 2]%Z) (fun s => s) = Ok false /\
  ex_gipa_keys (zl [1; 2]%Z) (zl [1; 2]%Z) (fun s => s ++ s) = Panic /\
  ex_gipa_keys (zl [1; 2]%Z) (zl [1; 2]%Z) (fun s => []) = Panic /\
  ex_gipa_keys (zl [1; 2; 3]%Z) (zl [1; 2; 3]%Z) (fun s => s) = Err (ArgMessageLengthInvalid 3 3) /\
  ex_gipa_keys (zl [1; 2]%Z) (zl [1]%Z) (fun s => s) = Err (ArgMessageLengthInvalid 2 1).
Proof. vm_compute. repeat split; reflexivity. Qed.

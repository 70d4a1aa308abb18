(** Property C88: which parts of an accepted proof can be replaced. *)
Require Import List Arith NArith ZArith Lia Bool Field.
Import ListNotations.
Require Import Verif.Outcome Verif.Algebra Verif.Zp Verif.Rust Verif.InnerProducts Verif.Commitments
  Verif.Gipa Verif.Poly Verif.Tipa Verif.Ssm Verif.Floats Verif.PolyCommit Verif.Transparent Verif.Groth16 Verif.Spec Verif.ListFacts
  Verif.RustFacts Verif.InnerProductFacts Verif.CommitFacts Verif.GipaFacts Verif.GipaComplete Verif.GipaTop Verif.GipaAttack
  Verif.SerFacts Verif.PolyFacts Verif.KeyFacts Verif.TipaFacts Verif.SsmFacts Verif.FloatFacts Verif.PcFacts Verif.PcDegrees
  Verif.UpcFacts Verif.TransparentFacts Verif.VerifyFacts Verif.Groth16Facts
  Verif.PropsBase Verif.PropsGipa Verif.PropsTipa Verif.PropsSsm Verif.PropsPoly Verif.PropsGroth Verif.PropsVerify
  Verif.PropsPcVerify Verif.PropsGrothVerify.

(** [k] tells the elements of the other source group apart. *)
Definition separates1 {P : pairing} (k : pG2 P) : Prop := forall a, pr_e P a k = m0 -> a = m0.
Definition separates2 {P : pairing} (k : pG1 P) : Prop := forall b, pr_e P k b = m0 -> b = m0.

Section Aux.
  Context {P : pairing}.
  Add Field KfC88 : (f_theory (pK P)).
  Lemma multiples_separate1 (x : pK P) : x <> f0 -> separates1 (x *m pr_h P).
  Proof.
    intros Hx a H. rewrite e_scale_r in H. apply (e_nondeg_l P).
    assert (finv x *m (x *m pr_e P a (pr_h P)) = m0) by (rewrite H; apply mscale_0_r).
    rewrite <- mscale_mul in H0. replace (finv x *f x) with (f1 : pK P) in H0 by (field; auto). now rewrite mscale_1 in H0.
  Qed.
  Lemma multiples_separate2 (x : pK P) : x <> f0 -> separates2 (x *m pr_g P).
  Proof.
    intros Hx b H. rewrite e_scale_l in H. apply (e_nondeg_r P).
    assert (finv x *m (x *m pr_e P (pr_g P) b) = m0) by (rewrite H; apply mscale_0_r).
    rewrite <- mscale_mul in H0. replace (finv x *f x) with (f1 : pK P) in H0 by (field; auto). now rewrite mscale_1 in H0.
  Qed.
  Lemma separates1_inj (k : pG2 P) a a' : separates1 k -> pr_e P a k = pr_e P a' k -> a = a'.
  Proof. intros Hk H. apply msub_eq0, Hk. rewrite pr_e_sub_l, H. now apply msub_eq0. Qed.
  Lemma separates2_inj (k : pG1 P) b b' : separates2 k -> pr_e P k b = pr_e P k b' -> b = b'.
  Proof. intros Hk H. apply msub_eq0, Hk. rewrite pr_e_sub_r, H. now apply msub_eq0. Qed.
End Aux.

Lemma scale_inj {K : field} {M : module K} (x : K) (a b : M) : x <> f0 -> x *m a = x *m b -> a = b.
Proof.
  intros Hx H. assert (H0 : finv x *m (x *m a) = finv x *m (x *m b)) by now rewrite H.
  rewrite <- !mscale_mul in H0. replace (finv x *f x) with (f1 : K) in H0; [now rewrite !mscale_1 in H0|].
  symmetry. now apply finv_l.
Qed.
Section SubNeq.
  Context {K : field}.
  Add Field KfC88s : (f_theory K).
  Lemma sub_neq (x y : K) : y <> x -> x -f y <> f0.
  Proof. intros H E. apply H. transitivity (x -f (x -f y)); [ring|]. rewrite E. ring. Qed.
End SubNeq.
Lemma mscale_free {P : pairing} {M : module (pK P)} (x y : pK P) (a : M) : a <> m0 -> x *m a = y *m a -> x = y.
Proof.
  intros Ha H. destruct (f_eq_dec (pK P) x y) as [|Hn]; auto. exfalso. apply Ha.
  apply (scale_inj (x -f y)).
  - apply sub_neq. congruence.
  - rewrite <- scale_sub, mscale_0_r. now apply msub_eq0.
Qed.

(** None of the challenges that can be drawn for [payload] is [t]. *)
Definition never_drawn {K : field} (D : bytes -> bytes) (fuel : nat) (payload : bytes) (t : K) : Prop :=
  forall z, drawn D fuel payload z -> z <> t.

Lemma drawn_fun {K : field} D fuel payload (z z' : K) : drawn D fuel payload z -> drawn D fuel payload z' -> z' = z.
Proof. rewrite !drawn_iff. congruence. Qed.

(** ** KZG: one accepted opening per commitment, point and value *)
Theorem C88_kzg {R : Type} {P : pairing} (rand : sampler R (pK P)) (rng : R) (D : nat) powers v rng' com z e proof proof' :
  kzg_setup rand rng D = Ok (powers, v, rng') -> z <> fst (rand rng) ->
  kzg_verify v com z e proof = Ok true -> kzg_verify v com z e proof' = Ok true -> proof' = proof.
Proof.
  intros Hs Hz H H'. apply (C33_acceptance rand _ _ _ _ _ _ _ _ _ Hs) in H, H'.
  apply (scale_inj (fst (rand rng) -f z)); [now apply sub_neq|]. now rewrite <- H, <- H'.
Qed.
Print Assumptions C88_kzg.

(** ** GIPA: the last pair of messages is determined by the rounds *)
Theorem C88_gipa R (K : field) (MA MB MT KA KB KT XA XB : module K)
    (LMC : dhc R MA KA (mod_carrier XA)) (RMC : dhc R MB KB (mod_carrier XB)) (ip : list MA -> list MB -> res MT)
    D fuel ka kb kt ca cb ct steps base base' :
  digest16 D ->
  (forall cs, round_challenges D fuel f0 (rev steps) cs ->
     (forall m m', dh_commit LMC [folded_key ka (map finv cs)] [m] = dh_commit LMC [folded_key ka (map finv cs)] [m'] -> m = m') /\
     (forall m m', dh_commit RMC [folded_key kb cs] [m] = dh_commit RMC [folded_key kb cs] [m'] -> m = m')) ->
  gipa_verify LMC RMC (identity MT) ip D fuel (ka, kb, kt) (ca, cb, ct) (mk_gipa_proof steps base) = Ok true ->
  gipa_verify LMC RMC (identity MT) ip D fuel (ka, kb, kt) (ca, cb, ct) (mk_gipa_proof steps base') = Ok true ->
  base' = base.
Proof.
  intros HD HK H H'. apply C12_accepts_iff_identity in H as [cs [v [H1 [_ [_ [_ [H2 [H3 _]]]]]]]]; auto.
  apply C12_accepts_iff_identity in H' as [cs' [v' [H1' [_ [_ [_ [H2' [H3' _]]]]]]]]; auto. cbn [gp_steps gp_base] in *.
  assert (cs' = cs) as -> by (eapply round_challenges_fun; eauto). destruct (HK cs H1) as [Ka Kb].
  destruct base as [a b], base' as [a' b']. cbn [fst snd] in *. f_equal.
  - apply Ka. etransitivity; [exact H2'|symmetry; exact H2].
  - apply Kb. etransitivity; [exact H3'|symmetry; exact H3].
Qed.
Print Assumptions C88_gipa.

(** ** TIPA: everything but the rounds and the final keys is determined *)
Section C88.
  Context {R : Type} {P : pairing}.
  Notation K := (pK P).
  Variables (E : penv) (HE : 1 <= threads E) (D : bytes -> bytes) (fuel : nat) (HD : digest16 D).

  Theorem C88_tipa {MA MB MT XA XB : module (pK P)}
      (LMC : dhc R MA (pG2 P) (mod_carrier XA)) (RMC : dhc R MB (pG1 P) (mod_carrier XB))
      (ip : list MA -> list MB -> res MT) alpha beta kt ca cb ct r steps cka ckb base base' opening opening' :
    (forall m m', dh_commit LMC [cka] [m] = dh_commit LMC [cka] [m'] -> m = m') ->
    (forall m m', dh_commit RMC [ckb] [m] = dh_commit RMC [ckb] [m'] -> m = m') ->
    (forall cs, round_challenges D fuel f0 (rev steps) cs ->
       never_drawn D fuel (fser (last cs f0) ++ mser cka ++ mser ckb) alpha /\
       never_drawn D fuel (fser (last cs f0) ++ mser cka ++ mser ckb) beta) ->
    tipa_verify_with_srs_shift LMC RMC (identity MT) ip D fuel (key_of alpha beta) kt (ca, cb, ct)
      (mk_tipa_proof (mk_gipa_proof steps base) (cka, ckb) opening) r = Ok true ->
    tipa_verify_with_srs_shift LMC RMC (identity MT) ip D fuel (key_of alpha beta) kt (ca, cb, ct)
      (mk_tipa_proof (mk_gipa_proof steps base') (cka, ckb) opening') r = Ok true ->
    base' = base /\ opening' = opening.
  Proof using HD.
    intros Ka Kb HZ H H'.
    apply (C53_tipa_accepts_iff_identity D fuel HD) in H as [cs [z [v [H1 [_ [_ [H2 [[O1 O2] [_ [H3 [H4 _]]]]]]]]]]].
    apply (C53_tipa_accepts_iff_identity D fuel HD) in H' as [cs' [z' [v' [H1' [_ [_ [H2' [[O1' O2'] [_ [H3' [H4' _]]]]]]]]]]].
    cbn [tp_gipa tp_final_ck tp_final_ck_proof gp_steps gp_base fst snd] in *.
    assert (cs' = cs) as -> by (eapply round_challenges_fun; eauto).
    assert (z' = z) as -> by (eapply drawn_fun; eauto). destruct (HZ cs H1) as [Za Zb]. specialize (Za z H2). specialize (Zb z H2).
    destruct base as [a b], base' as [a' b'], opening as [o1 o2], opening' as [o1' o2']. cbn [fst snd] in *. split; f_equal.
    - apply Ka. etransitivity; [exact H3'|symmetry; exact H3].
    - apply Kb. etransitivity; [exact H4'|symmetry; exact H4].
    - apply (scale_inj (beta -f z)); [now apply sub_neq|]. now rewrite <- O1, <- O1'.
    - apply (scale_inj (alpha -f z)); [now apply sub_neq|]. now rewrite <- O2, <- O2'.
  Qed.

  (** the pairing instance: "the key separates" is the condition on the final keys *)
  Theorem C88_tipa_pairing (r1 : sampler R (pG1 P)) (r2 : sampler R (pG2 P)) alpha beta kt ca cb ct r steps cka ckb base base' opening opening' :
    separates1 cka -> separates2 ckb ->
    (forall cs, round_challenges D fuel f0 (rev steps) cs ->
       never_drawn D fuel (fser (last cs f0) ++ mser cka ++ mser ckb) alpha /\
       never_drawn D fuel (fser (last cs f0) ++ mser cka ++ mser ckb) beta) ->
    tipa_verify_with_srs_shift (afgho_g1 P E r2) (afgho_g2 P E r1) (identity (pGT P)) (pairing_ip P E) D fuel (key_of alpha beta) kt (ca, cb, ct)
      (mk_tipa_proof (mk_gipa_proof steps base) (cka, ckb) opening) r = Ok true ->
    tipa_verify_with_srs_shift (afgho_g1 P E r2) (afgho_g2 P E r1) (identity (pGT P)) (pairing_ip P E) D fuel (key_of alpha beta) kt (ca, cb, ct)
      (mk_tipa_proof (mk_gipa_proof steps base') (cka, ckb) opening') r = Ok true ->
    base' = base /\ opening' = opening.
  Proof using HE HD.
    intros Ka Kb. apply C88_tipa.
    - intros m m' H. apply (separates1_inj cka); auto. rewrite !afgho_single in H by auto. now apply Ok_inj in H.
    - intros m m' H. apply (separates2_inj ckb); auto. cbn [dh_commit afgho_g2] in H.
      rewrite !C01_pairing_inner_product in H by auto. unfold pairing_sum in H. cbn in H. rewrite !madd_0_l in H. now apply Ok_inj in H.
  Qed.

  (** ** Structured scalar messages *)
  (** [GIPAWithSSM]: the last pair of messages is determined *)
  Theorem C88_gssm (r2 : sampler R (pG2 P)) ka (kt : unitmod (pK P)) ca ct b steps base base' :
    (forall cs, round_challenges D fuel f0 (rev steps) cs -> separates1 (folded_key ka (map finv cs))) -> fst base <> m0 ->
    gssm_verify (afgho_g1 P E r2) (identity (pG1 P)) (multiexp_ip (pG1 P)) D fuel E (ka, kt) (ca, ct) b (mk_gipa_proof steps base) = Ok true ->
    gssm_verify (afgho_g1 P E r2) (identity (pG1 P)) (multiexp_ip (pG1 P)) D fuel E (ka, kt) (ca, ct) b (mk_gipa_proof steps base') = Ok true ->
    base' = base.
  Proof using HE HD.
    intros HK Hn H H'. apply C55_multiexp_instance in H as [cs [H1 [_ [H2 [_ [_ [H3 _]]]]]]]; auto.
    apply C55_multiexp_instance in H' as [cs' [H1' [_ [H2' [_ [_ [H3' _]]]]]]]; auto. cbn [gp_steps gp_base] in *.
    assert (cs' = cs) as -> by (eapply round_challenges_fun; eauto). destruct base as [a s], base' as [a' s']. cbn [fst snd] in *.
    assert (a' = a) as ->.
    { apply (separates1_inj (folded_key ka (map finv cs))); [now apply HK|]. etransitivity; [exact H2'|symmetry; exact H2]. }
    f_equal. assert (He : s' *m a = s *m a) by (etransitivity; [exact H3'|symmetry; exact H3]).
    apply (mscale_free s' s a); auto.
  Qed.

  (** [TIPAWithSSM]: the scalar of the last pair is never read, so a proof stays what it is with any other scalar *)
  Theorem C88_tssm_scalar_refuted {MA MT KT : module (pK P)} {OA OT : carrier (pK P)} (LMC : dhc R MA (pG2 P) OA) (IPC : dhc R MT KT OT)
      (ip : list MA -> list (fmod K) -> res MT) (v : vsrs P) kt com b steps a s s' ck opening :
    tssm_verify LMC IPC ip D fuel E v kt com b (mk_tssm_proof (mk_gipa_proof steps (a, s')) ck opening) =
    tssm_verify LMC IPC ip D fuel E v kt com b (mk_tssm_proof (mk_gipa_proof steps (a, s)) ck opening).
  Proof using. reflexivity. Qed.

  (** everything else is determined by the rounds and the final key *)
  Theorem C88_tssm_partial (r2 : sampler R (pG2 P)) alpha beta (kt : unitmod (pK P)) ca ct b steps ck base base' opening opening' :
    separates1 ck ->
    (forall cs, round_challenges D fuel f0 (rev steps) cs -> never_drawn D fuel (fser (last cs f0) ++ mser ck) beta) ->
    tssm_verify (afgho_g1 P E r2) (identity (pG1 P)) (multiexp_ip (pG1 P)) D fuel E (key_of alpha beta) kt (ca, ct) b
      (mk_tssm_proof (mk_gipa_proof steps base) ck opening) = Ok true ->
    tssm_verify (afgho_g1 P E r2) (identity (pG1 P)) (multiexp_ip (pG1 P)) D fuel E (key_of alpha beta) kt (ca, ct) b
      (mk_tssm_proof (mk_gipa_proof steps base') ck opening') = Ok true ->
    fst base' = fst base /\ opening' = opening.
  Proof using HE HD.
    intros Hk HZ H H'. apply C54_multiexp_instance in H as [cs [z [H1 [_ [H2 [H3 [H4 _]]]]]]]; auto.
    apply C54_multiexp_instance in H' as [cs' [z' [H1' [_ [H2' [H3' [H4' _]]]]]]]; auto.
    cbn [ts_gipa ts_final_ck ts_final_ck_proof gp_steps gp_base] in *.
    assert (cs' = cs) as -> by (eapply round_challenges_fun; eauto).
    assert (z' = z) as -> by (eapply drawn_fun; eauto). split.
    - apply (separates1_inj ck); auto. etransitivity; [exact H4'|symmetry; exact H4].
    - apply (scale_inj (beta -f z)); [apply sub_neq; exact (HZ cs H1 z H2)|]. now rewrite <- H3, <- H3'.
  Qed.
End C88.
Print Assumptions C88_tipa.
Print Assumptions C88_tipa_pairing.
Print Assumptions C88_gssm.
Print Assumptions C88_tssm_scalar_refuted.
Print Assumptions C88_tssm_partial.

(** ** Polynomial commitments and aggregates *)
(** an opening of a bivariate or univariate commitment, in its parts *)
Definition opening_of {P : pairing} steps (a : pG1 P) (s : pK P) ck o (Y kzg : pG1 P) : opening_proof P :=
  mk_opening (mk_tssm_proof (mk_gipa_proof steps (a, s : fmod (pK P))) ck o) Y kzg.
(** an aggregate, in its parts *)
Definition aggregate_of {P : pairing} ca cb cc t Cr stab bab ckab oab stc (a : pG1 P) (s : pK P) ckc oc : agg_proof P :=
  mk_agg_proof ca cb cc t Cr (mk_tipa_proof (mk_gipa_proof stab bab) ckab oab)
    (mk_tssm_proof (mk_gipa_proof stc (a, s : fmod (pK P))) ckc oc).

Section C88pc.
  Context {R : Type} {P : pairing}.
  Notation K := (pK P).
  Variables (E : penv) (HE : 1 <= threads E) (D : bytes -> bytes) (fuel : nat) (HD : digest16 D).

  (** anyone can turn an opening into another one for the same statement *)
  Theorem C88_bivariate_scalar_refuted (r2 : sampler R (pG2 P)) (v : vsrs P) com pt e steps a s s' ck o Y kzg :
    bpc_verify P E D fuel r2 v com pt e (opening_of steps a s' ck o Y kzg) = bpc_verify P E D fuel r2 v com pt e (opening_of steps a s ck o Y kzg).
  Proof using. reflexivity. Qed.
  Theorem C88_univariate_scalar_refuted (r2 : sampler R (pG2 P)) (v : vsrs P) d com z e steps a s s' ck o Y kzg :
    upc_verify P E D fuel r2 v d com z e (opening_of steps a s' ck o Y kzg) = upc_verify P E D fuel r2 v d com z e (opening_of steps a s ck o Y kzg).
  Proof using. reflexivity. Qed.
  Theorem C88_groth16_scalar_refuted (r1 : sampler R (pG1 P)) (r2 : sampler R (pG2 P)) (v : vsrs P) (vk : g16_vk P) inputs
      ca cb cc t Cr stab bab ckab oab stc a s s' ckc oc :
    g16_verify P E D fuel r1 r2 v vk inputs (aggregate_of ca cb cc t Cr stab bab ckab oab stc a s' ckc oc) =
    g16_verify P E D fuel r1 r2 v vk inputs (aggregate_of ca cb cc t Cr stab bab ckab oab stc a s ckc oc).
  Proof using. reflexivity. Qed.

  Lemma rows_unique beta com x Y Y' steps ck base base' o o' :
    separates1 ck ->
    (forall cs, round_challenges D fuel f0 (rev steps) cs -> never_drawn D fuel (fser (last cs f0) ++ mser ck) beta) ->
    rows_argument_holds D fuel beta com Y x (mk_tssm_proof (P := P) (mk_gipa_proof steps base) ck o) ->
    rows_argument_holds D fuel beta com Y' x (mk_tssm_proof (P := P) (mk_gipa_proof steps base') ck o') ->
    fst base' = fst base /\ o' = o /\ Y' = Y.
  Proof using HD.
    intros Hk HZ [cs [z [H1 [_ [H2 [H3 [H4 [_ H5]]]]]]]] [cs' [z' [H1' [_ [H2' [H3' [H4' [_ H5']]]]]]]].
    cbn [ts_gipa ts_final_ck ts_final_ck_proof gp_steps gp_base] in *.
    assert (cs' = cs) as -> by (eapply round_challenges_fun; eauto).
    assert (z' = z) as -> by (eapply drawn_fun; eauto).
    assert (Hb : fst base' = fst base).
    { apply (separates1_inj ck); auto. etransitivity; [exact H4'|symmetry; exact H4]. }
    split; [exact Hb|]. split.
    - apply (scale_inj (beta -f z)); [apply sub_neq; exact (HZ cs H1 z H2)|]. now rewrite <- H3, <- H3'.
    - rewrite Hb, H5 in H5'. unfold folded in H5'. symmetry. exact (add_cancel_r _ _ _ H5').
  Qed.

  Theorem C88_bivariate_partial (r2 : sampler R (pG2 P)) alpha beta com x y e steps ck a a' s s' o o' Y Y' kzg kzg' :
    separates1 ck -> y <> alpha ->
    (forall cs, round_challenges D fuel f0 (rev steps) cs -> never_drawn D fuel (fser (last cs f0) ++ mser ck) beta) ->
    bpc_verify P E D fuel r2 (key_of alpha beta) com (x, y) e (opening_of steps a s ck o Y kzg) = Ok true ->
    bpc_verify P E D fuel r2 (key_of alpha beta) com (x, y) e (opening_of steps a' s' ck o' Y' kzg') = Ok true ->
    a' = a /\ o' = o /\ Y' = Y /\ kzg' = kzg.
  Proof using HE HD.
    intros Hk Hy HZ H H'. apply C58_bivariate_accepts_iff in H as [A B]; auto. apply C58_bivariate_accepts_iff in H' as [A' B']; auto.
    cbn [op_ip op_y_eval_comm op_kzg opening_of] in *.
    destruct (rows_unique _ _ _ _ _ _ _ _ _ _ _ Hk HZ A A') as [H1 [H2 H3]]. cbn [fst] in H1. subst.
    repeat split; auto. unfold kzg_condition in B, B'.
    apply (scale_inj (alpha -f y)); [now apply sub_neq|]. now rewrite <- B, <- B'.
  Qed.

  Theorem C88_univariate_partial (rand : sampler R (pK P)) (r2 : sampler R (pG2 P)) (rng : R) d s rng' v com z e
      steps ck a a' b b' o o' Y Y' kzg kzg' : 1 <= d -> (Z.of_nat d < 2 ^ 52)%Z ->
    upc_setup P rand rng d = Ok (s, rng') -> get_verifier_key (fst s) = Ok v ->
    separates1 ck -> at_ (snd s) 1 <> z *m pr_g P ->
    (forall cs c, round_challenges D fuel f0 (rev steps) cs -> drawn D fuel (fser (last cs f0) ++ mser ck) c ->
       at_ (h_beta_powers (fst s)) 1 <> c *m pr_h P) ->
    upc_verify P E D fuel r2 v d com z e (opening_of steps a b ck o Y kzg) = Ok true ->
    upc_verify P E D fuel r2 v d com z e (opening_of steps a' b' ck o' Y' kzg') = Ok true ->
    a' = a /\ o' = o /\ Y' = Y /\ kzg' = kzg.
  Proof using HE HD.
    intros Hd Hd2 Hs Hv Hk Hz HZ H H'.
    destruct (C58_univariate_accepts_iff E HE D fuel HD rand r2 rng d s rng' v com z e (opening_of steps a b ck o Y kzg) Hd Hd2 Hs Hv)
      as [alpha [beta [Ea [Eb I]]]]. apply I in H as [A B].
    destruct (C58_univariate_accepts_iff E HE D fuel HD rand r2 rng d s rng' v com z e (opening_of steps a' b' ck o' Y' kzg') Hd Hd2 Hs Hv)
      as [alpha' [beta' [Ea' [Eb' I']]]]. apply I' in H' as [A' B'].
    cbn [op_ip op_y_eval_comm op_kzg opening_of] in *.
    assert (Hbe : beta' *m pr_h P = beta *m pr_h P) by congruence. assert (Hae : alpha' *m pr_g P = alpha *m pr_g P) by congruence.
    assert (Hh : pr_h P <> m0).
    { intros E0. destruct A as [cs [c [C1 [_ [C2 _]]]]]. apply (HZ cs c C1 C2). rewrite Eb, E0, !mscale_0_r. reflexivity. }
    assert (Hg : pr_g P <> m0) by (intros E0; apply Hz; rewrite Ea, E0, !mscale_0_r; reflexivity).
    apply mscale_free in Hbe; [|exact Hh]. apply mscale_free in Hae; [|exact Hg]. subst beta' alpha'.
    assert (HZ' : forall cs, round_challenges D fuel f0 (rev steps) cs -> never_drawn D fuel (fser (last cs f0) ++ mser ck) beta).
    { intros cs C1 c C2 ->. exact (HZ cs beta C1 C2 Eb). }
    destruct (rows_unique _ _ _ _ _ _ _ _ _ _ _ Hk HZ' A A') as [H1 [H2 H3]]. cbn [fst] in H1. subst.
    repeat split; auto. unfold kzg_condition in B, B'.
    apply (scale_inj (alpha -f z)); [apply sub_neq; congruence|]. now rewrite <- B, <- B'.
  Qed.

  (** the transparent scheme *)
  Theorem C88_transparent (r1 : sampler R (pG1 P)) (r2 : sampler R (pG2 P)) ck1 ck2 com x y e st1 st2 (base1 base1' : fmod K * fmod K) base2 base2' Y Y' :
    (forall cs, round_challenges D fuel f0 (rev st2) cs -> separates1 (folded_key ck2 (map finv cs))) ->
    (forall cs, round_challenges D fuel f0 (rev st1) cs -> folded_key ck1 (map finv cs) <> m0) ->
    fst base1 <> f0 -> fst base2 <> m0 ->
    tbpc_verify P E D fuel r1 r2 (ck1, ck2) com (x, y) e (mk_t_opening (mk_gipa_proof st2 base2) Y (mk_gipa_proof st1 base1)) = Ok true ->
    tbpc_verify P E D fuel r1 r2 (ck1, ck2) com (x, y) e (mk_t_opening (mk_gipa_proof st2 base2') Y' (mk_gipa_proof st1 base1')) = Ok true ->
    base1' = base1 /\ base2' = base2 /\ Y' = Y.
  Proof using HE HD.
    intros K2 K1 N1 N2 H H'. apply C59_transparent_accepts_iff in H as [A B]; auto. apply C59_transparent_accepts_iff in H' as [A' B']; auto.
    cbn [to_second to_y_eval_comm to_first] in *.
    destruct A as [cs [A1 [_ [A2 [_ [_ [A3 A4]]]]]]], A' as [cs' [A1' [_ [A2' [_ [_ [A3' A4']]]]]]].
    destruct B as [ds [B1 [_ [B2 [_ [_ [B3 _]]]]]]], B' as [ds' [B1' [_ [B2' [_ [_ [B3' _]]]]]]].
    cbn [gp_steps gp_base] in *.
    assert (cs' = cs) as -> by (eapply round_challenges_fun; eauto). assert (ds' = ds) as -> by (eapply round_challenges_fun; eauto).
    destruct base1 as [a1 s1], base1' as [a1' s1'], base2 as [a2 s2], base2' as [a2' s2']. cbn [fst snd] in *.
    assert (a2' = a2) as ->.
    { apply (separates1_inj (folded_key ck2 (map finv cs))); [now apply K2|]. etransitivity; [exact A2'|symmetry; exact A2]. }
    assert (Y' = Y) as ->. { rewrite A4 in A4'. unfold folded in A4'. symmetry. exact (add_cancel_r _ _ _ A4'). }
    assert (s2' = s2) as ->. { apply (mscale_free s2' s2 a2); auto. etransitivity; [exact A3'|symmetry; exact A3]. }
    assert (a1' = a1) as ->.
    { apply (mscale_free (a1' : K) a1 (folded_key ck1 (map finv ds))); [now apply K1|]. etransitivity; [exact B2'|symmetry; exact B2]. }
    assert (s1' = s1) as ->.
    { apply (scale_inj (M := fmod K) (a1 : K) s1' s1); auto. etransitivity; [exact B3'|symmetry; exact B3]. }
    auto.
  Qed.

  (** aggregates of Groth16 proofs: the rounds and the final keys determine the rest *)
  Theorem C88_groth16_partial (r1 : sampler R (pG1 P)) (r2 : sampler R (pG2 P)) alpha beta (vk : g16_vk P) inputs
      ca cb cc stab cka ckb stc ckc t t' Cr Cr' bab bab' oab oab' a a' s s' oc oc' :
    separates1 cka -> separates2 ckb -> separates1 ckc ->
    (forall cs, round_challenges D fuel f0 (rev stab) cs ->
       never_drawn D fuel (fser (last cs f0) ++ mser cka ++ mser ckb) alpha /\
       never_drawn D fuel (fser (last cs f0) ++ mser cka ++ mser ckb) beta) ->
    (forall cs, round_challenges D fuel f0 (rev stc) cs -> never_drawn D fuel (fser (last cs f0) ++ mser ckc) beta) ->
    g16_verify P E D fuel r1 r2 (key_of alpha beta) vk inputs (aggregate_of ca cb cc t Cr stab bab (cka, ckb) oab stc a s ckc oc) = Ok true ->
    g16_verify P E D fuel r1 r2 (key_of alpha beta) vk inputs (aggregate_of ca cb cc t' Cr' stab bab' (cka, ckb) oab' stc a' s' ckc oc') = Ok true ->
    t' = t /\ Cr' = Cr /\ bab' = bab /\ oab' = oab /\ a' = a /\ oc' = oc.
  Proof using HE HD.
    intros Ka Kb Kc HZ HZc H H'. apply C60_groth16_accepts_iff in H as [_ [r [Hr [_ [_ [A [B _]]]]]]]; auto.
    apply C60_groth16_accepts_iff in H' as [_ [r' [Hr' [_ [_ [A' [B' _]]]]]]]; auto.
    cbn [aggregate_of ag_com_a ag_com_b ag_com_c ag_ip_ab ag_agg_c ag_tipa_ab ag_tipa_c] in *.
    assert (r' = r) as -> by (eapply drawn_fun; eauto).
    destruct (rows_unique _ _ _ _ _ _ _ _ _ _ _ Kc HZc B B') as [H1 [H2 H3]]. cbn [fst] in H1.
    destruct A as [cs [z [A1 [_ [A2 [[O1 O2] [A3 [A4 [A5 _]]]]]]]]], A' as [cs' [z' [A1' [_ [A2' [[O1' O2'] [A3' [A4' [A5' _]]]]]]]]].
    cbn [tp_gipa tp_final_ck tp_final_ck_proof gp_steps gp_base fst snd] in *.
    assert (cs' = cs) as -> by (eapply round_challenges_fun; eauto).
    assert (z' = z) as -> by (eapply drawn_fun; eauto).
    destruct (HZ cs A1) as [Za Zb]. specialize (Za z A2). specialize (Zb z A2).
    destruct bab as [x y], bab' as [x' y'], oab as [o1 o2], oab' as [o1' o2']. cbn [fst snd] in *.
    assert (x' = x) as ->. { apply (separates1_inj cka); auto. etransitivity; [exact A3'|symmetry; exact A3]. }
    assert (y' = y) as ->. { apply (separates2_inj ckb); auto. etransitivity; [exact A4'|symmetry; exact A4]. }
    assert (t' = t) as ->. { rewrite A5 in A5'. unfold folded in A5'. symmetry. exact (add_cancel_r _ _ _ A5'). }
    assert (o1' = o1) as ->. { apply (scale_inj (beta -f z)); [now apply sub_neq|]. now rewrite <- O1, <- O1'. }
    assert (o2' = o2) as ->. { apply (scale_inj (alpha -f z)); [now apply sub_neq|]. now rewrite <- O2, <- O2'. }
    auto 8.
  Qed.
End C88pc.
Print Assumptions C88_bivariate_scalar_refuted.
Print Assumptions C88_univariate_scalar_refuted.
Print Assumptions C88_groth16_scalar_refuted.
Print Assumptions C88_bivariate_partial.
Print Assumptions C88_univariate_partial.
Print Assumptions C88_transparent.
Print Assumptions C88_groth16_partial.

(** ** The aggregate of C41_example (trapdoors alpha = 2, beta = 3) *)
(** Another scalar in the second argument: still accepted.  Another opening, last message or final key in
    it: rejected. *)
Definition ex_c (f : tssm_proof ZPair ZM (mod_carrier ZM) (identity_output ZM) ->
                     tssm_proof ZPair ZM (mod_carrier ZM) (identity_output ZM)) (p : agg_proof ZPair) : agg_proof ZPair :=
  mk_agg_proof (P := ZPair) (ag_com_a p) (ag_com_b p) (ag_com_c p) (ag_ip_ab p) (ag_agg_c p) (ag_tipa_ab p) (f (ag_tipa_c p)).
Definition ex_ab (f : tipa_proof ZPair ZM ZM (mod_carrier ZM) (mod_carrier ZM) (identity_output ZM) ->
                      tipa_proof ZPair ZM ZM (mod_carrier ZM) (mod_carrier ZM) (identity_output ZM)) (p : agg_proof ZPair) : agg_proof ZPair :=
  mk_agg_proof (P := ZPair) (ag_com_a p) (ag_com_b p) (ag_com_c p) (ag_ip_ab p) (ag_agg_c p) (f (ag_tipa_ab p)) (ag_tipa_c p).
Example C88_groth16_example :
  PropsGrothVerify.ex_gtamper (fun p => p) = Ok true /\
  PropsGrothVerify.ex_gtamper (ex_c (fun q => mk_tssm_proof (P := ZPair) (ex_sbase ex_bump2 (ts_gipa q)) (ts_final_ck q) (ts_final_ck_proof q))) = Ok true /\
  PropsGrothVerify.ex_gtamper (ex_c (fun q => mk_tssm_proof (P := ZPair) (ex_sbase ex_bump1 (ts_gipa q)) (ts_final_ck q) (ts_final_ck_proof q))) = Ok false /\
  PropsGrothVerify.ex_gtamper (ex_c (fun q => mk_tssm_proof (P := ZPair) (ts_gipa q) (ts_final_ck q) (ex_add1 (ts_final_ck_proof q)))) = Ok false /\
  PropsGrothVerify.ex_gtamper (ex_ab (fun q => mk_tipa_proof (P := ZPair) (ex_base ex_bump1 (tp_gipa q)) (tp_final_ck q) (tp_final_ck_proof q))) = Ok false /\
  PropsGrothVerify.ex_gtamper (ex_ab (fun q => mk_tipa_proof (P := ZPair) (ex_base ex_bump2 (tp_gipa q)) (tp_final_ck q) (tp_final_ck_proof q))) = Ok false /\
  PropsGrothVerify.ex_gtamper (ex_ab (fun q => mk_tipa_proof (P := ZPair) (tp_gipa q) (tp_final_ck q) (ex_bump1 (tp_final_ck_proof q)))) = Ok false /\
  PropsGrothVerify.ex_gtamper (ex_ab (fun q => mk_tipa_proof (P := ZPair) (tp_gipa q) (tp_final_ck q) (ex_bump2 (tp_final_ck_proof q)))) = Ok false.
Proof. vm_compute. repeat split; reflexivity. Qed.

(** its final keys are not 0 and its opening challenges are not 2 or 3 *)
Definition ex_off (z : ZP) : bool := negb (feqb z (zq 2 : ZP)) && negb (feqb z (zq 3 : ZP)).
Definition ex_nz (z : ZP) : bool := negb (feqb z (f0 : ZP)).
Definition ex_hyp : res (bool * bool * bool * bool * bool) :=
  do pv <- ex_agg toy_digest ex_pfs;
  let ab := ag_tipa_ab (fst pv) in let c := ag_tipa_c (fst pv) in
  let cs := gipa_recursive_challenges (K := ZP) (OA := mod_carrier ZM) (OB := mod_carrier ZM) (OT := identity_output ZM) toy_digest 9
              (ag_com_a (fst pv), ag_com_b (fst pv), [ag_ip_ab (fst pv)]) (tp_gipa ab) in
  let ds := gipa_recursive_challenges (K := ZP) (OA := mod_carrier ZM) (OB := mod_carrier (fmod ZP)) (OT := identity_output ZM) toy_digest 9
              (ag_com_c (fst pv), f0 : fmod ZP, [ag_agg_c (fst pv)]) (ts_gipa c) in
  do (_, t) <- cs; do (_, u) <- ds; do t0 <- runwrap (hd_error t); do u0 <- runwrap (hd_error u);
  do z <- rand_challenge (K := ZP) toy_digest 9 0 (tipa_kzg_payload (P := ZPair) t0 (fst (tp_final_ck ab)) (snd (tp_final_ck ab)));
  do w <- rand_challenge (K := ZP) toy_digest 9 0 (tssm_kzg_payload (P := ZPair) u0 (ts_final_ck c));
  Ok (ex_off z, ex_off w, ex_nz (fst (tp_final_ck ab)), ex_nz (snd (tp_final_ck ab)), ex_nz (ts_final_ck c)).
Example C88_hypotheses_run : ex_hyp = Ok (true, true, true, true, true).
Proof. vm_compute. reflexivity. Qed.
(** in this instance every key but 0 separates *)
Example C88_separates (k : ZP) : k <> f0 -> separates1 (P := ZPair) k /\ separates2 (P := ZPair) k.
Proof.
  intros Hk. assert (E : k = mscale (m := ZM) k (pr_h ZPair)).
  { change (k = zp_mul k (zp_of 1)). rewrite (Rmul_comm (F_R zp_field_theory)). symmetry. apply (Rmul_1_l (F_R zp_field_theory)). }
  split; rewrite E; [exact (multiples_separate1 (P := ZPair) k Hk)|exact (multiples_separate2 (P := ZPair) k Hk)].
Qed.

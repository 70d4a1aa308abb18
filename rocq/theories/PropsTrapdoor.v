(** Property C111: what the trapdoors of a setup allow. *)
Require Import List Arith NArith ZArith Lia Bool Field.
Import ListNotations.
Require Import Verif.Outcome Verif.Algebra Verif.Zp Verif.Rust Verif.InnerProducts Verif.Commitments
  Verif.Gipa Verif.Poly Verif.Tipa Verif.Ssm Verif.Floats Verif.PolyCommit Verif.Spec Verif.ListFacts
  Verif.RustFacts Verif.InnerProductFacts Verif.CommitFacts Verif.GipaFacts Verif.GipaComplete Verif.GipaTop
  Verif.PolyFacts Verif.KeyFacts Verif.TipaFacts Verif.SsmFacts Verif.FloatFacts Verif.PcFacts Verif.PcDegrees Verif.UpcFacts Verif.VerifyFacts Verif.Trapdoor
  Verif.PropsBase Verif.PropsGipa Verif.PropsTipa Verif.PropsSsm Verif.PropsPoly Verif.PropsVerify Verif.PropsPcVerify.

(** The trapdoors of a setup are the first two scalars drawn from its generator. *)
Definition trapdoor_alpha {R A} (rand : sampler R A) (rng : R) : A := fst (rand rng).
Definition trapdoor_beta {R A} (rand : sampler R A) (rng : R) : A := fst (rand (snd (rand rng))).

Section Kzg.
  Context {R : Type} {P : pairing}.
  Add Field KfC111 : (f_theory (pK P)).
  Variable rand : sampler R (pK P).

  (** A commitment can be opened to every value at every point but alpha; there only to the value it has. *)
  Theorem C111_kzg (rng : R) (d : nat) powers v rng' com z e :
    kzg_setup rand rng d = Ok (powers, v, rng') ->
    (z <> trapdoor_alpha rand rng -> kzg_verify v com z e (finv (trapdoor_alpha rand rng -f z) *m (com -m e *m pr_g P)) = Ok true) /\
    ((exists proof, kzg_verify v com z e proof = Ok true) <-> z <> trapdoor_alpha rand rng \/ com = e *m pr_g P).
  Proof.
    intros Hs. assert (H1 : z <> trapdoor_alpha rand rng -> kzg_verify v com z e (finv (trapdoor_alpha rand rng -f z) *m (com -m e *m pr_g P)) = Ok true).
    { intros Hz. apply (C33_acceptance rand rng d powers v rng' com z e _ Hs). now apply open_ok. }
    split; [exact H1|]. split.
    - intros [proof Hp]. apply (C33_acceptance rand rng d powers v rng' com z e _ Hs) in Hp.
      destruct (feqb z (trapdoor_alpha rand rng)) eqn:Ez.
      + right. apply feqb_spec in Ez. unfold trapdoor_alpha in Ez. rewrite <- Ez in Hp. replace (z -f z) with (f0 : pK P) in Hp by ring. rewrite mscale_0_l in Hp.
        now apply msub_eq0.
      + left. now apply feqb_false.
    - intros [Hz| ->]; [eexists; exact (H1 Hz)|]. exists m0. apply (C33_acceptance rand rng d powers v rng' _ z e _ Hs).
      rewrite mscale_0_r. now apply msub_eq0.
  Qed.
End Kzg.
Print Assumptions C111_kzg.

(** ** TIPA *)
Section Tipa.
  Context {R : Type} {P : pairing}.
  Notation K := (pK P).
  Variables (E : penv) (HE : 1 <= threads E) (D : bytes -> bytes) (fuel : nat) (HD : digest16 D).
  Variables (rand : sampler R (pK P)) (r1 : sampler R (pG1 P)) (r2 : sampler R (pG2 P)).
  Hypothesis HL2 : draws_end K D fuel.

  Lemma setup_key {MT KT : module K} {OT : carrier K} (IPC : dhc R MT KT OT) rng n s kt rng' v : tipa_setup IPC rand rng n = Ok (s, kt, rng') ->
    get_verifier_key s = Ok v -> v = trap_vsrs (trapdoor_alpha rand rng) (trapdoor_beta rand rng).
  Proof using.
    intros Hs Hv. destruct (C21_setup_structure _ _ _ _ _ _ _ Hs) as [H0 H1]. destruct (C21_keys s _ _ _ H0 H1) as [_ H2].
    rewrite Hv in H2. now injection H2.
  Qed.

  (** For commitments with the known logarithms x, y and any claimed inner product z there is an accepted proof with any number of rounds,
      unless the point of the key openings happens to be a trapdoor; one is made for every u <> 0. *)
  Theorem C111_tipa_pairing rng n s kt rng' v (x y z r u : K) k :
    rounds_end (mod_carrier (pGT P)) (mod_carrier (pGT P)) (identity_output (pGT P)) D fuel ->
    tipa_setup (identity (pGT P)) rand rng n = Ok (s, kt, rng') -> get_verifier_key s = Ok v -> r <> f0 -> u <> f0 ->
    let gt := pr_e P (pr_g P) (pr_h P) in
    exists proof c,
      tipa_with_trapdoors D fuel (trapdoor_alpha rand rng) (trapdoor_beta rand rng) (pr_g P) (pr_h P)
        (m0 : mod_carrier (pGT P)) (m0 : mod_carrier (pGT P)) ([m0] : identity_output (pGT P)) [gt] x y z r u k = Ok (proof, c) /\
      length (gp_steps (tp_gipa proof)) = S k /\
      (c <> trapdoor_alpha rand rng -> c <> trapdoor_beta rand rng ->
       tipa_verify_with_srs_shift (afgho_g1 P E r2) (afgho_g2 P E r1) (identity (pGT P)) (pairing_ip P E) D fuel v kt
         (x *m gt, y *m gt, [z *m gt]) proof r = Ok true).
  Proof using HE HD HL2.
    intros HL Hs Hv Hr Hu gt. rewrite (setup_key _ _ _ _ _ _ _ Hs Hv).
    exact (tipa_with_trapdoors_ok D fuel (trapdoor_alpha rand rng) (trapdoor_beta rand rng) mid mid idout (phi_g1 P) (pr_e P) psi_id
      (afgho_g1 P E r2) (afgho_g2 P E r1) (identity (pGT P)) (pairing_ip P E) (pr_e P)
      (afgho_g1_law P E HE r2) (afgho_g2_law P E HE r1) (identity_law _) (pairing_ip_law P E HE) (pr_g P) (pr_h P) kt x y z r u k
      (rounds_end_live D fuel HD HL) (draws_end_live K D fuel HL2) Hr Hu).
  Qed.

  Theorem C111_tipa_multiexp rng n s kt rng' v (x y z r u : K) k :
    rounds_end (mod_carrier (pGT P)) (mod_carrier (pG1 P)) (identity_output (pG1 P)) D fuel ->
    tipa_setup (identity (pG1 P)) rand rng n = Ok (s, kt, rng') -> get_verifier_key s = Ok v -> r <> f0 -> u <> f0 ->
    exists proof c,
      tipa_with_trapdoors (MB := fmod K) D fuel (trapdoor_alpha rand rng) (trapdoor_beta rand rng) (pr_g P) (f1 : fmod K)
        (m0 : mod_carrier (pGT P)) (m0 : mod_carrier (pG1 P)) ([m0] : identity_output (pG1 P)) [pr_g P] x y z r u k = Ok (proof, c) /\
      length (gp_steps (tp_gipa proof)) = S k /\
      (c <> trapdoor_alpha rand rng -> c <> trapdoor_beta rand rng ->
       tipa_verify_with_srs_shift (afgho_g1 P E r2) (pedersen (pG1 P) r1) (identity (pG1 P)) (multiexp_ip (pG1 P)) D fuel v kt
         (x *m pr_e P (pr_g P) (pr_h P), y *m pr_g P, [z *m pr_g P]) proof r = Ok true).
  Proof using HE HD HL2.
    intros HL Hs Hv Hr Hu. rewrite (setup_key _ _ _ _ _ _ _ Hs Hv).
    destruct (tipa_with_trapdoors_ok D fuel (trapdoor_alpha rand rng) (trapdoor_beta rand rng) mid mid idout (phi_g1 P) smul psi_id
      (afgho_g1 P E r2) (pedersen (pG1 P) r1) (identity (pG1 P)) (multiexp_ip (pG1 P)) smul
      (afgho_g1_law P E HE r2) (pedersen_law _ r1) (identity_law _) (multiexp_ip_law _) (pr_g P) (f1 : fmod K) kt x y z r u k
      (rounds_end_live D fuel HD HL) (draws_end_live K D fuel HL2) Hr Hu) as [proof [c [H1 [H2 H3]]]].
    unfold smul, mid, idout, psi_id, phi_g1 in H1, H3. rewrite !mscale_1 in *. exists proof, c. auto.
  Qed.

  Theorem C111_tipa_scalar rng n s kt rng' v (x y z r u : K) k :
    rounds_end (mod_carrier (pG2 P)) (mod_carrier (pG1 P)) (identity_output (fmod K)) D fuel ->
    tipa_setup (identity (fmod K)) rand rng n = Ok (s, kt, rng') -> get_verifier_key s = Ok v -> r <> f0 -> u <> f0 ->
    exists proof c,
      tipa_with_trapdoors (MA := fmod K) (MB := fmod K) D fuel (trapdoor_alpha rand rng) (trapdoor_beta rand rng) (f1 : fmod K) (f1 : fmod K)
        (m0 : mod_carrier (pG2 P)) (m0 : mod_carrier (pG1 P)) ([f0] : identity_output (fmod K)) [f1] x y z r u k = Ok (proof, c) /\
      length (gp_steps (tp_gipa proof)) = S k /\
      (c <> trapdoor_alpha rand rng -> c <> trapdoor_beta rand rng ->
       tipa_verify_with_srs_shift (pedersen (pG2 P) r2) (pedersen (pG1 P) r1) (identity (fmod K)) (scalar_ip E) D fuel v kt
         (x *m pr_h P, y *m pr_g P, [z]) proof r = Ok true).
  Proof using HD HL2.
    intros HL Hs Hv Hr Hu. rewrite (setup_key _ _ _ _ _ _ _ Hs Hv).
    destruct (tipa_with_trapdoors_ok D fuel (trapdoor_alpha rand rng) (trapdoor_beta rand rng) mid mid idout smul smul psi_id
      (pedersen (pG2 P) r2) (pedersen (pG1 P) r1) (identity (fmod K)) (scalar_ip E) fmul'
      (pedersen_law _ r2) (pedersen_law _ r1) (identity_law _) (scalar_ip_law E) (f1 : fmod K) (f1 : fmod K) kt x y z r u k
      (rounds_end_live D fuel HD HL) (draws_end_live K D fuel HL2) Hr Hu) as [proof [c [H1 [H2 H3]]]].
    assert (Ef : fmul' (f1 : fmod K) (f1 : fmod K) = (f1 : fmod K)) by (change (f1 *f f1 = (f1 : K)); apply (Rmul_1_l (F_R (f_theory K)))).
    assert (Ez : z *m (f1 : fmod K) = (z : fmod K)) by (change (z *f f1 = z); rewrite (Rmul_comm (F_R (f_theory K))); apply (Rmul_1_l (F_R (f_theory K)))).
    rewrite !Ef in H1. unfold smul, mid, idout, psi_id in H1, H3. rewrite Ef, Ez, !mscale_1 in H3. exists proof, c. auto.
  Qed.
End Tipa.
Print Assumptions C111_tipa_pairing.
Print Assumptions C111_tipa_multiexp.
Print Assumptions C111_tipa_scalar.

(** Commitments to vectors of known multiples of the generators have known logarithms: for them every inner product is provable. *)
Section Vectors.
  Context {R : Type} {P : pairing}.
  Notation K := (pK P).
  Add Field KfC111v : (f_theory (pK P)).
  Variables (E : penv) (HE : 1 <= threads E) (D : bytes -> bytes) (fuel : nat) (HD : digest16 D).
  Variables (rand : sampler R (pK P)) (r1 : sampler R (pG1 P)) (r2 : sampler R (pG2 P)).
  Hypothesis HL2 : draws_end K D fuel.

  Theorem C111_vectors rng n s kt rng' ka kb v (la lb : list K) (z : K) k :
    rounds_end (mod_carrier (pGT P)) (mod_carrier (pGT P)) (identity_output (pGT P)) D fuel ->
    tipa_setup (identity (pGT P)) rand rng n = Ok (s, kt, rng') -> get_commitment_keys s = (ka, kb) -> get_verifier_key s = Ok v ->
    length la = n -> length lb = n ->
    let alpha := trapdoor_alpha rand rng in let beta := trapdoor_beta rand rng in let gt := pr_e P (pr_g P) (pr_h P) in
    let a := map (fun x => x *m pr_g P) la in let b := map (fun x => x *m pr_h P) lb in
    pairing_sum P a b = scalar_sum la lb *m gt /\
    exists proof c,
      tipa_with_trapdoors D fuel alpha beta (pr_g P) (pr_h P) (m0 : mod_carrier (pGT P)) (m0 : mod_carrier (pGT P)) ([m0] : identity_output (pGT P)) [gt]
        (poly_at la (beta *f beta)) (poly_at lb (alpha *f alpha)) z f1 f1 k = Ok (proof, c) /\
      (c <> alpha -> c <> beta ->
       tipa_verify (afgho_g1 P E r2) (afgho_g2 P E r1) (identity (pGT P)) (pairing_ip P E) D fuel v kt
         (pairing_sum P a ka, pairing_sum P kb b, [z *m gt]) proof = Ok true).
  Proof using HE HD HL2.
    intros HL Hs Hk Hv Ha Hb alpha beta gt a b. destruct (C21_setup_structure _ _ _ _ _ _ _ Hs) as [H0 H1].
    destruct (C21_keys s _ _ _ H0 H1) as [[ka' [kb' [Hk' [La [Lb Hi]]]]] _]. rewrite Hk in Hk'. injection Hk' as <- <-.
    assert (Ea : forall i, i < n -> at_ a i = fat la i *m pr_g P).
    { intros i H. unfold at_, a.
      rewrite (nth_indep _ m0 (f0 *m pr_g P)) by (rewrite map_length, Ha; exact H). now rewrite (map_nth (fun x => x *m pr_g P)). }
    assert (Eb : forall i, i < n -> at_ b i = fat lb i *m pr_h P).
    { intros i H. unfold at_, b. rewrite (nth_indep _ m0 (f0 *m pr_h P)) by (rewrite map_length, Hb; exact H). now rewrite (map_nth (fun x => x *m pr_h P)). }
    assert (Na : length a = n) by (unfold a; now rewrite map_length). assert (Nb : length b = n) by (unfold b; now rewrite map_length).
    assert (Hpow : forall (t : K) i, fpow t (2 * i) = fpow (t *f t) i).
    { intros t i. induction i as [|i IH]; [reflexivity|]. replace (2 * S i) with (S (S (2 * i))) by lia. cbn [fpow]. rewrite IH. ring. }
    split; [|].
    - unfold pairing_sum, scalar_sum. rewrite Na, Ha, <- big_fscale. apply big_ext. intros i H. rewrite Ea, Eb by exact H.
      now rewrite e_scale_l, e_scale_r, <- mscale_mul.
    - assert (Ca : pairing_sum P a ka = poly_at la (beta *f beta) *m gt).
      { unfold pairing_sum, poly_at. rewrite Na, Ha, <- big_fscale. apply big_ext. intros i H. destruct (Hi i H) as [-> _]. rewrite Ea by exact H.
        rewrite e_scale_l, e_scale_r, <- mscale_mul. unfold beta, trapdoor_beta. now rewrite Hpow. }
      assert (Cb : pairing_sum P kb b = poly_at lb (alpha *f alpha) *m gt).
      { unfold pairing_sum, poly_at. rewrite Lb, Hb, <- big_fscale. apply big_ext. intros i H. destruct (Hi i H) as [_ ->]. rewrite Eb by exact H.
        rewrite e_scale_l, e_scale_r, <- mscale_mul. unfold alpha, trapdoor_alpha. rewrite Hpow. f_equal. ring. }
      rewrite Ca, Cb. unfold tipa_verify.
      destruct (C111_tipa_pairing E HE D fuel HD rand r1 r2 HL2 rng n s kt rng' v (poly_at la (beta *f beta)) (poly_at lb (alpha *f alpha)) z f1 f1 k
        HL Hs Hv (f1_neq_f0 K) (f1_neq_f0 K)) as [proof [c [H2 [_ H3]]]]. exists proof, c. auto.
  Qed.
End Vectors.
Print Assumptions C111_vectors.

(** ** Structured scalar messages and polynomial commitments *)
Section Ssm.
  Context {R : Type} {P : pairing}.
  Notation K := (pK P).
  Add Field KfC111s : (f_theory (pK P)).
  Variables (E : penv) (HE : 1 <= threads E) (D : bytes -> bytes) (fuel : nat) (HD : digest16 D).
  Variables (rand : sampler R (pK P)) (r2 : sampler R (pG2 P)).
  Hypothesis HL : rounds_end (mod_carrier (pGT P)) (mod_carrier (fmod K)) (identity_output (pG1 P)) D fuel.
  Hypothesis HL2 : draws_end K D fuel.
  Notation program beta := (tssm_with_trapdoor (P := P) (MA := pG1 P) D fuel beta (pr_g P) (m0 : mod_carrier (pGT P)) (f0 : mod_carrier (fmod K))
    ([m0] : identity_output (pG1 P)) [pr_g P]).

  Lemma ssm_key alpha beta (kt : unitmod K) (x z b : K) k :
    exists proof c f, program beta x z b k = Ok (proof, c, f) /\ length (gp_steps (ts_gipa proof)) = S k /\
      (exists cs, round_challenges D fuel f0 (rev (gp_steps (ts_gipa proof))) cs /\ f = folded_powers cs b) /\
      (c <> beta -> f <> f0 ->
       tssm_verify (afgho_g1 P E r2) (identity (pG1 P)) (multiexp_ip (pG1 P)) D fuel E (trap_vsrs alpha beta) kt
         (x *m pr_e P (pr_g P) (pr_h P), [z *m pr_g P]) b proof = Ok true).
  Proof using HE HD HL HL2.
    destruct (tssm_with_trapdoor_ok D fuel E alpha beta mid idout (phi_g1 P) psi_id (afgho_g1 P E r2) (identity (pG1 P)) (multiexp_ip (pG1 P)) smul
      (afgho_g1_law P E HE r2) (identity_law _) (multiexp_ip_law _) (pr_g P) kt x z b k (rounds_end_live D fuel HD HL) (draws_end_live K D fuel HL2))
      as [proof [c [f [H1 [H2 [[cs [H3 H4]] H5]]]]]].
    unfold smul, mid, idout, psi_id, phi_g1 in H1, H5. rewrite !mscale_1 in *. exists proof, c, f. split; [exact H1|]. split; [exact H2|].
    split; [|exact H5]. exists cs. split; [now apply round_challenges_chain|]. now rewrite <- folded_powers_eq.
  Qed.

  Theorem C111_ssm rng n s kt rng' v (x z b : K) k :
    tipa_setup (identity (pG1 P)) rand rng n = Ok (s, kt, rng') -> get_verifier_key s = Ok v ->
    exists proof c f, program (trapdoor_beta rand rng) x z b k = Ok (proof, c, f) /\ length (gp_steps (ts_gipa proof)) = S k /\
      (exists cs, round_challenges D fuel f0 (rev (gp_steps (ts_gipa proof))) cs /\ f = folded_powers cs b) /\
      (c <> trapdoor_beta rand rng -> f <> f0 ->
       tssm_verify (afgho_g1 P E r2) (identity (pG1 P)) (multiexp_ip (pG1 P)) D fuel E v kt
         (x *m pr_e P (pr_g P) (pr_h P), [z *m pr_g P]) b proof = Ok true).
  Proof using HE HD HL HL2. intros Hs Hv. rewrite (setup_key rand _ _ _ _ _ _ _ Hs Hv). apply ssm_key. Qed.

  (** The opening: commitment [value * g] to the row combination, KZG proof 0. *)
  Definition opening_with_trapdoor (beta log x value : K) (k : nat) : res (opening_proof P * K * K) :=
    do (ip, c, f) <- program beta log value x k;
    Ok (mk_opening ip (value *m pr_g P) m0, c, f).

  Lemma bivariate_key alpha beta (log x y e : K) k :
    exists proof c f, opening_with_trapdoor beta log x e k = Ok (proof, c, f) /\
      (exists cs, round_challenges D fuel f0 (rev (gp_steps (ts_gipa (op_ip proof)))) cs /\ f = folded_powers cs x) /\
      (c <> beta -> f <> f0 ->
       bpc_verify P E D fuel r2 (trap_vsrs alpha beta) (log *m pr_e P (pr_g P) (pr_h P)) (x, y) e proof = Ok true).
  Proof using HE HD HL HL2.
    destruct (ssm_key alpha beta (tt : unitmod K) log e x k) as [proof [c [f [H1 [_ [H3 H4]]]]]].
    unfold opening_with_trapdoor. rewrite H1. cbn [rbind]. eexists _, c, f. split; [reflexivity|]. cbn [op_ip]. split; [exact H3|].
    intros Hc Hf. unfold bpc_verify. cbn [op_ip op_y_eval_comm op_kzg].
    specialize (H4 Hc Hf). match goal with |- rbind ?A _ = _ => replace A with (Ok true) by (symmetry; exact H4) end. cbn [rbind].
    assert (Hkz : kzg_verify (trap_vsrs alpha beta) (e *m pr_g P) y e m0 = Ok true).
    { apply kzg_verify_iff. rewrite mscale_0_r. now apply msub_eq0. }
    match goal with |- rbind ?A _ = _ => replace A with (Ok true) by (symmetry; exact Hkz) end. reflexivity.
  Qed.

  Lemma commit_log (alpha beta : K) xd yd p com coms : length p <= xd + 1 -> Forall (wf_row (yd + 1)) p ->
    bpc_commit P E r2 (trap_bsrs alpha beta xd yd) p = Ok (com, coms) -> com = bipoly_at p (beta *f beta) alpha *m pr_e P (pr_g P) (pr_h P).
  Proof using HE.
    intros Hl Hr Hc. rewrite (bpc_commit_ok E HE r2 alpha beta xd yd p Hl Hr) in Hc. injection Hc as <- _.
    set (rows := resize (xd + 1) [] p). unfold phi_g1. rewrite dot_flip, dot_pairing_sum by (rewrite map_length, key_vec_length; unfold rows; apply resize_length).
    rewrite <- C35_bivariate_evaluation, bipoly_evaluate_rows. unfold pairing_sum. rewrite map_length.
    assert (Hn : length rows = xd + 1) by apply resize_length. rewrite Hn, <- big_fscale.
    assert (Hat : forall i, i < xd + 1 -> pr_e P (at_ (map (fun r => poly_evaluate r alpha *m pr_g P) rows) i) (at_ (key_vec (xd + 1) beta f1 (pr_h P)) i) =
      (fpow (beta *f beta) i *f poly_evaluate (nth i p []) alpha) *m pr_e P (pr_g P) (pr_h P)).
    { intros i Hi. unfold at_ at 1. rewrite (nth_indep _ m0 (poly_evaluate [] alpha *m pr_g P)) by (rewrite map_length; lia).
      rewrite (map_nth (fun r => poly_evaluate r alpha *m pr_g P)). unfold key_vec.
      rewrite (at_map_seq (fun i => fpow (beta *f beta *f f1) i *m pr_h P)) by exact Hi. replace (beta *f beta *f f1) with (beta *f beta) by ring.
      rewrite e_scale_l, e_scale_r, <- mscale_mul. f_equal. unfold rows. rewrite resize_nth by exact Hi. ring. }
    rewrite (big_ext (xd + 1) _ _ Hat). replace (xd + 1) with (length p + (xd + 1 - length p)) by lia. rewrite big_split.
    rewrite (big_ext (xd + 1 - length p) _ (fun _ => m0)).
    - now rewrite big_0, madd_0_r.
    - intros i Hi. rewrite (nth_overflow p) by lia. cbn [poly_evaluate fold_right]. replace (fpow (beta *f beta) (length p + i) *f f0) with (f0 : K) by ring.
      apply mscale_0_l.
  Qed.

  (** The honest commitment of every polynomial is opened to every value at every point. *)
  Theorem C111_bivariate (rng : R) xd yd s rng' v p com coms (x y e : K) k :
    bpc_setup P rand rng xd yd = Ok (s, rng') -> get_verifier_key (fst s) = Ok v ->
    length p <= xd + 1 -> Forall (degree_below (yd + 1)) p -> bpc_commit P E r2 s p = Ok (com, coms) ->
    let alpha := trapdoor_alpha rand rng in let beta := trapdoor_beta rand rng in
    exists proof c f, opening_with_trapdoor beta (bipoly_at p (beta *f beta) alpha) x e k = Ok (proof, c, f) /\
      (exists cs, round_challenges D fuel f0 (rev (gp_steps (ts_gipa (op_ip proof)))) cs /\ f = folded_powers cs x) /\
      (c <> beta -> f <> f0 -> bpc_verify P E D fuel r2 v com (x, y) e proof = Ok true).
  Proof using HE HD HL HL2.
    intros Hs Hv Hl Hr Hc alpha beta. destruct (bpc_setup_ok (P := P) rand rng xd yd) as [rng2 Hs2]. rewrite Hs in Hs2. injection Hs2 as -> _.
    rewrite trap_bsrs_vkey in Hv. injection Hv as <-. apply degree_below_wfs in Hr.
    rewrite (commit_log _ _ xd yd p com coms Hl Hr Hc). exact (bivariate_key alpha beta (bipoly_at p (beta *f beta) alpha) x y e k).
  Qed.

  Theorem C111_univariate (rng : R) d s rng' v p com coms : 1 <= d -> (Z.of_nat d < 2 ^ 52)%Z ->
    upc_setup P rand rng d = Ok (s, rng') -> get_verifier_key (fst s) = Ok v -> upc_commit P E r2 s p = Ok (com, coms) ->
    exists log, com = log *m pr_e P (pr_g P) (pr_h P) /\
      forall (z e : K) k, exists proof c f, opening_with_trapdoor (trapdoor_beta rand rng) log (fpow z (length (snd s))) e k = Ok (proof, c, f) /\
        (exists cs, round_challenges D fuel f0 (rev (gp_steps (ts_gipa (op_ip proof)))) cs /\ f = folded_powers cs (fpow z (length (snd s)))) /\
        (c <> trapdoor_beta rand rng -> f <> f0 -> upc_verify P E D fuel r2 v d com z e proof = Ok true).
  Proof using HE HD HL HL2.
    intros Hd Hlt Hs Hv Hc. destruct (upc_setup_ok (P := P) rand rng d Hd Hlt) as [xd [yd [rng2 [Hdeg Hs2]]]].
    rewrite Hs in Hs2. injection Hs2 as -> _. rewrite trap_bsrs_vkey in Hv. injection Hv as <-.
    unfold upc_commit in Hc. rewrite parse_degrees_trap in Hc. cbn [rbind] in Hc.
    destruct (bivariate_form_wf xd yd p) as [bp [Hbp [Hl [Hr _]]]]. rewrite Hbp in Hc. cbn [rbind] in Hc.
    eexists. split; [exact (commit_log _ _ xd yd bp com coms Hl Hr Hc)|]. rewrite (commit_log _ _ xd yd bp com coms Hl Hr Hc).
    intros z e k. unfold trap_bsrs. cbn [snd]. rewrite kzg_powers_length. unfold upc_verify. rewrite Hdeg. cbn [rbind]. apply bivariate_key.
  Qed.
End Ssm.
Print Assumptions C111_ssm.
Print Assumptions C111_bivariate.
Print Assumptions C111_univariate.

(** ** Runs *)
(** Trapdoors 2 and 3.  The vectors (2, 3) and (5, 7) of multiples of the generators have inner product 31; a proof for 0 and one for 50. *)
Definition ex_false_claim (z : Z) : res (bool * nat) :=
  do s <- ex_srs 2; do v <- get_verifier_key s;
  let (ka, kb) := get_commitment_keys s in
  do (proof, c) <- tipa_with_trapdoors (P := ZPair) (MA := ZM) (MB := ZM) toy_digest 5 (zq 2) (zq 3) (zq 1) (zq 1)
    (zq 0 : mod_carrier ZM) (zq 0 : mod_carrier ZM) ([zq 0] : identity_output ZM) [zq 1]
    (poly_at (K := ZP) (zl [2; 3]%Z) (zq 9)) (poly_at (K := ZP) (zl [5; 7]%Z) (zq 4)) (zq z) (zq 1) (zq 1) 2;
  do ok <- tipa_verify (P := ZPair) (ex_L ex_env) (ex_R ex_env) ex_T (pairing_ip ZPair ex_env) toy_digest 5 v tt
    (pairing_sum ZPair (zl [2; 3]%Z) ka, pairing_sum ZPair kb (zl [5; 7]%Z), [zq z]) proof;
  Ok (ok, length (gp_steps (tp_gipa proof))).
Example C111_example : ex_false_claim 50 = Ok (true, 3) /\ ex_false_claim 0 = Ok (true, 3) /\ ex_false_claim 31 = Ok (true, 3).
Proof. vm_compute. repeat split; reflexivity. Qed.
(** Trapdoors 5 and 6: the commitment 839 of 1 + 2 X + 3 X^2 + 4 X^3 is opened to 0, 7 and 142 (its value) at 3. *)
Definition ex_false_value (e : Z) : res bool :=
  do (s, _) <- upc_setup ZPair ex_rand 5%Z 3; do v <- get_verifier_key (fst s);
  do (com, _) <- upc_commit ZPair ex_env ex_rand s (zl [1; 2; 3; 4]%Z);
  do (proof, _, _) <- opening_with_trapdoor (P := ZPair) toy_digest 9 (zq 6) (zq 839) (zq 9) (zq e) 0;
  upc_verify ZPair ex_env1 toy_digest 9 ex_rand v 3 com (zq 3) (zq e) proof.
Example C111_example_value : ex_false_value 0 = Ok true /\ ex_false_value 7 = Ok true /\ ex_false_value 142 = Ok true.
Proof. vm_compute. repeat split; reflexivity. Qed.

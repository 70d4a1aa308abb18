(** What the programs of Forger.v achieve (used for C17 and C61). *)
Require Import List Arith NArith ZArith Lia Bool Field.
Import ListNotations.
Require Import Verif.Outcome Verif.Algebra Verif.Rust Verif.Spec Verif.ListFacts Verif.RustFacts
  Verif.InnerProducts Verif.Commitments Verif.InnerProductFacts Verif.CommitFacts Verif.Gipa
  Verif.GipaFacts Verif.GipaComplete Verif.GipaTop Verif.GipaAttack Verif.Poly Verif.PolyFacts Verif.Tipa Verif.KeyFacts
  Verif.TipaFacts Verif.Ssm Verif.SsmFacts Verif.VerifyFacts Verif.Floats Verif.FloatFacts Verif.PolyCommit Verif.PcFacts
  Verif.PcDegrees Verif.UpcFacts Verif.Transparent Verif.TransparentFacts Verif.Forger.

(** ** GIPA *)
Section GipaForge.
  Context {R : Type} {K : field}.
  Context {MA MB MT KA KB KT : module K} {OA OB OT : carrier K}.
  Variable D : bytes -> bytes.
  Variable fuel : nat.
  Add Field KfGf : (f_theory K).
  Context {XA XB XT : module K} (dA : XA -> OA) (dB : XB -> OB) (dT : XT -> OT).
  Context (fA : KA -> MA -> XA) (fB : KB -> MB -> XB) (fT : KT -> MT -> XT) (th : MA -> MB -> MT).
  Variable LMC : dhc R MA KA OA.
  Variable RMC : dhc R MB KB OB.
  Variable IPC : dhc R MT KT OT.
  Variable ip : list MA -> list MB -> res MT.
  Context (LA : lin_commit LMC dA fA) (LB : lin_commit RMC dB fB) (LT : ip_commit IPC dT fT)
          (LI : lin_ip ip th).
  Notation live := (forall prev (c1 c2 : com3 OA OB OT), exists c,
    gipa_challenge D fuel 0 prev c1 c2 = Ok c).

  Lemma gipa_forger_ok k a b ka kb kt (d : MT) :
    live ->
    length a = 2 ^ S k -> length b = 2 ^ S k -> length ka = 2 ^ S k -> length kb = 2 ^ S k ->
    exists (proof : gipa_proof MA MB OA OB OT) aux c cs,
      gipa_forger LMC RMC IPC ip D fuel (a, b) (ka, kb, [kt]) d = Ok (proof, aux, c) /\
      chain D fuel f0 (rev (gp_steps proof)) (c :: cs) /\
      length (gp_steps proof) = S k /\
      ga_transcript aux = rev (c :: cs) /\
      ga_ck_base aux = (dot smul ka (subs (map finv (rev (c :: cs))) : list (fmod K)),
                        dot smul kb (subs (rev (c :: cs)) : list (fmod K))) /\
      fst (gp_base proof) = dot smul a (subs (rev (c :: cs)) : list (fmod K)) /\
      snd (gp_base proof) = dot smul b (subs (map finv (rev (c :: cs))) : list (fmod K)) /\
      cfold (dA (dot fA ka a), dB (dot fB kb b), dT (fT kt (dot th a b -m c *m d)))
            (rev (gp_steps proof)) (c :: cs) =
        (dA (fA (dot smul ka (subs (map finv (rev (c :: cs))) : list (fmod K))) (fst (gp_base proof))),
         dB (fB (dot smul kb (subs (rev (c :: cs)) : list (fmod K))) (snd (gp_base proof))),
         dT (fT kt (th (fst (gp_base proof)) (snd (gp_base proof))))).
  Proof.
    intros HL Ha Hb Hka Hkb. unfold gipa_forger. rewrite Ha, pow2_half.
    apply halves in Ha as [a1 [a2 [-> [? ?]]]]. apply halves in Hb as [b1 [b2 [-> [? ?]]]].
    apply halves in Hka as [ka1 [ka2 [-> [? ?]]]]. apply halves in Hkb as [kb1 [kb2 [-> [? ?]]]].
    rewrite !slice_from_app, !slice_to_app by auto. cbn [rbind].
    rewrite (lc_commit _ _ _ LA), (lc_commit _ _ _ LB), (li_ip _ _ LI) by congruence. cbn [rbind].
    rewrite (ic_commit _ _ _ LT). cbn [rbind].
    rewrite (commit3_ok LMC RMC IPC ip dA dB dT fA fB fT th LA LB LT LI) by congruence. cbn [rbind].
    set (com_1 := (dA (dot fA ka1 a2), dB (dot fB kb2 b1), dT (fT kt (dot th a2 b1 +m d)))
                  : com3 OA OB OT).
    set (com_2 := com_of dA dB dT fA fB fT th ka2 a1 kb1 b2 kt a1 b2).
    destruct (HL f0 com_1 com_2) as [[c ci] Hc]. rewrite Hc. cbn [rbind]. rewrite !rescale_vfold.
    pose proof (gipa_challenge_ok_inv D fuel 0 f0 com_1 com_2 c ci Hc) as [_ [_ [Hcn Hci]]].
    subst ci. assert (Hk2 : k <= 2 ^ S k) by (pose proof (Nat.pow_gt_lin_r 2 (S k)); lia).
    destruct (prove_loop_live LMC RMC IPC ip D fuel dA dB dT fA fB fT th LA LB LT LI k (2 ^ S k)
                (vfold c a1 a2) (vfold (finv c) b1 b2) (vfold (finv c) ka1 ka2) (vfold c kb1 kb2)
                kt [(com_1, com_2)] [c] HL) as [[[[base ckb] S'] T'] Hr];
      try (rewrite vfold_length; lia); auto.
    pose proof Hr as Hr'.
    apply prove_loop_inv with (k := k) in Hr'; try (rewrite vfold_length; lia).
    destruct Hr' as [steps [cs [-> [-> [Hlen [Hch [E1 [E2 [E3 E4]]]]]]]]].
    pose proof (prove_loop_complete LMC RMC IPC ip D fuel dA dB dT fA fB fT th LA LB LT LI k (2 ^ S k)
                (vfold c a1 a2) (vfold (finv c) b1 b2) (vfold (finv c) ka1 ka2) (vfold c kb1 kb2)
                kt [(com_1, com_2)] [c] base ckb steps cs ([c] ++ cs)) as Hf.
    do 4 (specialize (Hf ltac:(rewrite vfold_length; lia))). specialize (Hf Hr Hch).
    change (gipa_prev [c]) with c in Hch.
    pose proof (chain_length _ _ _ _ _ Hch) as Hcl. rewrite Hlen in Hcl.
    rewrite dot_fold_rev in E1 by (rewrite Hcl; auto).
    rewrite dot_fold_rev_inv in E2 by (rewrite Hcl; auto).
    rewrite dot_fold_rev_inv in E3 by (rewrite Hcl; auto).
    rewrite dot_fold_rev in E4 by (rewrite Hcl; auto).
    do 2 eexists. exists c, cs.
    split. { match goal with |- rbind ?A _ = _ => replace A with (Ok (base, ckb, [(com_1, com_2)] ++ steps, [c] ++ cs)) by (symmetry; exact Hr) end. reflexivity. }
    cbn [gp_steps gp_base ga_transcript ga_ck_base]. rewrite rev_involutive, rev_length. cbn [length app].
    split; [econstructor; [exact Hc | exact Hch]|].
    split; [lia|]. split; [reflexivity|].
    split; [rewrite (surjective_pairing ckb); f_equal; [exact E3|exact E4]|].
    split; [exact E1|]. split; [exact E2|].
    rewrite <- E3, <- E4, <- Hf.
    rewrite <- (com_fold_step LMC RMC IPC ip dA dB dT fA fB fT th LA LB LT LI c ka1 ka2 a1 a2 kb1 kb2
                  b1 b2 kt (2 ^ k)) by auto.
    unfold cfold, com_of, com_1, com_2, com_of, com_a, com_b, com_t. cbn [fst snd cfold1].
    f_equal. f_equal.
    rewrite <- !(ic_dscale _ _ _ LT), <- !(ic_dadd _ _ _ LT). f_equal.
    rewrite <- !(ic_scale _ _ _ LT), <- !(ic_add _ _ _ LT). f_equal. module_norm; ring.
  Qed.

  Lemma gipa_forger_accepted k a b ka kb kt (d : MT) :
    live -> length a = 2 ^ S k -> length b = 2 ^ S k -> length ka = 2 ^ S k -> length kb = 2 ^ S k ->
    exists proof aux c, c <> f0 /\
      gipa_forger LMC RMC IPC ip D fuel (a, b) (ka, kb, [kt]) d = Ok (proof, aux, c) /\
      gipa_verify LMC RMC IPC ip D fuel (ka, kb, kt)
        (dA (dot fA ka a), dB (dot fB kb b), dT (fT kt (dot th a b -m c *m d))) proof = Ok true.
  Proof.
    intros HL Ha Hb Hka Hkb.
    destruct (gipa_forger_ok k a b ka kb kt d HL Ha Hb Hka Hkb)
      as [proof [aux [c [cs [Hrun [Hch [Hk [_ [_ [E1 [E2 Hf]]]]]]]]]]].
    exists proof, aux, c. split. { apply chain_nonzero in Hch. inversion Hch. assumption. }
    split; [exact Hrun|].
    apply (gipa_verify_iff D fuel dA dB dT fA fB fT th LMC RMC IPC ip LA LB LT LI).
    exists (c :: cs). rewrite Hk. repeat split; auto.
    + apply (f_equal com_a) in Hf. symmetry. exact Hf.
    + apply (f_equal com_b) in Hf. symmetry. exact Hf.
    + apply (f_equal com_t) in Hf. symmetry. exact Hf.
  Qed.
End GipaForge.

(** ** GIPAWithSSM *)
Section GssmForge.
  Context {R : Type} {K : field}.
  Context {MA MT KA KT : module K} {OA OT : carrier K}.
  Variable D : bytes -> bytes.
  Variable fuel : nat.
  Variable E : penv.
  Context {XA XT : module K} (dA : XA -> OA) (dT : XT -> OT).
  Context (fA : KA -> MA -> XA) (fT : KT -> MT -> XT) (th : MA -> fmod K -> MT).
  Variable LMC : dhc R MA KA OA.
  Variable IPC : dhc R MT KT OT.
  Variable ip : list MA -> list (fmod K) -> res MT.
  Context (LA : lin_commit LMC dA fA) (LT : ip_commit IPC dT fT) (LI : lin_ip ip th).
  Notation OB := (mod_carrier (fmod K)).
  Notation fB := (fun (_ : unitmod K) (_ : fmod K) => (m0 : fmod K)).
  Notation RMC := (ssm_placeholder (R := R) K).

  Lemma gssm_forger_ok k a b ka kt (d : MT) :
    (forall prev (c1 c2 : com3 OA OB OT), exists c, gipa_challenge D fuel 0 prev c1 c2 = Ok c) ->
    length a = 2 ^ S k -> length ka = 2 ^ S k ->
    exists proof c, c <> f0 /\
      gssm_forger LMC IPC ip D fuel (a, powers (2 ^ S k) b) (ka, kt) d = Ok (proof, c) /\
      gssm_verify LMC IPC ip D fuel E (ka, kt)
        (dA (dot fA ka a), dT (fT kt (dot th a (powers (2 ^ S k) b) -m c *m d))) b proof = Ok true.
  Proof.
    intros HL Ha Hka.
    destruct (gipa_forger_ok D fuel dA mid dT fA fB fT th LMC RMC IPC ip LA (ssm_placeholder_law K) LT LI
                k a (powers (2 ^ S k) b) ka (repeat (tt : unitmod K) (2 ^ S k)) kt d HL Ha
                (powers_length' _ _) Hka (repeat_length _ _))
      as [proof [aux [c [cs [Hrun [Hch [Hk [_ [_ [E1 [E2 Hf]]]]]]]]]]].
    assert (Hlcs := chain_length _ _ _ _ _ Hch). rewrite rev_length, Hk in Hlcs.
    exists proof, c. split.
    { apply chain_nonzero in Hch. inversion Hch. assumption. }
    split. { unfold gssm_forger. cbn [snd]. rewrite powers_length'. rewrite Hrun. reflexivity. }
    apply (gssm_verify_iff D fuel E dA dT fA fT th LMC IPC ip LA LT LI). exists (c :: cs).
    assert (Hbb : snd (gp_base proof) = poly_evaluate (subs (map finv (rev (c :: cs)))) b).
    { rewrite E2. replace (S k) with (length (map finv (rev (c :: cs)))) by (now rewrite map_length, rev_length).
      apply dot_fold_powers. }
    rewrite Hk. unfold cfold in Hf. rewrite dot_zero in Hf. cbn [com_a com_b com_t fst snd] in *.
    split; [exact Hch|]. split; [exact Hka|].
    pose proof (f_equal (fun x => fst (fst x)) Hf) as F1. pose proof (f_equal (fun x => snd (fst x)) Hf) as F2.
    pose proof (f_equal snd Hf) as F3. cbn [fst snd] in F1, F2, F3.
    split; [symmetry; exact F1|]. split; [symmetry; exact F2|]. rewrite <- Hbb. split; symmetry; exact F3.
  Qed.
End GssmForge.

(** ** TIPAWithSSM *)
Section TssmForge.
  Context {R : Type} {P : pairing}.
  Notation K := (pK P).
  Context {MA MT KT : module (pK P)} {OA OT : carrier (pK P)}.
  Variable D : bytes -> bytes.
  Variable fuel : nat.
  Variable E : penv.
  Context {XA XT : module K} (dA : XA -> OA) (dT : XT -> OT).
  Context (fA : pG2 P -> MA -> XA) (fT : KT -> MT -> XT) (th : MA -> fmod K -> MT).
  Variable LMC : dhc R MA (pG2 P) OA.
  Variable IPC : dhc R MT KT OT.
  Variable ip : list MA -> list (fmod K) -> res MT.
  Context (LA : lin_commit LMC dA fA) (LT : ip_commit IPC dT fT) (LI : lin_ip ip th).
  Notation OB := (mod_carrier (fmod K)).
  Notation fB := (fun (_ : unitmod K) (_ : fmod K) => (m0 : fmod K)).
  Notation RMC := (ssm_placeholder (R := R) K).

  Lemma tssm_forger_ok alpha beta k a b kt (d : MT) (s : srs P) :
    (forall prev (c1 c2 : com3 OA OB OT), exists c, gipa_challenge D fuel 0 prev c1 c2 = Ok c) ->
    (forall p, exists c : K, rand_challenge D fuel 0 p = Ok c) ->
    length a = 2 ^ S k ->
    h_beta_powers s = map (fun i => fpow beta i *m pr_h P) (seq 0 (2 * 2 ^ S k - 1)) ->
    exists proof c, c <> f0 /\
      tssm_forger LMC IPC ip D fuel s (a, powers (2 ^ S k) b) (key_vec (2 ^ S k) beta f1 (pr_h P), kt) d = Ok (proof, c) /\
      tssm_verify LMC IPC ip D fuel E (trap_vsrs alpha beta) kt
        (dA (dot fA (key_vec (2 ^ S k) beta f1 (pr_h P)) a),
         dT (fT kt (dot th a (powers (2 ^ S k) b) -m c *m d))) b proof = Ok true.
  Proof.
    intros HL HL2 Ha Hs. set (ka := key_vec (2 ^ S k) beta f1 (pr_h P)).
    assert (Hka : length ka = 2 ^ S k) by apply key_vec_length.
    destruct (gipa_forger_ok D fuel dA mid dT fA fB fT th LMC RMC IPC ip LA (ssm_placeholder_law K) LT LI
                k a (powers (2 ^ S k) b) ka (repeat (tt : unitmod K) (2 ^ S k)) kt d HL Ha
                (powers_length' _ _) Hka (repeat_length _ _))
      as [proof [aux [c [cs [Hrun [Hch [Hk [Htr [Hckb [E1 [E2 Hf]]]]]]]]]]].
    assert (Hlcs := chain_length _ _ _ _ _ Hch). rewrite rev_length, Hk in Hlcs.
    assert (Hnz := chain_nonzero _ _ _ _ _ Hch).
    set (csi := map finv (rev (c :: cs))) in *.
    assert (Hli : length csi = S k) by (unfold csi; now rewrite map_length, rev_length).
    assert (Hni : Forall (fun x => x <> f0) csi) by (apply map_finv_neq0; now apply Forall_rev).
    set (ck := dot smul ka (subs csi : list (fmod K))) in *.
    destruct (rev_chain_hd (c :: cs) k Hlcs) as [t0 Ht0].
    destruct (HL2 (tssm_kzg_payload t0 ck)) as [z Hz].
    destruct (opening_g2_complete (P := P) alpha beta (2 * 2 ^ length csi - 1) csi f1 z Hni (f1_neq_f0 K) eq_refl) as [o [Hop Ho]].
    exists (mk_tssm_proof proof ck o), c. split.
    { inversion Hnz. assumption. }
    split.
    { unfold tssm_forger. cbn [snd]. rewrite powers_length'. unfold ka at 1. fold ka. rewrite Hrun. cbn [rbind].
      rewrite Hckb, Htr, Ht0. cbn [runwrap rbind]. rewrite invert_all_ok by (now apply Forall_rev). cbn [rbind].
      fold csi. fold ck. rewrite Hz. cbn [rbind]. rewrite Hs, <- Hli, Hop. reflexivity. }
    apply (tssm_verify_iff D fuel E dA dT fA fT th LMC IPC ip LA LT LI).
    exists (c :: cs), t0, z. cbn [ts_gipa ts_final_ck ts_final_ck_proof].
    assert (Hbb : snd (gp_base proof) = poly_evaluate (subs csi) b).
    { rewrite E2. rewrite <- Hli. apply dot_fold_powers. }
    unfold cfold in Hf. cbn [com_a com_b com_t fst snd] in *.
    pose proof (f_equal (fun x => fst (fst x)) Hf) as F1.
    pose proof (f_equal snd Hf) as F3. cbn [fst snd] in F1, F3.
    split; [exact Hch|]. split; [exact Ht0|]. split; [exact Hz|]. split.
    { apply verify_g2_iff with (alpha := alpha). unfold ck, ka. rewrite <- Hli, dot_key_vec. exact Ho. }
    split; [symmetry; exact F1|]. fold csi. rewrite <- Hbb. symmetry. exact F3.
  Qed.
End TssmForge.

Section PcForge.
  Context {R : Type} {P : pairing}.
  Notation K := (pK P).
  Add Field KfPcForge : (f_theory (pK P)).
  Notation ev := (@poly_evaluate (pK P)).
  Variables (E : penv) (HE : 1 <= threads E).
  Variable D : bytes -> bytes.
  Variable fuel : nat.
  Variables rand_g2 : sampler R (pG2 P).
  Hypothesis L1 : forall prev (c1 c2 : com3 (mod_carrier (pGT P)) (mod_carrier (fmod K)) (identity_output (pG1 P))),
    exists c, gipa_challenge D fuel 0 prev c1 c2 = Ok c.

  Lemma kzg_powers_0 (alpha : K) n : index (kzg_powers (P := P) alpha (n + 1)) 0 = Ok (pr_g P).
  Proof using.
    rewrite Nat.add_comm. unfold kzg_powers, index. cbn. f_equal. apply mscale_1.
  Qed.

  Lemma tssm_complete_live_at alpha beta k xd yd (coms : list (pG1 P)) x :
    xd + 1 = 2 ^ S k -> (forall q, exists c : K, rand_challenge D fuel 0 q = Ok c) -> length coms = xd + 1 ->
    exists tp, tssm_prove (afgho_g1 P E rand_g2) (identity (R := R) (pG1 P)) (multiexp_ip (pG1 P)) D fuel
      (fst (trap_bsrs alpha beta xd yd)) (coms, powers (xd + 1) x) (key_vec (xd + 1) beta f1 (pr_h P), (tt : unitmod K)) = Ok tp.
  Proof using HE L1.
    intros Hx L2 Hl.
    assert (Hs : h_beta_powers (fst (trap_bsrs alpha beta xd yd)) =
                 map (fun i => fpow beta i *m pr_h P) (seq 0 (2 * 2 ^ S k - 1))).
    { rewrite <- Hx. unfold trap_bsrs. cbn [fst h_beta_powers]. do 2 f_equal. lia. }
    rewrite Hx in Hl.
    destruct (tssm_complete_live D fuel E mid idout (phi_g1 P) psi_id smul
      (afgho_g1 P E rand_g2) (afgho_g1 P E rand_g2) (identity (R := R) (pG1 P)) (identity (R := R) (pG1 P))
      (multiexp_ip (pG1 P)) (multiexp_ip (pG1 P))
      (afgho_g1_law P E HE rand_g2) (identity_law _) (multiexp_ip_law _)
      (afgho_g1_law P E HE rand_g2) (identity_law _) (multiexp_ip_law _)
      alpha beta k coms x (tt : unitmod K) Hl (fst (trap_bsrs alpha beta xd yd)) Hs L1 L2) as [pf [H _]].
    exists pf. rewrite Hx. exact H.
  Qed.

  Lemma bpc_forger_ok alpha beta k xd yd (p : bipoly K) x y (d : K) :
    (forall q, exists c : K, rand_challenge D fuel 0 q = Ok c) ->
    xd + 1 = 2 ^ S k -> length p <= xd + 1 -> Forall (wf_row (yd + 1)) p ->
    exists com coms proof c, c <> f0 /\
      bpc_commit P E rand_g2 (trap_bsrs alpha beta xd yd) p = Ok (com, coms) /\
      bpc_forger P E D fuel rand_g2 (trap_bsrs alpha beta xd yd) p coms (x, y) d =
        Ok (proof, bipoly_evaluate p (x, y) -f c *f d) /\
      bpc_verify P E D fuel rand_g2 (trap_vsrs alpha beta) com (x, y) (bipoly_evaluate p (x, y) -f c *f d) proof = Ok true.
  Proof using HE L1.
    intros L2 Hx Hl Hr.
    pose proof (bpc_commit_ok E HE rand_g2 alpha beta xd yd p Hl Hr) as Hc.
    destruct (bpc_open_eq E E HE HE D fuel rand_g2 alpha beta k xd yd p Hx Hl Hr x y) as [o [Hop Ho]].
    pose proof (dot_coms alpha xd yd p Hl Hr x) as Hd. pose proof (coms_length alpha xd p) as Hcl.
    set (coms := map (fun r => ev r alpha *m pr_g P) (resize (xd + 1) [] p)) in *.
    match type of Hd with _ = ?Y => set (YC := Y) in * end.
    assert (Hcl' : length coms = 2 ^ S k) by (rewrite <- Hx; exact Hcl).
    destruct (tssm_forger_ok D fuel E mid idout (phi_g1 P) psi_id smul (afgho_g1 P E rand_g2) (identity (R := R) (pG1 P))
      (multiexp_ip (pG1 P)) (afgho_g1_law P E HE rand_g2) (identity_law _) (multiexp_ip_law _)
      alpha beta k coms x (tt : unitmod K) (d *m pr_g P) (fst (trap_bsrs alpha beta xd yd)) L1 L2 Hcl')
      as [tp [c [Hcn [Hrun Hv]]]]. { unfold trap_bsrs. cbn [fst h_beta_powers]. do 2 f_equal. rewrite <- Hx. lia. }
    destruct (tssm_complete_live_at alpha beta k xd yd coms x Hx L2) as [tp0 Htp0]; [rewrite Hx; exact Hcl'|].
    rewrite <- Hx in Hv, Hrun. rewrite Hd in Hv.
    exists (dot (phi_g1 P) (key_vec (xd + 1) beta f1 (pr_h P)) coms), coms,
      (mk_opening tp (YC -m c *m (d *m pr_g P)) o), c.
    split; [exact Hcn|]. split; [exact Hc|]. split.
    - unfold bpc_forger. rewrite Hop, Htp0. cbn [rbind].
      pose proof (trap_bsrs_ck alpha beta xd yd) as Hck.
      assert (Hg : index (snd (trap_bsrs alpha beta xd yd)) 0 = Ok (pr_g P)) by (apply kzg_powers_0).
      destruct (trap_bsrs alpha beta xd yd) as [is ks] eqn:Es. cbn [fst snd] in *. rewrite Hck.
      rewrite Hg. cbn [rbind].
      rewrite key_vec_length.
      replace (push_powers (xd + 1) f1 x) with (powers (xd + 1) x : list K) by (unfold powers; now rewrite push_powers_map).
      match goal with |- rbind ?A _ = _ => replace A with (Ok (tp, c)) by (symmetry; exact Hrun) end. reflexivity.
    - unfold bpc_verify. cbn [op_ip op_y_eval_comm op_kzg]. unfold mid, idout, psi_id in Hv. rewrite Hv. cbn [rbind].
      apply kzg_verify_iff in Ho. replace (kzg_verify _ _ _ _ _) with (Ok true : res bool); [reflexivity|].
      symmetry. apply kzg_verify_iff. rewrite <- Ho. module_norm; ring.
  Qed.

  Lemma upc_forger_ok alpha beta d xd yd (p : list K) z (s : K) :
    (forall q, exists c : K, rand_challenge D fuel 0 q = Ok c) ->
    1 <= d -> (Z.of_nat d < 2 ^ 52)%Z -> bivariate_degrees 32 16 d = Ok (xd, yd) -> wf_row (d + 1) p ->
    exists com coms proof c, c <> f0 /\
      upc_commit P E rand_g2 (trap_bsrs alpha beta xd yd) p = Ok (com, coms) /\
      upc_forger P E D fuel rand_g2 (trap_bsrs alpha beta xd yd) p coms z s = Ok (proof, ev p z -f c *f s) /\
      upc_verify P E D fuel rand_g2 (trap_vsrs alpha beta) d com z (ev p z -f c *f s) proof = Ok true.
  Proof using HE L1.
    intros L2 Hd Hlt Hdeg Hw.
    destruct (degrees_split 4 d ltac:(lia) Hd Hlt) as [k [k' [xd' [yd' [H [Hx [Hy Hcap]]]]]]].
    change (2 * 2 ^ 4) with 32 in H. change (2 ^ 4) with 16 in H.
    rewrite Hdeg in H. injection H as <- <-.
    destruct (bivariate_form_wf xd yd p) as [bp [Hbp [Hl [Hr He]]]].
    specialize (He (wf_row_mono _ _ _ Hcap Hw) z).
    unfold upc_commit, upc_forger, upc_verify. rewrite parse_degrees_trap, Hdeg. cbn [rbind]. rewrite Hbp. cbn [rbind].
    rewrite <- He. apply bpc_forger_ok with (k := k); auto.
  Qed.

  Variable rand_g1 : sampler R (pG1 P).
  Lemma tbpc_forger_ok (ck1 : list (pG1 P)) (ck2 : list (pG2 P)) (p : bipoly K) k1 k2 x y (s : K) :
    (forall prev (c1 c2 : com3 (mod_carrier (pG1 P)) (mod_carrier (fmod K)) (identity_output (fmod K))),
       exists c, gipa_challenge D fuel 0 prev c1 c2 = Ok c) ->
    length ck2 = 2 ^ k2 -> length ck1 = 2 ^ S k1 -> length p <= length ck2 ->
    Forall (fun row => length row <= length ck1) p ->
    exists com coms proof c, c <> f0 /\
      tbpc_commit P E rand_g1 rand_g2 (ck1, ck2) p = Ok (com, coms) /\
      tbpc_forger P E D fuel rand_g1 rand_g2 (ck1, ck2) p coms (x, y) s =
        Ok (proof, bipoly_evaluate p (x, y) -f c *f s) /\
      tbpc_verify P E D fuel rand_g1 rand_g2 (ck1, ck2) com (x, y) (bipoly_evaluate p (x, y) -f c *f s) proof = Ok true.
  Proof using HE L1.
    intros L2 Hn Hm Hl Hr.
    pose proof (tbpc_commit_ok E HE rand_g1 rand_g2 ck1 ck2 p Hl Hr) as Hc.
    pose proof (tbpc_open_eq E E HE HE D fuel rand_g1 rand_g2 ck1 ck2 p Hl (S k1) k2 x y Hn Hm) as Hop.
    pose proof (t_coms_length ck1 ck2 p) as Hcl.
    pose proof (t_dot_coms ck1 ck2 p x) as Hd.
    pose proof (t_dot_yc ck1 ck2 p Hl Hr x y) as He.
    pose proof (t_yc_length ck1 ck2 p x) as Hyl.
    set (coms := map (fun r => dot smul ck1 (resize (length ck1) f0 r : list (fmod K))) (resize (length ck2) [] p)) in *.
    match type of He with dot _ ?Y _ = _ => set (yc := Y) in * end.
    destruct (gssm_complete_live D fuel E mid idout (phi_g1 P) psi_id smul
      (afgho_g1 P E rand_g2) (afgho_g1 P E rand_g2) (identity (R := R) (pG1 P)) (identity (R := R) (pG1 P))
      (multiexp_ip (pG1 P)) (multiexp_ip (pG1 P))
      (afgho_g1_law P E HE rand_g2) (identity_law _) (multiexp_ip_law _)
      (afgho_g1_law P E HE rand_g2) (identity_law _) (multiexp_ip_law _)
      k2 coms x ck2 (tt : unitmod K) L1) as [pf2 [P2 V2]]; [congruence|exact Hn|].
    destruct (gssm_complete_live D fuel E mid idout smul psi_id (fmul' (K := K))
      (pedersen (pG1 P) rand_g1) (pedersen (pG1 P) rand_g1) (identity (R := R) (fmod K)) (identity (R := R) (fmod K))
      (@scalar_ip (pK P) E) (@scalar_ip (pK P) E)
      (pedersen_law (pG1 P) rand_g1) (identity_law _) (scalar_ip_law E)
      (pedersen_law (pG1 P) rand_g1) (identity_law _) (scalar_ip_law E)
      (S k1) yc y ck1 (tt : unitmod K) L2) as [pf1' [P1' _]]; [congruence|exact Hm|].
    destruct (gssm_forger_ok D fuel E mid idout smul psi_id (fmul' (K := K))
      (pedersen (pG1 P) rand_g1) (identity (R := R) (fmod K)) (@scalar_ip (pK P) E)
      (pedersen_law (pG1 P) rand_g1) (identity_law _) (scalar_ip_law E)
      k1 yc y ck1 (tt : unitmod K) (s : fmod K) L2) as [pf1 [c [Hcn [P1 V1]]]]; [congruence|exact Hm|].
    rewrite P2 in Hop. cbn [rbind] in Hop. rewrite P1' in Hop. cbn [rbind] in Hop.
    rewrite <- Hn in V2. rewrite <- Hm in V1, P1. rewrite Hd in V2. rewrite He in V1.
    assert (Hsub : ((bipoly_evaluate p (x, y) : fmod K) -m c *m (s : fmod K)) = (bipoly_evaluate p (x, y) -f c *f s)).
    { cbn. ring. }
    unfold psi_id in V1. rewrite Hsub in V1.
    exists (dot (phi_g1 P) ck2 coms), coms, (mk_t_opening pf2 (dot smul ck1 yc) pf1), c.
    split; [exact Hcn|]. split; [exact Hc|]. split.
    - unfold tbpc_forger. rewrite Hop. cbn [rbind to_second to_y_eval_comm].
      rewrite chain_take_resize, y_eval_coefficients_ok.
      2: apply push_powers_length.
      2: now rewrite map_length, resize_length.
      2: { apply Forall_forall. intros r Hr'. apply in_map_iff in Hr' as [q [<- _]]. apply resize_length. }
      cbn [rbind].
      replace (push_powers (length ck1) f1 y) with (powers (length ck1) y : list K) by (unfold powers; now rewrite push_powers_map).
      replace (push_powers (length ck2) f1 x) with (powers (length ck2) x : list K) by (unfold powers; now rewrite push_powers_map).
      match goal with |- rbind ?A _ = _ => replace A with (Ok (pf1, c)) by (symmetry; exact P1) end. reflexivity.
    - unfold tbpc_verify. cbn [to_second to_y_eval_comm to_first].
      unfold mid, idout, psi_id in V1, V2. rewrite V2. cbn [rbind].
      match goal with |- rbind ?A _ = _ => replace A with (Ok true) by (symmetry; exact V1) end. reflexivity.
  Qed.

  Lemma tupc_forger_ok (ck1 : list (pG1 P)) (ck2 : list (pG2 P)) (p : list K) k1 k2 xd yd z (s : K) :
    (forall prev (c1 c2 : com3 (mod_carrier (pG1 P)) (mod_carrier (fmod K)) (identity_output (fmod K))),
       exists c, gipa_challenge D fuel 0 prev c1 c2 = Ok c) ->
    length ck2 = xd + 1 -> length ck1 = yd + 1 -> xd + 1 = 2 ^ k2 -> yd + 1 = 2 ^ S k1 ->
    wf_row ((xd + 1) * (yd + 1)) p ->
    exists com coms proof c, c <> f0 /\
      tupc_commit P E rand_g1 rand_g2 (ck1, ck2) p = Ok (com, coms) /\
      tupc_forger P E D fuel rand_g1 rand_g2 (ck1, ck2) p coms z s = Ok (proof, ev p z -f c *f s) /\
      tupc_verify P E D fuel rand_g1 rand_g2 (ck1, ck2) com z (ev p z -f c *f s) proof = Ok true.
  Proof using HE L1.
    intros L2 H2 H1 Hx Hy Hw. destruct (bivariate_form_fit xd yd p) as [bp [Hbp [Hl [Hr He]]]]. specialize (He Hw z).
    unfold tupc_commit, tupc_forger, tupc_verify.
    rewrite (parse_degrees_ck_ok ck1 ck2 xd yd H2 H1). cbn [rbind]. rewrite Hbp. cbn [rbind].
    rewrite <- He. rewrite <- H2 in Hl. rewrite <- H1 in Hr.
    apply tbpc_forger_ok with (k1 := k1) (k2 := k2); auto; congruence.
  Qed.
End PcForge.

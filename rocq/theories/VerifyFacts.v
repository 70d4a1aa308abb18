(** What the TIPA verifiers do with an arbitrary proof. *)
Require Import List Arith NArith Lia Bool Field.
Import ListNotations.
Require Import Verif.Outcome Verif.Algebra Verif.Rust Verif.Spec Verif.ListFacts Verif.RustFacts
  Verif.InnerProducts Verif.Commitments Verif.InnerProductFacts Verif.CommitFacts Verif.Gipa
  Verif.GipaFacts Verif.GipaComplete Verif.GipaTop Verif.Poly Verif.PolyFacts Verif.Tipa Verif.KeyFacts
  Verif.TipaFacts Verif.Ssm Verif.SsmFacts.

Section Chains.
  Context {K : field} {OA OB OT : carrier K}.
  Variable D : bytes -> bytes.
  Variable fuel : nat.

  Lemma challenges_loop_outcome (steps : list (com3 OA OB OT * com3 OA OB OT)) : digest16 D -> forall com T,
    gipa_challenges_loop D fuel com T steps = Loop \/ exists cs, chain D fuel (gipa_prev T) steps cs.
  Proof.
    intros HD. induction steps as [|[[[a1 b1] t1] [[a2 b2] t2]] steps IH]; intros [[a b] t] T.
    - right. exists []. constructor.
    - cbn [gipa_challenges_loop].
      destruct (gipa_challenge_spec_from D (gipa_prev T) (a1, b1, t1) (a2, b2, t2) HD fuel 0) as [[m [v [_ [_ [_ E]]]]]|[_ E]];
        rewrite E; cbn [rbind]; [|now left].
      destruct (IH (com_fold (finv v) v a1 a a2, com_fold (finv v) v b1 b b2, com_fold (finv v) v t1 t t2) (T ++ [finv v])) as [H|[cs H]]; [now left|].
      right. exists (finv v :: cs). econstructor; [exact E|]. now rewrite gipa_prev_snoc in H.
  Qed.

  Lemma recursive_challenges_outcome {MA MB : module K} com (proof : gipa_proof MA MB OA OB OT) : digest16 D ->
    gipa_recursive_challenges D fuel com proof = Loop \/ exists cs, chain D fuel f0 (rev (gp_steps proof)) cs.
  Proof.
    intros HD. unfold gipa_recursive_challenges.
    destruct (challenges_loop_outcome (rev (gp_steps proof)) HD com []) as [H|H]; [left; now rewrite H|now right].
  Qed.
End Chains.

Section TipaVerify.
  Context {R : Type} {P : pairing}.
  Notation K := (pK P).
  Context {MA MB MT KT : module (pK P)} {OA OB OT : carrier (pK P)}.
  Variable D : bytes -> bytes.
  Variable fuel : nat.
  Context {XA XB XT : module K} (dA : XA -> OA) (dB : XB -> OB) (dT : XT -> OT).
  Context (fA : pG2 P -> MA -> XA) (fB : pG1 P -> MB -> XB) (fT : KT -> MT -> XT) (th : MA -> MB -> MT).
  Variables (LMC : dhc R MA (pG2 P) OA) (RMC : dhc R MB (pG1 P) OB) (IPC : dhc R MT KT OT).
  Variable ip : list MA -> list MB -> res MT.
  Notation tverify := (tipa_verify_with_srs_shift LMC RMC IPC ip D fuel).

  (** the verifier, once its loops are resolved; no law is used *)
  Lemma tipa_verify_eq v kt com (proof : tipa_proof P MA MB OA OB OT) r cs c0 c :
    chain D fuel f0 (rev (gp_steps (tp_gipa proof))) cs -> hd_error (rev cs) = Some c0 ->
    rand_challenge D fuel 0 (tipa_kzg_payload c0 (fst (tp_final_ck proof)) (snd (tp_final_ck proof))) = Ok c ->
    r <> f0 ->
    tverify v kt com proof r =
      (do va <- verify_ck_g2_kzg_opening v (fst (tp_final_ck proof)) (fst (tp_final_ck_proof proof)) (map finv (rev cs)) (finv r) c;
       do vb <- verify_ck_g1_kzg_opening v (snd (tp_final_ck proof)) (snd (tp_final_ck_proof proof)) (rev cs) f1 c;
       do ok <- gipa_verify_base LMC RMC IPC ip (fst (tp_final_ck proof)) (snd (tp_final_ck proof)) [kt]
                  (cfold com (rev (gp_steps (tp_gipa proof))) cs) (tp_gipa proof);
       Ok (va && vb && ok)).
  Proof.
    intros Hch Hhd Hc Hr. unfold tipa_verify_with_srs_shift.
    rewrite (recursive_challenges_chain D fuel com _ cs Hch). cbn [rbind].
    rewrite invert_all_ok by (apply Forall_rev; eapply chain_nonzero; eauto). cbn [rbind].
    destruct (tp_final_ck proof) as [fa fb], (tp_final_ck_proof proof) as [oa ob]. cbn [fst snd] in *.
    rewrite Hhd. cbn [runwrap rbind]. rewrite Hc. cbn [rbind]. rewrite finverse_neq by auto. cbn [runwrap rbind].
    unfold verify_ck_g2_kzg_opening, verify_ck_g1_kzg_opening. cbn [rbind].
    unfold gipa_verify_base. unfold cfold. destruct (gp_base (tp_gipa proof)) as [a b].
    destruct (ip [a] [b]); reflexivity.
  Qed.

  Lemma tipa_verify_ok_inv v kt com (proof : tipa_proof P MA MB OA OB OT) r b :
    tverify v kt com proof r = Ok b ->
    exists cs c0 (c : K), chain D fuel f0 (rev (gp_steps (tp_gipa proof))) cs /\ hd_error (rev cs) = Some c0 /\
      rand_challenge D fuel 0 (tipa_kzg_payload c0 (fst (tp_final_ck proof)) (snd (tp_final_ck proof))) = Ok c /\ r <> f0.
  Proof.
    unfold tipa_verify_with_srs_shift. intros H.
    apply rbind_ok in H as [[base T] [H1 H]]. apply recursive_challenges_inv in H1 as [cs [Hch [-> ->]]].
    apply rbind_ok in H as [Ti [_ H]]. destruct (tp_final_ck proof) as [fa fb], (tp_final_ck_proof proof) as [oa ob].
    apply rbind_ok in H as [c0 [H1 H]]. apply rbind_ok in H as [c [H2 H]]. apply rbind_ok in H as [ri [H3 _]].
    apply runwrap_ok in H1. apply runwrap_ok, finverse_some in H3 as [H3 _].
    exists cs, c0, c. auto.
  Qed.

  Context (LA : lin_commit LMC dA fA) (LB : lin_commit RMC dB fB) (LT : ip_commit IPC dT fT) (LI : lin_ip ip th).

  Lemma tipa_verify_total v kt com (proof : tipa_proof P MA MB OA OB OT) r : digest16 D ->
    gp_steps (tp_gipa proof) <> [] -> r <> f0 ->
    tverify v kt com proof r = Loop \/ exists b, tverify v kt com proof r = Ok b.
  Proof.
    intros HD Hne Hr.
    destruct (recursive_challenges_outcome D fuel com (tp_gipa proof) HD) as [H|[cs Hch]].
    { left. unfold tipa_verify_with_srs_shift. now rewrite H. }
    pose proof (chain_length _ _ _ _ _ Hch) as Hcl. rewrite rev_length in Hcl.
    destruct (gp_steps (tp_gipa proof)) as [|st0 sts] eqn:Est; [congruence|]. rewrite <- Est in *.
    destruct (rev_chain_hd cs (length sts)) as [c0 Hc0]; [rewrite Hcl, Est; reflexivity|].
    destruct (rand_challenge_outcome (K := K) D fuel 0 (tipa_kzg_payload c0 (fst (tp_final_ck proof)) (snd (tp_final_ck proof)))) as [Hc|[c Hc]]; cycle 1.
    - right. rewrite (tipa_verify_eq v kt com proof r cs c0 c) by auto. unfold verify_ck_g2_kzg_opening, verify_ck_g1_kzg_opening.
      cbn [rbind].
      destruct (verify_base_total dA dB dT fA fB fT th LMC RMC IPC ip LA LB LT LI (fst (tp_final_ck proof)) (snd (tp_final_ck proof)) kt
                  (cfold com (rev (gp_steps (tp_gipa proof))) cs) (tp_gipa proof)) as [b ->]. cbn [rbind]. eauto.
    - left. unfold tipa_verify_with_srs_shift. rewrite (recursive_challenges_chain D fuel com _ cs Hch). cbn [rbind].
      rewrite invert_all_ok by (apply Forall_rev; eapply chain_nonzero; eauto). cbn [rbind].
      destruct (tp_final_ck proof) as [fa fb], (tp_final_ck_proof proof) as [oa ob]. cbn [fst snd] in *.
      rewrite Hc0. cbn [runwrap rbind]. rewrite Hc. reflexivity.
  Qed.

  (** with a verifier key of trapdoors alpha, beta *)
  Lemma tipa_verify_iff alpha beta kt com (proof : tipa_proof P MA MB OA OB OT) r :
    tverify (trap_vsrs alpha beta) kt com proof r = Ok true <->
    exists cs c0 (c : K),
      chain D fuel f0 (rev (gp_steps (tp_gipa proof))) cs /\ hd_error (rev cs) = Some c0 /\
      rand_challenge D fuel 0 (tipa_kzg_payload c0 (fst (tp_final_ck proof)) (snd (tp_final_ck proof))) = Ok c /\ r <> f0 /\
      fst (tp_final_ck proof) -m poly_eval_product_form (map finv (rev cs)) c (finv r) *m pr_h P = (beta -f c) *m fst (tp_final_ck_proof proof) /\
      snd (tp_final_ck proof) -m poly_eval_product_form (rev cs) c f1 *m pr_g P = (alpha -f c) *m snd (tp_final_ck_proof proof) /\
      dA (fA (fst (tp_final_ck proof)) (fst (gp_base (tp_gipa proof)))) = cfold1 com_a (com_a com) (rev (gp_steps (tp_gipa proof))) cs /\
      dB (fB (snd (tp_final_ck proof)) (snd (gp_base (tp_gipa proof)))) = cfold1 com_b (com_b com) (rev (gp_steps (tp_gipa proof))) cs /\
      dT (fT kt (th (fst (gp_base (tp_gipa proof))) (snd (gp_base (tp_gipa proof))))) = cfold1 com_t (com_t com) (rev (gp_steps (tp_gipa proof))) cs.
  Proof.
    split.
    - intros H. destruct (tipa_verify_ok_inv _ _ _ _ _ _ H) as [cs [c0 [c [H1 [H2 [H3 H4]]]]]].
      exists cs, c0, c. rewrite (tipa_verify_eq _ _ _ _ _ _ _ _ H1 H2 H3 H4) in H.
      apply rbind_ok in H as [va [Ha H]]. apply rbind_ok in H as [vb [Hb H]]. apply rbind_ok in H as [ok [Hk H]].
      assert (Hv : va && vb && ok = true) by congruence.
      apply andb_true_iff in Hv as [Hv ->]. apply andb_true_iff in Hv as [-> ->].
      apply verify_g2_iff in Ha. apply verify_g1_iff in Hb.
      apply (verify_base_iff dA dB dT fA fB fT th LMC RMC IPC ip LA LB LT LI) in Hk. tauto.
    - intros [cs [c0 [c [H1 [H2 [H3 [H4 [Ha [Hb Hk]]]]]]]]].
      rewrite (tipa_verify_eq _ _ _ _ _ _ _ _ H1 H2 H3 H4).
      apply verify_g2_iff with (alpha := alpha) in Ha. apply verify_g1_iff with (beta := beta) in Hb. rewrite Ha, Hb. cbn [rbind].
      pose proof (proj2 (verify_base_iff dA dB dT fA fB fT th LMC RMC IPC ip LA LB LT LI _ _ kt
        (cfold com (rev (gp_steps (tp_gipa proof))) cs) (tp_gipa proof)) Hk) as ->. reflexivity.
  Qed.
End TipaVerify.

Section TssmVerify.
  Context {R : Type} {P : pairing}.
  Notation K := (pK P).
  Context {MA MT KT : module (pK P)} {OA OT : carrier (pK P)}.
  Variable D : bytes -> bytes.
  Variable fuel : nat.
  Variable E : penv.
  Context {XA XT : module K} (dA : XA -> OA) (dT : XT -> OT).
  Context (fA : pG2 P -> MA -> XA) (fT : KT -> MT -> XT) (th : MA -> fmod K -> MT).
  Variables (LMC : dhc R MA (pG2 P) OA) (IPC : dhc R MT KT OT).
  Variable ip : list MA -> list (fmod K) -> res MT.
  Notation sverify := (tssm_verify LMC IPC ip D fuel E).

  Lemma tssm_verify_eq v kt ca ct b (proof : tssm_proof P MA OA OT) cs c0 c :
    chain D fuel f0 (rev (gp_steps (ts_gipa proof))) cs -> hd_error (rev cs) = Some c0 ->
    rand_challenge D fuel 0 (tssm_kzg_payload c0 (ts_final_ck proof)) = Ok c ->
    sverify v kt (ca, ct) b proof =
      (do va <- verify_ck_g2_kzg_opening v (ts_final_ck proof) (ts_final_ck_proof proof) (map finv (rev cs)) f1 c;
       do t <- ip [fst (gp_base (ts_gipa proof))] [poly_evaluate (subs (map finv (rev cs))) b];
       do ok <- rand_then (dh_verify LMC [ts_final_ck proof] [fst (gp_base (ts_gipa proof))] (cfold1 com_a ca (rev (gp_steps (ts_gipa proof))) cs))
                          (dh_verify IPC [kt] [t] (cfold1 com_t ct (rev (gp_steps (ts_gipa proof))) cs));
       Ok (va && ok)).
  Proof.
    intros Hch Hhd Hc. unfold tssm_verify. cbn [fst snd].
    rewrite (recursive_challenges_chain D fuel _ _ cs Hch). cbn [rbind].
    rewrite invert_all_ok by (apply Forall_rev; eapply chain_nonzero; eauto). cbn [rbind].
    rewrite Hhd. cbn [runwrap rbind]. rewrite Hc. cbn [rbind].
    rewrite final_scalar_ok by (apply Forall_rev; eapply chain_nonzero; eauto).
    unfold verify_ck_g2_kzg_opening. cbn [rbind]. reflexivity.
  Qed.

  Lemma tssm_verify_ok_inv v kt com b (proof : tssm_proof P MA OA OT) x :
    sverify v kt com b proof = Ok x ->
    exists cs c0 (c : K), chain D fuel f0 (rev (gp_steps (ts_gipa proof))) cs /\ hd_error (rev cs) = Some c0 /\
      rand_challenge D fuel 0 (tssm_kzg_payload c0 (ts_final_ck proof)) = Ok c.
  Proof.
    unfold tssm_verify. intros H.
    apply rbind_ok in H as [[base T] [H1 H]]. apply recursive_challenges_inv in H1 as [cs [Hch [-> ->]]].
    apply rbind_ok in H as [Ti [_ H]].
    apply rbind_ok in H as [c0 [H1 H]]. apply rbind_ok in H as [c [H2 _]]. apply runwrap_ok in H1.
    exists cs, c0, c. auto.
  Qed.

  Lemma tssm_size1_verify v kt com b (proof : tssm_proof P MA OA OT) : gp_steps (ts_gipa proof) = [] ->
    sverify v kt com b proof = Panic.
  Proof.
    intros H. unfold tssm_verify, gipa_recursive_challenges. rewrite H. reflexivity.
  Qed.

  Context (LA : lin_commit LMC dA fA) (LT : ip_commit IPC dT fT) (LI : lin_ip ip th).

  Lemma tssm_verify_total v kt com b (proof : tssm_proof P MA OA OT) : digest16 D ->
    gp_steps (ts_gipa proof) <> [] ->
    sverify v kt com b proof = Loop \/ exists x, sverify v kt com b proof = Ok x.
  Proof.
    intros HD Hne. destruct com as [ca ct].
    destruct (recursive_challenges_outcome D fuel (ca, (b : mod_carrier (fmod K)), ct) (ts_gipa proof) HD) as [H|[cs Hch]].
    { left. unfold tssm_verify. cbn [fst snd]. now rewrite H. }
    pose proof (chain_length _ _ _ _ _ Hch) as Hcl. rewrite rev_length in Hcl.
    destruct (gp_steps (ts_gipa proof)) as [|st0 sts] eqn:Est; [congruence|]. rewrite <- Est in *.
    destruct (rev_chain_hd cs (length sts)) as [c0 Hc0]; [rewrite Hcl, Est; reflexivity|].
    destruct (rand_challenge_outcome (K := K) D fuel 0 (tssm_kzg_payload c0 (ts_final_ck proof))) as [Hc|[c Hc]]; cycle 1.
    - right. rewrite (tssm_verify_eq v kt ca ct b proof cs c0 c) by auto. unfold verify_ck_g2_kzg_opening. cbn [rbind].
      rewrite (lin_ip_single _ _ _ _ LI). cbn [rbind]. unfold dh_verify.
      rewrite (lc_single _ _ _ _ _ LA), (ic_commit _ _ _ LT). unfold rand_then. cbn [rbind].
      destruct (ceqb _ _); cbn [rbind]; eauto.
    - left. unfold tssm_verify. cbn [fst snd]. rewrite (recursive_challenges_chain D fuel _ _ cs Hch). cbn [rbind].
      rewrite invert_all_ok by (apply Forall_rev; eapply chain_nonzero; eauto). cbn [rbind].
      rewrite Hc0. cbn [runwrap rbind]. rewrite Hc. reflexivity.
  Qed.

  Lemma tssm_verify_iff alpha beta kt ca ct b (proof : tssm_proof P MA OA OT) :
    sverify (trap_vsrs alpha beta) kt (ca, ct) b proof = Ok true <->
    exists cs c0 (c : K),
      chain D fuel f0 (rev (gp_steps (ts_gipa proof))) cs /\ hd_error (rev cs) = Some c0 /\
      rand_challenge D fuel 0 (tssm_kzg_payload c0 (ts_final_ck proof)) = Ok c /\
      ts_final_ck proof -m poly_eval_product_form (map finv (rev cs)) c f1 *m pr_h P = (beta -f c) *m ts_final_ck_proof proof /\
      dA (fA (ts_final_ck proof) (fst (gp_base (ts_gipa proof)))) = cfold1 com_a ca (rev (gp_steps (ts_gipa proof))) cs /\
      dT (fT kt (th (fst (gp_base (ts_gipa proof))) (poly_evaluate (subs (map finv (rev cs))) b))) = cfold1 com_t ct (rev (gp_steps (ts_gipa proof))) cs.
  Proof.
    split.
    - intros H. destruct (tssm_verify_ok_inv _ _ _ _ _ _ H) as [cs [c0 [c [H1 [H2 H3]]]]].
      exists cs, c0, c. rewrite (tssm_verify_eq _ _ _ _ _ _ _ _ _ H1 H2 H3) in H.
      apply rbind_ok in H as [va [Ha H]]. rewrite (lin_ip_single _ _ _ _ LI) in H. cbn [rbind] in H.
      apply rbind_ok in H as [ok [Hk H]].
      assert (Hv : va && ok = true) by congruence. apply andb_true_iff in Hv as [-> ->].
      apply verify_g2_iff in Ha. rewrite rand_then_true, !dh_verify_true in Hk.
      rewrite (lc_single _ _ _ _ _ LA), (ic_commit _ _ _ LT) in Hk. destruct Hk as [[= K1] [= K2]]. repeat split; auto.
    - intros [cs [c0 [c [H1 [H2 [H3 [Ha [Hb Hk]]]]]]]].
      rewrite (tssm_verify_eq _ _ _ _ _ _ _ _ _ H1 H2 H3).
      apply verify_g2_iff with (alpha := alpha) in Ha. rewrite Ha. cbn [rbind]. rewrite (lin_ip_single _ _ _ _ LI). cbn [rbind].
      match goal with |- context [rand_then ?x ?y] => assert (Hr : rand_then x y = Ok true) end.
      { rewrite rand_then_true, !dh_verify_true. rewrite (lc_single _ _ _ _ _ LA), (ic_commit _ _ _ LT). rewrite Hb, Hk. auto. }
      rewrite Hr. reflexivity.
  Qed.
End TssmVerify.

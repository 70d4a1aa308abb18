(** Structured scalar messages: completeness (C29, C30), the final scalar (C31). *)
Require Import List Arith NArith Lia Bool Field.
Import ListNotations.
Require Import Verif.Outcome Verif.Algebra Verif.Rust Verif.Spec Verif.ListFacts Verif.RustFacts
  Verif.InnerProducts Verif.Commitments Verif.InnerProductFacts Verif.CommitFacts Verif.Gipa
  Verif.GipaFacts Verif.GipaComplete Verif.GipaTop Verif.Poly Verif.PolyFacts Verif.Tipa Verif.KeyFacts
  Verif.TipaFacts Verif.Ssm.

Section Scalar.
  Context {K : field}.
  Add Field KfSsm : (f_theory K).
  Implicit Types (t : list K) (b : K).

  Lemma final_scalar_terms_ok t : forall b, Forall (fun x => x <> f0) t ->
    final_scalar_terms t b = Ok (product_form_terms (map finv t) b).
  Proof.
    induction t as [|x t IH]; intros b H; cbn [final_scalar_terms product_form_terms map]; auto.
    inversion H; subst. rewrite finverse_neq by auto. cbn [runwrap rbind]. rewrite IH by auto. reflexivity.
  Qed.

  Lemma final_scalar_terms_inv t : forall b l, final_scalar_terms t b = Ok l -> Forall (fun x => x <> f0) t.
  Proof.
    induction t as [|x t IH]; intros b l H; cbn [final_scalar_terms] in H; auto.
    apply rbind_ok in H as [xi [H1 H]]. apply rbind_ok in H as [ts [H2 _]].
    apply runwrap_ok, finverse_some in H1 as [H1 _]. constructor; eauto.
  Qed.

  Lemma final_scalar_ok E t b : Forall (fun x => x <> f0) t ->
    final_scalar E t b = Ok (poly_evaluate (subs (map finv t)) b).
  Proof.
    intros H. unfold final_scalar. rewrite final_scalar_terms_ok by auto. cbn [rbind].
    rewrite par_reduce_fmul, ev_subs. f_equal.
  Qed.

  (** the powers of b *)
  Definition powers n b : list (fmod K) := map (fpow b) (seq 0 n).
  Lemma powers_length n b : length (powers n b) = n.
  Proof. unfold powers. now rewrite map_length, seq_length. Qed.

  Lemma powers_length' n b : length (powers n b : list (fmod K)) = n.
  Proof. apply powers_length. Qed.

  Lemma dot_fold_powers t b :
    dot smul (powers (2 ^ length t) b : list (fmod K)) (subs t : list (fmod K)) = poly_evaluate (subs t) b.
  Proof.
    unfold powers. rewrite <- push_powers_map.
    rewrite <- (map_id (push_powers (2 ^ length t) f1 b)).
    rewrite (map_ext (fun x : K => x) (fun x : K => (x *m (f1 : fmod K) : fmod K))) by (intros; cbn; ring).
    rewrite <- (subs_length t).
    etransitivity; [apply (dot_powers (G := fmod K) f1 b)|]. cbn. ring.
  Qed.
End Scalar.

Section Gssm.
  Context {R : Type} {K : field}.
  Context {MA MT KA KT : module K} {OA OT : carrier K}.
  Variable D : bytes -> bytes.
  Variable fuel : nat.
  Variable E : penv.
  Context {XA XT : module K} (dA : XA -> OA) (dT : XT -> OT).
  Context (fA : KA -> MA -> XA) (fT : KT -> MT -> XT) (th : MA -> fmod K -> MT).
  Variables LMC LMC' : dhc R MA KA OA.
  Variables IPC IPC' : dhc R MT KT OT.
  Variables ip ip' : list MA -> list (fmod K) -> res MT.
  Context (LA : lin_commit LMC dA fA) (LT : ip_commit IPC dT fT) (LI : lin_ip ip th).
  Context (LA' : lin_commit LMC' dA fA) (LT' : ip_commit IPC' dT fT) (LI' : lin_ip ip' th).
  Notation OB := (mod_carrier (fmod K)).
  Notation fB := (fun (_ : unitmod K) (_ : fmod K) => (m0 : fmod K)).
  Notation RMC := (ssm_placeholder (R := R) K).

  Lemma gssm_complete_aux k a b ka kt proof aux :
    length a = 2 ^ k -> length ka = 2 ^ k ->
    gipa_prove_with_aux LMC RMC IPC ip D fuel (a, powers (2 ^ k) b)
      (ka, repeat (tt : unitmod K) (2 ^ k), [kt]) = Ok (proof, aux) ->
    gssm_verify LMC' IPC' ip' D fuel E (ka, kt)
      (dA (dot fA ka a), dT (fT kt (dot th a (powers (2 ^ k) b)))) b proof = Ok true.
  Proof.
    intros Ha Hka Hp.
    assert (Hb : length (powers (2 ^ k) b) = 2 ^ k) by apply powers_length.
    assert (Hkb : length (repeat (tt : unitmod K) (2 ^ k)) = 2 ^ k) by apply repeat_length.
    pose proof (ssm_placeholder_law (R := R) K) as LB.
    pose proof (prove_with_aux_inv D fuel LMC RMC IPC ip k a _ ka _ [kt] proof aux Ha Hb Hka Hkb Hp)
      as [cs [Hch [Hk [Ht [E1 [E2 [E3 E4]]]]]]].
    pose proof (prove_with_aux_folds D fuel dA mid dT fA fB fT th LMC RMC IPC ip LA LB LT LI
                  k a _ ka _ kt proof aux cs Ha Hb Hka Hkb Hp Hch) as Hf.
    assert (Hnz := chain_nonzero _ _ _ _ _ Hch).
    assert (Hlcs := chain_length _ _ _ _ _ Hch). rewrite rev_length, Hk in Hlcs.
    assert (Hnr : Forall (fun x => x <> f0) (rev cs)) by now apply Forall_rev.
    assert (Hlr : length (rev cs) = k) by now rewrite rev_length.
    assert (Hli : length (map finv (rev cs)) = k) by now rewrite map_length.
    unfold com_of in Hf. rewrite dot_zero in Hf.
    unfold gssm_verify. rewrite (recursive_challenges_chain D fuel _ proof cs Hch). cbn [rbind fst snd].
    change (f0 : OB) with (mid (m0 : fmod K)). rewrite Hf.
    rewrite Hka. rewrite final_keys_ok; [|now rewrite Hlr| |auto].
    2:{ pose proof (pow2_pos k). destruct (2 ^ k); [lia|discriminate]. }
    cbn [rbind]. rewrite <- E3, <- E4.
    assert (Hvb := proj2 (verify_base_iff dA mid dT fA fB fT th LMC' RMC IPC' ip' LA' LB LT' LI'
      (fst (ga_ck_base aux)) (snd (ga_ck_base aux)) kt
      (dA (fA (fst (ga_ck_base aux)) (fst (gp_base proof))), mid (m0 : fmod K),
       dT (fT kt (th (fst (gp_base proof)) (snd (gp_base proof))))) proof)
       (conj eq_refl (conj eq_refl eq_refl))).
    rewrite Hvb. cbn [rbind]. rewrite final_scalar_ok by auto. cbn [rbind].
    assert (Hbb : snd (gp_base proof) = poly_evaluate (subs (map finv (rev cs))) b).
    { rewrite E2. rewrite <- Hli. apply dot_fold_powers. }
    rewrite <- Hbb. rewrite (lin_ip_single ip' th) by auto. cbn [rbind].
    unfold rand_then, dh_verify.
    rewrite (lc_single LMC' dA fA) by auto. cbn [rbind]. rewrite ceqb_refl.
    rewrite (ic_commit _ _ _ LT'). cbn [rbind]. rewrite ceqb_refl. reflexivity.
  Qed.

  Lemma gssm_prove_eq k a b ka kt :
    gssm_prove LMC IPC ip D fuel (a, powers (2 ^ k) b) (ka, kt) =
      (do (proof, _) <- gipa_prove_with_aux LMC RMC IPC ip D fuel (a, powers (2 ^ k) b)
        (ka, repeat (tt : unitmod K) (2 ^ k), [kt]); Ok proof).
  Proof. unfold gssm_prove. cbn [snd]. now rewrite powers_length'. Qed.

  Lemma gssm_complete_outcome k a b ka kt : digest16 D ->
    length a = 2 ^ k -> length ka = 2 ^ k ->
    gssm_prove LMC IPC ip D fuel (a, powers (2 ^ k) b) (ka, kt) = Loop \/
    exists proof, gssm_prove LMC IPC ip D fuel (a, powers (2 ^ k) b) (ka, kt) = Ok proof /\
      gssm_verify LMC' IPC' ip' D fuel E (ka, kt)
        (dA (dot fA ka a), dT (fT kt (dot th a (powers (2 ^ k) b)))) b proof = Ok true.
  Proof.
    intros HD Ha Hka. rewrite gssm_prove_eq.
    destruct (prove_with_aux_outcome D fuel dA mid dT fA fB fT th LMC RMC IPC ip LA (ssm_placeholder_law K) LT LI
      k a (powers (2 ^ k) b) ka (repeat (tt : unitmod K) (2 ^ k)) kt HD Ha (powers_length _ _) Hka (repeat_length _ _))
      as [H|[proof [aux H]]]; rewrite H; auto.
    right. exists proof. split; [reflexivity|]. eapply gssm_complete_aux; eauto.
  Qed.

  Lemma gssm_complete_live k a b ka kt :
    (forall prev (c1 c2 : com3 OA OB OT), exists c, gipa_challenge D fuel 0 prev c1 c2 = Ok c) ->
    length a = 2 ^ k -> length ka = 2 ^ k ->
    exists proof, gssm_prove LMC IPC ip D fuel (a, powers (2 ^ k) b) (ka, kt) = Ok proof /\
      gssm_verify LMC' IPC' ip' D fuel E (ka, kt)
        (dA (dot fA ka a), dT (fT kt (dot th a (powers (2 ^ k) b)))) b proof = Ok true.
  Proof.
    intros HD Ha Hka. rewrite gssm_prove_eq.
    destruct (prove_with_aux_live D fuel dA mid dT fA fB fT th LMC RMC IPC ip LA (ssm_placeholder_law K) LT LI
      k a (powers (2 ^ k) b) ka (repeat (tt : unitmod K) (2 ^ k)) kt HD Ha (powers_length _ _) Hka (repeat_length _ _))
      as [proof [aux H]]; rewrite H.
    exists proof. split; [reflexivity|]. eapply gssm_complete_aux; eauto.
  Qed.

  (** Verification equation. *)
  Definition gssm_accepts (ka : list KA) (kt : KT) (com : OA * OT) (b : K) (proof : gssm_proof MA OA OT) : Prop :=
    exists cs, chain D fuel f0 (rev (gp_steps proof)) cs /\
      length ka = 2 ^ length (gp_steps proof) /\
      dA (fA (dot smul ka (subs (map finv (rev cs)) : list (fmod K))) (fst (gp_base proof)))
        = cfold1 com_a (fst com) (rev (gp_steps proof)) cs /\
      (m0 : fmod K) = cfold1 (O := OB) com_b (f0 : K) (rev (gp_steps proof)) cs /\
      dT (fT kt (th (fst (gp_base proof)) (snd (gp_base proof))))
        = cfold1 com_t (snd com) (rev (gp_steps proof)) cs /\
      dT (fT kt (th (fst (gp_base proof)) (poly_evaluate (subs (map finv (rev cs))) b : fmod K)))
        = cfold1 com_t (snd com) (rev (gp_steps proof)) cs.

  Lemma gssm_verify_iff ka kt com b proof :
    gssm_verify LMC' IPC' ip' D fuel E (ka, kt) com b proof = Ok true <-> gssm_accepts ka kt com b proof.
  Proof.
    pose proof (ssm_placeholder_law (R := R) K) as LB.
    unfold gssm_verify. split.
    - intros H. apply rbind_ok in H as [[bc T] [H1 H]].
      apply recursive_challenges_inv in H1 as [cs [Hch [-> ->]]].
      apply rbind_ok in H as [[fa fb] [H2 H]].
      pose proof (final_keys_inv _ _ _ _ H2) as [Hl [Hne Hnr]].
      rewrite final_keys_ok in H2 by auto. injection H2 as <- <-.
      apply rbind_ok in H as [gv [H3 H]]. apply rbind_ok in H as [bb [H4 H]].
      rewrite final_scalar_ok in H4 by auto. injection H4 as <-.
      cbn [cfold] in H. rewrite (lin_ip_single ip' th) in H by auto. cbn [rbind] in H.
      apply rbind_ok in H as [bv [H5 H]]. injection H as H. apply andb_true_iff in H as [-> ->].
      apply (verify_base_iff dA mid dT fA fB fT th LMC' RMC IPC' ip' LA' LB LT' LI') in H3 as [G1 [G2 G3]].
      apply rand_then_true in H5 as [G4 G5]. apply dh_verify_true in G4, G5.
      rewrite (ic_commit _ _ _ LT') in G5. injection G5 as G5.
      exists cs. rewrite rev_length, (chain_length _ _ _ _ _ Hch), rev_length in Hl.
      repeat split; auto.
    - intros [cs [Hch [Hl [G1 [G2 [G3 G4]]]]]].
      rewrite (recursive_challenges_chain D fuel _ proof cs Hch). cbn [rbind].
      assert (Hnz := chain_nonzero _ _ _ _ _ Hch).
      assert (Hnr : Forall (fun x => x <> f0) (rev cs)) by now apply Forall_rev.
      assert (Hlr : length (rev cs) = length (gp_steps proof)).
      { rewrite rev_length, (chain_length _ _ _ _ _ Hch). apply rev_length. }
      rewrite final_keys_ok; [|now rewrite Hlr| |auto].
      2:{ rewrite Hl. pose proof (pow2_pos (length (gp_steps proof))). destruct (2 ^ _); [lia|discriminate]. }
      cbn [rbind].
      rewrite (proj2 (verify_base_iff dA mid dT fA fB fT th LMC' RMC IPC' ip' LA' LB LT' LI' _ _ _ _ _)).
      2:{ split; [|split]; [exact G1|exact G2|exact G3]. }
      cbn [rbind]. rewrite final_scalar_ok by auto. cbn [rbind cfold].
      rewrite (lin_ip_single ip' th) by auto. cbn [rbind]. unfold rand_then, dh_verify.
      rewrite (lc_single LMC' dA fA) by auto. cbn [rbind].
      unfold com_a at 1 in G1. cbn [fst] in *. unfold com_a at 2. cbn [fst].
      rewrite G1, ceqb_refl. rewrite (ic_commit _ _ _ LT'). cbn [rbind].
      unfold com_t at 2. cbn [snd]. rewrite G4, ceqb_refl. reflexivity.
  Qed.
End Gssm.

Section Tssm.
  Context {R : Type} {P : pairing}.
  Notation K := (pK P).
  Context {MA MT KT : module (pK P)} {OA OT : carrier (pK P)}.
  Variable D : bytes -> bytes.
  Variable fuel : nat.
  Variable E : penv.
  Context {XA XT : module K} (dA : XA -> OA) (dT : XT -> OT).
  Context (fA : pG2 P -> MA -> XA) (fT : KT -> MT -> XT) (th : MA -> fmod K -> MT).
  Variables LMC LMC' : dhc R MA (pG2 P) OA.
  Variables IPC IPC' : dhc R MT KT OT.
  Variables ip ip' : list MA -> list (fmod K) -> res MT.
  Context (LA : lin_commit LMC dA fA) (LT : ip_commit IPC dT fT) (LI : lin_ip ip th).
  Context (LA' : lin_commit LMC' dA fA) (LT' : ip_commit IPC' dT fT) (LI' : lin_ip ip' th).
  Notation OB := (mod_carrier (fmod K)).
  Notation fB := (fun (_ : unitmod K) (_ : fmod K) => (m0 : fmod K)).
  Notation RMC := (ssm_placeholder (R := R) K).

  Section Run.
    Variables (alpha beta : K) (k : nat) (a : list MA) (b : K) (kt : KT).
    Hypothesis Ha : length a = 2 ^ S k.
    Let n := 2 ^ S k.
    (** only this component of the structured reference string is used *)
    Variable s : srs P.
    Hypothesis Hs : h_beta_powers s = map (fun i => fpow beta i *m pr_h P) (seq 0 (2 * n - 1)).
    Let ka := key_vec n beta f1 (pr_h P).
    Let com := (dA (dot fA ka a), dT (fT kt (dot th a (powers n b)))).

    Lemma tssm_after_gipa proof aux :
      gipa_prove_with_aux LMC RMC IPC ip D fuel (a, powers n b) (ka, repeat (tt : unitmod K) n, [kt])
        = Ok (proof, aux) ->
      exists (t0 : K) (oa : K -> pG2 P),
        (tssm_prove LMC IPC ip D fuel s (a, powers n b) (ka, kt) =
          (do c <- rand_challenge (K := K) D fuel 0 (tssm_kzg_payload t0 (fst (ga_ck_base aux)));
           Ok (mk_tssm_proof proof (fst (ga_ck_base aux)) (oa c)))) /\
        forall c : K,
          rand_challenge D fuel 0 (tssm_kzg_payload t0 (fst (ga_ck_base aux))) = Ok c ->
          tssm_verify LMC' IPC' ip' D fuel E (trap_vsrs alpha beta) kt com b
            (mk_tssm_proof proof (fst (ga_ck_base aux)) (oa c)) = Ok true.
    Proof.
      intros Hp.
      assert (Hka : length ka = 2 ^ S k) by apply key_vec_length.
      assert (Hb : length (powers n b) = 2 ^ S k) by apply powers_length.
      assert (Hkb : length (repeat (tt : unitmod K) n) = 2 ^ S k) by apply repeat_length.
      pose proof (ssm_placeholder_law (R := R) K) as LB.
      destruct (prove_with_aux_inv D fuel LMC RMC IPC ip (S k) a _ ka _ [kt] proof aux Ha Hb Hka Hkb Hp)
        as [cs [Hch [Hlen [Htr [_ [Hbb [Hca _]]]]]]].
      assert (Hnz := chain_nonzero _ _ _ _ _ Hch).
      assert (Hlcs := chain_length _ _ _ _ _ Hch). rewrite rev_length, Hlen in Hlcs.
      assert (Hnr : Forall (fun x => x <> f0) (rev cs)) by now apply Forall_rev.
      assert (Hlr : length (rev cs) = S k) by now rewrite rev_length.
      destruct (rev_chain_hd cs k Hlcs) as [t0 Ht0].
      assert (Hni : Forall (fun x => x <> f0) (map finv (rev cs))) by now apply map_finv_neq0.
      assert (Hli : length (map finv (rev cs)) = S k) by now rewrite map_length.
      assert (Ha1 : forall c, exists o,
        prove_ck_kzg_opening (h_beta_powers s) (map finv (rev cs)) f1 c = Ok o /\
        verify_ck_g2_kzg_opening (trap_vsrs alpha beta) (fst (ga_ck_base aux)) o (map finv (rev cs)) f1 c
          = Ok true).
      { intros c. rewrite Hca. unfold ka, n. rewrite <- Hli, dot_key_vec. rewrite Hs. unfold n.
        apply opening_g2_complete; auto using f1_neq_f0. }
      pose (oa c := match prove_ck_kzg_opening (h_beta_powers s) (map finv (rev cs)) f1 c with
                    | Ok o => o | _ => m0 end).
      exists t0, oa. split.
      - unfold tssm_prove. cbn [snd]. rewrite Hb. fold n. rewrite Hp. cbn [rbind].
        destruct (ga_ck_base aux) as [fa fb] eqn:Eb. rewrite Htr.
        rewrite invert_all_ok by auto. cbn [rbind].
        rewrite Ht0. cbn [runwrap rbind fst snd].
        destruct (rand_challenge D fuel 0 (tssm_kzg_payload t0 fa)) as [c| | |]; try reflexivity.
        cbn [rbind]. destruct (Ha1 c) as [o1 [E1 _]]. rewrite E1. cbn [rbind].
        unfold oa. now rewrite E1.
      - intros c Hc. unfold tssm_verify. cbn [ts_gipa ts_final_ck ts_final_ck_proof].
        rewrite (recursive_challenges_chain D fuel _ proof cs Hch). cbn [rbind].
        rewrite invert_all_ok by auto. cbn [rbind].
        rewrite Ht0. cbn [runwrap rbind]. rewrite Hc. cbn [rbind].
        destruct (Ha1 c) as [o1 [E1 V1]].
        unfold oa. rewrite E1, V1. cbn [rbind].
        rewrite final_scalar_ok by auto. cbn [rbind].
        assert (Hbb' : snd (gp_base proof) = poly_evaluate (subs (map finv (rev cs))) b).
        { rewrite Hbb. unfold n. rewrite <- Hli. apply dot_fold_powers. }
        rewrite <- Hbb'.
        pose proof (prove_with_aux_folds D fuel dA mid dT fA fB fT th LMC RMC IPC ip LA LB LT LI
                      (S k) a _ ka _ kt proof aux cs Ha Hb Hka Hkb Hp Hch) as Hf.
        pose proof (f_equal com_a Hf) as Hf1. pose proof (f_equal com_t Hf) as Hf2.
        cbn [cfold]. unfold com. unfold com_of, cfold, com_a, com_t in Hf1, Hf2. cbn [fst snd] in Hf1, Hf2.
        unfold com_a at 2. unfold com_t at 2. cbn [fst snd].
        rewrite (lin_ip_single ip' th) by auto. cbn [rbind].
        unfold com_a, com_t. rewrite Hf1, Hf2.
        unfold rand_then, dh_verify.
        rewrite (lc_single LMC' dA fA) by auto. cbn [rbind]. rewrite ceqb_refl.
        rewrite (ic_commit _ _ _ LT'). cbn [rbind]. rewrite ceqb_refl. reflexivity.
    Qed.

    Lemma tssm_complete_outcome : digest16 D ->
      tssm_prove LMC IPC ip D fuel s (a, powers n b) (ka, kt) = Loop \/
      exists proof, tssm_prove LMC IPC ip D fuel s (a, powers n b) (ka, kt) = Ok proof /\
        tssm_verify LMC' IPC' ip' D fuel E (trap_vsrs alpha beta) kt com b proof = Ok true.
    Proof.
      intros HD.
      destruct (prove_with_aux_outcome D fuel dA mid dT fA fB fT th LMC RMC IPC ip LA (ssm_placeholder_law K) LT LI
        (S k) a (powers n b) ka (repeat (tt : unitmod K) n) kt HD Ha (powers_length _ _) (key_vec_length _ _ _ _)
        (repeat_length _ _)) as [H|[proof [aux H]]].
      - left. unfold tssm_prove. cbn [snd]. rewrite powers_length', H. reflexivity.
      - destruct (tssm_after_gipa proof aux H) as [t0 [oa [E1 V]]]. rewrite E1.
        destruct (rand_challenge_outcome (K := K) D fuel 0
          (tssm_kzg_payload t0 (fst (ga_ck_base aux)))) as [Hl|[c Hc]].
        + left. rewrite Hl. reflexivity.
        + right. eexists. split; [rewrite Hc; reflexivity|]. now apply V.
    Qed.

    Lemma tssm_complete_live :
      (forall prev (c1 c2 : com3 OA OB OT), exists c, gipa_challenge D fuel 0 prev c1 c2 = Ok c) ->
      (forall p, exists c : K, rand_challenge D fuel 0 p = Ok c) ->
      exists proof, tssm_prove LMC IPC ip D fuel s (a, powers n b) (ka, kt) = Ok proof /\
        tssm_verify LMC' IPC' ip' D fuel E (trap_vsrs alpha beta) kt com b proof = Ok true.
    Proof.
      intros H1 H2.
      destruct (prove_with_aux_live D fuel dA mid dT fA fB fT th LMC RMC IPC ip LA (ssm_placeholder_law K) LT LI
        (S k) a (powers n b) ka (repeat (tt : unitmod K) n) kt H1 Ha (powers_length _ _) (key_vec_length _ _ _ _)
        (repeat_length _ _)) as [proof [aux H]].
      destruct (tssm_after_gipa proof aux H) as [t0 [oa [E1 V]]]. rewrite E1.
      destruct (H2 (tssm_kzg_payload t0 (fst (ga_ck_base aux)))) as [c Hc].
      eexists. split; [rewrite Hc; reflexivity|]. now apply V.
    Qed.
  End Run.
End Tssm.

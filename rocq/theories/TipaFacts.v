(** TIPA: completeness (C22, C23), size one (C27). *)
Require Import List Arith NArith Lia Bool Field.
Import ListNotations.
Require Import Verif.Outcome Verif.Algebra Verif.Rust Verif.Spec Verif.ListFacts Verif.RustFacts
  Verif.InnerProducts Verif.Commitments Verif.InnerProductFacts Verif.CommitFacts Verif.Gipa
  Verif.GipaFacts Verif.GipaComplete Verif.GipaTop Verif.Poly Verif.PolyFacts Verif.Tipa Verif.KeyFacts.

Lemma rev_chain_hd {A} (l : list A) m : length l = S m -> exists x, hd_error (rev l) = Some x.
Proof.
  intros H. destruct (rev l) as [|y l0] eqn:E; [|now exists y].
  apply (f_equal (@length A)) in E. rewrite rev_length in E. cbn in E. lia.
Qed.

Section TipaFacts.
  Context {R : Type} {P : pairing}.
  Notation K := (pK P).
  Context {MA MB MT KT : module (pK P)} {OA OB OT : carrier (pK P)}.
  Variable D : bytes -> bytes.
  Variable fuel : nat.
  Add Field KfTipa : (f_theory (pK P)).
  Context {XA XB XT : module K} (dA : XA -> OA) (dB : XB -> OB) (dT : XT -> OT).
  Context (fA : pG2 P -> MA -> XA) (fB : pG1 P -> MB -> XB) (fT : KT -> MT -> XT) (th : MA -> MB -> MT).
  Variables LMC LMC' : dhc R MA (pG2 P) OA.
  Variables RMC RMC' : dhc R MB (pG1 P) OB.
  Variables IPC IPC' : dhc R MT KT OT.
  Variables ip ip' : list MA -> list MB -> res MT.
  Context (LA : lin_commit LMC dA fA) (LB : lin_commit RMC dB fB) (LT : ip_commit IPC dT fT)
          (LI : lin_ip ip th).
  Context (LA' : lin_commit LMC' dA fA) (LB' : lin_commit RMC' dB fB) (LT' : ip_commit IPC' dT fT)
          (LI' : lin_ip ip' th).

  (** the SRS with trapdoors alpha, beta for vectors of length n *)
  Definition trap_srs (alpha beta : K) (n : nat) : srs P :=
    mk_srs (map (fun i => fpow alpha i *m pr_g P) (seq 0 (2 * n - 1)))
           (map (fun i => fpow beta i *m pr_h P) (seq 0 (2 * n - 1)))
           (beta *m pr_g P) (alpha *m pr_h P).

  Lemma trap_keys alpha beta n :
    get_commitment_keys (trap_srs alpha beta n) = (key_vec n beta f1 (pr_h P), key_vec n alpha f1 (pr_g P)).
  Proof. unfold get_commitment_keys, trap_srs. cbn [h_beta_powers g_alpha_powers]. now rewrite !step_by2_powers. Qed.

  Lemma trap_vkey alpha beta n : 0 < n ->
    get_verifier_key (trap_srs alpha beta n) = Ok (trap_vsrs alpha beta).
  Proof.
    intros H. unfold get_verifier_key, trap_srs. cbn [h_beta_powers g_alpha_powers srs_g_beta srs_h_alpha].
    destruct n; [lia|]. replace (2 * S n - 1) with (S (2 * n)) by lia. cbn [seq map index nth_error rbind fpow].
    unfold index. cbn [nth_error rbind]. rewrite !mscale_1. reflexivity.
  Qed.

  Lemma tipa_setup_ok rand rng n kt : 0 < n ->
    (forall rng, exists rng', dh_setup IPC rng 1 = Ok ([kt], rng')) ->
    exists alpha beta rng', tipa_setup IPC rand rng n = Ok (trap_srs alpha beta n, kt, rng') /\
      alpha = fst (rand rng) /\ beta = fst (rand (snd (rand rng))).
  Proof.
    intros Hn Hs. unfold tipa_setup. destruct (rand rng) as [alpha rng1] eqn:E1. cbn [fst snd].
    destruct (rand rng1) as [beta rng2] eqn:E2. cbn [fst].
    destruct (Nat.ltb_spec 0 n); [|lia]. cbn [rassert rbind].
    rewrite !structured_generators_ok by lia. cbn [rbind].
    destruct (Hs rng2) as [rng3 ->]. cbn [rbind last_opt runwrap].
    exists alpha, beta, rng3. repeat split.
  Qed.

  Section Run.
    Variables (alpha beta : K) (k : nat) (a : list MA) (b : list MB) (kt : KT) (r : K).
    Hypothesis Hr : r <> f0.
    Hypothesis Ha : length a = 2 ^ S k.
    Hypothesis Hb : length b = 2 ^ S k.
    Let n := 2 ^ S k.
    Let s := trap_srs alpha beta n.
    Let ka := key_vec n beta (finv r) (pr_h P).
    Let kb := key_vec n alpha f1 (pr_g P).
    Let com := com_of dA dB dT fA fB fT th ka a kb b kt a b.

    Lemma tipa_after_gipa proof aux :
      gipa_prove_with_aux LMC RMC IPC ip D fuel (a, b) (ka, kb, [kt]) = Ok (proof, aux) ->
      exists (t0 : K) (oa : K -> pG2 P) (ob : K -> pG1 P),
        (tipa_prove_with_srs_shift LMC RMC IPC ip D fuel s (a, b) (ka, kb, kt) r =
          (do c <- rand_challenge (K := K) D fuel 0
             (tipa_kzg_payload t0 (fst (ga_ck_base aux)) (snd (ga_ck_base aux)));
           Ok (mk_tipa_proof proof (ga_ck_base aux) (oa c, ob c)))) /\
        forall c : K,
          rand_challenge D fuel 0
             (tipa_kzg_payload t0 (fst (ga_ck_base aux)) (snd (ga_ck_base aux))) = Ok c ->
          tipa_verify_with_srs_shift LMC' RMC' IPC' ip' D fuel (trap_vsrs alpha beta) kt com
            (mk_tipa_proof proof (ga_ck_base aux) (oa c, ob c)) r = Ok true.
    Proof.
      intros Hp.
      assert (Hka : length ka = 2 ^ S k) by apply key_vec_length.
      assert (Hkb : length kb = 2 ^ S k) by apply key_vec_length.
      destruct (prove_with_aux_inv D fuel LMC RMC IPC ip (S k) a b ka kb [kt] proof aux Ha Hb Hka Hkb Hp)
        as [cs [Hch [Hlen [Htr [_ [_ [Hca Hcb]]]]]]].
      assert (Hnz := chain_nonzero _ _ _ _ _ Hch).
      assert (Hlcs := chain_length _ _ _ _ _ Hch). rewrite rev_length, Hlen in Hlcs.
      assert (Hnr : Forall (fun x => x <> f0) (rev cs)) by now apply Forall_rev.
      assert (Hlr : length (rev cs) = S k) by now rewrite rev_length.
      destruct (rev_chain_hd cs k Hlcs) as [t0 Ht0].
      assert (Hri : finv r <> f0) by now apply finv_neq0.
      assert (Hni : Forall (fun x => x <> f0) (map finv (rev cs))) by now apply map_finv_neq0.
      assert (Hli : length (map finv (rev cs)) = S k) by now rewrite map_length.
      assert (Ha1 : forall c, exists o,
        prove_ck_kzg_opening (h_beta_powers s) (map finv (rev cs)) (finv r) c = Ok o /\
        verify_ck_g2_kzg_opening (trap_vsrs alpha beta) (fst (ga_ck_base aux)) o (map finv (rev cs)) (finv r) c
          = Ok true).
      { intros c. rewrite Hca. unfold ka, n. rewrite <- Hli, dot_key_vec. unfold s, n. cbn [h_beta_powers trap_srs].
        apply opening_g2_complete; auto. }
      assert (Hb1 : forall c, exists o,
        prove_ck_kzg_opening (g_alpha_powers s) (rev cs) f1 c = Ok o /\
        verify_ck_g1_kzg_opening (trap_vsrs alpha beta) (snd (ga_ck_base aux)) o (rev cs) f1 c
          = Ok true).
      { intros c. rewrite Hcb. unfold kb, n. rewrite <- Hlr, dot_key_vec. unfold s, n. cbn [g_alpha_powers trap_srs].
        apply opening_g1_complete; auto using f1_neq_f0. }
      pose (oa c := match prove_ck_kzg_opening (h_beta_powers s) (map finv (rev cs)) (finv r) c with
                    | Ok o => o | _ => m0 end).
      pose (ob c := match prove_ck_kzg_opening (g_alpha_powers s) (rev cs) f1 c with
                    | Ok o => o | _ => m0 end).
      exists t0, oa, ob. split.
      - unfold tipa_prove_with_srs_shift. rewrite Hp. cbn [rbind].
        destruct (ga_ck_base aux) as [fa fb] eqn:Eb. rewrite Htr.
        rewrite invert_all_ok by auto. cbn [rbind]. rewrite finverse_neq by auto. cbn [runwrap rbind].
        rewrite Ht0. cbn [runwrap rbind fst snd].
        destruct (rand_challenge D fuel 0 (tipa_kzg_payload t0 fa fb)) as [c| | |]; try reflexivity.
        cbn [rbind]. destruct (Ha1 c) as [o1 [E1 _]]. rewrite E1. cbn [rbind].
        destruct (Hb1 c) as [o2 [E2 _]]. rewrite E2. cbn [rbind].
        unfold oa, ob. now rewrite E1, E2.
      - intros c Hc. unfold tipa_verify_with_srs_shift. cbn [tp_gipa tp_final_ck tp_final_ck_proof].
        rewrite (recursive_challenges_chain D fuel com proof cs Hch). cbn [rbind].
        rewrite invert_all_ok by auto. cbn [rbind].
        destruct (ga_ck_base aux) as [fa fb] eqn:Eb. cbn [fst snd] in *.
        rewrite Ht0. cbn [runwrap rbind]. rewrite Hc. cbn [rbind].
        rewrite finverse_neq by auto. cbn [runwrap rbind].
        destruct (Ha1 c) as [o1 [E1 V1]]. destruct (Hb1 c) as [o2 [E2 V2]].
        unfold oa, ob. rewrite E1, E2, V1. cbn [rbind]. rewrite V2. cbn [rbind].
        pose proof (prove_with_aux_folds D fuel dA dB dT fA fB fT th LMC RMC IPC ip LA LB LT LI
                      (S k) a b ka kb kt proof aux cs Ha Hb Hka Hkb Hp Hch) as Hf.
        unfold com. rewrite Hf. rewrite Eb. cbn [fst snd].
        destruct (gp_base proof) as [x y]. cbn [fst snd].
        rewrite (lin_ip_single ip' th) by auto. cbn [rbind].
        unfold rand_then, dh_verify.
        rewrite (lc_single LMC' dA fA) by auto. cbn [rbind]. rewrite ceqb_refl.
        rewrite (lc_single RMC' dB fB) by auto. cbn [rbind]. rewrite ceqb_refl.
        rewrite (ic_commit _ _ _ LT'). cbn [rbind]. rewrite ceqb_refl. reflexivity.
    Qed.

    Lemma tipa_complete_outcome : digest16 D ->
      tipa_prove_with_srs_shift LMC RMC IPC ip D fuel s (a, b) (ka, kb, kt) r = Loop \/
      exists proof, tipa_prove_with_srs_shift LMC RMC IPC ip D fuel s (a, b) (ka, kb, kt) r = Ok proof /\
        tipa_verify_with_srs_shift LMC' RMC' IPC' ip' D fuel (trap_vsrs alpha beta) kt com proof r = Ok true.
    Proof.
      intros HD.
      assert (Hka : length ka = 2 ^ S k) by apply key_vec_length.
      assert (Hkb : length kb = 2 ^ S k) by apply key_vec_length.
      destruct (prove_with_aux_outcome D fuel dA dB dT fA fB fT th LMC RMC IPC ip LA LB LT LI (S k) a b ka kb kt)
        as [H|[proof [aux H]]]; auto.
      - left. unfold tipa_prove_with_srs_shift. rewrite H. reflexivity.
      - destruct (tipa_after_gipa proof aux H) as [t0 [oa [ob [E V]]]]. rewrite E.
        destruct (rand_challenge_outcome (K := K) D fuel 0
          (tipa_kzg_payload t0 (fst (ga_ck_base aux)) (snd (ga_ck_base aux)))) as [Hl|[c Hc]].
        + left. rewrite Hl. reflexivity.
        + right. eexists. split; [rewrite Hc; reflexivity|]. now apply V.
    Qed.

    Lemma tipa_complete_live :
      (forall prev (c1 c2 : com3 OA OB OT), exists c, gipa_challenge D fuel 0 prev c1 c2 = Ok c) ->
      (forall p, exists c : K, rand_challenge D fuel 0 p = Ok c) ->
      exists proof, tipa_prove_with_srs_shift LMC RMC IPC ip D fuel s (a, b) (ka, kb, kt) r = Ok proof /\
        tipa_verify_with_srs_shift LMC' RMC' IPC' ip' D fuel (trap_vsrs alpha beta) kt com proof r = Ok true.
    Proof.
      intros H1 H2.
      assert (Hka : length ka = 2 ^ S k) by apply key_vec_length.
      assert (Hkb : length kb = 2 ^ S k) by apply key_vec_length.
      destruct (prove_with_aux_live D fuel dA dB dT fA fB fT th LMC RMC IPC ip LA LB LT LI (S k) a b ka kb kt)
        as [proof [aux H]]; auto.
      destruct (tipa_after_gipa proof aux H) as [t0 [oa [ob [E V]]]]. rewrite E.
      destruct (H2 (tipa_kzg_payload t0 (fst (ga_ck_base aux)) (snd (ga_ck_base aux)))) as [c Hc].
      eexists. split; [rewrite Hc; reflexivity|]. now apply V.
    Qed.

    (** any proof that prove returns is accepted *)
    Lemma tipa_complete_ok proof :
      tipa_prove_with_srs_shift LMC RMC IPC ip D fuel s (a, b) (ka, kb, kt) r = Ok proof ->
      tipa_verify_with_srs_shift LMC' RMC' IPC' ip' D fuel (trap_vsrs alpha beta) kt com proof r = Ok true.
    Proof.
      intros H0.
      destruct (gipa_prove_with_aux LMC RMC IPC ip D fuel (a, b) (ka, kb, [kt])) as [[pr aux]| | |] eqn:H;
        try (unfold tipa_prove_with_srs_shift in H0; rewrite H in H0; discriminate).
      destruct (tipa_after_gipa pr aux H) as [t0 [oa [ob [E V]]]]. rewrite E in H0.
      apply rbind_ok in H0 as [c [Hc [= <-]]]. now apply V.
    Qed.
  End Run.

  (** size one: no challenge, [transcript.first().unwrap()] panics *)
  Lemma tipa_size1_prove s a b ka kb kt r : r <> f0 ->
    tipa_prove_with_srs_shift LMC RMC IPC ip D fuel s ([a], [b]) ([ka], [kb], kt) r = Panic.
  Proof.
    intros Hr. unfold tipa_prove_with_srs_shift, gipa_prove_with_aux. cbn [length].
    change (is_power_of_two 1) with true. cbn [rassert rbind].
    rewrite prove_loop_base. cbn [rbind rev ga_ck_base ga_transcript invert_all rmapM].
    rewrite finverse_neq by auto. reflexivity.
  Qed.

  Lemma tipa_size1_verify v kt com proof r : gp_steps (tp_gipa proof) = [] ->
    tipa_verify_with_srs_shift LMC RMC IPC ip D fuel v kt com proof r = Panic.
  Proof.
    intros H. unfold tipa_verify_with_srs_shift, gipa_recursive_challenges. rewrite H.
    cbn [rev gipa_challenges_loop rbind invert_all rmapM].
    destruct (tp_final_ck proof), (tp_final_ck_proof proof). reflexivity.
  Qed.

  (** rescaling the message by r^i and the key by r^-i does not change the commitment *)
  Lemma shift_commitment r (v : list K) ka a : r <> f0 -> v = map (fpow r) (seq 0 (length a)) ->
    length ka = length a ->
    dh_commit LMC (zipw (fun g x => finv x *m g) ka v) (zipw (fun m x => x *m m) a v) = dh_commit LMC ka a.
  Proof.
    intros Hr -> Hl.
    rewrite !(lc_commit _ _ _ LA); auto; [|rewrite !zipw_length, map_length, seq_length; lia].
    do 2 f_equal.
    assert (Hn : Forall (fun x => x <> f0) (map (fpow r) (seq 0 (length a)))).
    { apply Forall_map, Forall_forall. intros. now apply fpow_neq0. }
    assert (HL : length (map (fpow r) (seq 0 (length a))) = length a) by now rewrite map_length, seq_length.
    revert Hn HL. generalize (map (fpow r) (seq 0 (length a))). intros v Hn HL.
    revert ka v Hl Hn HL. induction a as [|x a IH]; intros [|y ka] [|z v] H1 H2 H3; try discriminate; auto.
    cbn [zipw]. rewrite !dot_cons. inversion H2; subst. rewrite IH; auto. f_equal.
    rewrite (bil_scale_l _ (lc_bil _ _ _ LA)), (bil_scale_r _ (lc_bil _ _ _ LA)), <- mscale_mul.
    rewrite finv_l by auto. apply mscale_1.
  Qed.
End TipaFacts.

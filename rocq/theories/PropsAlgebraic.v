(** Property C97: provers whose final commitment keys and openings are combinations of SRS elements. *)
Require Import List Arith NArith ZArith Lia Bool Field.
Import ListNotations.
Require Import Verif.Outcome Verif.Algebra Verif.Zp Verif.Rust Verif.InnerProducts Verif.Commitments
  Verif.Gipa Verif.Poly Verif.Tipa Verif.Ssm Verif.Groth16 Verif.Spec Verif.ListFacts
  Verif.RustFacts Verif.InnerProductFacts Verif.CommitFacts Verif.GipaFacts Verif.GipaComplete Verif.GipaTop Verif.GipaAttack
  Verif.SerFacts Verif.PolyFacts Verif.KeyFacts Verif.TipaFacts Verif.SsmFacts Verif.RootFacts Verif.Groth16Facts
  Verif.VerifyFacts Verif.SpecialFacts Verif.SsmSpecial Verif.Forking Verif.ForkingTwo
  Verif.PropsBase Verif.PropsGipa Verif.PropsTipa Verif.PropsSsm Verif.PropsVerify Verif.PropsSpecial Verif.PropsGroth Verif.PropsGrothVerify
  Verif.PropsTipaForge Verif.PropsSsmSpecial Verif.PropsForking Verif.PropsForkingTwo Verif.PropsMalleable Verif.Algebraic.

(** A prover: rounds and last messages as in C94, then the coefficients of its final keys for the challenges, and those of
    the openings for the challenges and the point. [X] is [comb] for one key, a pair for two. *)
Record a_prover (P : pairing) (T A B X : Type) : Type := mk_a_prover {
  apr_next : list (pK P) -> T;
  apr_final : list (pK P) -> A * B;
  apr_keys : list (pK P) -> X;
  apr_open : list (pK P) -> pK P -> X }.
Arguments mk_a_prover {P T A B X}.
Arguments apr_next {P T A B X}.
Arguments apr_final {P T A B X}.
Arguments apr_keys {P T A B X}.
Arguments apr_open {P T A B X}.

(** It convinces with the challenges cs and the point z if the verifier accepts its proof for a hash function that produces
    these challenges and this point. *)
Section Convince.
  Context {R : Type} {P : pairing}.
  Notation K := (pK P).
  Definition both_g (s : srs P) (c : comb P * comb P) : pG2 P * pG1 P := (comb_g2 s (fst c), comb_g1 s (snd c)).
  Definition tipa_alg_convinces {MA MB MT KT : module (pK P)} {OA OB OT : carrier (pK P)}
      (LMC : dhc R MA (pG2 P) OA) (RMC : dhc R MB (pG1 P) OB) (IPC : dhc R MT KT OT) (ip : list MA -> list MB -> res MT)
      (s : srs P) (v : vsrs P) kt (com : com3 OA OB OT) (r : K)
      (pr : a_prover P (com3 OA OB OT * com3 OA OB OT) MA MB (comb P * comb P)) (cs : list K) (z : K) : Prop :=
    let st := rounds_sent (apr_next pr) [] cs in
    let ck := both_g s (apr_keys pr cs) in
    exists D fuel, digest16 D /\ round_challenges D fuel f0 st cs /\
      drawn D fuel (fser (last cs f0) ++ mser (fst ck) ++ mser (snd ck)) z /\
      tipa_verify_with_srs_shift LMC RMC IPC ip D fuel v kt com
        (mk_tipa_proof (mk_gipa_proof (rev st) (apr_final pr cs)) ck (both_g s (apr_open pr cs z))) r = Ok true.
  Definition tssm_alg_convinces {MA MT KT : module (pK P)} {OA OT : carrier (pK P)}
      (LMC : dhc R MA (pG2 P) OA) (IPC : dhc R MT KT OT) (ip : list MA -> list (fmod (pK P)) -> res MT) (E : penv)
      (s : srs P) (v : vsrs P) kt (com : OA * OT) (b : K)
      (pr : a_prover P (com3 OA (mod_carrier (fmod (pK P))) OT * com3 OA (mod_carrier (fmod (pK P))) OT) MA (fmod (pK P)) (comb P))
      (cs : list K) (z : K) : Prop :=
    let st := rounds_sent (apr_next pr) [] cs in
    let ck := comb_g2 s (apr_keys pr cs) in
    exists D fuel, digest16 D /\ round_challenges D fuel f0 st cs /\
      drawn D fuel (fser (last cs f0) ++ mser ck) z /\
      tssm_verify LMC IPC ip D fuel E v kt com b
        (mk_tssm_proof (mk_gipa_proof (rev st) (apr_final pr cs)) ck (comb_g2 s (apr_open pr cs z))) = Ok true.

  (** [L] lists more than 3k N^(k-1) Z + d N^k of the N^k Z runs: k of the N challenges, one of the Z points *)
  Definition often_points (Ch Zs : list K) (k d : nat) (L : list (list K * K)) (convinces : list K -> K -> Prop) : Prop :=
    NoDup Ch /\ NoDup Zs /\ NoDup L /\
    (forall cs z, In (cs, z) L -> length cs = k /\ incl cs Ch /\ In z Zs /\ convinces cs z) /\
    3 * k * length Ch ^ (k - 1) * length Zs + length Ch ^ k * d < length L.

  Lemma often_heavy Ch Zs k d L cv (Q : list K -> Prop) : often_points Ch Zs k d L cv ->
    (forall cs, In cs (heavy L Ch k d) -> Q cs) -> often Ch k (heavy L Ch k d) Q.
  Proof.
    intros [HC [HZ [HL [Hi Hl]]]] HQ. split; [exact HC|]. split; [apply NoDup_filter, sequences_nodup, HC|]. split.
    - intros cs H. split; [|split; [|now apply HQ]]; apply filter_In in H as [H _]; now apply sequences_in in H as [H1 H2].
    - assert (Hb := heavy_bound L Ch Zs k d HL).
      assert (length L <= length (heavy L Ch k d) * length Zs + length Ch ^ k * d).
      { apply Hb. intros cs z H. destruct (Hi cs z H) as [H1 [H2 [H3 _]]]. auto. }
      clear Hb. generalize dependent (length Ch ^ k * d). intros x Hl H.
      destruct (le_lt_dec (length (heavy L Ch k d)) (3 * k * length Ch ^ (k - 1))) as [Hm|Hm]; [|exact Hm].
      apply (Nat.mul_le_mono_r _ _ (length Zs)) in Hm. lia.
  Qed.

  (** what is computed from the coefficients of a run *)
  Definition side_relation (mk : list K -> list K -> relation P) (n : nat) (p q : comb P) (z y : K) : option (relation P) :=
    let c := side_check n p q z y in if nonzero (fst c ++ snd c) then Some (mk (fst c) (snd c)) else None.
  Definition tipa_relation (n : nat) (r : K) (keys opens : comb P * comb P) (cs : list K) (z : K) : option (relation P) :=
    match side_relation InBeta n (fst keys) (fst opens) z (key_poly (map finv (rev cs)) (finv r) z) with
    | Some rel => Some rel
    | None => side_relation InAlpha n (snd keys) (snd opens) z (key_poly (rev cs) f1 z)
    end.
  Definition tssm_relation (n : nat) (keys opens : comb P) (cs : list K) (z : K) : option (relation P) :=
    side_relation InBeta n keys opens z (key_poly (map finv (rev cs)) f1 z).

  Lemma side_relation_none mk n p q z y : side_relation mk n p q z y = None ->
    nonzero (fst (side_check n p q z y) ++ snd (side_check n p q z y)) = false.
  Proof. unfold side_relation. destruct (nonzero _); [discriminate|reflexivity]. Qed.

  Section Srs.
    Variables (s : srs P) (alpha beta : K) (n : nat).
    Hypotheses (Hn : 0 < n) (Hs : srs_ok s alpha beta n) (Hg : pr_g P <> m0) (Hh : pr_h P <> m0).

    Lemma g2_relation_ok p q z y rel : comb_g2 s p -m y *m pr_h P = (beta -f z) *m comb_g2 s q ->
      side_relation InBeta n p q z y = Some rel -> vanishes n alpha beta rel.
    Proof using Hn Hs Hh.
      intros H. unfold side_relation. destruct (nonzero _) eqn:E; [|discriminate]. intros H'. injection H' as <-. now apply (g2_relation s).
    Qed.
    Lemma tipa_relation_ok r keys opens cs z rel :
      fst (both_g s keys) -m key_poly (map finv (rev cs)) (finv r) z *m pr_h P = (beta -f z) *m fst (both_g s opens) ->
      snd (both_g s keys) -m key_poly (rev cs) f1 z *m pr_g P = (alpha -f z) *m snd (both_g s opens) ->
      tipa_relation n r keys opens cs z = Some rel -> vanishes n alpha beta rel.
    Proof using Hn Hs Hg Hh.
      intros H1 H2. unfold tipa_relation. destruct (side_relation InBeta _ _ _ _ _) as [rel'|] eqn:E.
      - intros H. injection H as <-. exact (g2_relation_ok _ _ _ _ _ H1 E).
      - unfold side_relation. destruct (nonzero _) eqn:E'; [|discriminate]. intros H'. injection H' as <-. now apply (g1_relation s).
    Qed.
    Lemma tipa_right r keys (opens : K -> comb P * comb P) cs zs : n = 2 ^ length cs -> NoDup zs -> 2 * n - 2 < length zs ->
      (forall z, In z zs -> tipa_relation n r keys (opens z) cs z = None) ->
      both_g s keys = (key_poly (map finv (rev cs)) (finv r) beta *m pr_h P, key_poly (rev cs) f1 alpha *m pr_g P).
    Proof using Hs.
      intros Hk Hz Hl H. unfold both_g. f_equal.
      - apply (g2_right s alpha beta n Hs _ _ _ zs); auto; [now rewrite map_length, rev_length|].
        intros z Hi. exists (fst (opens z)). apply (side_relation_none InBeta). specialize (H z Hi). unfold tipa_relation in H.
        destruct (side_relation InBeta _ _ _ _ _); [discriminate|reflexivity].
      - apply (g1_right s alpha beta n Hs _ _ _ zs); auto; [now rewrite rev_length|].
        intros z Hi. exists (snd (opens z)). apply (side_relation_none InAlpha). specialize (H z Hi). unfold tipa_relation in H.
        destruct (side_relation InBeta _ _ _ _ _); [discriminate|exact H].
    Qed.
    Lemma tssm_right keys (opens : K -> comb P) cs zs : n = 2 ^ length cs -> NoDup zs -> 2 * n - 2 < length zs ->
      (forall z, In z zs -> tssm_relation n keys (opens z) cs z = None) ->
      comb_g2 s keys = key_poly (map finv (rev cs)) f1 beta *m pr_h P.
    Proof using Hs.
      intros Hk Hz Hl H. apply (g2_right s alpha beta n Hs _ _ _ zs); auto; [now rewrite map_length, rev_length|].
      intros z Hi. exists (opens z). apply (side_relation_none InBeta). now apply H.
    Qed.
  End Srs.
End Convince.

Section C97.
  Context {R : Type} {P : pairing}.
  Notation K := (pK P).
  Hypotheses (Hg : pr_g P <> m0) (Hh : pr_h P <> m0).

  Lemma folded_keys_one (s : srs P) alpha beta ka kb n cs : 0 < n -> srs_ok s alpha beta n -> get_commitment_keys s = (ka, kb) ->
    n = 2 ^ length cs -> length ka = n /\ folded_key ka (map finv cs) = key_poly (map finv (rev cs)) f1 beta *m pr_h P.
  Proof.
    intros Hn Hs Hk Hl. destruct (folded_keys_eval s alpha beta ka kb f1 n cs Hn Hs Hk Hl) as [H1 [_ [_ [H2 _]]]]. split; [exact H1|].
    rewrite finv_1 in H2. rewrite <- H2. f_equal. unfold shift_vec. apply list_at_ext; [reflexivity|].
    intros i Hi. now rewrite fpow_1_l, mscale_1.
  Qed.

  (** TIPA: a relation between the trapdoors, vectors with the claimed commitments and inner product, or a collision *)
  Theorem C97_tipa_knowledge {MA MB MT XA XB : module (pK P)}
      (fA : pG2 P -> MA -> XA) (fB : pG1 P -> MB -> XB) (th : MA -> MB -> MT)
      (LMC : dhc R MA (pG2 P) (mod_carrier XA)) (RMC : dhc R MB (pG1 P) (mod_carrier XB)) (ip : list MA -> list MB -> res MT)
      (LA : lin_commit LMC mid fA) (LB : lin_commit RMC mid fB) (LI : lin_ip ip th)
      (rand : sampler R K) rng n s kt0 rng' ka kb v kt ca cb ct r pr Ch Zs k L :
    tipa_setup (identity MT) rand rng n = Ok (s, kt0, rng') -> get_commitment_keys s = (ka, kb) -> get_verifier_key s = Ok v ->
    n = 2 ^ k -> often_points Ch Zs k (2 * n - 2) L (tipa_alg_convinces LMC RMC (identity MT) ip s v kt (ca, cb, ct) r pr) ->
    let ka' := shift_vec (finv r) ka in
    match first_some (fun e => tipa_relation n r (apr_keys pr (fst e)) (apr_open pr (fst e) (snd e)) (fst e) (snd e)) L with
    | Some rel => vanishes n (fst (rand rng)) (fst (rand (snd (rand rng)))) rel
    | None =>
      match option_map extract (rewind (apr_next pr) (apr_final pr) Ch k (heavy L Ch k (2 * n - 2))) with
      | Some (Witness a b) => length a = n /\ length b = n /\
          dh_commit LMC ka' a = Ok ca /\ dh_commit RMC kb b = Ok cb /\ ip a b = Ok (at_ ct 0)
      | Some (KernelA w) => collides LMC ka' w (zeros ka')
      | Some (KernelB w) => collides RMC kb w (zeros kb)
      | None => False
      end
    end.
  Proof using Hg Hh.
    intros Hset Hk Hv Hn Ho ka'. destruct (C21_setup_structure _ _ _ _ _ _ _ Hset) as [Hn0 Hs].
    set (alpha := fst (rand rng)) in *. set (beta := fst (rand (snd (rand rng)))) in *.
    assert (Ev : v = key_of alpha beta) by (destruct (C21_keys s alpha beta n Hn0 Hs) as [_ E]; rewrite Hv in E; now injection E).
    assert (Hop : forall cs z, In (cs, z) L -> length cs = k /\
      fst (both_g s (apr_keys pr cs)) -m key_poly (map finv (rev cs)) (finv r) z *m pr_h P = (beta -f z) *m fst (both_g s (apr_open pr cs z)) /\
      snd (both_g s (apr_keys pr cs)) -m key_poly (rev cs) f1 z *m pr_g P = (alpha -f z) *m snd (both_g s (apr_open pr cs z))).
    { intros cs z Hi. destruct Ho as [_ [_ [_ [HL _]]]]. destruct (HL cs z Hi) as [H1 [_ [_ [D [fuel [HD [Hc [Hz Hver]]]]]]]]. split; [exact H1|].
      rewrite Ev in Hver. apply (tipa_verify_api D fuel HD) in Hver as [cs' [z' [w [G1 [_ [_ [G2 [[G3 G4] _]]]]]]]].
      cbn [tp_gipa gp_steps tp_final_ck tp_final_ck_proof] in *. rewrite rev_involutive in G1.
      assert (cs' = cs) as -> by (eapply round_challenges_fun; eauto). assert (z' = z) as -> by (eapply drawn_fun; eauto). auto. }
    destruct (first_some _ L) as [rel|] eqn:Ef.
    - apply first_some_some in Ef as [[cs z] [Hi He]]. cbn [fst snd] in He. destruct (Hop cs z Hi) as [_ [H1 H2]].
      exact (tipa_relation_ok s alpha beta n Hn0 Hs Hg Hh _ _ _ _ _ _ H1 H2 He).
    - pose proof (first_some_none _ _ Ef) as Hnone.
      assert (Hlen : length ka = n /\ length kb = n).
      { destruct (C21_keys s alpha beta n Hn0 Hs) as [[ka1 [kb1 [E1 [L1 [L2 _]]]]] _]. rewrite Hk in E1. injection E1 as <- <-. auto. }
      destruct Hlen as [La Lb].
      pose proof (C94_tipa_knowledge fA fB th LMC RMC ip LA LB LI rand rng n s kt0 rng' ka kb v kt ca cb ct r (apr_next pr) (apr_final pr) Ch k
        (heavy L Ch k (2 * n - 2)) Hset Hk Hv) as H94.
      assert (L' : length ka' = n) by (unfold ka', shift_vec; now rewrite map_length, seq_length).
      fold ka' in H94. cbv zeta in H94. rewrite L', Lb in H94. apply H94. clear H94.
      apply (often_heavy Ch Zs k _ L _ _ Ho). intros cs Hcs. apply filter_In in Hcs as [Hseq Hcs]. apply Nat.ltb_lt in Hcs.
      apply sequences_in in Hseq as [Hlk _]. destruct Ho as [_ [_ [HL [Hi _]]]].
      assert (Hright : both_g s (apr_keys pr cs) = (folded_key (shift_vec (finv r) ka) (map finv cs), folded_key kb cs)).
      { destruct (folded_keys_eval s alpha beta ka kb r n cs Hn0 Hs Hk) as [_ [_ [_ [-> ->]]]]; [now rewrite Hlk|].
        apply (tipa_right s alpha beta n Hs r _ (apr_open pr cs) cs (points_of L cs)); [now rewrite Hlk|now apply points_of_nodup|exact Hcs|].
        intros z Hz. apply points_of_in in Hz. exact (Hnone _ Hz). }
      destruct (points_of L cs) as [|z zs] eqn:Ep; [cbn in Hcs; lia|].
      assert (Hz : In (cs, z) L) by (apply points_of_in; rewrite Ep; now left).
      destruct (Hi cs z Hz) as [_ [_ [_ [D [fuel [HD [Hc [_ Hver]]]]]]]]. rewrite Hright in Hver.
      exists D, fuel, (both_g s (apr_open pr cs z)). split; [exact HD|]. split; [exact Hc|]. split; [|exact Hver].
      rewrite sent_length. congruence.
  Qed.

  (** TIPA with structured scalars *)
  Theorem C97_tssm_knowledge {MA MT XA : module (pK P)} (fA : pG2 P -> MA -> XA) (th : MA -> fmod (pK P) -> MT)
      (LMC : dhc R MA (pG2 P) (mod_carrier XA)) (ip : list MA -> list (fmod (pK P)) -> res MT) (LA : lin_commit LMC mid fA) (LI : lin_ip ip th)
      E (rand : sampler R K) rng n s kt0 rng' ka kb v kt ca ct b pr Ch Zs k L :
    tipa_setup (identity MT) rand rng n = Ok (s, kt0, rng') -> get_commitment_keys s = (ka, kb) -> get_verifier_key s = Ok v ->
    n = 2 ^ k -> often_points Ch Zs k (2 * n - 2) L (tssm_alg_convinces LMC (identity MT) ip E s v kt (ca, ct) b pr) ->
    match first_some (fun e => tssm_relation n (apr_keys pr (fst e)) (apr_open pr (fst e) (snd e)) (fst e) (snd e)) L with
    | Some rel => vanishes n (fst (rand rng)) (fst (rand (snd (rand rng)))) rel
    | None =>
      match option_map extract1 (rewind (apr_next pr) (apr_final pr) Ch k (heavy L Ch k (2 * n - 2))) with
      | Some (inl a) => length a = n /\ dh_commit LMC ka a = Ok ca /\ ip a (powers n b) = Ok (at_ ct 0)
      | Some (inr w) => collides LMC ka w (zeros ka)
      | None => False
      end
    end.
  Proof using Hh.
    intros Hset Hk Hv Hn Ho. destruct (C21_setup_structure _ _ _ _ _ _ _ Hset) as [Hn0 Hs].
    set (alpha := fst (rand rng)) in *. set (beta := fst (rand (snd (rand rng)))) in *.
    assert (Ev : v = key_of alpha beta) by (destruct (C21_keys s alpha beta n Hn0 Hs) as [_ E0]; rewrite Hv in E0; now injection E0).
    destruct (first_some _ L) as [rel|] eqn:Ef.
    - apply first_some_some in Ef as [[cs z] [Hi He]]. cbn [fst snd] in He. destruct Ho as [_ [_ [_ [HL _]]]].
      destruct (HL cs z Hi) as [_ [_ [_ [D [fuel [HD [Hc [Hz Hver]]]]]]]].
      rewrite Ev in Hver. apply (C54_tssm_accepts_iff D fuel E HD) in Hver as [cs' [z' [w [G1 [_ [G2 [G3 _]]]]]]].
      cbn [ts_gipa gp_steps ts_final_ck ts_final_ck_proof] in *. rewrite rev_involutive in G1.
      assert (cs' = cs) as -> by (eapply round_challenges_fun; eauto). assert (z' = z) as -> by (eapply drawn_fun; eauto).
      exact (g2_relation_ok s alpha beta n Hn0 Hs Hh _ _ _ _ _ G3 He).
    - pose proof (first_some_none _ _ Ef) as Hnone.
      assert (La : length ka = n).
      { destruct (C21_keys s alpha beta n Hn0 Hs) as [[ka1 [kb1 [E1 [L1 [L2 _]]]]] _]. rewrite Hk in E1. injection E1 as <- <-. auto. }
      pose proof (C94_tssm_knowledge fA th LMC ip LA LI E rand rng n s kt0 rng' ka kb v kt ca ct b (apr_next pr) (apr_final pr) Ch k
        (heavy L Ch k (2 * n - 2)) Hset Hk Hv) as H94.
      rewrite La in H94. apply H94. clear H94.
      apply (often_heavy Ch Zs k _ L _ _ Ho). intros cs Hcs. apply filter_In in Hcs as [Hseq Hcs]. apply Nat.ltb_lt in Hcs.
      apply sequences_in in Hseq as [Hlk _]. destruct Ho as [_ [_ [HL [Hi _]]]].
      assert (Hright : comb_g2 s (apr_keys pr cs) = folded_key ka (map finv cs)).
      { destruct (folded_keys_one s alpha beta ka kb n cs Hn0 Hs Hk) as [_ ->]; [now rewrite Hlk|].
        apply (tssm_right s alpha beta n Hs _ (apr_open pr cs) cs (points_of L cs)); [now rewrite Hlk|now apply points_of_nodup|exact Hcs|].
        intros z Hz. apply points_of_in in Hz. exact (Hnone _ Hz). }
      destruct (points_of L cs) as [|z zs] eqn:Ep; [cbn in Hcs; lia|].
      assert (Hz : In (cs, z) L) by (apply points_of_in; rewrite Ep; now left).
      destruct (Hi cs z Hz) as [_ [_ [_ [D [fuel [HD [Hc [_ Hver]]]]]]]]. rewrite Hright in Hver.
      exists D, fuel, (comb_g2 s (apr_open pr cs z)). split; [exact HD|]. split; [exact Hc|]. split; [|exact Hver].
      rewrite sent_length. congruence.
  Qed.
End C97.
Print Assumptions C97_tipa_knowledge.
Print Assumptions C97_tssm_knowledge.

(** ** Aggregates *)
(** A prover of aggregates: the claimed combinations for r, a prover of the argument about A and B, and, for the challenges
    and the point of that one, a prover of the argument about C. *)
Record ag_prover (P : pairing) : Type := mk_ag_prover {
  agp_ip : pK P -> pGT P;
  agp_agg : pK P -> pG1 P;
  agp_ab : pK P -> a_prover P (com3 (mod_carrier (pGT P)) (mod_carrier (pGT P)) (identity_output (pGT P)) *
      com3 (mod_carrier (pGT P)) (mod_carrier (pGT P)) (identity_output (pGT P))) (pG1 P) (pG2 P) (comb P * comb P);
  agp_c : pK P -> list (pK P) -> pK P -> a_prover P (com3 (mod_carrier (pGT P)) (mod_carrier (fmod (pK P))) (identity_output (pG1 P)) *
      com3 (mod_carrier (pGT P)) (mod_carrier (fmod (pK P))) (identity_output (pG1 P))) (pG1 P) (fmod (pK P)) (comb P) }.
Arguments mk_ag_prover {P}.
Arguments agp_ip {P}.
Arguments agp_agg {P}.
Arguments agp_ab {P}.
Arguments agp_c {P}.

Definition g16_alg_convinces {R} {P : pairing} (E : penv) (r1 : sampler R (pG1 P)) (r2 : sampler R (pG2 P)) (s : srs P) (v : vsrs P)
    (vk : g16_vk P) (inputs : list (list (pK P))) (ca cb cc : pGT P) (pr : ag_prover P) (r : pK P)
    (cs1 : list (pK P)) (z1 : pK P) (cs2 : list (pK P)) (z2 : pK P) : Prop :=
  let pab := agp_ab pr r in let pc := agp_c pr r cs1 z1 in
  let st1 := rounds_sent (apr_next pab) [] cs1 in let st2 := rounds_sent (apr_next pc) [] cs2 in
  let ck1 := both_g s (apr_keys pab cs1) in let ck2 := comb_g2 s (apr_keys pc cs2) in
  exists D fuel, digest16 D /\ drawn D fuel (mser ca ++ mser cb ++ mser cc) r /\
    round_challenges D fuel f0 st1 cs1 /\ drawn D fuel (fser (last cs1 f0) ++ mser (fst ck1) ++ mser (snd ck1)) z1 /\
    round_challenges D fuel f0 st2 cs2 /\ drawn D fuel (fser (last cs2 f0) ++ mser ck2) z2 /\
    g16_verify P E D fuel r1 r2 v vk inputs
      (mk_agg_proof ca cb cc (agp_ip pr r) (agp_agg pr r)
         (mk_tipa_proof (mk_gipa_proof (rev st1) (apr_final pab cs1)) ck1 (both_g s (apr_open pab cs1 z1)))
         (mk_tssm_proof (mk_gipa_proof (rev st2) (apr_final pc cs2)) ck2 (comb_g2 s (apr_open pc cs2 z2)))) = Ok true.

(** [L] lists more than ((n-1) N^(2k) + 6k Q N^(2k-1)) Z^2 + (2n-2) Q N^(2k) Z of the Q N^(2k) Z^2 runs *)
Definition often_runs {K : field} (Qs Ch Zs : list K) (k n : nat) (L : list (K * ((list K * K) * (list K * K))))
    (convinces : K -> list K -> K -> list K -> K -> Prop) : Prop :=
  NoDup Qs /\ NoDup Ch /\ NoDup Zs /\ NoDup L /\
  (forall q cs1 z1 cs2 z2, In (q, ((cs1, z1), (cs2, z2))) L ->
     In q Qs /\ length cs1 = k /\ incl cs1 Ch /\ In z1 Zs /\ length cs2 = k /\ incl cs2 Ch /\ In z2 Zs /\ convinces q cs1 z1 cs2 z2) /\
  ((n - 1) * length Ch ^ (k + k) + length Qs * (3 * (k + k) * length Ch ^ (k + k - 1))) * (length Zs * length Zs) +
    length Qs * length Ch ^ (k + k) * (2 * n - 2) * length Zs < length L.

(** the relation computed from a run, if any *)
Definition g16_relation {P : pairing} (n : nat) (pr : ag_prover P) (e : pK P * ((list (pK P) * pK P) * (list (pK P) * pK P))) : option (relation P) :=
  let '(r, ((cs1, z1), (cs2, z2))) := e in
  let pab := agp_ab pr r in let pc := agp_c pr r cs1 z1 in
  match tipa_relation n r (apr_keys pab cs1) (apr_open pab cs1 z1) cs1 z1 with
  | Some rel => Some rel
  | None => tssm_relation n (apr_keys pc cs2) (apr_open pc cs2 z2) cs2 z2
  end.

(** the prover of C96 that takes the point with the most second arguments for the first one *)
Definition picked_prover {P : pairing} (pr : ag_prover P) (pk : pK P -> list (pK P) -> pK P) : g16_prover P :=
  mk_g16_prover (agp_ip pr) (agp_agg pr) (fun r => apr_next (agp_ab pr r)) (fun r => apr_final (agp_ab pr r))
    (fun r cs1 => apr_next (agp_c pr r cs1 (pk r cs1))) (fun r cs1 => apr_final (agp_c pr r cs1 (pk r cs1))).

Section C97Aggregate.
  Context {R : Type} {P : pairing}.
  Notation K := (pK P).
  Hypotheses (Hg : pr_g P <> m0) (Hh : pr_h P <> m0).
  Variables (E : penv) (HE : 1 <= threads E) (r1 : sampler R (pG1 P)) (r2 : sampler R (pG2 P)).

  Theorem C97_aggregate_knowledge (rand : sampler R K) (rng : R) n s rng' ka kb v vk inputs ca cb cc pr Qs Ch Zs k L :
    g16_setup P rand rng n = Ok (s, rng') -> get_commitment_keys s = (ka, kb) -> get_verifier_key s = Ok v -> length inputs = n -> n = 2 ^ k ->
    often_runs Qs Ch Zs k n L (g16_alg_convinces E r1 r2 s v vk inputs ca cb cc pr) ->
    match first_some (g16_relation n pr) L with
    | Some rel => vanishes n (fst (rand rng)) (fst (rand (snd (rand rng)))) rel
    | None =>
      match g16_extract (g16_branches (picked_prover pr (pick L Ch Zs k (2 * n - 2))) Qs Ch k (heavy_both L Qs Ch Zs k (2 * n - 2))) with
      | Proofs pfs => Forall2 (g16_valid vk) inputs pfs /\
          dh_commit (afgho_g1 P E r2) ka (map pf_a pfs) = Ok ca /\ dh_commit (afgho_g2 P E r1) kb (map pf_b pfs) = Ok cb /\
          dh_commit (afgho_g1 P E r2) ka (map pf_c pfs) = Ok cc
      | CollisionA x y => collides (afgho_g1 P E r2) ka x y
      | CollisionB x y => collides (afgho_g2 P E r1) kb x y
      end
    end.
  Proof using Hg Hh HE.
    intros Hset Hk Hv Hin Hn Ho.
    assert (Hset' := Hset). unfold g16_setup in Hset'. apply rbind_ok in Hset' as [[[s' kt] rng2] [Hset' E1]]. injection E1 as -> ->.
    destruct (C21_setup_structure _ _ _ _ _ _ _ Hset') as [Hn0 Hs].
    set (alpha := fst (rand rng)) in *. set (beta := fst (rand (snd (rand rng)))) in *.
    assert (Ev : v = key_of alpha beta) by (destruct (C21_keys s alpha beta n Hn0 Hs) as [_ E0]; rewrite Hv in E0; now injection E0).
    set (d := 2 * n - 2) in *. destruct Ho as [HQ [HC [HZ [HL [Hi Hl]]]]].
    assert (Hop : forall r cs1 z1 cs2 z2, In (r, ((cs1, z1), (cs2, z2))) L ->
      let pab := agp_ab pr r in let pc := agp_c pr r cs1 z1 in
      fst (both_g s (apr_keys pab cs1)) -m key_poly (map finv (rev cs1)) (finv r) z1 *m pr_h P = (beta -f z1) *m fst (both_g s (apr_open pab cs1 z1)) /\
      snd (both_g s (apr_keys pab cs1)) -m key_poly (rev cs1) f1 z1 *m pr_g P = (alpha -f z1) *m snd (both_g s (apr_open pab cs1 z1)) /\
      comb_g2 s (apr_keys pc cs2) -m key_poly (map finv (rev cs2)) f1 z2 *m pr_h P = (beta -f z2) *m comb_g2 s (apr_open pc cs2 z2)).
    { intros r cs1 z1 cs2 z2 He. cbv zeta. destruct (Hi _ _ _ _ _ He) as [_ [_ [_ [_ [_ [_ [_ Hcv]]]]]]].
      destruct Hcv as [D [fuel [HD [Hr [Hc1 [Hz1 [Hc2 [Hz2 Hver]]]]]]]]. rewrite Ev in Hver.
      apply C60_groth16_accepts_iff in Hver; auto. destruct Hver as [_ [r' [Hr' [_ [_ [Hab [Hc _]]]]]]].
      cbn [ag_com_a ag_com_b ag_com_c ag_ip_ab ag_agg_c ag_tipa_ab ag_tipa_c] in *.
      assert (r' = r) as -> by (eapply drawn_fun; eauto).
      destruct Hab as [c1 [y1 [A1 [_ [A2 [[A3 A4] _]]]]]]. destruct Hc as [c2 [y2 [B1 [_ [B2 [B3 _]]]]]].
      cbn [tp_gipa ts_gipa gp_steps tp_final_ck tp_final_ck_proof ts_final_ck ts_final_ck_proof] in *. rewrite rev_involutive in A1, B1.
      assert (c1 = cs1) as -> by (eapply round_challenges_fun; eauto). assert (c2 = cs2) as -> by (eapply round_challenges_fun; eauto).
      assert (y1 = z1) as -> by (eapply drawn_fun; eauto). assert (y2 = z2) as -> by (eapply drawn_fun; eauto). auto. }
    destruct (first_some _ L) as [rel|] eqn:Ef.
    - apply first_some_some in Ef as [[r [[cs1 z1] [cs2 z2]]] [He Hrel]]. destruct (Hop _ _ _ _ _ He) as [H1 [H2 H3]]. unfold g16_relation in Hrel.
      destruct (tipa_relation _ _ _ _ _ _) as [rel'|] eqn:Et.
      + injection Hrel as ->. exact (tipa_relation_ok s alpha beta n Hn0 Hs Hg Hh _ _ _ _ _ _ H1 H2 Et).
      + exact (g2_relation_ok s alpha beta n Hn0 Hs Hh _ _ _ _ _ H3 Hrel).
    - pose proof (first_some_none _ _ Ef) as Hnone.
      assert (Hruns : forall q cs1 z1 cs2 z2, In (q, ((cs1, z1), (cs2, z2))) L ->
        In q Qs /\ length cs1 = k /\ incl cs1 Ch /\ In z1 Zs /\ length cs2 = k /\ incl cs2 Ch /\ In z2 Zs).
      { intros q cs1 z1 cs2 z2 He. destruct (Hi _ _ _ _ _ He) as [G1 [G2 [G3 [G4 [G5 [G6 [G7 _]]]]]]]. auto 10. }
      assert (La : length ka = n).
      { destruct (C21_keys s alpha beta n Hn0 Hs) as [[ka1 [kb1 [E1 [L1 [L2 _]]]]] _]. rewrite Hk in E1. injection E1 as <- <-. auto. }
      apply (C96_aggregate_knowledge E HE r1 r2 rand rng n s rng' ka kb v vk inputs ca cb cc _ Qs Ch k _ Hset Hk Hv Hin).
      split; [exact HQ|]. split; [exact HC|]. split; [now apply heavy_both_nodup|]. split.
      + intros r cs1 cs2 He. apply heavy_both_in in He as [G1 [G2 [G3 [G4 [G5 [G6 G7]]]]]]. repeat (split; [assumption|]).
        set (z1 := pick L Ch Zs k d r cs1) in *.
        assert (R1 : both_g s (apr_keys (agp_ab pr r) cs1) = (folded_key (shift_vec (finv r) ka) (map finv cs1), folded_key kb cs1)).
        { destruct (folded_keys_eval s alpha beta ka kb r n cs1 Hn0 Hs Hk) as [_ [_ [_ [-> ->]]]]; [now rewrite G2|].
          apply (tipa_right s alpha beta n Hs r _ (apr_open (agp_ab pr r) cs1) cs1 (first_points L Zs r cs1)); [now rewrite G2|now apply NoDup_filter|exact G6|].
          intros z Hz. apply filter_In in Hz as [_ Hz]. destruct (second_of L r cs1 z) as [|[c2 y2] l] eqn:Es; [discriminate|].
          assert (Hr : In (r, ((cs1, z), (c2, y2))) L) by (apply second_of_in; rewrite Es; now left).
          specialize (Hnone _ Hr). unfold g16_relation in Hnone. destruct (tipa_relation _ _ _ _ _ _); [discriminate|reflexivity]. }
        assert (R2 : comb_g2 s (apr_keys (agp_c pr r cs1 z1) cs2) = folded_key ka (map finv cs2)).
        { destruct (folded_keys_one s alpha beta ka kb n cs2 Hn0 Hs Hk) as [_ ->]; [now rewrite G4|].
          apply (tssm_right s alpha beta n Hs _ (apr_open (agp_c pr r cs1 z1) cs2) cs2 (points_of (second_of L r cs1 z1) cs2));
            [now rewrite G4|now apply points_of_nodup, second_of_nodup|exact G7|].
          intros z Hz. apply points_of_in, second_of_in in Hz. specialize (Hnone _ Hz). unfold g16_relation in Hnone.
          destruct (tipa_relation _ _ _ _ _ _); [discriminate|exact Hnone]. }
        destruct (points_of (second_of L r cs1 z1) cs2) as [|z2 zs] eqn:Ep; [cbn in G7; lia|].
        assert (Hz : In (r, ((cs1, z1), (cs2, z2))) L) by (apply second_of_in, points_of_in; rewrite Ep; now left).
        destruct (Hi _ _ _ _ _ Hz) as [_ [_ [_ [_ [_ [_ [_ Hcv]]]]]]].
        destruct Hcv as [D [fuel [HD [Hr [Hc1 [_ [Hc2 [_ Hver]]]]]]]]. rewrite R1, R2 in Hver.
        unfold g16_convinces. cbn [picked_prover gpr_ip gpr_agg gpr_next_ab gpr_final_ab gpr_next_c gpr_final_c]. fold z1.
        exists D, fuel, (both_g s (apr_open (agp_ab pr r) cs1 z1)), (comb_g2 s (apr_open (agp_c pr r cs1 z1) cs2 z2)).
        repeat (split; [assumption|]). split; [congruence|]. split; [congruence|]. exact Hver.
      + pose proof (heavy_both_bound L Qs Ch Zs k d HL Hruns) as Hb.
        match goal with |- ?a < _ => set (lim := a) in * end.
        destruct (le_lt_dec (length (heavy_both L Qs Ch Zs k d)) lim) as [Hm|Hm]; [|exact Hm].
        apply (Nat.mul_le_mono_r _ _ (length Zs * length Zs)) in Hm. lia.
  Qed.
End C97Aggregate.
Print Assumptions C97_aggregate_knowledge.
(** ** Examples *)
(** The aggregate of [ex_pfs] by a prover that sends combinations of SRS elements (trapdoors 2 and 3). *)
Definition ex97_s : srs ZPair := mk_srs (P := ZPair) (zl [1; 2; 4]%Z) (zl [1; 3; 9]%Z) (zq 3) (zq 2).
Definition zmul (a b : ZP) : ZP := fmul (f := ZP) a b.
Definition zadd (a b : ZP) : ZP := fadd (f := ZP) a b.
Definition ex97_step_ab (r : ZP) : excom * excom :=
  ((r, zq 4, [r]), (zmul (zq 58) (finv (f := ZP) r), zq 59, [zq 66])).
Definition ex97_step_c (r : ZP) : excom * excom := ((zq 4, zq 0, [zq 4]), (zq 18, zq 0, [zmul (zq 2) r])).
Definition the_c (cs : list ZP) : ZP := match cs with c :: _ => c | [] => zq 0 end.
(** the key polynomials 1 + X^2 / (r c) and 1 + c X^2 and their quotients by X - z *)
Definition ex97_key (y : ZP) : comb ZPair := ([zq 1; zq 0; y], zq 0).
Definition ex97_quot (y z : ZP) : comb ZPair := ([zmul y z; y], zq 0).
Definition ex97_ab (r : ZP) : a_prover ZPair (excom * excom) ZM ZM (comb ZPair * comb ZPair) :=
  mk_a_prover (P := ZPair) (fun _ => ex97_step_ab r)
    (fun cs => (zadd (zq 85) (zmul (the_c cs) r), zadd (zq 1) (zmul (finv (f := ZP) (the_c cs)) (zq 59))))
    (fun cs => (ex97_key (finv (f := ZP) (zmul r (the_c cs))), ex97_key (the_c cs)))
    (fun cs z => (ex97_quot (finv (f := ZP) (zmul r (the_c cs))) z, ex97_quot (the_c cs) z)).
Definition ex97_c (r : ZP) : a_prover ZPair (excom * excom) ZM (fmod ZP) (comb ZPair) :=
  mk_a_prover (P := ZPair) (fun _ => ex97_step_c r)
    (fun cs => (zadd (zq 2) (zmul (the_c cs) (zq 4)), zadd (zq 1) (zmul (finv (f := ZP) (the_c cs)) r)))
    (fun cs => ex97_key (finv (f := ZP) (the_c cs))) (fun cs z => ex97_quot (finv (f := ZP) (the_c cs)) z).
Definition ex97_prover : ag_prover ZPair :=
  mk_ag_prover (P := ZPair) (fun r => zadd (zq 85) (zmul (zq 59) r)) (fun r => zadd (zq 2) (zmul (zq 4) r)) ex97_ab (fun r _ _ => ex97_c r).

Section Check97.
  Context (D : bytes -> bytes) (fuel : nat) (s : srs ZPair) (v : vsrs ZPair).
  Definition tipa_run_check (ca cb : ZP) (ct : list ZP) (r : ZP) (pr : a_prover ZPair (excom * excom) ZM ZM (comb ZPair * comb ZPair)) (c z : ZP) : bool :=
    let ck := both_g s (apr_keys pr [c]) in
    ok_fst (@feqb ZP) (gipa_challenge (K := ZP) (OA := mod_carrier ZM) (OB := mod_carrier ZM) (OT := identity_output ZM) D fuel 0 (f0 : ZP)
      (fst (apr_next pr [])) (snd (apr_next pr []))) c &&
    ok_is (@feqb ZP) (rand_challenge (K := ZP) D fuel 0 (fser (c : ZP) ++ mser (fst ck) ++ mser (snd ck))) z &&
    ok_is Bool.eqb (tipa_verify_with_srs_shift (afgho_g1 ZPair ex_env1 ex_rand) (afgho_g2 ZPair ex_env1 ex_rand) (identity (pGT ZPair)) (pairing_ip ZPair ex_env1)
      D fuel v (tt : unitmod ZP) (ca, cb, ct)
      (mk_tipa_proof (P := ZPair) (mk_gipa_proof (K := ZP) (MA := ZM) (MB := ZM) [apr_next pr []] (apr_final pr [c])) ck (both_g s (apr_open pr [c] z))) r) true.
  Definition tssm_run_check (ca : ZP) (ct : list ZP) (b : ZP) (pr : a_prover ZPair (excom * excom) ZM (fmod ZP) (comb ZPair)) (c z : ZP) : bool :=
    let ck := comb_g2 s (apr_keys pr [c]) in
    ok_fst (@feqb ZP) (gipa_challenge (K := ZP) (OA := mod_carrier ZM) (OB := mod_carrier (fmod ZP)) (OT := identity_output ZM) D fuel 0 (f0 : ZP)
      (fst (apr_next pr [])) (snd (apr_next pr []))) c &&
    ok_is (@feqb ZP) (rand_challenge (K := ZP) D fuel 0 (fser (c : ZP) ++ mser ck)) z &&
    ok_is Bool.eqb (tssm_verify (afgho_g1 ZPair ex_env1 ex_rand) (identity (pG1 ZPair)) (multiexp_ip (pG1 ZPair)) D fuel ex_env1 v (tt : unitmod ZP) (ca, ct) b
      (mk_tssm_proof (P := ZPair) (mk_gipa_proof (K := ZP) (MA := ZM) (MB := fmod ZP) [apr_next pr []] (apr_final pr [c])) ck (comb_g2 s (apr_open pr [c] z)))) true.
End Check97.
(** the checks are sound *)
Section Check97Ok.
  Context (D : bytes -> bytes) (fuel : nat) (HD : digest16 D) (s : srs ZPair) (v : vsrs ZPair).
  Lemma first_round {OB : carrier ZP} (st : com3 (mod_carrier ZM) OB (identity_output ZM) * com3 (mod_carrier ZM) OB (identity_output ZM)) (c : ZP) :
    ok_fst (@feqb ZP) (gipa_challenge (K := ZP) D fuel 0 (f0 : ZP) (fst st) (snd st)) c = true ->
    round_challenges (K := ZP) D fuel (f0 : ZP) [st] [c].
  Proof using HD.
    intros H. apply ok_fst_true in H as [ci H]; [|intros a b; apply feqb_spec].
    apply round_challenges_chain; [exact HD|]. econstructor; [exact H|apply chain_nil].
  Qed.
  Lemma first_draw payload (z : ZP) : ok_is (@feqb ZP) (rand_challenge (K := ZP) D fuel 0 payload) z = true -> drawn (K := ZP) D fuel payload z.
  Proof using. clear HD. intros H. apply ok_is_true in H; [|intros a b; apply feqb_spec]. now apply drawn_iff. Qed.
  Lemma tipa_run_check_ok ca cb ct r pr c z : tipa_run_check D fuel s v ca cb ct r pr c z = true ->
    tipa_alg_convinces (P := ZPair) (afgho_g1 ZPair ex_env1 ex_rand) (afgho_g2 ZPair ex_env1 ex_rand) (identity (pGT ZPair)) (pairing_ip ZPair ex_env1)
      s v (tt : unitmod ZP) (ca, cb, ct) r pr [c] z.
  Proof using HD.
    intros H. unfold tipa_run_check in H. cbv zeta in H. apply andb_true_iff in H as [H H3]. apply andb_true_iff in H as [H1 H2].
    exists D, fuel. split; [exact HD|]. split; [exact (first_round _ _ H1)|]. split; [exact (first_draw _ _ H2)|].
    apply ok_is_true in H3; [exact H3|apply eqb_prop].
  Qed.
  Lemma tssm_run_check_ok ca ct b pr c z : tssm_run_check D fuel s v ca ct b pr c z = true ->
    tssm_alg_convinces (P := ZPair) (afgho_g1 ZPair ex_env1 ex_rand) (identity (pG1 ZPair)) (multiexp_ip (pG1 ZPair)) ex_env1
      s v (tt : unitmod ZP) (ca, ct) b pr [c] z.
  Proof using HD.
    intros H. unfold tssm_run_check in H. cbv zeta in H. apply andb_true_iff in H as [H H3]. apply andb_true_iff in H as [H1 H2].
    exists D, fuel. split; [exact HD|]. split; [exact (first_round _ _ H1)|]. split; [exact (first_draw _ _ H2)|].
    apply ok_is_true in H3; [exact H3|apply eqb_prop].
  Qed.
End Check97Ok.

Lemma list_prod_nodup {A B} (l : list A) (l' : list B) : NoDup l -> NoDup l' -> NoDup (list_prod l l').
Proof.
  intros H H'. induction H as [|x l Hx H IH]; cbn [list_prod]; [constructor|]. apply nodup_app; [|exact IH|].
  - apply FinFun.Injective_map_NoDup; [|exact H']. intros a b [= ->]. reflexivity.
  - intros [a b] Hi Hj. apply in_map_iff in Hi as [y [[= <- _] _]]. apply in_prod_iff in Hj as [Hj _]. contradiction.
Qed.
Lemma nodup_singles {A} (l : list A) : NoDup l -> NoDup (map (fun x => [x]) l).
Proof. intros H. apply FinFun.Injective_map_NoDup; [|exact H]. intros a b [= ->]. reflexivity. Qed.

(** six challenges, five points, one round: all 30 runs convince, more than 3 * 5 + 6 * 2 *)
Definition ex97_vs : list N := [1; 2; 3; 4; 5; 6]%N.
Definition ex97_zs : list N := [11; 12; 13; 14; 15]%N.
Definition ex97_Ch : list ZP := map chal ex97_vs.
Definition ex97_Zs : list ZP := map (fun z => f_ofN z) ex97_zs.
Definition ex97_L : list (list ZP * ZP) := list_prod (map (fun c => [c]) ex97_Ch) ex97_Zs.
Lemma ex97_often (cv : list ZP -> ZP -> Prop) : (forall v z, In v ex97_vs -> In z ex97_zs -> cv [chal v] (f_ofN z)) ->
  often_points (P := ZPair) ex97_Ch ex97_Zs 1 2 ex97_L cv.
Proof.
  intros H. assert (HC : NoDup ex97_Ch) by (apply (nodupb_ok feqb); [exact feqb_refl|vm_compute; reflexivity]).
  assert (HZ : NoDup ex97_Zs) by (apply (nodupb_ok feqb); [exact feqb_refl|vm_compute; reflexivity]).
  split; [exact HC|]. split; [exact HZ|]. split; [apply list_prod_nodup; [now apply nodup_singles|exact HZ]|]. split.
  - intros cs z Hi. apply in_prod_iff in Hi as [Hc Hz]. apply in_map_iff in Hc as [c [<- Hc]]. split; [reflexivity|].
    split; [intros x [<-|[]]; exact Hc|]. split; [exact Hz|]. apply in_map_iff in Hc as [v [<- Hv]]. apply in_map_iff in Hz as [z' [<- Hz]]. auto.
  - unfold ex97_L. rewrite prod_length, !map_length. unfold ex97_Ch, ex97_Zs. rewrite !map_length. cbn [length ex97_vs ex97_zs]. apply Nat.ltb_lt. vm_compute. reflexivity.
Qed.
Example C97_example_srs : ex_srs 2 = Ok ex97_s /\ get_verifier_key ex97_s = Ok ex96_vsrs /\ get_commitment_keys ex97_s = (zl [1; 9]%Z, zl [1; 4]%Z).
Proof. split; [reflexivity|]. split; reflexivity. Qed.
Notation ex97_tipa_check := (fun v z : N =>
  tipa_run_check (dig v z) 1 ex97_s ex96_vsrs (zq 94) (zq 35) [agp_ip ex97_prover (zq 4)] (zq 4) (ex97_ab (zq 4)) (chal v) (f_ofN z)).
Notation ex97_tssm_check := (fun v z : N =>
  tssm_run_check (dig v z) 1 ex97_s ex96_vsrs (zq 38) [agp_agg ex97_prover (zq 4)] (zq 4) (ex97_c (zq 4)) (chal v) (f_ofN z)).
Lemma all_pairs {A B} (f : A -> B -> bool) (l : list A) (l' : list B) : forallb (fun a => forallb (f a) l') l = true ->
  forall a b, In a l -> In b l' -> f a b = true.
Proof. intros H a b Ha Hb. rewrite forallb_forall in H. specialize (H a Ha). rewrite forallb_forall in H. now apply H. Qed.
Example C97_example_often : often_points (P := ZPair) ex97_Ch ex97_Zs 1 2 ex97_L
  (tipa_alg_convinces (P := ZPair) (afgho_g1 ZPair ex_env1 ex_rand) (afgho_g2 ZPair ex_env1 ex_rand) (identity (pGT ZPair)) (pairing_ip ZPair ex_env1)
    ex97_s ex96_vsrs (tt : unitmod ZP) ((zq 94, zq 35, [agp_ip ex97_prover (zq 4)]) : excom) (zq 4) (ex97_ab (zq 4))).
Proof.
  apply ex97_often. intros v z Hv Hz.
  assert (Hall : forallb (fun a => forallb (ex97_tipa_check a) ex97_zs) ex97_vs = true) by (vm_compute; reflexivity).
  pose proof (all_pairs ex97_tipa_check _ _ Hall v z Hv Hz) as H. cbv beta in H. exact (tipa_run_check_ok _ _ (dig16 v z) _ _ _ _ _ _ _ _ _ H).
Qed.
Example C97_example_often_tssm : often_points (P := ZPair) ex97_Ch ex97_Zs 1 2 ex97_L
  (tssm_alg_convinces (P := ZPair) (afgho_g1 ZPair ex_env1 ex_rand) (identity (pG1 ZPair)) (multiexp_ip (pG1 ZPair)) ex_env1
    ex97_s ex96_vsrs (tt : unitmod ZP) ((zq 38 : ZM), [agp_agg ex97_prover (zq 4)]) (zq 4) (ex97_c (zq 4))).
Proof.
  apply ex97_often. intros v z Hv Hz.
  assert (Hall : forallb (fun a => forallb (ex97_tssm_check a) ex97_zs) ex97_vs = true) by (vm_compute; reflexivity).
  pose proof (all_pairs ex97_tssm_check _ _ Hall v z Hv Hz) as H. cbv beta in H. exact (tssm_run_check_ok _ _ (dig16 v z) _ _ _ _ _ _ _ _ H).
Qed.
(** no relation, and the vectors are found: (85, 1 * 4) and (1, 59), then (2, 4) *)
Example C97_example_extracted :
  match first_some (fun e => tipa_relation (P := ZPair) 2 (zq 4) (apr_keys (ex97_ab (zq 4)) (fst e)) (apr_open (ex97_ab (zq 4)) (fst e) (snd e)) (fst e) (snd e)) ex97_L with
  | Some _ => false
  | None =>
    match option_map extract (rewind (apr_next (ex97_ab (zq 4))) (apr_final (ex97_ab (zq 4))) ex97_Ch 1 (heavy ex97_L ex97_Ch 1 2)) with
    | Some (Witness [a1; a2] [b1; b2]) => zp_eqb a1 (zq 85) && zp_eqb a2 (zq 4) && zp_eqb b1 (zq 1) && zp_eqb b2 (zq 59)
    | _ => false
    end
  end = true /\
  match first_some (fun e => tssm_relation (P := ZPair) 2 (apr_keys (ex97_c (zq 4)) (fst e)) (apr_open (ex97_c (zq 4)) (fst e) (snd e)) (fst e) (snd e)) ex97_L with
  | Some _ => false
  | None =>
    match option_map extract1 (rewind (apr_next (ex97_c (zq 4))) (apr_final (ex97_c (zq 4))) ex97_Ch 1 (heavy ex97_L ex97_Ch 1 2)) with
    | Some (inl [a1; a2]) => zp_eqb a1 (zq 2) && zp_eqb a2 (zq 4)
    | _ => false
    end
  end = true.
Proof. split; vm_compute; reflexivity. Qed.

(** A prover that knows beta = 3 and sends as first final key the constant 1 + 9/(4c), which it opens with a constant: its runs convince,
    and from any of them comes a polynomial with the root 3. *)
Definition ex97_false : a_prover ZPair (excom * excom) ZM ZM (comb ZPair * comb ZPair) :=
  mk_a_prover (P := ZPair) (apr_next (ex97_ab (zq 4))) (apr_final (ex97_ab (zq 4)))
    (fun cs => (([zadd (zq 1) (zmul (finv (f := ZP) (zmul (zq 4) (the_c cs))) (zq 9))], zq 0), ex97_key (the_c cs)))
    (fun cs z => (([zmul (finv (f := ZP) (zmul (zq 4) (the_c cs))) (zadd (zq 3) z)], zq 0), ex97_quot (the_c cs) z)).
Notation ex97_false_check := (fun v z : N =>
  tipa_run_check (dig v z) 1 ex97_s ex96_vsrs (zq 94) (zq 35) [agp_ip ex97_prover (zq 4)] (zq 4) ex97_false (chal v) (f_ofN z)).
Example C97_example_often_false : often_points (P := ZPair) ex97_Ch ex97_Zs 1 2 ex97_L
  (tipa_alg_convinces (P := ZPair) (afgho_g1 ZPair ex_env1 ex_rand) (afgho_g2 ZPair ex_env1 ex_rand) (identity (pGT ZPair)) (pairing_ip ZPair ex_env1)
    ex97_s ex96_vsrs (tt : unitmod ZP) ((zq 94, zq 35, [agp_ip ex97_prover (zq 4)]) : excom) (zq 4) ex97_false).
Proof.
  apply ex97_often. intros v z Hv Hz.
  assert (Hall : forallb (fun a => forallb (ex97_false_check a) ex97_zs) ex97_vs = true) by (vm_compute; reflexivity).
  pose proof (all_pairs ex97_false_check _ _ Hall v z Hv Hz) as H. cbv beta in H. exact (tipa_run_check_ok _ _ (dig16 v z) _ _ _ _ _ _ _ _ _ H).
Qed.
Example C97_example_relation :
  match first_some (fun e => tipa_relation (P := ZPair) 2 (zq 4) (apr_keys ex97_false (fst e)) (apr_open ex97_false (fst e) (snd e)) (fst e) (snd e)) ex97_L with
  | Some (InBeta u w) => negb (forallb (zp_eqb (zq 0)) (u ++ w)) && zp_eqb (poly_at (K := ZP) u (zq 3)) (zq 0) && forallb (zp_eqb (zq 0)) w
  | _ => false
  end = true.
Proof. vm_compute. reflexivity. Qed.

(** The aggregate: five first challenges, twelve round challenges, seven points; all 5 * 12^2 * 7^2 = 35280 runs convince, more than
    (12^2 + 5 * 6 * 12) * 7^2 + 5 * 12^2 * 2 * 7 = 34776. *)
Lemma bytes_same_refl b : bytes_same b b = true.
Proof. induction b as [|x b IH]; [reflexivity|]. cbn [bytes_same]. now rewrite N.eqb_refl, IH. Qed.
Lemma gipa_challenge_first {K : field} {OA OB OT : carrier K} D D' fuel (prev c ci : K) (x y : com3 OA OB OT) :
  D' (gipa_hash_input 0 prev x y) = D (gipa_hash_input 0 prev x y) -> gipa_challenge D 1 0 prev x y = Ok (c, ci) ->
  gipa_challenge D' (S fuel) 0 prev x y = Ok (c, ci).
Proof.
  intros H. cbn [gipa_challenge]. rewrite H. destruct (slice_to _ _) as [f| | |]; cbn [rbind]; try discriminate.
  destruct (finverse _); [auto|discriminate].
Qed.
Lemma rand_challenge_first {K : field} D D' fuel payload (z : K) :
  D' (usize_be 0 ++ payload) = D (usize_be 0 ++ payload) -> rand_challenge D 1 0 payload = Ok z -> rand_challenge D' (S fuel) 0 payload = Ok z.
Proof. intros H. cbn [rand_challenge]. rewrite H. destruct (f_rand _); [auto|discriminate]. Qed.

Section Two.
  Context (s : srs ZPair) (alpha beta : ZP) (ca cb cc : ZP) (pr : ag_prover ZPair) (vk : g16_vk ZPair) (inputs : list (list ZP)) (r : ZP).
  Context (D0 D1 D2 : bytes -> bytes) (H0 : digest16 D0) (H1 : digest16 D1) (H2 : digest16 D2).
  Context (c1 z1 c2 z2 : ZP).
  Notation pab := (agp_ab pr r). Notation pc := (agp_c pr r [c1] z1).
  Definition in_r : bytes := usize_be 0 ++ g16_payload ZPair ca cb cc.
  Definition in_c1 : bytes := gipa_hash_input (K := ZP) (OA := mod_carrier ZM) (OB := mod_carrier ZM) (OT := identity_output ZM) 0 (f0 : ZP) (fst (apr_next pab [])) (snd (apr_next pab [])).
  Definition in_z1 : bytes := let ck := both_g s (apr_keys pab [c1]) in usize_be 0 ++ fser (c1 : ZP) ++ mser (fst ck) ++ mser (snd ck).
  Definition in_c2 : bytes := gipa_hash_input (K := ZP) (OA := mod_carrier ZM) (OB := mod_carrier (fmod ZP)) (OT := identity_output ZM) 0 (f0 : ZP) (fst (apr_next pc [])) (snd (apr_next pc [])).
  Definition in_z2 : bytes := usize_be 0 ++ fser (c2 : ZP) ++ mser (comb_g2 s (apr_keys pc [c2])).
  Definition distinct_inputs : bool :=
    negb (bytes_same in_c2 in_c1) && negb (bytes_same in_c2 in_z1) && negb (bytes_same in_z2 in_c1) && negb (bytes_same in_z2 in_z1) &&
    negb (bytes_same in_r in_c1) && negb (bytes_same in_r in_z1) && negb (bytes_same in_r in_c2) && negb (bytes_same in_r in_z2).
  Definition D97 (b : bytes) : bytes :=
    if bytes_same b in_c1 || bytes_same b in_z1 then D1 b else if bytes_same b in_c2 || bytes_same b in_z2 then D2 b else D0 b.

  Lemma two_check_ok :
    tipa_run_check D1 1 s (key_of (P := ZPair) alpha beta) ca cb [agp_ip pr r] r pab c1 z1 = true ->
    tssm_run_check D2 1 s (key_of (P := ZPair) alpha beta) cc [agp_agg pr r] r pc c2 z2 = true ->
    ok_is (@feqb ZP) (rand_challenge (K := ZP) D0 1 0 (g16_payload ZPair ca cb cc)) r = true ->
    ok_is Bool.eqb (g16_ppe ZPair ex_env1 vk inputs r (agp_ip pr r) (agp_agg pr r)) true = true ->
    distinct_inputs = true ->
    g16_alg_convinces (P := ZPair) ex_env1 ex_rand ex_rand s (key_of (P := ZPair) alpha beta) vk inputs ca cb cc pr r [c1] z1 [c2] z2.
  Proof using H0 H1 H2.
    intros Hab Hc Hr Hp Hd. unfold distinct_inputs in Hd. rewrite !andb_true_iff, !negb_true_iff in Hd.
    destruct Hd as [[[[[[[E1 E2] E3] E4] E5] E6] E7] E8].
    assert (HD : digest16 D97) by (intros b; unfold D97; destruct (bytes_same b in_c1 || bytes_same b in_z1); [apply H1|destruct (bytes_same b in_c2 || bytes_same b in_z2); [apply H2|apply H0]]).
    assert (F1 : D97 in_c1 = D1 in_c1) by (unfold D97; now rewrite bytes_same_refl).
    assert (F2 : D97 in_z1 = D1 in_z1) by (unfold D97; now rewrite bytes_same_refl, orb_true_r).
    assert (F3 : D97 in_c2 = D2 in_c2) by (unfold D97; now rewrite bytes_same_refl, E1, E2).
    assert (F4 : D97 in_z2 = D2 in_z2) by (unfold D97; now rewrite bytes_same_refl, E3, E4, orb_true_r).
    assert (F5 : D97 in_r = D0 in_r) by (unfold D97; now rewrite E5, E6, E7, E8).
    assert (Hf : forall a b : ZP, feqb a b = true -> a = b) by (intros a b; apply feqb_spec).
    unfold tipa_run_check in Hab. cbv zeta in Hab. apply andb_true_iff in Hab as [Hab A3]. apply andb_true_iff in Hab as [A1 A2].
    unfold tssm_run_check in Hc. cbv zeta in Hc. apply andb_true_iff in Hc as [Hc B3]. apply andb_true_iff in Hc as [B1 B2].
    assert (A1' := first_round D1 1 H1 _ _ A1). assert (A2' := first_draw D1 1 _ _ A2).
    assert (B1' := first_round D2 1 H2 _ _ B1). assert (B2' := first_draw D2 1 _ _ B2).
    apply (ok_fst_true _ _ _ Hf) in A1 as [i1 A1]. apply (ok_fst_true _ _ _ Hf) in B1 as [i2 B1].
    apply (ok_is_true _ _ _ Hf) in A2, B2, Hr. apply ok_is_true in A3, B3, Hp; try apply eqb_prop.
    apply (gipa_challenge_first D1 D97 8) in A1; [|exact F1]. apply (gipa_challenge_first D2 D97 8) in B1; [|exact F3].
    apply (rand_challenge_first D1 D97 8) in A2; [|exact F2]. apply (rand_challenge_first D2 D97 8) in B2; [|exact F4].
    apply (rand_challenge_first D0 D97 8) in Hr; [|exact F5].
    assert (A1n : round_challenges (K := ZP) D97 9 (f0 : ZP) [apr_next pab []] [c1])
      by (apply round_challenges_chain; [exact HD|]; econstructor; [exact A1|apply chain_nil]).
    assert (B1n : round_challenges (K := ZP) D97 9 (f0 : ZP) [apr_next pc []] [c2])
      by (apply round_challenges_chain; [exact HD|]; econstructor; [exact B1|apply chain_nil]).
    assert (A2n := proj2 (drawn_iff _ _ _ _) A2). assert (B2n := proj2 (drawn_iff _ _ _ _) B2).
    exists D97, 9. split; [exact HD|]. split; [apply drawn_iff; exact Hr|]. split; [exact A1n|]. split; [exact A2n|]. split; [exact B1n|]. split; [exact B2n|].
    unfold g16_verify. cbn [ag_com_a ag_com_b ag_com_c ag_ip_ab ag_agg_c ag_tipa_ab ag_tipa_c]. 
    match goal with |- rbind ?x _ = _ => replace x with (Ok r : res ZP) by (symmetry; exact Hr) end. cbn [rbind].
    match goal with |- rbind ?x _ = _ => replace x with (Ok true : res bool) end.
    - cbn [rbind]. match goal with |- rbind ?x _ = _ => replace x with (Ok true : res bool) end.
      + cbn [rbind]. rewrite Hp. reflexivity.
      + symmetry. apply (C54_tssm_accepts_iff _ _ _ HD). apply (C54_tssm_accepts_iff _ _ _ H2) in B3 as [cs [z [w [G1 [G2 [G3 G4]]]]]].
        cbn [ts_gipa gp_steps ts_final_ck ts_final_ck_proof rounds_sent rev app] in *.
        assert (cs = [c2]) as -> by exact (round_challenges_fun _ _ _ _ _ _ H2 B1' G1). assert (z = z2) as -> by exact (drawn_fun _ _ _ _ _ B2' G3).
        exists [c2], z2, w. auto.
    - symmetry. apply (tipa_verify_api _ _ HD). apply (tipa_verify_api _ _ H1) in A3 as [cs [z [w [G1 [G2 [G3 [G4 G5]]]]]]].
      cbn [tp_gipa gp_steps tp_final_ck tp_final_ck_proof rounds_sent rev app] in *.
      assert (cs = [c1]) as -> by exact (round_challenges_fun _ _ _ _ _ _ H1 A1' G1). assert (z = z1) as -> by exact (drawn_fun _ _ _ _ _ A2' G4).
      exists [c1], z1, w. auto.
  Qed.
End Two.

Definition ex97_ws : list N := [2; 3; 4; 5; 6]%N.
Definition ex97_vs2 : list N := [1; 2; 3; 4; 5; 6; 7; 8; 9; 10; 11; 12]%N.
Definition ex97_zs2 : list N := [11; 12; 13; 14; 15; 16; 17]%N.
Definition ex97_Qs : list ZP := map (fun w => f_ofN w) ex97_ws.
Definition ex97_Ch2 : list ZP := map chal ex97_vs2.
Definition ex97_Zs2 : list ZP := map (fun z => f_ofN z) ex97_zs2.
Definition ex97_L2 : list (ZP * ((list ZP * ZP) * (list ZP * ZP))) :=
  let half := list_prod (map (fun c => [c]) ex97_Ch2) ex97_Zs2 in list_prod ex97_Qs (list_prod half half).
Notation ex97_key_of := (key_of (P := ZPair) (zq 2) (zq 3)).
Example C97_example_key : get_verifier_key ex97_s = Ok ex97_key_of.
Proof. reflexivity. Qed.
Notation ex97_ab_check := (fun w v z : N =>
  tipa_run_check (dig v z) 1 ex97_s ex97_key_of (zq 94) (zq 35) [agp_ip ex97_prover (f_ofN w)] (f_ofN w) (ex97_ab (f_ofN w)) (chal v) (f_ofN z)).
Notation ex97_c_check := (fun w v z : N =>
  tssm_run_check (dig v z) 1 ex97_s ex97_key_of (zq 38) [agp_agg ex97_prover (f_ofN w)] (f_ofN w) (ex97_c (f_ofN w)) (chal v) (f_ofN z)).
Notation ex97_r_check := (fun w : N => ok_is (@feqb ZP) (rand_challenge (K := ZP) (dig 1 w) 1 0 (g16_payload ZPair (zq 94) (zq 35) (zq 38))) (f_ofN w)).
Notation ex97_ppe_check := (fun w : N => ok_is Bool.eqb (g16_ppe ZPair ex_env1 ex_vk ex_inputs (f_ofN w) (agp_ip ex97_prover (f_ofN w)) (agp_agg ex97_prover (f_ofN w))) true).
Notation ex97_inputs_check := (fun w v1 v2 : N => distinct_inputs ex97_s (zq 94) (zq 35) (zq 38) ex97_prover (f_ofN w) (chal v1) (zq 0) (chal v2)).
Lemma all_triples {A B C} (f : A -> B -> C -> bool) (l : list A) (l' : list B) (l'' : list C) : forallb (fun a => forallb (fun b => forallb (f a b) l'') l') l = true ->
  forall a b c, In a l -> In b l' -> In c l'' -> f a b c = true.
Proof. intros H a b c Ha Hb Hc. rewrite forallb_forall in H. specialize (H a Ha). exact (all_pairs _ _ _ H b c Hb Hc). Qed.
Lemma ex97_runs w v1 z1 v2 z2 : In w ex97_ws -> In v1 ex97_vs2 -> In z1 ex97_zs2 -> In v2 ex97_vs2 -> In z2 ex97_zs2 ->
  g16_alg_convinces (P := ZPair) ex_env1 ex_rand ex_rand ex97_s ex97_key_of ex_vk ex_inputs (zq 94) (zq 35) (zq 38) ex97_prover
    (f_ofN w) [chal v1] (f_ofN z1) [chal v2] (f_ofN z2).
Proof.
  intros Hw Hv1 Hz1 Hv2 Hz2.
  assert (A1 : forallb (fun w => forallb (fun v => forallb (ex97_ab_check w v) ex97_zs2) ex97_vs2) ex97_ws = true) by (vm_compute; reflexivity).
  assert (A2 : forallb (fun w => forallb (fun v => forallb (ex97_c_check w v) ex97_zs2) ex97_vs2) ex97_ws = true) by (vm_compute; reflexivity).
  assert (A3 : forallb (fun w => forallb (fun v => forallb (ex97_inputs_check w v) ex97_vs2) ex97_vs2) ex97_ws = true) by (vm_compute; reflexivity).
  assert (A4 : forallb ex97_r_check ex97_ws = true) by (vm_compute; reflexivity).
  assert (A5 : forallb ex97_ppe_check ex97_ws = true) by (vm_compute; reflexivity).
  pose proof (all_triples ex97_ab_check _ _ _ A1 w v1 z1 Hw Hv1 Hz1) as B1. pose proof (all_triples ex97_c_check _ _ _ A2 w v2 z2 Hw Hv2 Hz2) as B2.
  pose proof (all_triples ex97_inputs_check _ _ _ A3 w v1 v2 Hw Hv1 Hv2) as B3. rewrite forallb_forall in A4, A5.
  pose proof (A4 w Hw) as B4. pose proof (A5 w Hw) as B5. cbv beta in B1, B2, B3, B4, B5.
  exact (two_check_ok ex97_s (zq 2) (zq 3) (zq 94) (zq 35) (zq 38) ex97_prover ex_vk ex_inputs (f_ofN w) (dig 1 w) (dig v1 z1) (dig v2 z2)
    (dig16 _ _) (dig16 _ _) (dig16 _ _) (chal v1) (f_ofN z1) (chal v2) (f_ofN z2) B1 B2 B4 B5 B3).
Qed.
Example C97_example_often_runs : often_runs ex97_Qs ex97_Ch2 ex97_Zs2 1 2 ex97_L2
  (g16_alg_convinces (P := ZPair) ex_env1 ex_rand ex_rand ex97_s ex97_key_of ex_vk ex_inputs (zq 94) (zq 35) (zq 38) ex97_prover).
Proof.
  assert (HQ : NoDup ex97_Qs) by (apply (nodupb_ok feqb); [exact feqb_refl|vm_compute; reflexivity]).
  assert (HC : NoDup ex97_Ch2) by (apply (nodupb_ok feqb); [exact feqb_refl|vm_compute; reflexivity]).
  assert (HZ : NoDup ex97_Zs2) by (apply (nodupb_ok feqb); [exact feqb_refl|vm_compute; reflexivity]).
  split; [exact HQ|]. split; [exact HC|]. split; [exact HZ|]. split.
  { apply list_prod_nodup; [exact HQ|]. apply list_prod_nodup; (apply list_prod_nodup; [now apply nodup_singles|exact HZ]). }
  split.
  - intros q cs1 z1 cs2 z2 Hi. apply in_prod_iff in Hi as [Hq Hi]. apply in_prod_iff in Hi as [H1 H2]. apply in_prod_iff in H1 as [Hc1 Hz1]. apply in_prod_iff in H2 as [Hc2 Hz2].
    apply in_map_iff in Hc1 as [c1 [<- Hc1]]. apply in_map_iff in Hc2 as [c2 [<- Hc2]].
    split; [exact Hq|]. split; [reflexivity|]. split; [intros x [<-|[]]; exact Hc1|]. split; [exact Hz1|].
    split; [reflexivity|]. split; [intros x [<-|[]]; exact Hc2|]. split; [exact Hz2|].
    apply in_map_iff in Hq as [w [<- Hw]]. apply in_map_iff in Hc1 as [v1 [<- Hv1]]. apply in_map_iff in Hc2 as [v2 [<- Hv2]].
    apply in_map_iff in Hz1 as [y1 [<- Hy1]]. apply in_map_iff in Hz2 as [y2 [<- Hy2]]. now apply ex97_runs.
  - unfold ex97_L2. rewrite !prod_length, !map_length. unfold ex97_Qs, ex97_Ch2, ex97_Zs2. rewrite !map_length. cbn [length ex97_ws ex97_vs2 ex97_zs2].
    apply Nat.ltb_lt. vm_compute. reflexivity.
Qed.

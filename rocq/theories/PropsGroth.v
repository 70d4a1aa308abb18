(** Properties C41 - C44, C52: aggregation of Groth16 proofs. *)
Require Import List Arith NArith ZArith Lia Bool Field.
Import ListNotations.
Require Import Verif.Outcome Verif.Algebra Verif.Zp Verif.Rust Verif.InnerProducts Verif.Commitments
  Verif.Gipa Verif.Poly Verif.Tipa Verif.Ssm Verif.Groth16 Verif.Spec Verif.ListFacts Verif.RustFacts
  Verif.InnerProductFacts Verif.CommitFacts Verif.GipaFacts Verif.GipaComplete Verif.GipaTop Verif.SerFacts
  Verif.PolyFacts Verif.KeyFacts Verif.TipaFacts Verif.SsmFacts Verif.RootFacts Verif.VerifyFacts Verif.Groth16Facts
  Verif.PropsBase Verif.PropsGipa Verif.PropsTipa Verif.PropsSsm.

(** The Groth16 verification equation e(A, B) = e(alpha, beta) + e(abc_0 + sum_j x_j abc_{j+1}, gamma) + e(C, delta). *)
Definition g16_valid {P : pairing} (vk : g16_vk P) (row : list (pK P)) (pf : g16_proof P) : Prop :=
  pr_e P (pf_a pf) (pf_b pf) =
  pr_e P (vk_alpha_g1 vk) (vk_beta_g2 vk) +m pr_e P (input_comb vk row) (vk_gamma_g2 vk)
  +m pr_e P (pf_c pf) (vk_delta_g2 vk).

(** Rows that fit the verifying key. *)
Definition rows_fit {P : pairing} (vk : g16_vk P) (inputs : list (list (pK P))) : Prop :=
  inputs <> [] /\ Forall (fun row => length row + 1 = length (vk_gamma_abc_g1 vk)) inputs.

(** The random linear combinations sum_i r^i e(A_i, B_i) and sum_i r^i C_i. *)
Definition comb_ab {P : pairing} (pfs : list (g16_proof P)) (r : pK P) : pGT P :=
  big (length pfs) (fun i => fpow r i *m pr_e P (at_ (map pf_a pfs) i) (at_ (map pf_b pfs) i)).
Definition comb_c {P : pairing} (pfs : list (g16_proof P)) (r : pK P) : pG1 P :=
  big (length pfs) (fun i => fpow r i *m at_ (map pf_c pfs) i).

Lemma Forall2_len {A B} {Q : A -> B -> Prop} {l m} : Forall2 Q l m -> length l = length m.
Proof. induction 1; cbn; congruence. Qed.
Lemma Forall2_two {A B} {Q : A -> B -> Prop} {l m} d : Forall2 Q l m -> 2 <= length m ->
  exists x y rest, l = x :: y :: rest /\ Q x (nth 0 m d) /\ Q y (nth 1 m d).
Proof.
  intros H Hl. destruct H as [|x b l m Hx H]; [cbn in Hl; lia|]. destruct H as [|y b' l m Hy H]; [cbn in Hl; lia|].
  exists x, y, l. auto.
Qed.

Section Groth.
  Context {R : Type} {P : pairing}.
  Notation K := (pK P).
  Add Field KfGroth : (f_theory (pK P)).
  Implicit Types (vk : g16_vk P) (inputs : list (list (pK P))) (pfs : list (g16_proof P)).

  Lemma rows_fit_ppe E vk inputs (r : K) ip agg_c : r <> f1 -> rows_fit vk inputs ->
    g16_ppe P E vk inputs r ip agg_c = Ok (meqb ip (ppe_rhs vk inputs r agg_c)).
  Proof.
    intros Hr [Hne HF]. apply ppe_spec; auto.
    - rewrite Forall_forall in HF. apply HF. apply nth_In. destruct inputs; [congruence|cbn; lia].
    - eapply Forall_impl; [|exact HF]. cbn. intros. lia.
  Qed.

  (** the defect of proof i *)
  Definition defect vk (row : list K) (pf : g16_proof P) : pGT P :=
    pr_e P (pf_a pf) (pf_b pf) -m
    (pr_e P (vk_alpha_g1 vk) (vk_beta_g2 vk) +m pr_e P (input_comb vk row) (vk_gamma_g2 vk)
     +m pr_e P (pf_c pf) (vk_delta_g2 vk)).

  Lemma defect_valid vk row pf : defect vk row pf = m0 <-> g16_valid vk row pf.
  Proof. unfold defect, g16_valid. apply msub_eq0. Qed.

  Definition pf0 : g16_proof P := mk_g16_proof m0 m0 m0.

  Lemma ppe_defect vk inputs pfs (r : K) : length inputs = length pfs ->
    comb_ab pfs r -m ppe_rhs vk inputs r (comb_c pfs r) =
    mev (map (fun i => defect vk (nth i inputs []) (nth i pfs pf0)) (seq 0 (length pfs))) r.
  Proof.
    intros Hl. rewrite mev_big, map_length, seq_length. unfold ppe_rhs, comb_ab, comb_c. rewrite Hl.
    rewrite <- big_e_l. rewrite <- big_add.
    assert (Hs : forall n (F G : nat -> pGT P), big n F -m big n G = big n (fun i => F i -m G i)).
    { intros n F G. induction n; cbn [big]; [module_norm; ring|]. rewrite <- IHn.
      generalize (big n F) (big n G) (F n) (G n). intros. module_norm; ring. }
    rewrite Hs. apply big_ext. intros i Hi.
    rewrite (at_map_seq (fun i => defect vk (nth i inputs []) (nth i pfs pf0))) by auto.
    assert (Ha : at_ (map pf_a pfs) i = pf_a (nth i pfs pf0)) by (unfold at_; exact (map_nth pf_a pfs pf0 i)).
    assert (Hb : at_ (map pf_b pfs) i = pf_b (nth i pfs pf0)) by (unfold at_; exact (map_nth pf_b pfs pf0 i)).
    assert (Hc : at_ (map pf_c pfs) i = pf_c (nth i pfs pf0)) by (unfold at_; exact (map_nth pf_c pfs pf0 i)).
    rewrite Ha, Hb, Hc. unfold defect. rewrite e_scale_l.
    generalize (pr_e P (pf_a (nth i pfs pf0)) (pf_b (nth i pfs pf0))) (pr_e P (vk_alpha_g1 vk) (vk_beta_g2 vk))
      (pr_e P (input_comb vk (nth i inputs [])) (vk_gamma_g2 vk)) (pr_e P (pf_c (nth i pfs pf0)) (vk_delta_g2 vk)).
    intros. module_norm; ring.
  Qed.

  Lemma ppe_valid E vk inputs pfs (r : K) : r <> f1 -> rows_fit vk inputs -> Forall2 (g16_valid vk) inputs pfs ->
    g16_ppe P E vk inputs r (comb_ab pfs r) (comb_c pfs r) = Ok true.
  Proof.
    intros Hr Hfit HV. assert (Hl : length inputs = length pfs) by (clear - HV; induction HV; cbn; congruence).
    rewrite rows_fit_ppe by auto. f_equal. apply meqb_spec, msub_eq0. rewrite ppe_defect by auto.
    rewrite mev_big, map_length, seq_length. rewrite <- (big_0 (length pfs)). apply big_ext. intros i Hi.
    rewrite (at_map_seq (fun i => defect vk (nth i inputs []) (nth i pfs pf0))) by auto.
    rewrite (proj2 (defect_valid _ _ _)); [apply mscale_0_r|].
    assert (Hn : forall i, i < length pfs -> g16_valid vk (nth i inputs []) (nth i pfs pf0)); [|auto].
    clear - HV. induction HV; cbn [length]; intros [|i] Hi; cbn [nth]; auto; try lia. apply IHHV. lia.
  Qed.

  (** ** C43 *)
  Theorem C43_few_challenges E vk inputs pfs (rs : list K) :
    rows_fit vk inputs -> length inputs = length pfs ->
    (exists i, i < length pfs /\ ~ g16_valid vk (nth i inputs []) (nth i pfs pf0)) ->
    NoDup rs -> (forall r, In r rs -> g16_ppe P E vk inputs r (comb_ab pfs r) (comb_c pfs r) = Ok true) ->
    length rs <= length pfs - 1.
  Proof.
    intros Hfit Hl [i [Hi Hbad]] Hnd Hacc.
    replace (length pfs) with (length (map (fun i => defect vk (nth i inputs []) (nth i pfs pf0)) (seq 0 (length pfs))))
      by (now rewrite map_length, seq_length).
    apply roots_bound; auto.
    - exists (defect vk (nth i inputs []) (nth i pfs pf0)). split.
      + apply (in_map (fun i => defect vk (nth i inputs []) (nth i pfs pf0))). apply in_seq. lia.
      + intros H. now apply Hbad, defect_valid.
    - intros r Hr. specialize (Hacc r Hr).
      destruct (f_eq_dec _ r f1) as [->|H1]; [rewrite ppe_one in Hacc; discriminate|].
      rewrite rows_fit_ppe in Hacc by auto. injection Hacc as Hacc. apply meqb_spec, msub_eq0 in Hacc.
      now rewrite ppe_defect in Hacc.
  Qed.

  Lemma zipw_shift {M : module K} (l : list M) (r : K) n : length l = n ->
    zipw (fun a r => r *m a) l (powers n r) = shift_vec r l.
  Proof.
    intros Hl. unfold shift_vec. rewrite Hl. apply (nth_ext_eq _ _ m0).
    - rewrite map_length, seq_length. etransitivity; [|exact Hl]. apply zipw_length_eq. etransitivity; [exact Hl|]. symmetry. apply powers_length.
    - intros i Hi. rewrite zipw_length_eq, Hl in Hi by (etransitivity; [exact Hl|]; symmetry; apply powers_length).
      assert (Hi2 : i < length (powers n r)) by (eapply Nat.lt_le_trans; [exact Hi|]; apply Nat.eq_le_incl; symmetry; apply powers_length).
      etransitivity; [apply (zipw_nth (fun (a : M) (r : K) => r *m a) l (powers n r) i m0 f0 m0); [lia|exact Hi2]|].
      symmetry. etransitivity; [exact (at_map_seq (fun i => fpow r i *m at_ l i) n i ltac:(lia))|].
      f_equal. symmetry. exact (at_map_seq (M := fmod K) (fpow r) n i ltac:(lia)).
  Qed.

  Lemma inverse_shift (l : list (pG2 P)) (r : K) n : r <> f0 -> length l = n ->
    rmapM (fun p : pG2 P * K => do ri <- runwrap (finverse (snd p)); Ok (ri *m fst p)) (combine l (powers n r)) = Ok (shift_vec (finv r) l).
  Proof.
    intros Hr Hl. unfold shift_vec. rewrite Hl. unfold powers.
    assert (H : forall l (F : nat -> pG2 P) i0, (forall i, i < length l -> at_ l i = F (i0 + i)) ->
      rmapM (fun p : pG2 P * K => do ri <- runwrap (finverse (snd p)); Ok (ri *m fst p))
        (combine l (map (fpow r) (seq i0 (length l)))) = Ok (map (fun i => fpow (finv r) i *m F i) (seq i0 (length l)))).
    { clear - Hr. induction l as [|g l IH]; intros F i0 HF; [reflexivity|].
      cbn [length seq map combine rmapM fst snd]. rewrite finverse_neq by (now apply fpow_neq0). cbn [runwrap rbind].
      rewrite (IH F (S i0)).
      - cbn [rbind]. f_equal. f_equal. specialize (HF 0 ltac:(cbn; lia)). rewrite Nat.add_0_r in HF. rewrite <- HF.
        unfold at_. cbn [nth]. f_equal.
        assert (Hp : fpow r i0 *f fpow (finv r) i0 = f1).
        { rewrite <- fpow_mul_l. replace (r *f finv r) with (f1 : K) by (field; auto). apply fpow_1_l. }
        rewrite <- (Rmul_1_l (F_R (f_theory K)) (fpow (finv r) i0)). rewrite <- Hp at 1.
        assert (fpow r i0 <> f0) by (now apply fpow_neq0).
        assert (Hq : fpow (finv r) i0 = finv (fpow r i0)).
        { rewrite <- (Rmul_1_l (F_R (f_theory K)) (finv (fpow r i0))), <- Hp. field; auto. }
        rewrite Hq. field; auto.
      - intros i Hi. specialize (HF (S i) ltac:(cbn; lia)). unfold at_ in *. cbn [nth] in HF. rewrite HF. f_equal. lia. }
    rewrite <- Hl. apply (H l (at_ l) 0). reflexivity.
  Qed.

  (** ** C42, C44, C52: arbitrary aggregate proofs *)
  Lemma input_comb_shift vk x t (d : K) : 2 <= length (vk_gamma_abc_g1 vk) ->
    input_comb vk ((x +f d) :: t) = input_comb vk (x :: t) +m d *m at_ (vk_gamma_abc_g1 vk) 1.
  Proof.
    intros H. unfold input_comb. destruct (length (vk_gamma_abc_g1 vk) - 1) as [|m] eqn:Em; [lia|].
    rewrite !big_S_l. unfold fat. cbn [nth].
    generalize (big m (fun i => nth i t f0 *m at_ (vk_gamma_abc_g1 vk) (S (S i)))) (at_ (vk_gamma_abc_g1 vk) 0) (at_ (vk_gamma_abc_g1 vk) 1).
    intros. module_norm; ring.
  Qed.

  Lemma ppe_rhs_shift vk x0 t0 x1 t1 rest (r d : K) c : 2 <= length (vk_gamma_abc_g1 vk) ->
    ppe_rhs vk ((x0 +f r *f d :: t0) :: (x1 +f fopp d :: t1) :: rest) r c = ppe_rhs vk ((x0 :: t0) :: (x1 :: t1) :: rest) r c.
  Proof.
    intros H. unfold ppe_rhs. cbn [length]. rewrite !big_S_l. cbn [nth fpow].
    rewrite !input_comb_shift, !e_add_l, !e_scale_l by auto.
    match goal with |- context [big (length rest) ?F] => generalize (big (length rest) F) end.
    generalize (pr_e P c (vk_delta_g2 vk)) (pr_e P (vk_alpha_g1 vk) (vk_beta_g2 vk)) (pr_e P (input_comb vk (x0 :: t0)) (vk_gamma_g2 vk))
      (pr_e P (input_comb vk (x1 :: t1)) (vk_gamma_g2 vk)) (pr_e P (at_ (vk_gamma_abc_g1 vk) 1) (vk_gamma_g2 vk)).
    intros. module_norm; ring.
  Qed.

  (** the challenge that is derived from an aggregate proof *)
  Definition proof_challenge D fuel (proof : agg_proof P) (r : K) : Prop :=
    rand_challenge D fuel 0 (mser (ag_com_a proof) ++ mser (ag_com_b proof) ++ mser (ag_com_c proof)) = Ok r.

  Section AnyProof.
    Variables (E : penv) (D : bytes -> bytes) (fuel : nat).
    Variables (r1 : sampler R (pG1 P)) (r2 : sampler R (pG2 P)).
    Notation gverify := (g16_verify (R := R) P E D fuel r1 r2).

    (** the two sub-arguments of the aggregate *)
    Definition ab_part v (proof : agg_proof P) r : res bool :=
      tipa_verify_with_srs_shift (afgho_g1 P E r2) (afgho_g2 P E r1) (identity (R := R) (pGT P)) (pairing_ip P E) D fuel v (tt : unitmod K)
        ((ag_com_a proof : mod_carrier (pGT P)), (ag_com_b proof : mod_carrier (pGT P)), ([ag_ip_ab proof] : identity_output (pGT P)))
        (ag_tipa_ab proof) r.
    Definition c_part v (proof : agg_proof P) r : res bool :=
      tssm_verify (afgho_g1 P E r2) (identity (R := R) (pG1 P)) (multiexp_ip (pG1 P)) D fuel E v (tt : unitmod K)
        ((ag_com_c proof : mod_carrier (pGT P)), ([ag_agg_c proof] : identity_output (pG1 P))) r (ag_tipa_c proof).

    Lemma verify_eq v vk inputs proof r : proof_challenge D fuel proof r ->
      gverify v vk inputs proof =
      (do x <- ab_part v proof r; do y <- c_part v proof r;
       do z <- g16_ppe P E vk inputs r (ag_ip_ab proof) (ag_agg_c proof); Ok (x && y && z)).
    Proof. intros H. unfold g16_verify, g16_payload. unfold proof_challenge in H. rewrite H. reflexivity. Qed.

    Lemma verify_ok_challenge v vk inputs proof b : gverify v vk inputs proof = Ok b -> exists r, proof_challenge D fuel proof r.
    Proof. unfold g16_verify. intros H. apply rbind_ok in H as [r [H _]]. eauto. Qed.

    Lemma verify_congr v vk inputs inputs' proof :
      (forall r, proof_challenge D fuel proof r ->
         g16_ppe P E vk inputs r (ag_ip_ab proof) (ag_agg_c proof) = g16_ppe P E vk inputs' r (ag_ip_ab proof) (ag_agg_c proof)) ->
      gverify v vk inputs proof = gverify v vk inputs' proof.
    Proof.
      intros H. unfold g16_verify. destruct (rand_challenge D fuel 0 _) as [r|e| |] eqn:Er; auto. cbn [rbind]. rewrite (H r Er). reflexivity.
    Qed.

    Lemma verify_ppe_panic v vk inputs proof :
      (forall r, g16_ppe P E vk inputs r (ag_ip_ab proof) (ag_agg_c proof) = Panic) -> forall b, gverify v vk inputs proof <> Ok b.
    Proof.
      intros H b Hb. destruct (verify_ok_challenge _ _ _ _ _ Hb) as [r Hr]. rewrite (verify_eq _ _ _ _ r Hr) in Hb.
      apply rbind_ok in Hb as [x [_ Hb]]. apply rbind_ok in Hb as [y [_ Hb]]. rewrite H in Hb. discriminate.
    Qed.

    (** other public inputs get the same answer from every aggregate proof *)
    Theorem C42_other_inputs_refuted v vk x0 t0 x1 t1 rest proof r d :
      proof_challenge D fuel proof r -> rows_fit vk ((x0 :: t0) :: (x1 :: t1) :: rest) ->
      gverify v vk ((x0 +f r *f d :: t0) :: (x1 +f fopp d :: t1) :: rest) proof =
      gverify v vk ((x0 :: t0) :: (x1 :: t1) :: rest) proof.
    Proof.
      intros Hr Hfit. apply verify_congr. intros r' Hr'.
      assert (r' = r) as -> by (unfold proof_challenge in *; congruence).
      destruct (f_eq_dec _ r f1) as [->|H1]; [now rewrite !ppe_one|].
      assert (Hfit' : rows_fit vk ((x0 +f r *f d :: t0) :: (x1 +f fopp d :: t1) :: rest)).
      { destruct Hfit as [_ HF]. split; [discriminate|]. inversion HF as [|? ? HF0 HF']; subst. inversion HF'; subst.
        repeat constructor; auto. }
      rewrite !rows_fit_ppe by auto. rewrite ppe_rhs_shift; [reflexivity|].
      destruct Hfit as [_ HF]. inversion HF; subst. cbn [length] in *. lia.
    Qed.

    (** exactly what acceptance means *)
    Theorem C42_accept_iff_partial v vk inputs proof : rows_fit vk inputs ->
      gverify v vk inputs proof = Ok true <->
      exists r, proof_challenge D fuel proof r /\ r <> f1 /\ ab_part v proof r = Ok true /\ c_part v proof r = Ok true /\
        ag_ip_ab proof =
          big (length inputs) (fun i => fpow r i *m (pr_e P (vk_alpha_g1 vk) (vk_beta_g2 vk)
                                                     +m pr_e P (input_comb vk (nth i inputs [])) (vk_gamma_g2 vk)))
          +m pr_e P (ag_agg_c proof) (vk_delta_g2 vk).
    Proof.
      intros Hfit. split.
      - intros H. destruct (verify_ok_challenge _ _ _ _ _ H) as [r Hr]. rewrite (verify_eq _ _ _ _ r Hr) in H.
        apply rbind_ok in H as [x [Hx H]]. apply rbind_ok in H as [y [Hy H]]. apply rbind_ok in H as [z [Hz H]].
        assert (Hv : x && y && z = true) by congruence. apply andb_true_iff in Hv as [Hv ->]. apply andb_true_iff in Hv as [-> ->].
        assert (H1 : r <> f1) by (intros ->; rewrite ppe_one in Hz; discriminate).
        exists r. rewrite rows_fit_ppe in Hz by auto. injection Hz as Hz. apply meqb_spec in Hz. auto.
      - intros [r [Hr [H1 [Hx [Hy Hz]]]]]. rewrite (verify_eq _ _ _ _ r Hr), Hx, Hy, rows_fit_ppe by auto. cbn [rbind].
        fold (ppe_rhs vk inputs r (ag_agg_c proof)) in Hz. rewrite <- Hz, meqb_refl. reflexivity.
    Qed.

    (** ** C44 *)
    Theorem C44_verify_one_refuted v vk inputs proof : proof_challenge D fuel proof f1 ->
      (forall b, gverify v vk inputs proof <> Ok b) /\
      (ab_part v proof f1 = Ok true -> c_part v proof f1 = Ok true -> gverify v vk inputs proof = Panic).
    Proof.
      intros Hr. rewrite (verify_eq _ _ _ _ _ Hr). split.
      - intros b Hb. apply rbind_ok in Hb as [x [_ Hb]]. apply rbind_ok in Hb as [y [_ Hb]]. rewrite ppe_one in Hb. discriminate.
      - intros -> ->. cbn [rbind]. now rewrite ppe_one.
    Qed.

    Theorem C44_verify_zero_refuted v vk inputs proof : digest16 D -> proof_challenge D fuel proof f0 ->
      forall b, gverify v vk inputs proof <> Ok b.
    Proof.
      intros HD Hr b Hb. rewrite (verify_eq _ _ _ _ _ Hr) in Hb. apply rbind_ok in Hb as [x [Hx _]].
      apply tipa_verify_ok_inv in Hx as [cs [c0 [c [_ [_ [_ Hx]]]]]]. congruence.
    Qed.

    Theorem C44_verify_partial v vk inputs proof : 1 <= threads E -> digest16 D ->
      (forall r, proof_challenge D fuel proof r -> r <> f0 /\ r <> f1) ->
      gp_steps (tp_gipa (ag_tipa_ab proof)) <> [] -> gp_steps (ts_gipa (ag_tipa_c proof)) <> [] ->
      rows_fit vk inputs ->
      gverify v vk inputs proof = Loop \/ exists b, gverify v vk inputs proof = Ok b.
    Proof.
      intros HE HD Hc Hs1 Hs2 Hfit.
      destruct (rand_challenge_outcome (K := K) D fuel 0 (mser (ag_com_a proof) ++ mser (ag_com_b proof) ++ mser (ag_com_c proof))) as [H|[r Hr]].
      { left. unfold g16_verify, g16_payload. now rewrite H. }
      destruct (Hc r Hr) as [H0 H1]. rewrite (verify_eq _ _ _ _ r Hr).
      destruct (tipa_verify_total D fuel mid mid idout (phi_g1 P) (pr_e P) psi_id (pr_e P)
        (afgho_g1 P E r2) (afgho_g2 P E r1) (identity (R := R) (pGT P)) (pairing_ip P E)
        (afgho_g1_law P E HE r2) (afgho_g2_law P E HE r1) (identity_law _) (pairing_ip_law P E HE) v (tt : unitmod K)
        ((ag_com_a proof : mod_carrier (pGT P)), (ag_com_b proof : mod_carrier (pGT P)), ([ag_ip_ab proof] : identity_output (pGT P)))
        (ag_tipa_ab proof) r HD Hs1 H0) as [Hx|[x Hx]].
      { left. unfold ab_part. now rewrite Hx. }
      unfold ab_part. rewrite Hx. cbn [rbind].
      destruct (tssm_verify_total D fuel E mid idout (phi_g1 P) psi_id smul (afgho_g1 P E r2) (identity (R := R) (pG1 P)) (multiexp_ip (pG1 P))
        (afgho_g1_law P E HE r2) (identity_law _) (multiexp_ip_law _) v (tt : unitmod K)
        ((ag_com_c proof : mod_carrier (pGT P)), ([ag_agg_c proof] : identity_output (pG1 P))) r (ag_tipa_c proof) HD Hs2) as [Hy|[y Hy]].
      { left. unfold c_part. now rewrite Hy. }
      unfold c_part. rewrite Hy. cbn [rbind]. right. rewrite rows_fit_ppe by auto. cbn [rbind]. eauto.
    Qed.

    (** ** C52 *)
    (** elements beyond the length of the key in all rows but the first do not matter *)
    Theorem C52_extra_elements_refuted v vk row0 rows rows' proof :
      rows_fit vk (row0 :: rows) -> Forall2 (fun row row' => exists extra, row' = row ++ extra) rows rows' ->
      gverify v vk (row0 :: rows') proof = gverify v vk (row0 :: rows) proof.
    Proof.
      intros Hfit HX. apply verify_congr. intros r _.
      destruct (f_eq_dec _ r f1) as [->|H1]; [now rewrite !ppe_one|].
      rewrite (rows_fit_ppe E vk (row0 :: rows)) by auto. destruct Hfit as [_ HF]. inversion HF as [|? ? HF0 HFr]; subst.
      assert (Hl : length rows' = length rows) by (clear - HX; induction HX; cbn; congruence).
      rewrite ppe_spec; auto; [| discriminate |].
      - f_equal. f_equal. unfold ppe_rhs. cbn [length]. rewrite Hl. f_equal. apply big_ext. intros i Hi. f_equal. f_equal. f_equal.
        destruct i as [|i]; [reflexivity|]. cbn [nth]. assert (Hi' : i < length rows) by lia. clear Hi. revert i Hi'.
        clear - HX HFr. induction HX as [|row row' rows rows' [extra ->] HX IH]; intros i Hi; cbn [length] in *; [lia|].
        inversion HFr as [|? ? HF0 HFr']; subst. destruct i as [|i]; cbn [nth]; [|apply IH; auto; lia].
        unfold input_comb. f_equal. apply big_ext. intros j Hj. unfold fat. rewrite app_nth1 by lia. reflexivity.
      - constructor; [lia|]. clear - HX HFr. induction HX as [|row row' rows rows' [extra ->] HX IH]; constructor.
        + inversion HFr; subst. rewrite app_length. lia.
        + apply IH. now inversion HFr.
    Qed.

    Lemma rmapM_index_outcome (rows : list (list K)) i :
      (Forall (fun row => i < length row) rows /\ rmapM (fun row => index row i) rows = Ok (map (fun row => fat row i) rows)) \/
      (Exists (fun row => length row <= i) rows /\ rmapM (fun row => index row i) rows = Panic).
    Proof.
      induction rows as [|row rows IH]; [left; split; constructor|].
      destruct (le_lt_dec (length row) i) as [Hlt|Hle].
      - right. split; [now constructor|]. cbn [rmapM]. unfold index. rewrite (proj2 (nth_error_None row i)) by auto. reflexivity.
      - destruct IH as [[HF HE]|[HF HE]].
        + left. assert (HF' : Forall (fun row => i < length row) (row :: rows)) by (now constructor). split; auto.
          now apply rmapM_index.
        + right. split; [now constructor 2|]. cbn [rmapM]. rewrite HE. unfold index.
          destruct (nth_error row i); reflexivity.
    Qed.

    Lemma ic_loop_short rows (r : K) : forall bs i g, Exists (fun row => length row < i + length bs) rows ->
      Forall (fun row => i <= length row) rows ->
      g16_ic_loop P E i bs rows (powers (length rows) r) g = Panic.
    Proof.
      induction bs as [|b bs IH]; intros i g HX HF.
      - exfalso. apply Exists_exists in HX as [row [Hin Hrow]]. rewrite Forall_forall in HF. specialize (HF row Hin). cbn in Hrow. lia.
      - cbn [g16_ic_loop]. destruct (rmapM_index_outcome rows i) as [[HF' HR]|[_ HR]]; rewrite HR; [|reflexivity].
        cbn [rbind]. rewrite scalar_ip_dot by (rewrite map_length; symmetry; apply powers_length). cbn [rbind].
        apply IH; auto. eapply Exists_impl; [|exact HX]. cbn [length]. intros. lia.
    Qed.

    Lemma ppe_malformed vk inputs (r : K) ip agg_c :
      inputs = [] \/ length (nth 0 inputs []) + 1 <> length (vk_gamma_abc_g1 vk) \/
      Exists (fun row => length row + 1 < length (vk_gamma_abc_g1 vk)) inputs ->
      g16_ppe P E vk inputs r ip agg_c = Panic.
    Proof.
      intros H. unfold g16_ppe.
      destruct (f_eq_dec _ r f1) as [->|H1]; [replace (f1 -f f1 : K) with (f0 : K) by ring; now rewrite rdiv_0|].
      assert (r -f f1 <> f0) by (intros H0; apply H1; now apply (proj1 (fsub_eq0 _ _ _))).
      rewrite rdiv_ok by auto. cbn [rbind]. destruct inputs as [|row0 rows]; [reflexivity|].
      unfold index at 1. cbn [nth_error runwrap rbind]. destruct (Nat.eqb_spec (length (vk_gamma_abc_g1 vk)) (length row0 + 1)) as [He|Hne]; [|reflexivity].
      cbn [rassert rbind]. rewrite structured_scalar_power_spec, Nat.max_l by (cbn [length]; lia). cbn [rbind].
      fold (powers (K := K) (length (row0 :: rows)) r).
      destruct (vk_gamma_abc_g1 vk) as [|abc0 abc] eqn:Eabc; [cbn in He; lia|]. unfold index at 1. cbn [nth_error runwrap rbind skipn].
      rewrite ic_loop_short; [reflexivity| |].
      - destruct H as [H|[H|H]]; [discriminate|cbn [nth] in H; cbn [length] in *; lia|]. cbn [length] in *.
        eapply Exists_impl; [|exact H]. cbn. intros. lia.
      - apply Forall_forall. intros. lia.
    Qed.

    (** no answer without rows, for a wrong first row or for a short row *)
    Theorem C52_malformed_not_accepted_partial v vk inputs proof :
      inputs = [] \/ length (nth 0 inputs []) + 1 <> length (vk_gamma_abc_g1 vk) \/
      Exists (fun row => length row + 1 < length (vk_gamma_abc_g1 vk)) inputs ->
      forall b, gverify v vk inputs proof <> Ok b.
    Proof. intros H. apply verify_ppe_panic. intros r. now apply ppe_malformed. Qed.

    (** and a panic rather than an error when the sub-arguments are fine *)
    Theorem C52_malformed_panics_refuted v vk inputs proof r :
      inputs = [] \/ length (nth 0 inputs []) + 1 <> length (vk_gamma_abc_g1 vk) \/
      Exists (fun row => length row + 1 < length (vk_gamma_abc_g1 vk)) inputs ->
      proof_challenge D fuel proof r -> ab_part v proof r = Ok true -> c_part v proof r = Ok true ->
      gverify v vk inputs proof = Panic.
    Proof. intros H Hr Hx Hy. rewrite (verify_eq _ _ _ _ r Hr), Hx, Hy, ppe_malformed by auto. reflexivity. Qed.
  End AnyProof.

  (** proofs that are zero do not count *)
  Lemma comb_ab_pad pfs m (r : K) : comb_ab (pfs ++ repeat pf0 m) r = comb_ab pfs r.
  Proof.
    unfold comb_ab. rewrite app_length, repeat_length, !map_app. rewrite big_split.
    rewrite (big_ext m _ (fun _ => m0)).
    - rewrite big_0, madd_0_r. apply big_ext. intros i Hi. unfold at_. rewrite !app_nth1 by (now rewrite map_length). reflexivity.
    - intros i Hi. unfold at_. rewrite !app_nth2 by (rewrite map_length; lia). rewrite !map_length.
      replace (length pfs + i - length pfs) with i by lia.
      assert (Hz : nth i (map pf_a (repeat pf0 m)) m0 = m0) by (exact (eq_trans (map_nth pf_a (repeat pf0 m) pf0 i) (f_equal pf_a (nth_repeat pf0 m i)))).
      rewrite Hz. rewrite (bil_0_l _ (pr_e_bilinear P)). apply mscale_0_r.
  Qed.
  Lemma comb_c_pad pfs m (r : K) : comb_c (pfs ++ repeat pf0 m) r = comb_c pfs r.
  Proof.
    unfold comb_c. rewrite app_length, repeat_length, !map_app. rewrite big_split.
    rewrite (big_ext m _ (fun _ => m0)).
    - rewrite big_0, madd_0_r. apply big_ext. intros i Hi. unfold at_. rewrite !app_nth1 by (now rewrite map_length). reflexivity.
    - intros i Hi. unfold at_. rewrite !app_nth2 by (rewrite map_length; lia). rewrite !map_length.
      replace (length pfs + i - length pfs) with i by lia.
      assert (Hz : nth i (map pf_c (repeat pf0 m)) m0 = m0) by (exact (eq_trans (map_nth pf_c (repeat pf0 m) pf0 i) (f_equal pf_c (nth_repeat pf0 m i)))).
      rewrite Hz. apply mscale_0_r.
  Qed.

  Section Run.
    Variables (E E' : penv) (D : bytes -> bytes) (fuel : nat).
    Variables (rs : sampler R (pK P)) (r1 : sampler R (pG1 P)) (r2 : sampler R (pG2 P)).
    Hypothesis HE : 1 <= threads E.
    Hypothesis HE' : 1 <= threads E'.
    Hypothesis HD : digest16 D.
    Variables (rng rng' : R) (k : nat) (s : srs P) (ka : list (pG2 P)) (kb : list (pG1 P)) (v : vsrs P).
    Hypothesis Hs : g16_setup P rs rng (2 ^ S k) = Ok (s, rng').
    Hypothesis Hk : get_commitment_keys s = (ka, kb).
    Hypothesis Hv : get_verifier_key s = Ok v.
    Variable pfs : list (g16_proof P).
    Hypothesis Hn : length pfs = 2 ^ S k.

    Definition agg_coms := (pairing_sum P (map pf_a pfs) ka, pairing_sum P kb (map pf_b pfs), pairing_sum P (map pf_c pfs) ka).
    (** r is the challenge that is derived from the commitments *)
    Definition agg_challenge (r : K) : Prop :=
      let '(ca, cb, cc) := agg_coms in rand_challenge D fuel 0 (mser ca ++ mser cb ++ mser cc) = Ok r.

    Lemma g16_setup_tipa : exists kt, tipa_setup (identity (R := R) (pGT P)) rs rng (2 ^ S k) = Ok (s, kt, rng').
    Proof using Hs.
      unfold g16_setup in Hs. apply rbind_ok in Hs as [[[s' kt] rg] [H1 H2]]. injection H2 as -> ->. eauto.
    Qed.
    Lemma g16_setup_tssm : exists kt rg, tssm_setup (identity (R := R) (pG1 P)) rs rng (2 ^ S k) = Ok (s, kt, rg).
    Proof using Hs.
      destruct g16_setup_tipa as [kt H]. pose proof (tipa_setup_inv _ _ _ _ _ _ _ H) as [H0 Hst].
      edestruct (C21_setup_succeeds (identity (R := R) (pG1 P)) rs rng (2 ^ S k) tt) as [s' Hs']; [exact H0|reflexivity|].
      unfold tssm_setup. pose proof (tipa_setup_inv _ _ _ _ _ _ _ Hs') as [_ Hst']. rewrite Hs', Hst', <- Hst. eauto.
    Qed.
    Lemma g16_key_lengths : length ka = 2 ^ S k /\ length kb = 2 ^ S k.
    Proof using Hs Hk.
      destruct g16_setup_tipa as [kt H]. destruct (C21_setup_structure _ _ _ _ _ _ _ H) as [H0 Hst].
      destruct (C21_keys s _ _ _ H0 Hst) as [[ka' [kb' [E1 [E2 [E3 _]]]]] _]. rewrite Hk in E1. injection E1 as <- <-. auto.
    Qed.

    Lemma agg_eq r : agg_challenge r -> r <> f0 ->
      g16_aggregate (R := R) P E D fuel r1 r2 s pfs =
      (do p1 <- tipa_prove_with_srs_shift (afgho_g1 P E r2) (afgho_g2 P E r1) (identity (pGT P)) (pairing_ip P E) D fuel s
                  (shift_vec r (map pf_a pfs), map pf_b pfs) (shift_vec (finv r) ka, kb, (tt : unitmod K)) r;
       do p2 <- tssm_prove (afgho_g1 P E r2) (identity (pG1 P)) (multiexp_ip (pG1 P)) D fuel s
                  (map pf_c pfs, powers (2 ^ S k) r) (ka, (tt : unitmod K));
       let '(ca, cb, cc) := agg_coms in
       Ok (mk_agg_proof ca cb cc (comb_ab pfs r) (comb_c pfs r) p1 p2)).
    Proof using HE Hs Hk Hn. clear HE' E'.
      intros Hc Hr. destruct g16_key_lengths as [Lka Lkb]. unfold g16_aggregate. rewrite Hk.
      assert (La : length (map pf_a pfs) = 2 ^ S k) by (now rewrite map_length).
      assert (Lb : length (map pf_b pfs) = 2 ^ S k) by (now rewrite map_length).
      assert (Lc : length (map pf_c pfs) = 2 ^ S k) by (now rewrite map_length).
      rewrite !C01_pairing_inner_product by congruence. cbn [rbind].
      unfold agg_challenge in Hc. cbn in Hc. unfold g16_payload. rewrite Hc. cbn [rbind].
      rewrite structured_scalar_power_spec, Nat.max_l by (rewrite Hn; apply pow2_pos). cbn [rbind]. fold (powers (length pfs) r).
      rewrite Hn, zipw_shift, inverse_shift by auto.
      assert (Lsa : length (shift_vec r (map pf_a pfs)) = 2 ^ S k) by (unfold shift_vec; now rewrite map_length, seq_length).
      assert (Lsk : length (shift_vec (finv r) ka) = 2 ^ S k) by (unfold shift_vec; now rewrite map_length, seq_length).
      rewrite !C01_pairing_inner_product by congruence. cbn [rbind].
      destruct (C02_multiexp_outcome _ _ (map pf_c pfs) (powers (2 ^ S k) r)) as [[H _]|[_ H]].
      { exfalso. apply H. rewrite Lc. symmetry. apply powers_length. }
      rewrite H. cbn [rbind].
      assert (HA : pairing_sum P (shift_vec r (map pf_a pfs)) (shift_vec (finv r) ka) = pairing_sum P (map pf_a pfs) ka).
      { pose proof (C23_shift_commitment mid (phi_g1 P) (afgho_g1 P E r2) (afgho_g1_law P E HE r2) r ka (map pf_a pfs) Hr ltac:(congruence)) as HS.
        cbn [dh_commit afgho_g1] in HS. rewrite !C01_pairing_inner_product in HS by congruence. now injection HS. }
      rewrite C01_pairing_inner_product by congruence. cbn [rbind].
      rewrite HA. rewrite meqb_refl. cbn [rassert rbind].
      replace (pairing_sum P (shift_vec r (map pf_a pfs)) (map pf_b pfs)) with (comb_ab pfs r).
      2:{ unfold comb_ab, pairing_sum. rewrite Lsa, Hn. apply big_ext. intros i Hi. unfold shift_vec.
          rewrite (at_map_seq (fun i => fpow r i *m at_ (map pf_a pfs) i)) by (rewrite La; auto). symmetry. apply e_scale_l. }
      replace (msm_sum (map pf_c pfs) (powers (2 ^ S k) r)) with (comb_c pfs r); [reflexivity|].
      unfold comb_c, msm_sum. rewrite Lc, Hn. apply big_ext. intros i Hi. f_equal. symmetry.
      exact (at_map_seq (M := fmod K) (fpow r) (2 ^ S k) i Hi).
    Qed.

    Section Fixed.
    Variable r : K.
    Hypothesis Hr : agg_challenge r.
    Hypothesis Hr0 : r <> f0.

    Lemma tipa_part_honest : exists t, honest_com (afgho_g1 P E r2) (afgho_g2 P E r1) (identity (R := R) (pGT P)) (pairing_ip P E)
        (shift_vec (finv r) ka) kb (tt : unitmod K) (shift_vec r (map pf_a pfs)) (map pf_b pfs) t
        (fst (fst agg_coms)) (snd (fst agg_coms)) ([comb_ab pfs r] : identity_output (pGT P)).
    Proof using HE Hs Hk Hn Hr0. clear HE' E'.
      destruct g16_key_lengths as [Lka Lkb]. exists (comb_ab pfs r).
      assert (La : length (map pf_a pfs) = 2 ^ S k) by (now rewrite map_length).
      assert (Lb : length (map pf_b pfs) = 2 ^ S k) by (now rewrite map_length).
      assert (Lsa : length (shift_vec r (map pf_a pfs)) = 2 ^ S k) by (unfold shift_vec; now rewrite map_length, seq_length).
      repeat split.
      - rewrite (C23_shift_commitment mid (phi_g1 P) (afgho_g1 P E r2) (afgho_g1_law P E HE r2) r ka (map pf_a pfs) Hr0) by congruence.
        cbn [dh_commit afgho_g1]. apply C01_pairing_inner_product; congruence.
      - cbn [dh_commit afgho_g2]. apply C01_pairing_inner_product; congruence.
      - rewrite C01_pairing_inner_product by congruence. f_equal. unfold comb_ab, pairing_sum. rewrite Lsa, Hn.
        apply big_ext. intros i Hi. unfold shift_vec.
        rewrite (at_map_seq (fun i => fpow r i *m at_ (map pf_a pfs) i)) by (rewrite La; auto). apply e_scale_l.
    Qed.

    Lemma tssm_part_honest : honest_ssm (afgho_g1 P E r2) (identity (R := R) (pG1 P)) (multiexp_ip (pG1 P)) ka (tt : unitmod K)
        (map pf_c pfs) (powers (2 ^ S k) r) (snd agg_coms) ([comb_c pfs r] : identity_output (pG1 P)).
    Proof using HE Hs Hk Hn. clear HE' E'.
      destruct g16_key_lengths as [Lka Lkb]. assert (Lc : length (map pf_c pfs) = 2 ^ S k) by (now rewrite map_length).
      split.
      - cbn [dh_commit afgho_g1]. apply C01_pairing_inner_product; congruence.
      - exists (comb_c pfs r). split; [|reflexivity].
        destruct (C02_multiexp_outcome _ _ (map pf_c pfs) (powers (2 ^ S k) r)) as [[H _]|[_ H]].
        { exfalso. apply H. rewrite Lc. symmetry. apply powers_length. }
        etransitivity; [exact H|]. f_equal. unfold comb_c, msm_sum. rewrite Lc, Hn. apply big_ext. intros i Hi. f_equal.
        exact (at_map_seq (M := fmod K) (fpow r) (2 ^ S k) i Hi).
    Qed.

    (** what the verifier does with the aggregate of any proofs *)
    Definition agg_good (proof : agg_proof P) : Prop :=
      forall vk inputs, g16_verify (R := R) P E' D fuel r1 r2 v vk inputs proof =
        g16_ppe P E' vk inputs r (comb_ab pfs r) (comb_c pfs r).

    Lemma agg_verify p1 p2 :
      tipa_verify_with_srs_shift (afgho_g1 P E' r2) (afgho_g2 P E' r1) (identity (R := R) (pGT P)) (pairing_ip P E') D fuel v (tt : unitmod K)
        ((fst (fst agg_coms) : mod_carrier (pGT P)), (snd (fst agg_coms) : mod_carrier (pGT P)), ([comb_ab pfs r] : identity_output (pGT P))) p1 r = Ok true ->
      tssm_verify (afgho_g1 P E' r2) (identity (R := R) (pG1 P)) (multiexp_ip (pG1 P)) D fuel E' v (tt : unitmod K)
        ((snd agg_coms : mod_carrier (pGT P)), ([comb_c pfs r] : identity_output (pG1 P))) r p2 = Ok true ->
      agg_good (mk_agg_proof (fst (fst agg_coms)) (snd (fst agg_coms)) (snd agg_coms) (comb_ab pfs r) (comb_c pfs r) p1 p2).
    Proof using Hr.
      intros H1 H2 vk inputs. unfold g16_verify. cbn [ag_com_a ag_com_b ag_com_c ag_ip_ab ag_agg_c ag_tipa_ab ag_tipa_c].
      unfold g16_payload. unfold agg_challenge in Hr. cbn in Hr. cbn [fst snd agg_coms]. rewrite Hr. cbn [rbind].
      unfold agg_coms in H1, H2. cbn [fst snd] in H1, H2. rewrite H1, H2. cbn [rbind].
      destruct (g16_ppe _ _ _ _ _ _ _); reflexivity.
    Qed.

    Lemma agg_outcome :
      g16_aggregate (R := R) P E D fuel r1 r2 s pfs = Loop \/
      exists proof, g16_aggregate (R := R) P E D fuel r1 r2 s pfs = Ok proof /\ agg_good proof.
    Proof using All.
      rewrite (agg_eq r Hr Hr0). destruct tipa_part_honest as [t HT]. pose proof tssm_part_honest as HC.
      destruct g16_setup_tipa as [kt HS1]. destruct g16_setup_tssm as [kt' [rg HS2]].
      assert (La : length (shift_vec r (map pf_a pfs)) = 2 ^ S k) by (unfold shift_vec; now rewrite !map_length, seq_length).
      assert (Lb : length (map pf_b pfs) = 2 ^ S k) by (now rewrite map_length).
      assert (Lc : length (map pf_c pfs) = 2 ^ S k) by (now rewrite map_length).
      destruct (C23_tipa_complete_shift D fuel rs mid mid idout (phi_g1 P) (pr_e P) psi_id (pr_e P)
           (afgho_g1 P E r2) (afgho_g1 P E' r2) (afgho_g2 P E r1) (afgho_g2 P E' r1)
           (identity (pGT P)) (identity (pGT P)) (pairing_ip P E) (pairing_ip P E') HD
           (afgho_g1_law P E HE r2) (afgho_g2_law P E HE r1) (identity_law _) (pairing_ip_law P E HE)
           (afgho_g1_law P E' HE' r2) (afgho_g2_law P E' HE' r1) (identity_law _) (pairing_ip_law P E' HE')
           rng k s (tt : unitmod K) kt rng' r ka kb v HS1 Hk Hv Hr0 _ _ t _ _ _ La Lb HT) as [H1|[p1 [H1 V1]]].
      { left. rewrite H1. reflexivity. }
      rewrite H1. cbn [rbind].
      assert (Hpw : structured_scalar_power (2 ^ S k) r = Ok (powers (2 ^ S k) r)).
      { rewrite structured_scalar_power_spec, Nat.max_l by apply pow2_pos. reflexivity. }
      destruct (C30_tssm_complete D fuel E' rs mid idout (phi_g1 P) psi_id smul (afgho_g1 P E r2) (afgho_g1 P E' r2)
           (identity (pG1 P)) (identity (pG1 P)) (multiexp_ip (pG1 P)) (multiexp_ip (pG1 P)) HD
           (afgho_g1_law P E HE r2) (identity_law _) (multiexp_ip_law _)
           (afgho_g1_law P E' HE' r2) (identity_law _) (multiexp_ip_law _)
           rng k s (tt : unitmod K) kt' rg ka kb v r _ HS2 Hk Hv Hpw (map pf_c pfs) _ _ Lc HC) as [H2|[p2 [H2 V2]]].
      { left. rewrite H2. reflexivity. }
      right. rewrite H2. cbn [rbind]. eexists. split; [reflexivity|]. exact (agg_verify p1 p2 V1 V2).
    Qed.

    Lemma agg_live :
      draws_end K D fuel ->
      rounds_end (mod_carrier (pGT P)) (mod_carrier (pGT P)) (identity_output (pGT P)) D fuel ->
      rounds_end (mod_carrier (pGT P)) (mod_carrier (fmod K)) (identity_output (pG1 P)) D fuel ->
      exists proof, g16_aggregate (R := R) P E D fuel r1 r2 s pfs = Ok proof /\ agg_good proof.
    Proof using All.
      intros HL0 HL1 HL2.
      rewrite (agg_eq r Hr Hr0). destruct tipa_part_honest as [t HT]. pose proof tssm_part_honest as HC.
      destruct g16_setup_tipa as [kt HS1]. destruct g16_setup_tssm as [kt' [rg HS2]].
      assert (La : length (shift_vec r (map pf_a pfs)) = 2 ^ S k) by (unfold shift_vec; now rewrite !map_length, seq_length).
      assert (Lb : length (map pf_b pfs) = 2 ^ S k) by (now rewrite map_length).
      assert (Lc : length (map pf_c pfs) = 2 ^ S k) by (now rewrite map_length).
      destruct (C23_tipa_complete_shift_live D fuel rs mid mid idout (phi_g1 P) (pr_e P) psi_id (pr_e P)
           (afgho_g1 P E r2) (afgho_g1 P E' r2) (afgho_g2 P E r1) (afgho_g2 P E' r1)
           (identity (pGT P)) (identity (pGT P)) (pairing_ip P E) (pairing_ip P E') HD
           (afgho_g1_law P E HE r2) (afgho_g2_law P E HE r1) (identity_law _) (pairing_ip_law P E HE)
           (afgho_g1_law P E' HE' r2) (afgho_g2_law P E' HE' r1) (identity_law _) (pairing_ip_law P E' HE')
           rng k s (tt : unitmod K) kt rng' r ka kb v HS1 Hk Hv Hr0 _ _ t _ _ _ HL1 HL0 La Lb HT) as [p1 [H1 V1]].
      rewrite H1. cbn [rbind].
      assert (Hpw : structured_scalar_power (2 ^ S k) r = Ok (powers (2 ^ S k) r)).
      { rewrite structured_scalar_power_spec, Nat.max_l by apply pow2_pos. reflexivity. }
      destruct (C30_tssm_complete_live D fuel E' rs mid idout (phi_g1 P) psi_id smul (afgho_g1 P E r2) (afgho_g1 P E' r2)
           (identity (pG1 P)) (identity (pG1 P)) (multiexp_ip (pG1 P)) (multiexp_ip (pG1 P)) HD
           (afgho_g1_law P E HE r2) (identity_law _) (multiexp_ip_law _)
           (afgho_g1_law P E' HE' r2) (identity_law _) (multiexp_ip_law _)
           rng k s (tt : unitmod K) kt' rg ka kb v r _ HS2 Hk Hv Hpw (map pf_c pfs) _ _ HL2 HL0 Lc HC) as [p2 [H2 V2]].
      rewrite H2. cbn [rbind]. eexists. split; [reflexivity|]. exact (agg_verify p1 p2 V1 V2).
    Qed.

    (** ** C41 *)
    Theorem C41_groth16_complete vk inputs : r <> f1 ->
      rows_fit vk inputs -> Forall2 (g16_valid vk) inputs pfs ->
      g16_aggregate (R := R) P E D fuel r1 r2 s pfs = Loop \/
      exists proof, g16_aggregate (R := R) P E D fuel r1 r2 s pfs = Ok proof /\
        g16_verify (R := R) P E' D fuel r1 r2 v vk inputs proof = Ok true.
    Proof using All.
      intros H1 Hfit HV. destruct agg_outcome as [H|[proof [H HG]]]; [now left|].
      right. exists proof. split; [exact H|]. rewrite HG. now apply ppe_valid.
    Qed.

    Theorem C41_groth16_complete_live vk inputs : r <> f1 ->
      draws_end K D fuel ->
      rounds_end (mod_carrier (pGT P)) (mod_carrier (pGT P)) (identity_output (pGT P)) D fuel ->
      rounds_end (mod_carrier (pGT P)) (mod_carrier (fmod K)) (identity_output (pG1 P)) D fuel ->
      rows_fit vk inputs -> Forall2 (g16_valid vk) inputs pfs ->
      exists proof, g16_aggregate (R := R) P E D fuel r1 r2 s pfs = Ok proof /\
        g16_verify (R := R) P E' D fuel r1 r2 v vk inputs proof = Ok true.
    Proof using All.
      intros H1 HL0 HL1 HL2 Hfit HV. destruct (agg_live HL0 HL1 HL2) as [proof [H HG]].
      exists proof. split; [exact H|]. rewrite HG. now apply ppe_valid.
    Qed.

    (** ** C42: the aggregate of valid proofs is accepted for inputs for which two of them are not valid *)
    Theorem C42_invalid_inputs_accepted_refuted vk inputs proof : r <> f1 ->
      rows_fit vk inputs -> Forall2 (g16_valid vk) inputs pfs ->
      2 <= length (vk_gamma_abc_g1 vk) -> pr_e P (at_ (vk_gamma_abc_g1 vk) 1) (vk_gamma_g2 vk) <> m0 ->
      g16_aggregate (R := R) P E D fuel r1 r2 s pfs = Ok proof ->
      exists inputs', rows_fit vk inputs' /\ length inputs' = length pfs /\
        g16_verify (R := R) P E' D fuel r1 r2 v vk inputs' proof = Ok true /\
        ~ g16_valid vk (nth 0 inputs' []) (nth 0 pfs pf0) /\ ~ g16_valid vk (nth 1 inputs' []) (nth 1 pfs pf0).
    Proof using All.
      intros H1 Hfit HV Habc Hne Hagg.
      assert (Hlen : 2 <= length pfs) by (rewrite Hn; cbn [Nat.pow]; pose proof (pow2_pos k); lia).
      pose proof (Forall2_len HV) as HL.
      destruct (Forall2_two pf0 HV Hlen) as [row0 [row1 [rest [-> [V0 V1]]]]].
      pose proof Hfit as [_ HF]. inversion HF as [|? ? L0 HF1]; subst. inversion HF1 as [|? ? L1 HF2]; subst.
      destruct row0 as [|x0 t0]; [cbn in L0; lia|]. destruct row1 as [|x1 t1]; [cbn in L1; lia|].
      assert (Hx : forall x t d pf, d <> f0 -> g16_valid vk (x :: t) pf -> ~ g16_valid vk ((x +f d) :: t) pf).
      { intros x t d pf Hd Hv1 Hv2. unfold g16_valid in *. rewrite Hv1 in Hv2.
        rewrite input_comb_shift, e_add_l, e_scale_l in Hv2 by auto.
        apply msub_eq0 in Hv2. revert Hv2 Hne. generalize (pr_e P (vk_alpha_g1 vk) (vk_beta_g2 vk))
          (pr_e P (input_comb vk (x :: t)) (vk_gamma_g2 vk)) (pr_e P (pf_c pf) (vk_delta_g2 vk)) (pr_e P (at_ (vk_gamma_abc_g1 vk) 1) (vk_gamma_g2 vk)).
        intros a b c0 e Hv2 Hne'. apply Hne'.
        assert (Hde : d *m e = m0).
        { transitivity ((fopp f1 : K) *m (a +m b +m c0 -m (a +m (b +m d *m e) +m c0))); [module_norm; ring|]. rewrite Hv2. apply mscale_0_r. }
        replace e with (finv d *m (d *m e)); [rewrite Hde; apply mscale_0_r|].
        rewrite <- mscale_mul. replace (finv d *f d) with (f1 : K) by (field; auto). apply mscale_1. }
      exists ((x0 +f r *f f1 :: t0) :: (x1 +f fopp f1 :: t1) :: rest).
      split; [|split; [|split; [|split]]].
      - split; [discriminate|]. repeat constructor; auto.
      - rewrite <- HL. reflexivity.
      - destruct agg_outcome as [H|[proof' [H HG]]]; [congruence|].
        assert (proof' = proof) as -> by (rewrite H in Hagg; now injection Hagg).
        rewrite HG. rewrite rows_fit_ppe.
        + rewrite ppe_rhs_shift by auto. rewrite <- rows_fit_ppe with (E := E') by auto. apply ppe_valid; auto.
        + auto.
        + split; [discriminate|]. repeat constructor; auto.
      - apply Hx; auto. replace (r *f f1) with r by ring. auto.
      - apply Hx; auto. intros H0. apply (F_1_neq_0 (f_theory K)).
        replace (f1 : K) with (fopp (fopp f1) : K) by ring. rewrite H0. ring.
    Qed.

    (** what acceptance of the aggregate of arbitrary proofs means *)
    Theorem C42_honest_aggregate_partial vk inputs proof : r <> f1 -> rows_fit vk inputs ->
      g16_aggregate (R := R) P E D fuel r1 r2 s pfs = Ok proof ->
      g16_verify (R := R) P E' D fuel r1 r2 v vk inputs proof = Ok true <->
      big (length pfs) (fun i => fpow r i *m pr_e P (at_ (map pf_a pfs) i) (at_ (map pf_b pfs) i)) =
      big (length inputs) (fun i => fpow r i *m (pr_e P (vk_alpha_g1 vk) (vk_beta_g2 vk)
                                                 +m pr_e P (input_comb vk (nth i inputs [])) (vk_gamma_g2 vk)))
      +m pr_e P (big (length pfs) (fun i => fpow r i *m at_ (map pf_c pfs) i)) (vk_delta_g2 vk).
    Proof using All.
      intros H1 Hfit Hagg. destruct agg_outcome as [H|[proof' [H HG]]]; [congruence|].
      assert (proof' = proof) as -> by (rewrite H in Hagg; now injection Hagg).
      rewrite HG, rows_fit_ppe by auto. fold (comb_ab pfs r) (comb_c pfs r). fold (ppe_rhs vk inputs r (comb_c pfs r)).
      split; [intros [= Heq]; now apply meqb_spec|intros ->; now rewrite meqb_refl].
    Qed.

    (** ** C52: the number of rows is not compared with the number of proofs *)
    Theorem C52_row_count_refuted vk inputs pfs1 m : r <> f1 -> rows_fit vk inputs ->
      Forall2 (g16_valid vk) inputs pfs1 -> pfs = pfs1 ++ repeat pf0 m ->
      g16_aggregate (R := R) P E D fuel r1 r2 s pfs = Loop \/
      exists proof, g16_aggregate (R := R) P E D fuel r1 r2 s pfs = Ok proof /\
        g16_verify (R := R) P E' D fuel r1 r2 v vk inputs proof = Ok true.
    Proof using All.
      intros H1 Hfit HV Hp. destruct agg_outcome as [H|[proof [H HG]]]; [now left|]. right. exists proof. split; auto.
      rewrite HG, Hp, comb_ab_pad, comb_c_pad. now apply ppe_valid.
    Qed.

    (** ** C44 *)
    Theorem C44_aggregate_partial :
      g16_aggregate (R := R) P E D fuel r1 r2 s pfs = Loop \/
      exists proof, g16_aggregate (R := R) P E D fuel r1 r2 s pfs = Ok proof.
    Proof using All. destruct agg_outcome as [H|[proof [H _]]]; eauto. Qed.

    Theorem C44_honest_one_refuted vk inputs proof : r = f1 ->
      g16_aggregate (R := R) P E D fuel r1 r2 s pfs = Ok proof ->
      g16_verify (R := R) P E' D fuel r1 r2 v vk inputs proof = Panic.
    Proof using All.
      intros H1 Hagg. destruct agg_outcome as [H|[proof' [H HG]]]; [congruence|].
      assert (proof' = proof) as -> by (rewrite H in Hagg; now injection Hagg).
      rewrite HG, H1. apply ppe_one.
    Qed.
    End Fixed.

    Theorem C44_aggregate_zero_refuted : agg_challenge f0 ->
      g16_aggregate (R := R) P E D fuel r1 r2 s pfs = Panic.
    Proof using HE Hs Hk Hn. clear HE' E'.
      intros Hc. destruct g16_key_lengths as [Lka Lkb]. unfold g16_aggregate. rewrite Hk.
      assert (La : length (map pf_a pfs) = 2 ^ S k) by (now rewrite map_length).
      assert (Lb : length (map pf_b pfs) = 2 ^ S k) by (now rewrite map_length).
      assert (Lc : length (map pf_c pfs) = 2 ^ S k) by (now rewrite map_length).
      rewrite !C01_pairing_inner_product by congruence. cbn [rbind].
      unfold agg_challenge in Hc. cbn in Hc. unfold g16_payload. rewrite Hc. cbn [rbind].
      rewrite structured_scalar_power_spec, Nat.max_l by (rewrite Hn; apply pow2_pos). cbn [rbind]. fold (powers (K := K) (length pfs) f0).
      rewrite Hn, zipw_shift by auto.
      assert (Lsa : length (shift_vec f0 (map pf_a pfs)) = 2 ^ S k) by (unfold shift_vec; now rewrite map_length, seq_length).
      rewrite C01_pairing_inner_product by congruence. cbn [rbind].
      destruct (C02_multiexp_outcome _ _ (map pf_c pfs) (powers (2 ^ S k) f0)) as [[H _]|[_ H]].
      { exfalso. apply H. rewrite Lc. symmetry. apply powers_length. }
      rewrite H. cbn [rbind].
      assert (Hn2 : exists m, 2 ^ S k = S (S m)).
      { exists (2 ^ S k - 2). cbn [Nat.pow]. pose proof (pow2_pos k). lia. }
      destruct Hn2 as [m Hm]. rewrite Hm in Lka |- *. destruct ka as [|g0 [|g1 gs]]; [discriminate|discriminate|].
      unfold powers. cbn [seq map fpow combine rmapM fst snd].
      rewrite finverse_neq by apply (F_1_neq_0 (f_theory K)). cbn [runwrap rbind].
      replace (f0 *f f1 : K) with (f0 : K) by ring. rewrite finverse_0. reflexivity.
    Qed.
  End Run.
End Groth.
Print Assumptions C41_groth16_complete.
Print Assumptions C41_groth16_complete_live.
Print Assumptions C43_few_challenges.
Print Assumptions C42_other_inputs_refuted.
Print Assumptions C42_invalid_inputs_accepted_refuted.
Print Assumptions C42_accept_iff_partial.
Print Assumptions C42_honest_aggregate_partial.
Print Assumptions C44_verify_one_refuted.
Print Assumptions C44_verify_zero_refuted.
Print Assumptions C44_honest_one_refuted.
Print Assumptions C44_aggregate_zero_refuted.
Print Assumptions C44_verify_partial.
Print Assumptions C44_aggregate_partial.
Print Assumptions C52_extra_elements_refuted.
Print Assumptions C52_row_count_refuted.
Print Assumptions C52_malformed_panics_refuted.
Print Assumptions C52_malformed_not_accepted_partial.

(** ** A concrete run over the toy pairing: two valid proofs. *)
Definition ex_vk : g16_vk ZPair := mk_g16_vk (P := ZPair) (zq 2) (zq 3) (zq 5) (zq 7) (zl [1; 4]%Z).
Definition ex_pfs : list (g16_proof ZPair) :=
  [mk_g16_proof (P := ZPair) (zq 85) (zq 1) (zq 2); mk_g16_proof (P := ZPair) (zq 1) (zq 59) (zq 4)].
Definition ex_inputs : list (list ZP) := [zl [3]%Z; zl [1]%Z].

Definition ex_agg D pfs : res (agg_proof ZPair * vsrs ZPair) :=
  do (s, _) <- g16_setup ZPair ex_scalars 2%Z (length pfs); do v <- get_verifier_key s;
  do p <- g16_aggregate ZPair ex_env D 9 ex_rand ex_rand s pfs; Ok (p, v).
Definition ex_gverify D inputs (pv : agg_proof ZPair * vsrs ZPair) : res bool :=
  g16_verify ZPair ex_env1 D 9 ex_rand ex_rand (snd pv) ex_vk inputs (fst pv).
Definition ex_chal D (pv : agg_proof ZPair * vsrs ZPair) : res ZP :=
  rand_challenge D 9 0 (g16_payload ZPair (ag_com_a (fst pv)) (ag_com_b (fst pv)) (ag_com_c (fst pv))).

(** both proofs satisfy their equations, the challenge is 66 *)
Example C41_example_valid : Forall2 (g16_valid ex_vk) ex_inputs ex_pfs /\ rows_fit ex_vk ex_inputs.
Proof. split; [repeat constructor; vm_compute; reflexivity|]. split; [discriminate|]. repeat constructor. Qed.
Example C41_example_challenge : (do pv <- ex_agg toy_digest ex_pfs; ex_chal toy_digest pv) = Ok (zq 66).
Proof. vm_compute. reflexivity. Qed.
Example C41_example : (do pv <- ex_agg toy_digest ex_pfs; ex_gverify toy_digest ex_inputs pv) = Ok true.
Proof. vm_compute. reflexivity. Qed.
(** a wrong public input, a wrong proof *)
Example C41_example_wrong : (do pv <- ex_agg toy_digest ex_pfs; ex_gverify toy_digest [zl [3]%Z; zl [2]%Z] pv) = Ok false /\
  (do pv <- ex_agg toy_digest [mk_g16_proof (P := ZPair) (zq 86) (zq 1) (zq 2); mk_g16_proof (P := ZPair) (zq 1) (zq 59) (zq 4)];
   ex_gverify toy_digest ex_inputs pv) = Ok false.
Proof. split; vm_compute; reflexivity. Qed.

(** C42: 3 + 66 and 1 - 1 *)
Example C42_example : (do pv <- ex_agg toy_digest ex_pfs; ex_gverify toy_digest [zl [69]%Z; zl [0]%Z] pv) = Ok true /\
  ~ g16_valid ex_vk (zl [69]%Z) (nth 0 ex_pfs pf0) /\ ~ g16_valid ex_vk (zl [0]%Z) (nth 1 ex_pfs pf0) /\
  pr_e ZPair (at_ (M := ZM) (vk_gamma_abc_g1 ex_vk) 1) (vk_gamma_g2 ex_vk) <> (m0 : ZM).
Proof. split; [vm_compute; reflexivity|]. repeat split; intros H; vm_compute in H; discriminate. Qed.

(** C43: with inputs 69 and 0 the equation holds for r = 66 and fails for others *)
Example C43_example :
  g16_ppe ZPair ex_env ex_vk [zl [69]%Z; zl [0]%Z] (zq 66) (comb_ab ex_pfs (zq 66)) (comb_c ex_pfs (zq 66)) = Ok true /\
  g16_ppe ZPair ex_env ex_vk [zl [69]%Z; zl [0]%Z] (zq 67) (comb_ab ex_pfs (zq 67)) (comb_c ex_pfs (zq 67)) = Ok false.
Proof. split; vm_compute; reflexivity. Qed.

(** C44: digests for which every drawn scalar is 1, respectively 0, and the GIPA challenges are 1 *)
Definition one_draws (b : bytes) : bytes := (repeat 0 15 ++ [1] ++ repeat 0 15 ++ [22])%N.
Definition zero_draws (b : bytes) : bytes := (repeat 0 15 ++ [1] ++ repeat 0 15 ++ [21])%N.
Example C44_example_one : (do pv <- ex_agg one_draws ex_pfs; ex_chal one_draws pv) = Ok (zq 1) /\
  (do pv <- ex_agg one_draws ex_pfs; ex_gverify one_draws ex_inputs pv) = Panic /\
  outcome (ex_agg one_draws ex_pfs) = Ok tt.
Proof. repeat split; vm_compute; reflexivity. Qed.
Example C44_example_zero : outcome (ex_agg zero_draws ex_pfs) = Panic /\ rand_challenge zero_draws 9 0 [] = Ok (zq 0 : ZP).
Proof. split; vm_compute; reflexivity. Qed.
Example C44_example_rounds : match ex_agg toy_digest ex_pfs with
  | Ok (p, _) => length (gp_steps (tp_gipa (ag_tipa_ab p))) = 1 /\ length (gp_steps (ts_gipa (ag_tipa_c p))) = 1
  | _ => False end.
Proof. vm_compute. auto. Qed.

(** C52: extra elements, short rows, missing rows *)
Example C52_example :
  (do pv <- ex_agg toy_digest ex_pfs; ex_gverify toy_digest [zl [3]%Z; zl [1; 77; 5]%Z] pv) = Ok true /\
  (do pv <- ex_agg toy_digest ex_pfs; ex_gverify toy_digest [zl [3]%Z; []] pv) = Panic /\
  (do pv <- ex_agg toy_digest ex_pfs; ex_gverify toy_digest [zl [3; 4]%Z; zl [1]%Z] pv) = Panic /\
  (do pv <- ex_agg toy_digest ex_pfs; ex_gverify toy_digest [] pv) = Panic.
Proof. repeat split; vm_compute; reflexivity. Qed.
Example C52_example_rows :
  (do pv <- ex_agg toy_digest [mk_g16_proof (P := ZPair) (zq 85) (zq 1) (zq 2); pf0]; ex_gverify toy_digest [zl [3]%Z] pv) = Ok true.
Proof. vm_compute. reflexivity. Qed.

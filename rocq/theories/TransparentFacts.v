(** The transparent polynomial commitments (C40). *)
Require Import List Arith NArith ZArith Lia Bool Field.
Import ListNotations.
Require Import Verif.Outcome Verif.Algebra Verif.Rust Verif.Spec Verif.ListFacts Verif.RustFacts
  Verif.InnerProducts Verif.Commitments Verif.InnerProductFacts Verif.CommitFacts Verif.Gipa
  Verif.GipaFacts Verif.GipaComplete Verif.GipaTop Verif.Poly Verif.PolyFacts Verif.Tipa Verif.KeyFacts
  Verif.TipaFacts Verif.Ssm Verif.SsmFacts Verif.Floats Verif.FloatFacts Verif.PolyCommit Verif.PcFacts
  Verif.PcDegrees Verif.UpcFacts Verif.Transparent.

Section Tr.
  Context {R : Type} {P : pairing}.
  Notation K := (pK P).
  Add Field KfTr : (f_theory (pK P)).
  Notation ev := (@poly_evaluate (pK P)).
  Variables (E E' : penv) (HE : 1 <= threads E) (HE' : 1 <= threads E').
  Variable D : bytes -> bytes.
  Variable fuel : nat.
  Variables rand_g1 rand_g1' : sampler R (pG1 P).
  Variables rand_g2 rand_g2' : sampler R (pG2 P).

  Section Run.
    Variables (ck1 : list (pG1 P)) (ck2 : list (pG2 P)) (p : bipoly K).
    Hypothesis Hlen : length p <= length ck2.
    Hypothesis Hrows : Forall (fun row => length row <= length ck1) p.
    Let n := length ck2.
    Let m := length ck1.
    Let rows := resize n [] p.
    Let coms : list (pG1 P) := map (fun r => dot smul ck1 (resize m f0 r : list (fmod K))) rows.

    Lemma t_rows_length : length rows = n.
    Proof. apply resize_length. Qed.
    Lemma t_rows_fit : Forall (fun row => length row <= m) rows.
    Proof.
      clear HE HE' Hlen. unfold rows, resize. apply Forall_app. split.
      - apply Forall_forall. intros r Hr. rewrite Forall_forall in Hrows. apply Hrows.
        rewrite <- (firstn_skipn n p). apply in_or_app. now left.
      - apply Forall_forall. intros r Hr. apply repeat_spec in Hr as ->. cbn. lia.
    Qed.
    Lemma t_coms_length : length coms = n.
    Proof. unfold coms. rewrite map_length. apply t_rows_length. Qed.

    Lemma tbpc_commit_ok : tbpc_commit P E rand_g1 rand_g2 (ck1, ck2) p = Ok (dot (phi_g1 P) ck2 coms, coms).
    Proof.
      clear HE'. unfold tbpc_commit. fold n.
      destruct (Nat.leb_spec (length p) n); [|unfold n in *; lia]. cbn [rassert rbind].
      rewrite chain_take_resize. fold rows.
      rewrite (rmapM_ok_map _ (fun r => dot smul ck1 (resize m f0 r : list (fmod K)))).
      - cbn [rbind]. fold coms. rewrite (lc_commit _ _ _ (afgho_g1_law P E HE rand_g2)).
        + reflexivity.
        + now rewrite t_coms_length.
      - intros r Hr. unfold t_row_commit. fold m. pose proof t_rows_fit as H'. rewrite Forall_forall in H'.
        destruct (Nat.leb_spec (length r) m) as [|Hg]; [|specialize (H' r Hr); lia]. cbn [rassert rbind].
        apply (lc_commit _ _ _ (pedersen_law (pG1 P) rand_g1)). symmetry. apply resize_length.
    Qed.

    Section Point.
      Variables (k1 k2 : nat) (x y : K).
      Hypothesis Hn : n = 2 ^ k2.
      Hypothesis Hm : m = 2 ^ k1.
      Let coeffs := map (resize m f0) rows.
      Let px : list K := powers n x.
      Let yc : list (fmod K) := map (fun j => fbig n (fun i => fat px i *f fat (nth i coeffs []) j)) (seq 0 m).

      Lemma px_nth i : i < n -> fat px i = fpow x i.
      Proof.
        intros H. unfold px, powers, fat.
        rewrite (nth_indep _ f0 (fpow x 0)) by (now rewrite map_length, seq_length).
        now rewrite map_nth, seq_nth.
      Qed.
      Lemma t_coeffs_nth i : i < n -> nth i coeffs [] = resize m f0 (nth i rows []).
      Proof.
        intros H. unfold coeffs. rewrite (nth_indep _ [] (resize m f0 [])) by (now rewrite map_length, t_rows_length).
        apply map_nth.
      Qed.
      Lemma t_coeffs_rect : Forall (fun r => length r = m) coeffs.
      Proof. apply Forall_forall. intros r Hr. apply in_map_iff in Hr as [r' [<- _]]. apply resize_length. Qed.
      Lemma t_yc_length : length yc = m.
      Proof. unfold yc. now rewrite map_length, seq_length. Qed.

      Lemma t_ev_yc z : ev yc z = bipoly_evaluate p (x, z).
      Proof.
        unfold yc. rewrite ev_y_eval.
        - rewrite (bipoly_evaluate_pad p x z n) by auto. apply fbig_ext. intros i Hi.
          rewrite px_nth by auto. f_equal. rewrite t_coeffs_nth by auto. fold rows.
          apply ev_resize. pose proof t_rows_fit as H'. rewrite Forall_forall in H'. apply H'.
          apply nth_In. now rewrite t_rows_length.
        - unfold coeffs. now rewrite map_length, t_rows_length.
        - apply t_coeffs_rect.
      Qed.

      (** the commitment to the partially evaluated row is the combination of the row commitments *)
      Lemma t_dot_coms : dot smul coms (powers n x : list (fmod K)) = dot smul ck1 yc.
      Proof.
        rewrite dot_big by (now rewrite t_coms_length, powers_length). rewrite t_coms_length.
        rewrite (dot_big smul ck1 yc) by (now rewrite t_yc_length). fold m.
        transitivity (big n (fun i => big m (fun j => (fat px i *f fat (nth i coeffs []) j) *m at_ ck1 j))).
        - apply big_ext. intros i Hi. unfold smul at 1. change (at_ (powers n x) i) with (fat px i).
          unfold at_ at 1. unfold coms.
          set (F := fun r => dot smul ck1 (resize m f0 r : list (fmod K))).
          rewrite (nth_indep _ m0 (F [])) by (now rewrite map_length, t_rows_length).
          rewrite (map_nth F). unfold F. rewrite dot_big by (symmetry; apply resize_length). fold m.
          rewrite <- big_scale. apply big_ext. intros j Hj. unfold smul. rewrite <- mscale_mul. f_equal.
          rewrite t_coeffs_nth by auto. reflexivity.
        - rewrite big_swap. apply big_ext. intros j Hj. unfold smul. rewrite big_fscale. f_equal.
          unfold at_, yc. set (F := fun j => fbig n (fun i => fat px i *f fat (nth i coeffs []) j)).
          change (@m0 K (fmod K)) with (@f0 K).
          rewrite (nth_indep _ f0 (F 0)) by (now rewrite map_length, seq_length).
          now rewrite map_nth, seq_nth.
      Qed.

      (** the inner product with the powers of y is the evaluation *)
      Lemma t_dot_yc : dot (fmul' (K := K)) yc (powers m y) = (bipoly_evaluate p (x, y) : fmod K).
      Proof.
        rewrite <- t_ev_yc, ev_poly_at. unfold poly_at.
        rewrite dot_big by (now rewrite t_yc_length, powers_length). rewrite fbig_big.
        apply big_ext. intros i Hi0. assert (Hi : i < m) by (rewrite <- t_yc_length; exact Hi0). unfold fmul'. cbn. f_equal.
        unfold at_, powers. change (@m0 K (fmod K)) with (@f0 K).
        rewrite (nth_indep _ f0 (fpow y 0)) by (now rewrite map_length, seq_length).
        now rewrite map_nth, seq_nth.
      Qed.

      Let lmc2 := afgho_g1 P E rand_g2.
      Let ipc2 := identity (R := R) (pG1 P).
      Let ip2 := multiexp_ip (pG1 P).
      Let lmc1 := pedersen (pG1 P) rand_g1.
      Let ipc1 := identity (R := R) (fmod (pK P)).
      Let ip1 := @scalar_ip (pK P) E.

      Lemma tbpc_open_eq :
        tbpc_open P E D fuel rand_g1 rand_g2 (ck1, ck2) p coms (x, y) =
          (do second <- gssm_prove lmc2 ipc2 ip2 D fuel (coms, powers (2 ^ k2) x) (ck2, (tt : unitmod K));
           do first <- gssm_prove lmc1 ipc1 ip1 D fuel (yc, powers (2 ^ k1) y) (ck1, (tt : unitmod K));
           Ok (mk_t_opening second (dot smul ck1 yc) first)).
      Proof.
        assert (Hn1 : 1 <= n) by (rewrite Hn; apply pow2_pos).
        assert (Hm1 : 1 <= m) by (rewrite Hm; apply pow2_pos).
        unfold tbpc_open. fold n m.
        destruct (Nat.leb_spec (length p) n); [|unfold n in *; lia]. cbn [rassert rbind].
        rewrite !structured_scalar_power_spec. rewrite !Nat.max_l by auto. cbn [rbind].
        change (map (fpow x) (seq 0 n)) with px.
        rewrite chain_take_resize. fold rows. fold coeffs.
        rewrite y_eval_coefficients_ok.
        2: apply powers_length.
        2: unfold coeffs; now rewrite map_length, t_rows_length.
        2: apply t_coeffs_rect.
        cbn [rbind]. fold yc.
        rewrite (lc_commit _ _ _ (pedersen_law (pG1 P) rand_g1)) by (symmetry; apply t_yc_length).
        cbn [rbind]. rewrite <- Hn, <- Hm. reflexivity.
      Qed.

      Let com : pGT P := dot (phi_g1 P) ck2 coms.

      Lemma tbpc_verify_parts second first :
        gssm_verify (afgho_g1 P E' rand_g2') ipc2 ip2 D fuel E' (ck2, (tt : unitmod K))
          (mid com, idout (psi_id (tt : unitmod K) (dot smul coms (powers (2 ^ k2) x : list (fmod K))))) x second = Ok true ->
        gssm_verify (pedersen (pG1 P) rand_g1') ipc1 (@scalar_ip (pK P) E') D fuel E' (ck1, (tt : unitmod K))
          (mid (dot smul ck1 yc), idout (psi_id (tt : unitmod K) (dot (fmul' (K := K)) yc (powers (2 ^ k1) y)))) y first = Ok true ->
        tbpc_verify P E' D fuel rand_g1' rand_g2' (ck1, ck2) com (x, y) (bipoly_evaluate p (x, y))
          (mk_t_opening second (dot smul ck1 yc) first) = Ok true.
      Proof.
        rewrite <- Hn, <- Hm, t_dot_coms, t_dot_yc. unfold mid, idout, psi_id. intros H1 H2.
        unfold tbpc_verify. cbn [to_second to_y_eval_comm to_first].
        unfold ipc2, ip2 in H1. rewrite H1. cbn [rbind]. unfold ipc1 in H2.
        match goal with |- rbind ?A _ = _ => replace A with (Ok true) by (symmetry; exact H2) end. reflexivity.
      Qed.

      Lemma tbpc_complete_outcome : digest16 D ->
        tbpc_open P E D fuel rand_g1 rand_g2 (ck1, ck2) p coms (x, y) = Loop \/
        exists proof, tbpc_open P E D fuel rand_g1 rand_g2 (ck1, ck2) p coms (x, y) = Ok proof /\
          tbpc_verify P E' D fuel rand_g1' rand_g2' (ck1, ck2) com (x, y) (bipoly_evaluate p (x, y)) proof = Ok true.
      Proof.
        intros HD. rewrite tbpc_open_eq.
        destruct (gssm_complete_outcome D fuel E' mid idout (phi_g1 P) psi_id smul
          lmc2 (afgho_g1 P E' rand_g2') ipc2 ipc2 ip2 ip2
          (afgho_g1_law P E HE rand_g2) (identity_law _) (multiexp_ip_law _)
          (afgho_g1_law P E' HE' rand_g2') (identity_law _) (multiexp_ip_law _)
          k2 coms x ck2 (tt : unitmod K) HD) as [H|[pf2 [H V2]]];
          [now rewrite t_coms_length|exact Hn| |]; rewrite H; [now left|]. cbn [rbind].
        destruct (gssm_complete_outcome D fuel E' mid idout smul psi_id (fmul' (K := K))
          lmc1 (pedersen (pG1 P) rand_g1') ipc1 ipc1 ip1 (@scalar_ip (pK P) E')
          (pedersen_law (pG1 P) rand_g1) (identity_law _) (scalar_ip_law E)
          (pedersen_law (pG1 P) rand_g1') (identity_law _) (scalar_ip_law E')
          k1 yc y ck1 (tt : unitmod K) HD) as [H'|[pf1 [H' V1]]];
          [now rewrite t_yc_length|exact Hm| |]; rewrite H'; [now left|].
        right. eexists. split; [reflexivity|]. now apply tbpc_verify_parts.
      Qed.

      Lemma tbpc_complete_live :
        (forall prev (c1 c2 : com3 (mod_carrier (pGT P)) (mod_carrier (fmod K)) (identity_output (pG1 P))),
           exists c, gipa_challenge D fuel 0 prev c1 c2 = Ok c) ->
        (forall prev (c1 c2 : com3 (mod_carrier (pG1 P)) (mod_carrier (fmod K)) (identity_output (fmod K))),
           exists c, gipa_challenge D fuel 0 prev c1 c2 = Ok c) ->
        exists proof, tbpc_open P E D fuel rand_g1 rand_g2 (ck1, ck2) p coms (x, y) = Ok proof /\
          tbpc_verify P E' D fuel rand_g1' rand_g2' (ck1, ck2) com (x, y) (bipoly_evaluate p (x, y)) proof = Ok true.
      Proof.
        intros L2 L1. rewrite tbpc_open_eq.
        destruct (gssm_complete_live D fuel E' mid idout (phi_g1 P) psi_id smul
          lmc2 (afgho_g1 P E' rand_g2') ipc2 ipc2 ip2 ip2
          (afgho_g1_law P E HE rand_g2) (identity_law _) (multiexp_ip_law _)
          (afgho_g1_law P E' HE' rand_g2') (identity_law _) (multiexp_ip_law _)
          k2 coms x ck2 (tt : unitmod K) L2) as [pf2 [H V2]];
          [now rewrite t_coms_length|exact Hn|]; rewrite H. cbn [rbind].
        destruct (gssm_complete_live D fuel E' mid idout smul psi_id (fmul' (K := K))
          lmc1 (pedersen (pG1 P) rand_g1') ipc1 ipc1 ip1 (@scalar_ip (pK P) E')
          (pedersen_law (pG1 P) rand_g1) (identity_law _) (scalar_ip_law E)
          (pedersen_law (pG1 P) rand_g1') (identity_law _) (scalar_ip_law E')
          k1 yc y ck1 (tt : unitmod K) L1) as [pf1 [H' V1]];
          [now rewrite t_yc_length|exact Hm|]; rewrite H'.
        eexists. split; [reflexivity|]. now apply tbpc_verify_parts.
      Qed.
    End Point.
  End Run.

  (** ** the univariate wrapper *)
  Lemma parse_degrees_ck_ok (ck1 : list (pG1 P)) (ck2 : list (pG2 P)) xd yd :
    length ck2 = xd + 1 -> length ck1 = yd + 1 -> parse_degrees_ck P (ck1, ck2) = Ok (xd, yd).
  Proof.
    clear HE HE'. intros H2 H1. unfold parse_degrees_ck. cbn [fst snd]. rewrite H1, H2.
    destruct (Nat.ltb_spec 0 (xd + 1)); [|lia]. destruct (Nat.ltb_spec 0 (yd + 1)); [|lia].
    cbn [rassert rbind]. do 2 f_equal; lia.
  Qed.

  Lemma bivariate_form_fit xd yd (p : list K) : exists bp, bivariate_form (xd, yd) p = Ok bp /\
    length bp <= xd + 1 /\ Forall (fun r => length r <= yd + 1) bp /\
    (wf_row ((xd + 1) * (yd + 1)) p -> forall z, bipoly_evaluate bp (fpow z (yd + 1), z) = ev p z).
  Proof.
    clear HE HE'. destruct (bivariate_form_ok xd yd p) as [bp [H1 [H2 [H3 H4]]]]. exists bp. repeat split; auto.
    - lia.
    - eapply Forall_impl; [|exact H3]. intros r [Hs Hl]. exact Hl.
    - intros Hw z. now rewrite H4, ev_firstn_wf.
  Qed.

  Section Uni.
    Variables (ck1 : list (pG1 P)) (ck2 : list (pG2 P)) (k1 k2 xd yd : nat) (p : list K) (z : K).
    Hypothesis H2 : length ck2 = xd + 1.
    Hypothesis H1 : length ck1 = yd + 1.
    Hypothesis Hx : xd + 1 = 2 ^ k2.
    Hypothesis Hy : yd + 1 = 2 ^ k1.
    Hypothesis Hw : wf_row ((xd + 1) * (yd + 1)) p.

    Lemma tupc_complete_outcome : digest16 D ->
      exists com coms, tupc_commit P E rand_g1 rand_g2 (ck1, ck2) p = Ok (com, coms) /\
        (tupc_open P E D fuel rand_g1 rand_g2 (ck1, ck2) p coms z = Loop \/
         exists proof, tupc_open P E D fuel rand_g1 rand_g2 (ck1, ck2) p coms z = Ok proof /\
           tupc_verify P E' D fuel rand_g1' rand_g2' (ck1, ck2) com z (ev p z) proof = Ok true).
    Proof.
      intros HD. destruct (bivariate_form_fit xd yd p) as [bp [Hbp [Hl [Hr He]]]]. specialize (He Hw z).
      unfold tupc_commit, tupc_open, tupc_verify.
      rewrite (parse_degrees_ck_ok ck1 ck2 xd yd H2 H1). cbn [rbind]. rewrite Hbp. cbn [rbind].
      rewrite <- H2 in Hl. rewrite <- H1 in Hr.
      rewrite (tbpc_commit_ok ck1 ck2 bp Hl Hr). do 2 eexists. split; [reflexivity|].
      destruct (tbpc_complete_outcome ck1 ck2 bp Hl Hr k1 k2 (fpow z (yd + 1)) z
                 (eq_trans H2 Hx) (eq_trans H1 Hy) HD) as [H|[pf [H V]]]; rewrite H; [now left|].
      right. exists pf. split; [reflexivity|]. rewrite <- He. exact V.
    Qed.

    Lemma tupc_complete_live :
      (forall prev (c1 c2 : com3 (mod_carrier (pGT P)) (mod_carrier (fmod K)) (identity_output (pG1 P))),
         exists c, gipa_challenge D fuel 0 prev c1 c2 = Ok c) ->
      (forall prev (c1 c2 : com3 (mod_carrier (pG1 P)) (mod_carrier (fmod K)) (identity_output (fmod K))),
         exists c, gipa_challenge D fuel 0 prev c1 c2 = Ok c) ->
      exists com coms proof, tupc_commit P E rand_g1 rand_g2 (ck1, ck2) p = Ok (com, coms) /\
        tupc_open P E D fuel rand_g1 rand_g2 (ck1, ck2) p coms z = Ok proof /\
        tupc_verify P E' D fuel rand_g1' rand_g2' (ck1, ck2) com z (ev p z) proof = Ok true.
    Proof.
      intros L1 L2. destruct (bivariate_form_fit xd yd p) as [bp [Hbp [Hl [Hr He]]]]. specialize (He Hw z).
      unfold tupc_commit, tupc_open, tupc_verify.
      rewrite (parse_degrees_ck_ok ck1 ck2 xd yd H2 H1). cbn [rbind]. rewrite Hbp. cbn [rbind].
      rewrite <- H2 in Hl. rewrite <- H1 in Hr.
      rewrite (tbpc_commit_ok ck1 ck2 bp Hl Hr).
      destruct (tbpc_complete_live ck1 ck2 bp Hl Hr k1 k2 (fpow z (yd + 1)) z
                 (eq_trans H2 Hx) (eq_trans H1 Hy) L1 L2) as [pf [H V]].
      do 3 eexists. split; [reflexivity|]. split; [exact H|]. rewrite <- He. exact V.
    Qed.
  End Uni.

  Lemma tupc_commit_firstn (ck1 : list (pG1 P)) (ck2 : list (pG2 P)) p :
    tupc_commit P E rand_g1 rand_g2 (ck1, ck2) (firstn (length ck2 * length ck1) p) =
    tupc_commit P E rand_g1 rand_g2 (ck1, ck2) p.
  Proof.
    unfold tupc_commit, parse_degrees_ck. cbn [fst snd].
    destruct (Nat.ltb_spec 0 (length ck2)) as [L2|]; [|reflexivity].
    destruct (Nat.ltb_spec 0 (length ck1)) as [L1|]; [|reflexivity]. cbn [rassert rbind].
    rewrite <- (bivariate_form_firstn _ _ p). do 3 f_equal. f_equal; lia.
  Qed.
End Tr.
